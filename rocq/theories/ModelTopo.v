(** Model of the reference topologies: viennagrid/topology/*.hpp.
    Definitions only; no proofs in this file. *)
From Coq Require Import List Arith Bool.
Import ListNotations.

(** Element tags: vertex_tag = simplex_tag<0>, line_tag = simplex_tag<1>,
    triangle_tag = simplex_tag<2>, tetrahedron_tag = simplex_tag<3>
    (forwards.hpp), quadrilateral_tag = hypercube_tag<2>, hexahedron_tag =
    hypercube_tag<3>.  Simplification: polygons and PLCs are not part of this
    enumeration (see ModelPoly.v). *)
Inductive tag := Vertex | Line | Triangle | Quad | Tet | Hex.

(** Decidable equality of tags (typelist look-up by type, meta/typelist.hpp). *)
Definition tag_eqb (a b : tag) : bool :=
  match a, b with
  | Vertex, Vertex | Line, Line | Triangle, Triangle
  | Quad, Quad | Tet, Tet | Hex, Hex => true
  | _, _ => false
  end.

(** topology/*.hpp: the [dim] member of each tag. *)
Definition dim (t : tag) : nat :=
  match t with Vertex => 0 | Line => 1 | Triangle | Quad => 2 | Tet | Hex => 3 end.

(** boundary_elements<tag, vertex_tag>::num (simplex.hpp:76-83,
    quadrilateral.hpp:40-47, hexahedron.hpp:40-47); 1 for a vertex itself. *)
Definition nverts (t : tag) : nat :=
  match t with Vertex => 1 | Line => 2 | Triangle => 3 | Quad => 4 | Tet => 4 | Hex => 8 end.

(** topology/simplex.hpp:30-52, detail::n_over_k<n,k>. *)
Fixpoint n_over_k (n k : nat) {struct n} : nat :=
  match n, k with
  | _, 0 => 1
  | 0, S _ => 0
  | S n', S k' => n_over_k n' k' + n_over_k n' k
  end.

(** topology/simplex.hpp:76-83, boundary_elements<simplex_tag<n>, simplex_tag<k>>::num. *)
Definition simplex_boundary_num (n k : nat) : nat := n_over_k (n + 1) (k + 1).

(** topology/simplex.hpp:91-109, generator of the lines of a simplex:
    [for i<num, for j=i+1..num-1]; the list of local vertex indices in
    creation order. *)
Definition simplex_lines (num : nat) : list (list nat) :=
  flat_map (fun i => map (fun j => [i; j]) (seq (i + 1) (num - (i + 1)))) (seq 0 num).

(** topology/simplex.hpp:112-132, generator of the triangles of a simplex:
    three nested loops. *)
Definition simplex_triangles (num : nat) : list (list nat) :=
  flat_map (fun i =>
    flat_map (fun j =>
      map (fun k => [i; j; k]) (seq (j + 1) (num - (j + 1))))
      (seq (i + 1) (num - (i + 1)))) (seq 0 num).

(** topology/quadrilateral.hpp:65-90, the four edges. *)
Definition quad_lines : list (list nat) := [[0;1]; [0;2]; [1;3]; [2;3]].

(** topology/hexahedron.hpp:80-137, the twelve edges as written in the code
    (edge number 6 is set from handle_at(2) and handle_at(5), lines 113-114). *)
Definition hex_lines : list (list nat) :=
  [[0;1]; [0;2]; [0;4]; [1;3]; [1;5]; [2;3]; [2;5]; [3;7]; [4;5]; [4;6]; [5;7]; [6;7]].

(** topology/hexahedron.hpp:158-203, the six faces. *)
Definition hex_quads : list (list nat) :=
  [[0;1;2;3]; [0;1;4;5]; [0;2;4;6]; [1;3;5;7]; [2;3;6;7]; [4;5;6;7]].

(** All proper boundary elements of positive dimension of an element in the
    order in which create_boundary_elements generates them
    (element/element.hpp:73-78; the typelist is built in ascending dimension,
    config/element_config.hpp:290-300).  Vertices are stored separately
    ([e_verts]) because their generators are empty (topology/line.hpp:48-53). *)
Definition btable (t : tag) : list (tag * list nat) :=
  match t with
  | Vertex | Line => []
  | Triangle => map (pair Line) (simplex_lines 3)
  | Quad => map (pair Line) quad_lines
  | Tet => map (pair Line) (simplex_lines 4) ++ map (pair Triangle) (simplex_triangles 4)
  | Hex => map (pair Line) hex_lines ++ map (pair Quad) hex_quads
  end.
