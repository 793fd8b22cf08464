(** Properties C09, C10: reference topologies. *)
From Coq Require Import List Arith Bool Lia Permutation Factorial.
From Verif Require Import ModelTopo ModelMesh ModelErase SpecMesh SpecTopo MeshDemo TopoProofs.
Import ListNotations.

(** C09. n_over_k is the binomial coefficient. *)
Theorem C09_binomial : forall n k, (k <= n -> n_over_k n k * (fact k * fact (n - k)) = fact n) /\ (n < k -> n_over_k n k = 0).
Proof. exact C09_binomial_pf. Qed.
Print Assumptions C09_binomial.

(** C09. An n-simplex has C(n+1, k+1) k-faces. *)
Theorem C09_simplex_boundary_num : forall n k, k <= n ->
  simplex_boundary_num n k * (fact (k + 1) * fact (n - k)) = fact (n + 1).
Proof. exact C09_simplex_boundary_num_pf. Qed.
Print Assumptions C09_simplex_boundary_num.

(** C09. The generated lines of a simplex with [num] vertices are all
    two-element subsets of the vertices, each once. *)
Theorem C09_lines_all_pairs : forall num,
  NoDup (simplex_lines num) /\
  (forall f, In f (simplex_lines num) <-> exists i j, f = [i; j] /\ i < j < num).
Proof. exact C09_lines_all_pairs_pf. Qed.
Print Assumptions C09_lines_all_pairs.

(** C09. The generated triangles are all three-element subsets, each once. *)
Theorem C09_triangles_all_triples : forall num,
  NoDup (simplex_triangles num) /\
  (forall f, In f (simplex_triangles num) <-> exists i j k, f = [i; j; k] /\ i < j /\ j < k < num).
Proof. exact C09_triangles_all_triples_pf. Qed.
Print Assumptions C09_triangles_all_triples.

(** C09. The numbers agree: an n-simplex gets as many lines and triangles as
    boundary_elements says. *)
Theorem C09_counts : forall n, length (simplex_lines (n + 1)) = simplex_boundary_num n 1 /\
  length (simplex_triangles (n + 1)) = simplex_boundary_num n 2.
Proof. exact C09_counts_pf. Qed.
Print Assumptions C09_counts.

Example C09_case : simplex_boundary_num 3 1 = 6 /\ simplex_boundary_num 3 2 = 4 /\ length (simplex_lines 10) = 45.
Proof. repeat split. Qed.

(** C10. The lines of a quadrilateral are the edges of the square with corners
    in binary order, each once. *)
Theorem C10_quad_edges : NoDup quad_lines /\ forall i j, i < 4 -> j < 4 ->
  (In [i; j] quad_lines <-> i < j /\ adjacent 2 i j = true).
Proof. exact C10_quad_edges_pf. Qed.
Print Assumptions C10_quad_edges.

(** C10. Every vertex of a quadrilateral lies on exactly two of its lines. *)
Theorem C10_quad_vertex_degree : forall i, i < 4 -> length (filter (fun l => existsb (Nat.eqb i) l) quad_lines) = 2.
Proof. exact C10_quad_vertex_degree_pf. Qed.
Print Assumptions C10_quad_vertex_degree.

(** C10. The faces of a hexahedron are the six faces of the cube, each once. *)
Theorem C10_hex_faces : NoDup hex_quads /\
  forall f, In f hex_quads <-> exists d b, d < 3 /\ f = cube_face d b.
Proof. exact C10_hex_faces_pf. Qed.
Print Assumptions C10_hex_faces.

(** C10, partial: eleven of the twelve listed edges of a hexahedron are edges
    of the cube, and every edge of the cube except {2,6} is listed. Missing:
    edge number 6, which is wrong in the code. *)
Theorem C10_hex_edges_partial : NoDup hex_lines /\ length hex_lines = 12 /\
  (forall k i j, k <> 6 -> nth_error hex_lines k = Some [i; j] -> i < j /\ adjacent 3 i j = true) /\
  (forall i j, i < j < 8 -> adjacent 3 i j = true -> [i; j] <> [2; 6] -> In [i; j] hex_lines).
Proof. exact C10_hex_edges_partial_pf. Qed.
Print Assumptions C10_hex_edges_partial.

(** C10 is false for the code: edge number 6 of the table joins two corners
    that are not adjacent and lie on no common face, and the cube edge {2,6}
    is missing. *)
Theorem C10_hex_edge_table_refuted :
  nth_error hex_lines 6 = Some [2; 5] /\ adjacent 3 2 5 = false /\
  (forall f, In f hex_quads -> ~ (In 2 f /\ In 5 f)) /\
  adjacent 3 2 6 = true /\ ~ In [2; 6] hex_lines.
Proof. exact C10_hex_edge_table_refuted_pf. Qed.
Print Assumptions C10_hex_edge_table_refuted.

(** C10, the consequence a user sees: in every mesh, every hexahedron has a
    face with an edge that is not among the edges of the hexahedron. *)
Theorem C10_hex_face_edge_missing_refuted : forall (Pt : Type) (cfg : config) (m : @mesh Pt), reach cfg m ->
  cfg_keep cfg Line = true -> cfg_keep cfg Quad = true ->
  forall a e, deref m Hex a = Some e ->
  exists q f l, In q (boundary_of e Quad) /\ deref m Quad q = Some f /\ In l (boundary_of f Line) /\ ~ In l (boundary_of e Line).
Proof. exact C10_hex_face_edge_missing_refuted_pf. Qed.
Print Assumptions C10_hex_face_edge_missing_refuted.

(** One hexahedron: twelve listed edges and the extra line {2,6} made by its face. *)
Definition hex_mesh : @mesh nat := mesh_of (full_config Hex) (map OVertex (seq 0 8) ++ [OElement Hex (seq 0 8)]).
Example C10_case : reach (full_config Hex) hex_mesh /\
  map (fun t => length (range hex_mesh t)) [Vertex; Line; Quad; Hex] = [8; 13; 6; 1].
Proof. split; [apply demo_ok|]; vm_compute; reflexivity. Qed.
