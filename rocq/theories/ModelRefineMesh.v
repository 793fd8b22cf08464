(** Refinement of a mesh: viennagrid/algorithm/refine.hpp 44-187 and 433-670.
    Definitions only. *)
From Coq Require Import Reals List Arith Bool.
From Verif Require Import ModelTopo ModelMesh ModelErase ModelGeom ModelRefineTet ModelRefineTri ModelRefine
  ModelVolume ModelCopy ModelLongest.
Import ListNotations.

Section RefineMesh.
Variable d : nat.               (* geometric dimension *)
Notation mesh := (@mesh point).

(** refine.hpp 168-180 (segmented: 211-223), step 1: a new vertex for each
    flagged edge.  edge_to_vertex_handle_accessor is a std::deque indexed by the
    id of the edge; only entries written here are read, so an association list
    as for the vertices.  The flags do not change; [fl] gives them by handle.
    Points are those of the default point accessor. *)
Definition edge_vertex (cfg : config) (src : mesh) (fl : flags) (st : mesh * vmap) (a : addr) : option (mesh * vmap) :=
  if fl a then
    obind (deref src Line a) (fun e =>
    obind (cell_points src e) (fun ps =>
    option_map (fun r => (fst r, (e_id e, snd r) :: snd st)) (make_vertex cfg (fst st) (centroid ps))))
  else Some st.
Definition edge_vertices (cfg : config) (src : mesh) (fl : flags) (out : mesh) : option (mesh * vmap) :=
  ofold (edge_vertex cfg src fl) (range src Line) (out, []).

(** The point and the id of a vertex of the new mesh; used for vertices that
    [has_point] accepts. *)
Definition pos_in (m : mesh) (a : addr) : point :=
  match obind (deref m Vertex a) e_pt with Some p => p | None => pzero end.
Definition vid_in (m : mesh) (a : addr) : nat := match deref m Vertex a with Some e => e_id e | None => 0 end.
Definition has_point (m : mesh) (a : addr) : bool :=
  match obind (deref m Vertex a) e_pt with Some _ => true | None => false end.

(** element_refinement<t>: detail/refine_tri.hpp and detail/refine_tet.hpp; there
    is no other specialization. *)
Definition children (t : tag) (pos : addr -> point) (vid : addr -> nat) (vtx mid : nat -> addr) (fl : nat -> bool)
  : option (list (list addr)) :=
  match t with
  | Triangle => tri_children d pos vtx mid fl
  | Tet => tet_children d pos vid vtx mid fl
  | _ => None
  end.
Definition nedges (t : tag) : nat := match t with Triangle => 3 | Tet => 6 | _ => 0 end.

(** detail/refine_tri.hpp 339-377, detail/refine_tet.hpp 2060-2101,
    element_refinement<t>::apply: the vertices of the cell are copied first, then
    the vertices of the flagged edges are looked up (a missing one, like a wrong
    number of vertices or edges or a dangling handle, is [None]; the entries of
    edges without flag are not looked at and are 0 here). *)
Definition element_refinement (cfg : config) (src : mesh) (t : tag) (fl : flags) (em : vmap)
    (st : mesh * vmap) (c : addr) : option ((mesh * vmap) * list (list addr)) :=
  obind (deref src t c) (fun e =>
  obind (copy_vertices cfg src st (e_verts e)) (fun r =>
  let out := fst (fst r) in
  let vs := snd r in
  let es := boundary_of e Line in
  obind (omap (fun a => if fl a then obind (deref src Line a) (fun x => vlookup (e_id x) em) else Some 0) es) (fun ms =>
  if (length vs =? nverts t) && (length ms =? nedges t) && forallb (has_point out) vs &&
     forallb (fun p => negb (fl (fst p)) || has_point out (snd p)) (combine es ms)
  then option_map (fun cs => (fst r, cs))
         (children t (pos_in out) (vid_in out) (fun i => nth i vs 0) (fun k => nth k ms 0) (fun k => fl (nth k es 0)))
  else None))).

(** refine.hpp 72-76, the loop that makes the new cells of one cell. *)
Definition make_cells (cfg : config) (t : tag) (m : mesh) (css : list (list addr)) : option mesh :=
  ofold (fun m vs => option_map fst (make_element cfg t m vs)) css m.

(** refine.hpp 44-78, simple_refine. *)
Definition refine_cell (cfg : config) (src : mesh) (t : tag) (fl : flags) (em : vmap) (st : mesh * vmap) (c : addr)
  : option (mesh * vmap) :=
  obind (element_refinement cfg src t fl em st c) (fun r =>
  option_map (fun m => (m, snd (fst r))) (make_cells cfg t (fst (fst r)) (snd r))).
Definition simple_refine (cfg : config) (src : mesh) (t : tag) (fl : flags) (em : vmap) (st : mesh * vmap)
  : option (mesh * vmap) :=
  ofold (refine_cell cfg src t fl em) (range src t) st.

(** refine.hpp 149-187 and 468-499, refine(mesh_in, mesh_out, flags) with a new
    vertex_copy_map; [t] is the refined cell type, mesh_out is not cleared. *)
Definition refine (cfg : config) (src : mesh) (t : tag) (fl : flags) (out : mesh) : option mesh :=
  obind (edge_vertices cfg src fl out) (fun r =>
  option_map fst (simple_refine cfg src t fl (snd r) (fst r, []))).

(** refine.hpp 517-566: cell_refine (the edges of the flagged cells), and 586-670:
    cell_refine_uniformly (all edges), both with flags that are false at first. *)
Definition cell_refine (cfg : config) (src : mesh) (t : tag) (cellflag : addr -> bool) (out : mesh) : option mesh :=
  refine cfg src t (cells_to_edges src t cellflag (fun _ => false)) out.
Definition refine_uniformly (cfg : config) (src : mesh) (t : tag) (out : mesh) : option mesh :=
  refine cfg src t (mark_all src (fun _ => false)) out.

End RefineMesh.
