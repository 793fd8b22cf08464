(** Copying cells from one mesh to another: viennagrid/mesh/mesh_operations.hpp
    25-128, and boundary extraction: algorithm/extract_boundary.hpp 32-62.
    Definitions only. *)
From Coq Require Import List Arith Bool.
From Verif Require Import ModelTopo ModelMesh ModelErase ModelQuery.
Import ListNotations.

Section Copy.
Context {Pt : Type}.
Notation mesh := (@mesh Pt).

(** mesh_operations.hpp 95, the std::map from the ids of source vertices to
    handles of the destination.  It is only used through find and operator[]
    with absent keys, so an association list. *)
Definition vmap := list (nat * addr).
Definition vlookup (i : nat) (vm : vmap) : option addr :=
  option_map snd (find (fun p => fst p =? i) vm).

(** mesh_operations.hpp 58-69, vertex_copy_map::operator().  The tolerance is the
    default 0.0, for which make_unique_vertex is make_vertex
    (element_creation.hpp 205-218).  Both meshes have the same point type. *)
Definition copy_vertex (cfg : config) (src : mesh) (st : mesh * vmap) (x : addr) : option ((mesh * vmap) * addr) :=
  obind (deref src Vertex x) (fun v =>
  match vlookup (e_id v) (snd st) with
  | Some y => Some (st, y)
  | None =>
      obind (e_pt v) (fun p =>
      option_map (fun r => ((fst r, (e_id v, snd r) :: snd st), snd r)) (make_vertex cfg (fst st) p))
  end).

(** mesh_operations.hpp 84-87, the loop over the vertices of an element. *)
Fixpoint copy_vertices (cfg : config) (src : mesh) (st : mesh * vmap) (xs : list addr) : option ((mesh * vmap) * list addr) :=
  match xs with
  | [] => Some (st, [])
  | x :: xs' =>
      obind (copy_vertex cfg src st x) (fun r =>
      option_map (fun q => (fst q, snd r :: snd q)) (copy_vertices cfg src (fst r) xs'))
  end.

(** mesh_operations.hpp 77-90, vertex_copy_map::copy_element. *)
Definition copy_element (cfg : config) (src : mesh) (t : tag) (st : mesh * vmap) (x : addr) : option ((mesh * vmap) * addr) :=
  obind (deref src t x) (fun e =>
  obind (copy_vertices cfg src st (e_verts e)) (fun r =>
  option_map (fun q => ((fst q, snd (fst r)), snd q)) (make_element cfg t (fst (fst r)) (snd r)))).

(** mesh_operations.hpp 108-128, copy(src, dst, functor).  [cfg] is the
    configuration of the destination; both have the same cell type.  The functor
    is a fixed predicate on the cells of the source (simplification: it has no
    state). *)
Definition copy (cfg : config) (src dst : mesh) (functor : addr -> bool) : option mesh :=
  option_map fst
    (ofold (fun st c => if functor c then option_map fst (copy_element cfg src (cfg_cell cfg) st c) else Some st)
       (range src (cfg_cell cfg)) (clear_mesh dst, [])).

(** extract_boundary.hpp 32-62, extract_boundary<t>(volume_mesh, hull_mesh) where
    [t] is the cell type of the hull mesh.  The boundary query is the cached one
    of ModelQuery.v and may update the volume mesh's caches. *)
Definition extract_boundary (cfgv cfgh : config) (q : qstate Pt) (hull : mesh) : option (qstate Pt * mesh) :=
  let t := cfg_cell cfgh in
  option_map (fun r => (fst r, fst (snd r)))
    (ofold (fun (r : qstate Pt * (mesh * vmap)) f =>
        obind (query_bnd cfgv t (fst r) f) (fun qb =>
        if snd qb
        then option_map (fun p => (fst qb, fst p)) (copy_element cfgh (q_mesh (fst qb)) t (snd r) f)
        else Some (fst qb, snd r)))
      (range (q_mesh q) t) (q, (clear_mesh hull, []))).

End Copy.
