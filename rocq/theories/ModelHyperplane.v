(** Model of viennagrid::hyperplane_refine (algorithm/refine.hpp), for meshes and
    for meshes with segmentations.  Definitions only. *)
From Coq Require Import Reals List Arith Bool ZArith.
From Verif Require Import ModelTopo ModelMesh ModelErase ModelGeom ModelRefine ModelVolume ModelCopy ModelRefineMesh ModelSegmentation ModelSegment ModelCopySeg ModelRefineSeg.
Import ModelSegmentation ListNotations.
Open Scope nat_scope.

Section Hyperplane.
Variable d : nat.
Notation mesh := (@mesh point).

(** algorithm/refine.hpp 383-390: the lines of the source in iteration order, each
    with its id and the points of its two vertices; [None]: a dangling handle. *)
Definition line_data (src : mesh) (a : addr) : option (nat * (point * point)) :=
  obind (deref src Line a) (fun e =>
  obind (cell_points src e) (fun ps =>
  match ps with [p; q] => Some (e_id e, (p, q)) | _ => None end)).
Definition lines_data (src : mesh) : option (list (nat * (point * point))) := omap (line_data src) (range src Line).

(** line_refinement_tag_accessor(line): the deque is indexed by the id of the line. *)
Definition flag_of (src : mesh) (flags : nat -> bool) (a : addr) : bool :=
  match deref src Line a with Some e => flags (e_id e) | None => false end.
(** line_refinement_vertex_handle_accessor in the form in which [simple_refine]
    takes it; only entries of flagged lines are read. *)
Definition handle_map (ids : list nat) (handles : nat -> option addr) : vmap :=
  flat_map (fun i => match handles i with Some a => [(i, a)] | None => [] end) ids.

(** algorithm/refine.hpp 681-704, hyperplane_refine(mesh, mesh): the destination is
    not cleared; both deques are new, so no line is flagged at first. *)
Definition hyperplane_refine (eps : R) (hp normal : point) (cfg : config) (src : mesh) (t : tag) (dst : mesh) : option mesh :=
  obind (lines_data src) (fun ls =>
  obind (mark_hyperplane d eps hp normal cfg ls dst (fun _ => false) (fun _ => None)) (fun r =>
  option_map fst (simple_refine d cfg src t (flag_of src (snd (fst r))) (handle_map (map fst ls) (snd r)) (fst (fst r), [])))).

(** algorithm/refine.hpp 1038-1062, hyperplane_refine(mesh, segmentation, mesh,
    segmentation). *)
Definition hyperplane_refine_seg (eps : R) (hp normal : point) (cfg : config) (src : sstate point) (t : tag) (dst : sstate point)
  : result (sstate point) :=
  rbind (of_option (lines_data (st_mesh src))) (fun ls =>
  rbind (of_option (mark_hyperplane d eps hp normal cfg ls (st_mesh dst) (fun _ => false) (fun _ => None))) (fun r =>
  rbind (rfold (refine_cell_seg d cfg src t (flag_of (st_mesh src) (snd (fst r))) (handle_map (map fst ls) (snd r)))
          (range (st_mesh src) t) (with_mesh dst (fst (fst r)), [])) (fun q =>
  Done (fst q)))).

End Hyperplane.
