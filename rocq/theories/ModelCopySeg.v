(** Copying together with segments: viennagrid/mesh/mesh_operations.hpp 139-165,
    mesh/segmentation.hpp 912-921, 1973-2018, 2228-2281.  Definitions only. *)
From Coq Require Import List Arith ZArith Bool.
From Verif Require Import ModelTopo ModelMesh ModelErase ModelQuery ModelView ModelSegmentation ModelSegment ModelCopy.
Import ModelSegmentation ListNotations.
Open Scope nat_scope.

(** The ways a call can end.  What an exception leaves behind is not modelled
    for these calls. *)
Inductive result (A : Type) := Done (x : A) | Thrown | Undefined.
Arguments Done {A}. Arguments Thrown {A}. Arguments Undefined {A}.

Definition rbind {A B} (r : result A) (f : A -> result B) : result B :=
  match r with Done x => f x | Thrown => Thrown | Undefined => Undefined end.
Definition of_option {A} (o : option A) : result A :=
  match o with Some x => Done x | None => Undefined end.
Fixpoint rfold {A B} (f : A -> B -> result A) (l : list B) (x : A) : result A :=
  match l with [] => Done x | b :: r => rbind (f x b) (fun y => rfold f r y) end.

Section CopySeg.
Context {Pt : Type}.
Notation mesh := (@mesh Pt).

Definition with_mesh (s : sstate Pt) (m : mesh) : sstate Pt := mkS m (st_segs s) (st_con s) (st_map s) (st_all s).
Definition with_segs (s : sstate Pt) (g : segs) : sstate Pt := mkS (st_mesh s) g (st_con s) (st_map s) (st_all s).

(** segmentation.hpp 915-921, clear(): ids, segments and the containers of
    segment ids; the names and all_elements() stay.  The contents of the
    destroyed segments are never looked at again. *)
Definition clear_segmentation (s : sstate Pt) : sstate Pt :=
  mkS (st_mesh s) (clear_segs (st_segs s)) (st_con s) (fun _ => []) (st_all s).

(** segmentation.hpp 1938-1940 and 747, add(segmentation[z], handle). *)
Definition add_by_id (t : tag) (h : addr) (s : sstate Pt) (z : Z) : result (sstate Pt) :=
  match get_make_id z (st_segs s) with
  | SRet g a => of_option (seg_add a t h (with_segs s g))
  | SThrow _ => Thrown
  | SUndef => Undefined
  end.

(** segmentation.hpp 2010-2018, add(segmentation, begin, end, handle). *)
Definition add_all (t : tag) (h : addr) (zs : list Z) (s : sstate Pt) : result (sstate Pt) :=
  rfold (add_by_id t h) zs s.

(** mesh_operations.hpp 156-164, the body of the loop. *)
Definition copy_cell_seg (cfg : config) (src : sstate Pt) (functor : addr -> bool)
    (r : sstate Pt * vmap) (c : addr) : result (sstate Pt * vmap) :=
  if functor c then
    rbind (of_option (copy_element cfg (st_mesh src) (cfg_cell cfg) (st_mesh (fst r), snd r) c)) (fun q =>
    rbind (of_option (segment_ids src (cfg_cell cfg) c)) (fun zs =>
    rbind (add_all (cfg_cell cfg) (snd q) zs (with_mesh (fst r) (fst (fst q)))) (fun s' =>
    Done (s', snd (fst q)))))
  else Done r.

(** mesh_operations.hpp 139-165, copy(src_mesh, src_segmentation, dst_mesh,
    dst_segmentation, functor).  The segmentations belong to the meshes. *)
Definition copy_seg (cfg : config) (src dst : sstate Pt) (functor : addr -> bool) : result (sstate Pt) :=
  rbind (rfold (copy_cell_seg cfg src functor) (range (st_mesh src) (cfg_cell cfg))
           (clear_segmentation (with_mesh dst (clear_mesh (st_mesh dst))), []))
    (fun r => Done (fst r)).

(** mesh.hpp 1399-1409, container.hpp 50-74, find(mesh, id): the first element with
    this id; dereferencing end() is undefined. *)
Definition find_element (m : mesh) (t : tag) (i : nat) : option addr :=
  option_map n_addr (find (fun n => e_id (n_el n) =? i) (m_nodes m t)).

(** segmentation.hpp 2240-2260, copy_segmentation_functor.  The segments are made
    and added to one by one; the loop is the one of [add_all]. *)
Definition copy_membership (src : sstate Pt) (s : sstate Pt) (th : tag * addr) : result (sstate Pt) :=
  let '(t, h) := th in
  rbind (of_option (deref (st_mesh s) t h)) (fun e =>
  rbind (of_option (find_element (st_mesh src) t (e_id e))) (fun x =>
  rbind (of_option (segment_ids src t x)) (fun zs => add_all t h zs s))).

(** segmentation.hpp 2274-2281, copy_segmentation.  The element types are visited
    in the order of the model; the ranges do not change meanwhile. *)
Definition copy_segmentation (src dst : sstate Pt) : result (sstate Pt) :=
  rfold (copy_membership src) (flat_map (fun t => map (pair t) (range (st_mesh dst) t)) all_tags) dst.

End CopySeg.
