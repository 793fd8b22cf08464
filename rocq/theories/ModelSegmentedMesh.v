(** Model of viennagrid::segmented_mesh (mesh/segmented_mesh.hpp): copies and
    assignments between the variables of a program.  Definitions only. *)
From Coq Require Import List Arith ZArith Bool.
From Verif Require Import ModelTopo ModelMesh ModelErase ModelSegmentation ModelSegment ModelCopy ModelCopySeg.
Import ModelSegmentation ListNotations.
Open Scope nat_scope.

Section SegmentedMesh.
Context {Pt : Type}.

(** The variables of the program, by number; mesh and segmentation of each. *)
Definition store := nat -> sstate Pt.
Definition store_set (st : store) (x : nat) (s : sstate Pt) : store := fun y => if y =? x then s else st y.

(** segmented_mesh.hpp 51: the default constructor. *)
Definition sm_fresh : sstate Pt := new_sstate empty_mesh.

(** segmented_mesh.hpp 66-70, clear(). *)
Definition sm_clear (s : sstate Pt) : sstate Pt := clear_segmentation (with_mesh s (clear_mesh (st_mesh s))).

(** segmented_mesh.hpp 59-63, x = y, by copy (mesh_operations.hpp 139-165).  The
    destination is cleared first; the cells of the source are looked up after that,
    and the source may be the destination.  If it is, there are no cells left and
    the body of the loop, in which source and destination are kept apart here, is
    not entered. *)
Definition sm_assign (cfg : config) (x y : nat) (st : store) : result store :=
  let st1 := store_set st x (sm_clear (st x)) in
  rbind (rfold (copy_cell_seg cfg (st1 y) (fun _ => true)) (range (st_mesh (st1 y)) (cfg_cell cfg)) (st1 x, [])) (fun r =>
  Done (store_set st1 x (fst r))).

(** segmented_mesh.hpp 53-56, the copy constructor: a new variable x, then x = y. *)
Definition sm_copy (cfg : config) (x y : nat) (st : store) : result store :=
  sm_assign cfg x y (store_set st x sm_fresh).

End SegmentedMesh.
