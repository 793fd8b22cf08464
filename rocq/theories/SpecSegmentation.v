(** Specification vocabulary for segment ids and names (C18, C19).
    Nothing here is used by the model. *)
From Coq Require Import String List ZArith Sorted.
From Verif Require Import ModelSegmentation.
Import ListNotations.
Open Scope Z_scope.

(** A call is used correctly: set_name needs an existing segment, and init is
    only allowed here while the segmentation has no segments (see
    C18_init_refuted for the other case). *)
Definition valid_sgop (g : segs) (o : sgop) : Prop :=
  match o with
  | SgRename z _ => segment_present z g = true
  | SgInit => segment_count g = 0%nat
  | _ => True
  end.

(** Every history of calls; exceptions are caught and the program goes on. *)
Inductive sgreach : segs -> Prop :=
| sgr_new : sgreach new_segmentation
| sgr_ret g o g' x : sgreach g -> valid_sgop g o -> sgstep o g = SRet g' x -> sgreach g'
| sgr_throw g o g' : sgreach g -> valid_sgop g o -> sgstep o g = SThrow g' -> sgreach g'.

(** The histories of calls that contain neither an exception nor clear(). *)
Inductive smooth : segs -> Prop :=
| sm_new : smooth new_segmentation
| sm_step g o g' x : smooth g -> valid_sgop g o -> o <> SgClear -> sgstep o g = SRet g' x -> smooth g'.

(** The ids of the segments in iteration order. *)
Definition ids_list (g : segs) : list (option Z) := map (id_of_seg g) (segment_range g).

(** [z] is the id of a segment; [a] is a segment. *)
Definition has_id (g : segs) (z : Z) : Prop := exists a, In a (segment_range g) /\ id_of_seg g a = Some z.
Definition has_name (g : segs) (s : string) : Prop := exists a, In a (segment_range g) /\ name_of_seg g a = Some s.

(** All segments of [g] are unchanged segments of [g']. *)
Definition segs_kept (g g' : segs) : Prop :=
  forall a, In a (segment_range g) ->
    In a (segment_range g') /\ id_of_seg g' a = id_of_seg g a /\ name_of_seg g' a = name_of_seg g a.

(** The state left by a call that did not go wrong. *)
Definition state_after {A} (r : outcome A) : option segs :=
  match r with SRet g _ | SThrow g => Some g | SUndef => None end.

(** A history of calls from a fresh segmentation; None: undefined behaviour. *)
Fixpoint sgrun (ops : list sgop) (g : segs) : option segs :=
  match ops with
  | [] => Some g
  | o :: r => match state_after (sgstep o g) with Some g' => sgrun r g' | None => None end
  end.

(** "Not a number": the name differs from the decimal notation of every integer. *)
Definition not_numeral (s : string) : Prop := forall z, s <> decimal z.

(** A call whose name argument is not a number, and that is not clear(). *)
Definition plain_op (o : sgop) : Prop :=
  match o with SgName s | SgRename _ s => not_numeral s | SgClear => False | _ => True end.
Inductive plain : segs -> Prop :=
| pl_new : plain new_segmentation
| pl_ret g o g' x : plain g -> valid_sgop g o -> plain_op o -> sgstep o g = SRet g' x -> plain g'
| pl_throw g o g' : plain g -> valid_sgop g o -> plain_op o -> sgstep o g = SThrow g' -> plain g'.
