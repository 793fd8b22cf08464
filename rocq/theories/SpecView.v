(** Specification vocabulary for views and marking (C11, C12).
    Nothing here is used by the model. *)
From Coq Require Import List Arith Bool Sorted.
From Verif Require Import ModelTopo ModelMesh ModelErase ModelQuery ModelView SpecMesh SpecErase SpecQuery.
Import ListNotations.

(** Whether [h] is a member after a history of operations: the last operation
    that concerns [h] was an insertion. *)
Fixpoint member_after (h : addr) (ops : list vop) (before : Prop) : Prop :=
  match ops with
  | [] => before
  | VInsert x :: r | VInsertUnique x :: r => member_after h r (x = h \/ before)
  | VErase x :: r => member_after h r (x <> h /\ before)
  | VClear :: r => member_after h r False
  end.

(** No plain insert_handle in the history. *)
Definition unique_only (o : vop) : Prop := match o with VInsert _ => False | _ => True end.

(** [x] comes before [y] in [l]. *)
Definition before (l : list addr) (x y : addr) : Prop := exists l1 l2 l3, l = l1 ++ x :: l2 ++ y :: l3.

Section SpecView.
Context {Pt : Type}.

(** The members of a set view are live and iterated by increasing id. *)
Definition id_increasing (m : @mesh Pt) (t : tag) (v : list addr) : Prop :=
  exists ids, Forall2 (fun a i => id_at m t a = Some i) v ids /\ StronglySorted lt ids.
Definition good_view (m : @mesh Pt) (v : tag -> list addr) : Prop := forall t, id_increasing m t (v t).

(** "[a] has [h] in its boundary" as a set of elements together with [h] itself. *)
Definition refers_or_is (m : @mesh Pt) (t : tag) (a : addr) (ht : tag) (h : addr) : Prop :=
  (t = ht /\ a = h) \/ bounded_by m t a ht h.

(** A boundary element of a boundary element is a boundary element. *)
Definition boundary_transitive (m : @mesh Pt) : Prop :=
  forall t a bt b ct c, bounded_by m t a bt b -> bounded_by m bt b ct c -> bounded_by m t a ct c.

(** Histories in which every creation precedes every deletion (queries anywhere). *)
Inductive build_then_erase (cfg : config) : @mesh Pt -> Prop :=
| bte_built m : reach cfg m -> build_then_erase cfg m
| bte_erase m view m' : build_then_erase cfg m -> valid_view m view -> reference_closed m view ->
    erase_elements m view = Some m' -> build_then_erase cfg m'.

End SpecView.

(** A mesh with one hexahedron. *)
Definition mark_demo_hex_ops : list (op unit) := repeat (OVertex tt) 8 ++ [OElement Hex [0;1;2;3;4;5;6;7]].
Definition mark_demo_hex : list (qop unit) := map (fun o => QMesh o) mark_demo_hex_ops.
(** The history of [erase_demo] followed by the creation of a triangle. *)
Definition mark_demo_erased : list (qop unit) := map (fun o => QMesh o) (erase_demo ++ [OElement Triangle [0;1;3]]).
