(** Specification vocabulary for seed points (C42).
    Nothing here is used by the model. *)
From Coq Require Import List Arith Relations.
From Verif Require Import ModelTopo ModelMesh SpecQuery.
Import ListNotations.

(** Connected by a chain of neighbours. *)
Definition connected (R : addr -> addr -> Prop) : addr -> addr -> Prop := clos_refl_trans addr R.

(** [x] stands before [y] in the list. *)
Definition before (l : list addr) (x y : addr) : Prop := exists l1 l2 l3, l = l1 ++ x :: l2 ++ y :: l3.

(** [seeds] has exactly one cell of each component of [cells], the first one. *)
Record one_per_component (R : addr -> addr -> Prop) (cells seeds : list addr) : Prop := {
  op_cells : incl seeds cells;
  op_nodup : NoDup seeds;
  op_some : forall c, In c cells -> exists s, In s seeds /\ connected R s c;
  op_one : forall s s', In s seeds -> In s' seeds -> connected R s s' -> s = s';
  op_first : forall s c, In s seeds -> connected R s c -> ~ before cells c s
}.
