(** Specification vocabulary for closest points (C47-C50).  Nothing here is used
    by the model. *)
From Coq Require Import Reals List.
From Verif Require Import ModelGeom SpecRefine SpecGeom.
Import ListNotations.
Local Open Scope R_scope.

(** The Euclidean distance. *)
Definition dist (d : nat) (p q : point) : R := sqrt (dist_sq d p q).

(** [q] is a point of the set [S] nearest to [p]. *)
Definition nearest (d : nat) (p : point) (S : point -> Prop) (q : point) : Prop :=
  S q /\ forall x, S x -> dist d p q <= dist d p x.

(** [x] in [S] and [y] in [T] are as near to each other as any. *)
Definition nearest_pair (d : nat) (S T : point -> Prop) (x y : point) : Prop :=
  S x /\ T y /\ forall x' y', S x' -> T y' -> dist d x y <= dist d x' y'.

(** The two lines are parallel. *)
Definition parallel (d : nat) (v0 v1 w0 w1 : point) : Prop :=
  exists c, forall i, (i < d)%nat -> w1 i - w0 i = c * (v1 i - v0 i).
(** The square of the sine of the angle between two lines is below one millionth. *)
Definition nearly_parallel (d : nat) (v0 v1 w0 w1 : point) : Prop :=
  let v := fun i => v1 i - v0 i in
  let w := fun i => w1 i - w0 i in
  1000000 * (dot d v v * dot d w w - dot d v w ^ 2) < dot d v v * dot d w w.

(** The union of the cells [cs]. *)
Definition in_union (d : nat) (cs : list (list point)) (x : point) : Prop :=
  exists c, In c cs /\ in_hull d c x.
