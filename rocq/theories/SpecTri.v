(** Specification vocabulary for triangle refinement (C33). Nothing here is
    used by the model. *)
From Coq Require Import Reals List.
From Verif Require Import ModelGeom SpecRefine.
Import ListNotations.
Local Open Scope R_scope.

(** [m] lies strictly between [p] and [q] on the segment from [p] to [q]. *)
Definition strictly_between (d : nat) (m p q : point) : Prop :=
  exists s, 0 < s < 1 /\ forall i, (i < d)%nat -> m i = (1 - s) * p i + s * q i.

(** Twice the signed area of the projection of a triangle to the coordinates
    [i] and [j]; in the plane, [i = 0] and [j = 1] give [signed_area]. In three
    dimensions these are the components of the normal vector. *)
Definition area_in (i j : nat) (c : list point) : R :=
  match c with
  | [p0; p1; p2] => (p1 i - p0 i) * (p2 j - p0 j) - (p1 j - p0 j) * (p2 i - p0 i)
  | _ => 0
  end.

(** The corners of a triangle and the new vertices of its flagged edges are
    different vertices. *)
Definition tri_vertices_distinct {V} (vtx mid : nat -> V) (fl : nat -> bool) : Prop :=
  (forall i j, (i < 3)%nat -> (j < 3)%nat -> vtx i = vtx j -> i = j) /\
  (forall i k, (i < 3)%nat -> (k < 3)%nat -> fl k = true -> vtx i <> mid k) /\
  (forall k l, (k < 3)%nat -> (l < 3)%nat -> fl k = true -> fl l = true -> mid k = mid l -> k = l).

(** [u] is on the [k]-th edge of the triangle. *)
Definition on_tri_edge {V} (vtx mid : nat -> V) (fl : nat -> bool) (k : nat) (u : V) : Prop :=
  u = vtx (fst (tri_edge k)) \/ u = vtx (snd (tri_edge k)) \/ (fl k = true /\ u = mid k).

(** The triangle [c] has the edge between [u] and [v]. *)
Definition has_side {V} (c : list V) (u v : V) : Prop := In u c /\ In v c.

(** Exactly one triangle of the list has the edge / none has it. *)
Definition one_has_side {V} (cells : list (list V)) (u v : V) : Prop :=
  exists i, forall j, (exists c, nth_error cells j = Some c /\ has_side c u v) <-> j = i.
Definition two_have_side {V} (cells : list (list V)) (u v : V) : Prop :=
  exists i i', i <> i' /\ forall j, (exists c, nth_error cells j = Some c /\ has_side c u v) <-> j = i \/ j = i'.
Definition none_has_side {V} (cells : list (list V)) (u v : V) : Prop :=
  forall c, In c cells -> ~ has_side c u v.
