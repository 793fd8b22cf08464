(** Specification vocabulary for coordinate systems (C58) and the order of
    points (C59).  Nothing here is used by the model.  [same_point] comes from
    SpecGeom. *)
From Coq Require Import Reals.
From Verif Require Import ModelGeom ModelCoords.
Local Open Scope R_scope.

(** The ranges in which the coordinates of a point are unique. *)
Definition azimuth (a : R) : Prop := - PI < a <= PI.
Definition canonical (c : coord_system) (p : point) : Prop :=
  match c with
  | Polar => 0 < p 0%nat /\ azimuth (p 1%nat)
  | Spherical => 0 < p 0%nat /\ 0 < p 1%nat < PI /\ azimuth (p 2%nat)
  | Cylindrical => 0 < p 0%nat /\ azimuth (p 1%nat)
  end.
(** Their closures. *)
Definition in_range (c : coord_system) (p : point) : Prop :=
  match c with
  | Polar => 0 <= p 0%nat /\ azimuth (p 1%nat)
  | Spherical => 0 <= p 0%nat /\ 0 <= p 1%nat <= PI /\ azimuth (p 2%nat)
  | Cylindrical => 0 <= p 0%nat /\ azimuth (p 1%nat)
  end.
