(** Coordinate systems and the order of points: viennagrid/point.hpp 103-257,
    327-502, 611-688, 735-750.  Definitions only.

    A point in polar coordinates is (r, phi), in spherical coordinates
    (r, theta, phi), in cylindrical coordinates (rho, phi, z).  As elsewhere the
    coordinates are exact real numbers. *)
From Coq Require Import Reals List Bool.
From Verif Require Import ModelGeom ModelGeometry.
Import ListNotations.
Local Open Scope R_scope.

(** Points given by their coordinates; the constructors fill with zeros,
    point.hpp 528-572. *)
Definition point_of (l : list R) : point := fun i => nth i l 0.

(** std::atan2 with the value [z] where both arguments are zero (it depends on
    the signs of the zeros, which real numbers do not have). *)
Definition atan2_or (z y x : R) : R := match atan2 y x with Some t => t | None => z end.

(** point.hpp 103-117 *)
Definition cartesian_to_polar (z : R) (p : point) : point :=
  point_of [sqrt (p 0%nat * p 0%nat + p 1%nat * p 1%nat); atan2_or z (p 1%nat) (p 0%nat)].
(** point.hpp 119-133; 126 and 253: (fabs(r) > 0) ? acos(z / r) : 0. *)
Definition polar_angle (z r : R) : R := if Rlt_dec 0 (Rabs r) then acos (z / r) else 0.
Definition cartesian_to_spherical (z : R) (p : point) : point :=
  let r := sqrt (p 0%nat * p 0%nat + p 1%nat * p 1%nat + p 2%nat * p 2%nat) in
  point_of [r; polar_angle (p 2%nat) r; atan2_or z (p 1%nat) (p 0%nat)].
(** point.hpp 135-149 *)
Definition cartesian_to_cylindrical (z : R) (p : point) : point :=
  point_of [sqrt (p 0%nat * p 0%nat + p 1%nat * p 1%nat); atan2_or z (p 1%nat) (p 0%nat); p 2%nat].

(** point.hpp 174-187 *)
Definition polar_to_cartesian (p : point) : point :=
  point_of [p 0%nat * cos (p 1%nat); p 0%nat * sin (p 1%nat)].
(** point.hpp 190-204 *)
Definition spherical_to_cartesian (p : point) : point :=
  point_of [p 0%nat * sin (p 1%nat) * cos (p 2%nat); p 0%nat * sin (p 1%nat) * sin (p 2%nat); p 0%nat * cos (p 1%nat)].
(** point.hpp 206-220 *)
Definition spherical_to_cylindrical (p : point) : point :=
  point_of [p 0%nat * sin (p 1%nat); p 2%nat; p 0%nat * cos (p 1%nat)].
(** point.hpp 223-237 *)
Definition cylindrical_to_cartesian (p : point) : point :=
  point_of [p 0%nat * cos (p 1%nat); p 0%nat * sin (p 1%nat); p 2%nat].
(** point.hpp 239-253 *)
Definition cylindrical_to_spherical (p : point) : point :=
  let r := sqrt (p 0%nat * p 0%nat + p 2%nat * p 2%nat) in
  point_of [r; polar_angle (p 2%nat) r; p 1%nat].

(** The coordinate systems with operators of their own. *)
Inductive coord_system := Polar | Spherical | Cylindrical.
(** point.hpp 459, 472, 485 *)
Definition cs_dim (c : coord_system) : nat := match c with Polar => 2 | Spherical => 3 | Cylindrical => 3 end.
Definition to_cartesian (c : coord_system) : point -> point :=
  match c with Polar => polar_to_cartesian | Spherical => spherical_to_cartesian | Cylindrical => cylindrical_to_cartesian end.
Definition from_cartesian (c : coord_system) (z : R) : point -> point :=
  match c with Polar => cartesian_to_polar z | Spherical => cartesian_to_spherical z | Cylindrical => cartesian_to_cylindrical z end.

(** point.hpp 366-408, cs_base::add and inplace_add (operator+, operator+=). *)
Definition cs_add (c : coord_system) (z : R) (p q : point) : point :=
  from_cartesian c z (padd (to_cartesian c p) (to_cartesian c q)).
(** point.hpp 410-452, subtract and inplace_subtract (operator-, operator-=). *)
Definition cs_sub (c : coord_system) (z : R) (p q : point) : point :=
  from_cartesian c z (psub (to_cartesian c p) (to_cartesian c q)).
(** point.hpp 627-630, unary minus: spatial_point() - p. *)
Definition cs_neg (c : coord_system) (z : R) (p : point) : point := cs_sub c z (point_of []) p.
(** point.hpp 455-502, inplace_stretch (operator*, operator*=). *)
Definition cs_scale (c : coord_system) (z : R) (f : R) (p : point) : point :=
  match c with
  | Polar => point_of [p 0%nat * f; p 1%nat]
  | Spherical => point_of [p 0%nat * f; p 1%nat; p 2%nat]
  | Cylindrical => from_cartesian c z (pscale f (to_cartesian c p))
  end.
(** point.hpp 674-688, operator/ and operator/=. *)
Definition cs_div (c : coord_system) (z : R) (p : point) (f : R) : point := cs_scale c z (1 / f) p.

(** point.hpp 735-750, point_less: the loop from coordinate [i], [n] coordinates
    are left. *)
Fixpoint less_from (p q : point) (i n : nat) : bool :=
  match n with
  | O => false
  | S n' => if Rlt_dec (p i) (q i) then true else if Rlt_dec (q i) (p i) then false else less_from p q (S i) n'
  end.
Definition point_less (d : nat) (p q : point) : bool := less_from p q 0 d.
