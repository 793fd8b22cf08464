(** Properties C58 and C59: coordinate systems and the order of points. *)
From Coq Require Import Reals List Arith Lia Lra.
From Verif Require Import ModelGeom ModelGeometry ModelCoords SpecGeom SpecCoords CoordsProofs.
Import ListNotations.
Local Open Scope R_scope.
(** Converting a point from Cartesian coordinates and back gives the point. *)
Theorem C58_there_and_back : forall c z p, same_point (cs_dim c) (to_cartesian c (from_cartesian c z p)) p.
Proof. exact C58_there_and_back_pf. Qed.
Print Assumptions C58_there_and_back.

(** Converting a point with canonical coordinates to Cartesian coordinates and
    back gives the same coordinates. *)
Theorem C58_back_and_there : forall c z p, canonical c p -> same_point (cs_dim c) (from_cartesian c z (to_cartesian c p)) p.
Proof. exact C58_back_and_there_pf. Qed.
Print Assumptions C58_back_and_there.

(** The coordinates computed are in the usual ranges. *)
Theorem C58_ranges : forall c z p, azimuth z -> in_range c (from_cartesian c z p).
Proof. exact C58_ranges_pf. Qed.
Print Assumptions C58_ranges.

(** The direct conversions between spherical and cylindrical coordinates keep the
    point, the one from cylindrical coordinates if the radius is not negative. *)
Theorem C58_between : forall p,
  same_point 3 (cylindrical_to_cartesian (spherical_to_cylindrical p)) (spherical_to_cartesian p) /\
  (0 <= p 0%nat -> same_point 3 (spherical_to_cartesian (cylindrical_to_spherical p)) (cylindrical_to_cartesian p)).
Proof. exact C58_between_pf. Qed.
Print Assumptions C58_between.

(** With a negative radius, as a stretching by a negative factor leaves behind in
    spherical coordinates, the conversion of cylindrical to spherical coordinates
    gives another point. *)
Theorem C58_negative_radius_refuted : forall p, p 0%nat < 0 ->
  ~ same_point 3 (spherical_to_cartesian (cylindrical_to_spherical p)) (cylindrical_to_cartesian p).
Proof. exact C58_negative_radius_refuted_pf. Qed.
Print Assumptions C58_negative_radius_refuted.

(** The operators do in every coordinate system what they do to the Cartesian
    points. *)
Theorem C58_operators : forall c z p q f,
  same_point (cs_dim c) (to_cartesian c (cs_add c z p q)) (fun i => to_cartesian c p i + to_cartesian c q i) /\
  same_point (cs_dim c) (to_cartesian c (cs_sub c z p q)) (fun i => to_cartesian c p i - to_cartesian c q i) /\
  same_point (cs_dim c) (to_cartesian c (cs_neg c z p)) (fun i => - to_cartesian c p i) /\
  same_point (cs_dim c) (to_cartesian c (cs_scale c z f p)) (fun i => f * to_cartesian c p i) /\
  (f <> 0 -> same_point (cs_dim c) (to_cartesian c (cs_div c z p f)) (fun i => to_cartesian c p i / f)).
Proof. exact C58_operators_pf. Qed.
Print Assumptions C58_operators.

Example C58_hypotheses_met : canonical Spherical (point_of [2; PI / 3; - (PI / 2)]) /\ azimuth PI /\
  spherical_to_cartesian (point_of [2; PI / 3; - (PI / 2)]) 1%nat = - sqrt 3.
Proof.
  pose proof PI_RGT_0. unfold canonical, azimuth. cbn. split; [repeat split; lra|]. split; [split; lra|].
  rewrite sin_PI3, sin_neg, sin_PI2. field.
Qed.

(** point_less is the lexicographic order: the first coordinate in which the
    points differ decides. *)
Theorem C59_lexicographic : forall d p q,
  point_less d p q = true <-> exists k, (k < d)%nat /\ p k < q k /\ forall j, (j < k)%nat -> p j = q j.
Proof. exact C59_lexicographic_pf. Qed.
Print Assumptions C59_lexicographic.

(** It is a strict order in which two points are either comparable or equal, so
    std::map with it keeps one entry for each point. *)
Theorem C59_order : forall d p q r,
  point_less d p p = false /\
  (point_less d p q = true -> point_less d q p = false) /\
  (point_less d p q = true -> point_less d q r = true -> point_less d p r = true) /\
  ((point_less d p q = false /\ point_less d q p = false) <-> same_point d p q).
Proof. exact C59_order_pf. Qed.
Print Assumptions C59_order.

Example C59_example : point_less 3 (point_of [1; 2; 3]) (point_of [1; 2; 4]) = true /\ point_less 3 (point_of [1; 2; 4]) (point_of [1; 2; 3]) = false.
Proof. cbn. repeat (destruct (Rlt_dec _ _); try lra); auto. Qed.
