(** C54: angles between vectors and planes; C55: solid angles. *)
From Coq Require Import Reals List Arith Lia Lra.
From Verif Require Import ModelGeom ModelGeometry SpecRefine SpecGeom SpecClosest SpecGeometry AngleProofs.
Import ListNotations.
Local Open Scope R_scope.
(** angle(u, v) is the angle between the vectors; it is not a number exactly if
    one of them is zero. *)
Theorem C54_angle : forall d u v,
  (~ is_zero d u -> ~ is_zero d v -> exists x, angle d u v = Some x /\ is_angle d u v x) /\
  (forall x, angle d u v = Some x -> forall y, is_angle d u v y -> x = y) /\
  (angle d u v = None <-> is_zero d u \/ is_zero d v).
Proof. exact C54_angle_pf. Qed.
Print Assumptions C54_angle.

(** The angles of a triangle add up to 180 degrees. *)
Theorem C54_triangle_sum : forall d p q r, ~ same_point d p q -> ~ same_point d q r -> ~ same_point d p r ->
  exists x y z, angle_at d q r p = Some x /\ angle_at d p r q = Some y /\ angle_at d p q r = Some z /\ x + y + z = PI.
Proof. exact C54_triangle_sum_pf. Qed.
Print Assumptions C54_triangle_sum.

(** dihedral_angle of two half planes with a common edge is the angle between
    what is left of their other points orthogonal to the edge. *)
Theorem C54_dihedral : forall o p q r, independent 3 [o; p; q] -> independent 3 [o; p; r] ->
  exists x, dihedral_angle o p q o p r = Some x /\
    is_angle 3 (away_from 3 (fun i => p i - o i) (fun i => q i - o i)) (away_from 3 (fun i => p i - o i) (fun i => r i - o i)) x.
Proof. exact C54_dihedral_pf. Qed.
Print Assumptions C54_dihedral.

(** The solid angle of a tetrahedron at one of its corners is the sum of the
    dihedral angles at the three edges meeting there minus 180 degrees. *)
Theorem C55_solid_angle : forall o p q r, independent 3 [o; p; q; r] ->
  exists w al be ga, solid_angle_at p q r o = Some w /\
    dihedral_angle o p q o p r = Some al /\ dihedral_angle o q p o q r = Some be /\ dihedral_angle o r p o r q = Some ga /\
    w = al + be + ga - PI /\ 0 < w < 2 * PI.
Proof. exact C55_solid_angle_pf. Qed.
Print Assumptions C55_solid_angle.

(** The order of the points does not matter. *)
Theorem C55_order : forall o p q r, solid_angle_at q p r o = solid_angle_at p q r o /\ solid_angle_at p r q o = solid_angle_at p q r o.
Proof. exact C55_order_pf. Qed.
Print Assumptions C55_order.

(** Solid angles add up when a face is cut along a line through one corner. *)
Theorem C55_additive : forall o p q r s, independent 3 [o; p; q; r] -> 0 < s < 1 ->
  let m := fun i => (1 - s) * p i + s * q i in
  exists w w1 w2, solid_angle_at p q r o = Some w /\ solid_angle_at p m r o = Some w1 /\ solid_angle_at m q r o = Some w2 /\ w = w1 + w2.
Proof. exact C55_additive_pf. Qed.
Print Assumptions C55_additive.

(** Seen from a point strictly inside it, a triangle takes up half of all directions. *)
Theorem C55_inside : forall o p q r, independent 3 [p; q; r] -> in_interior 3 [p; q; r] o -> solid_angle_at p q r o = Some (2 * PI).
Proof. exact C55_inside_pf. Qed.
Print Assumptions C55_inside.

(** The corner of a cube: the three edges are at right angles, and the solid angle
    is one eighth of all directions. *)
Example C55_witness : independent 3 [vec3 0 0 0; vec3 1 0 0; vec3 0 1 0; vec3 0 0 1] /\
  solid_angle_at (vec3 1 0 0) (vec3 0 1 0) (vec3 0 0 1) (vec3 0 0 0) = Some (PI / 2).
Proof.
  split.
  - intros wps E W H. destruct wps as [|[a ?] [|[b ?] [|[c ?] [|[e ?] [|]]]]]; try discriminate E. injection E as -> -> -> ->.
    pose proof (H 0%nat ltac:(lia)) as H0. pose proof (H 1%nat ltac:(lia)) as H1. pose proof (H 2%nat ltac:(lia)) as H2.
    unfold weighted_coord, weight_sum in *. cbn in *. unfold vec3 in *. cbn in *. repeat constructor; cbn; lra.
  - assert (N : forall x y z, x * x + y * y + z * z = 1 -> norm_2 3 (psub (vec3 x y z) (vec3 0 0 0)) = 1).
    { intros x y z E. unfold norm_2, psub, vec3. cbn. rewrite <- sqrt_1. f_equal. lra. }
    unfold solid_angle_at, solid_angle. cbv zeta. rewrite !N by lra. unfold inner_prod, psub, vec3. cbn [sum_upto].
    match goal with |- option_map _ (atan2 ?y ?x) = _ => replace y with 1 by ring; replace x with 1 by ring end.
    unfold atan2. destruct (Rlt_dec 0 1); [|lra]. cbn. f_equal. replace (1 / 1) with 1 by field. rewrite atan_1. pose proof PI_RGT_0. rewrite Rabs_pos_eq; lra.
Qed.
(** A triangle meeting the hypotheses of C54_triangle_sum. *)
Example C54_witness : ~ same_point 2 (pt2 0 0) (pt2 1 0) /\ ~ same_point 2 (pt2 1 0) (pt2 0 2) /\ ~ same_point 2 (pt2 0 0) (pt2 0 2) /\
  ~ is_zero 2 (pt2 1 0).
Proof.
  repeat split; intros H; pose proof (H 0%nat ltac:(lia)); pose proof (H 1%nat ltac:(lia)); cbn in *; lra.
Qed.
(** A point inside a triangle in space, for C55_inside. *)
Example C55_inside_witness : independent 3 [vec3 0 0 0; vec3 3 0 0; vec3 0 3 0] /\ in_interior 3 [vec3 0 0 0; vec3 3 0 0; vec3 0 3 0] (vec3 1 1 0).
Proof.
  split.
  - intros wps E W H. destruct wps as [|[a ?] [|[b ?] [|[c ?] [|]]]]; try discriminate E. injection E as -> -> ->.
    pose proof (H 0%nat ltac:(lia)) as H0. pose proof (H 1%nat ltac:(lia)) as H1.
    unfold weighted_coord, weight_sum in *. cbn in *. unfold vec3 in *. cbn in *. repeat constructor; cbn; lra.
  - exists [(1/3, vec3 0 0 0); (1/3, vec3 3 0 0); (1/3, vec3 0 3 0)]. split; [reflexivity|]. split; [repeat constructor; cbn; lra|]. split; [unfold weight_sum; cbn; lra|].
    intros i Hi. unfold weighted_coord. destruct i as [|[|[|i]]]; cbn; lra || lia.
Qed.
