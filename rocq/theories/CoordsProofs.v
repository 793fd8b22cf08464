(** Coordinate systems and the order of points. *)
From Coq Require Import Reals List Arith Lia Lra.
From Verif Require Import ModelGeom ModelGeometry ModelCoords SpecGeom SpecCoords AngleProofs.
Import ListNotations.
Local Open Scope R_scope.

Lemma atan2_some y x : ~ (x = 0 /\ y = 0) -> exists t, atan2 y x = Some t /\ azimuth t /\
  sqrt (x * x + y * y) * cos t = x /\ sqrt (x * x + y * y) * sin t = y.
Proof.
  intros N. pose proof PI_RGT_0. unfold azimuth. destruct (Rtotal_order 0 y) as [Y|[Y|Y]].
  - destruct (atan2_pos y x Y) as (t & E & _ & B & C & S). exists t. repeat split; auto; lra.
  - subst y. assert (x <> 0) by lra. replace (x * x + 0 * 0) with (x * x) by ring. unfold atan2.
    destruct (Rlt_dec 0 x).
    + exists 0. replace (0 / x) with 0 by (field; lra). rewrite atan_0, cos_0, sin_0, sqrt_square by lra. repeat split; try lra; f_equal; ring.
    + destruct (Rlt_dec x 0); [|lra]. destruct (Rle_dec 0 0); [|lra]. exists PI. replace (0 / x) with 0 by (field; lra). rewrite atan_0, cos_PI, sin_PI.
      replace (x * x) with ((- x) * (- x)) by ring. rewrite sqrt_square by lra. repeat split; try lra. f_equal. ring.
  - destruct (atan2_pos (- y) x ltac:(lra)) as (t & _ & E & B & C & S). rewrite Ropp_involutive in E. exists (- t). rewrite cos_neg, sin_neg.
    replace (- y * - y) with (y * y) in * by ring. repeat split; auto; lra.
Qed.

Lemma atan2_or_spec z y x : sqrt (x * x + y * y) * cos (atan2_or z y x) = x /\ sqrt (x * x + y * y) * sin (atan2_or z y x) = y.
Proof.
  unfold atan2_or. destruct (Req_dec x 0) as [X|X]; [destruct (Req_dec y 0) as [Y|Y]|].
  - subst. replace (0 * 0 + 0 * 0) with 0 by ring. rewrite sqrt_0. split; ring.
  - destruct (atan2_some y x) as (t & -> & _ & C & S); [tauto|auto].
  - destruct (atan2_some y x) as (t & -> & _ & C & S); [tauto|auto].
Qed.
Lemma atan2_or_range z y x : azimuth z -> azimuth (atan2_or z y x).
Proof.
  intros Z. unfold atan2_or. destruct (atan2 y x) as [t|] eqn:E; auto.
  destruct (Req_dec x 0) as [X|X]; [destruct (Req_dec y 0) as [Y|Y]|].
  - subst. unfold atan2 in E. repeat destruct (Rlt_dec _ _); try lra. discriminate.
  - destruct (atan2_some y x) as (t' & E' & A & _); [tauto|]. congruence.
  - destruct (atan2_some y x) as (t' & E' & A & _); [tauto|]. congruence.
Qed.

Lemma cos_one u : - (2 * PI) < u < 2 * PI -> cos u = 1 -> u = 0.
Proof.
  intros B C. replace u with (2 * (u / 2)) in C by field. rewrite cos_2a_sin in C. assert (S : sin (u / 2) = 0) by (apply Rsqr_0_uniq; unfold Rsqr; lra).
  destruct (Rtotal_order u 0) as [U|[U|U]]; auto; exfalso.
  - pose proof (sin_gt_0 (- (u / 2)) ltac:(lra) ltac:(lra)) as G. rewrite sin_neg in G. lra.
  - pose proof (sin_gt_0 (u / 2) ltac:(lra) ltac:(lra)) as G. lra.
Qed.
Lemma azimuth_unique a b : azimuth a -> azimuth b -> cos a = cos b -> sin a = sin b -> a = b.
Proof.
  unfold azimuth. intros A B C S. assert (a - b = 0); [|lra]. apply cos_one; [lra|]. rewrite cos_minus, C, S. pose proof (sin2_cos2 b) as H. unfold Rsqr in H. lra.
Qed.
Lemma sqrt_polar r a : 0 <= r -> sqrt (r * cos a * (r * cos a) + r * sin a * (r * sin a)) = r.
Proof.
  intros H. replace (r * cos a * (r * cos a) + r * sin a * (r * sin a)) with (r * r).
  - now apply sqrt_square.
  - pose proof (sin2_cos2 a) as E. unfold Rsqr in E. replace (r * cos a * (r * cos a) + r * sin a * (r * sin a)) with (r * r * (sin a * sin a + cos a * cos a)) by ring. rewrite E. ring.
Qed.
Lemma atan2_or_polar z r a : 0 < r -> azimuth a -> atan2_or z (r * sin a) (r * cos a) = a.
Proof.
  intros H A. unfold atan2_or.
  assert (N : ~ (r * cos a = 0 /\ r * sin a = 0)).
  { intros [C S]. apply Rmult_integral in C as [C|C]; [lra|]. apply Rmult_integral in S as [S|S]; [lra|]. pose proof (sin2_cos2 a) as E. unfold Rsqr in E. rewrite C, S in E. lra. }
  destruct (atan2_some _ _ N) as (t & -> & T & C & S). rewrite sqrt_polar in C, S by lra. apply azimuth_unique; auto; apply (Rmult_eq_reg_l r); auto; lra.
Qed.
Lemma polar_angle_spec z w r : r = sqrt (w * w + z * z) -> 0 <= w -> r * sin (polar_angle z r) = w /\ r * cos (polar_angle z r) = z.
Proof.
  intros E W. pose proof (Rle_0_sqr w) as W2. pose proof (Rle_0_sqr z) as Z2. unfold Rsqr in *.
  assert (RR : r * r = w * w + z * z) by (subst r; apply sqrt_sqrt; lra). assert (R0 : 0 <= r) by (subst r; apply sqrt_pos).
  unfold polar_angle. destruct (Rlt_dec 0 (Rabs r)) as [P|P].
  - rewrite Rabs_pos_eq in P by lra. assert (B : -1 <= z / r <= 1).
    { assert (ZR : -r <= z <= r) by (split; nra). split; apply (Rmult_le_reg_r r); try lra; replace (z / r * r) with z by (field; lra); lra. }
    rewrite cos_acos, sin_acos by lra. split; [|field; lra]. replace (1 - (z / r)²) with ((w / r) * (w / r)).
    + rewrite sqrt_square; [field; lra|]. apply Rmult_le_pos; auto. left. now apply Rinv_0_lt_compat.
    + unfold Rsqr. apply (Rmult_eq_reg_r (r * r)); [|nra]. field_simplify; [|lra|lra]. nra.
  - assert (r = 0) by (destruct (Req_dec r 0); auto; pose proof (Rabs_pos_lt r); tauto). subst r. rewrite H in *. assert (w = 0) by nra. assert (z = 0) by nra. subst. rewrite sin_0, cos_0. split; ring.
Qed.
Lemma polar_angle_range z r : 0 <= polar_angle z r <= PI.
Proof. pose proof PI_RGT_0. unfold polar_angle. destruct (Rlt_dec _ _); [apply acos_bound|lra]. Qed.

Lemma two_coords p q : p 0%nat = q 0%nat -> p 1%nat = q 1%nat -> same_point 2 p q.
Proof. intros A B i I. destruct i as [|[|i]]; auto; lia. Qed.
Lemma three_coords p q : p 0%nat = q 0%nat -> p 1%nat = q 1%nat -> p 2%nat = q 2%nat -> same_point 3 p q.
Proof. intros A B C i I. destruct i as [|[|[|i]]]; auto; lia. Qed.

Lemma sph_sqrt p : sqrt (p 0%nat * p 0%nat + p 1%nat * p 1%nat + p 2%nat * p 2%nat) =
  sqrt (sqrt (p 0%nat * p 0%nat + p 1%nat * p 1%nat) * sqrt (p 0%nat * p 0%nat + p 1%nat * p 1%nat) + p 2%nat * p 2%nat).
Proof. rewrite sqrt_sqrt; auto. pose proof (Rle_0_sqr (p 0%nat)). pose proof (Rle_0_sqr (p 1%nat)). unfold Rsqr in *. lra. Qed.

Lemma C58_there_and_back_pf : forall c z p, same_point (cs_dim c) (to_cartesian c (from_cartesian c z p)) p.
Proof.
  intros c z p. destruct (atan2_or_spec z (p 1%nat) (p 0%nat)) as [X Y]. destruct c; cbn [cs_dim to_cartesian from_cartesian].
  - apply two_coords; assumption.
  - unfold spherical_to_cartesian, cartesian_to_spherical, point_of. cbn [nth]. set (w := sqrt (p 0%nat * p 0%nat + p 1%nat * p 1%nat)) in *.
    destruct (polar_angle_spec (p 2%nat) w _ (sph_sqrt p) (sqrt_pos _)) as [S C]. apply three_coords; cbn [nth]; [rewrite S; exact X|rewrite S; exact Y|exact C].
  - apply three_coords; auto; reflexivity.
Qed.

Lemma C58_back_and_there_pf : forall c z p, canonical c p -> same_point (cs_dim c) (from_cartesian c z (to_cartesian c p)) p.
Proof.
  intros c z p H. destruct c; cbn [cs_dim to_cartesian from_cartesian canonical] in *.
  - destruct H as [R A]. apply two_coords; cbn; [apply sqrt_polar; lra|now apply atan2_or_polar].
  - destruct H as (R & T & A). assert (S : 0 < p 0%nat * sin (p 1%nat)) by (apply Rmult_lt_0_compat; auto; apply sin_gt_0; lra).
    assert (RR : sqrt (p 0%nat * sin (p 1%nat) * cos (p 2%nat) * (p 0%nat * sin (p 1%nat) * cos (p 2%nat)) +
       p 0%nat * sin (p 1%nat) * sin (p 2%nat) * (p 0%nat * sin (p 1%nat) * sin (p 2%nat)) + p 0%nat * cos (p 1%nat) * (p 0%nat * cos (p 1%nat))) = p 0%nat).
    { rewrite <- (sqrt_polar (p 0%nat) (p 1%nat)) at 7 by lra. f_equal. pose proof (sin2_cos2 (p 2%nat)) as E. unfold Rsqr in E.
      replace (p 0%nat * sin (p 1%nat) * cos (p 2%nat) * (p 0%nat * sin (p 1%nat) * cos (p 2%nat)) + p 0%nat * sin (p 1%nat) * sin (p 2%nat) * (p 0%nat * sin (p 1%nat) * sin (p 2%nat)))
        with (p 0%nat * sin (p 1%nat) * (p 0%nat * sin (p 1%nat)) * (sin (p 2%nat) * sin (p 2%nat) + cos (p 2%nat) * cos (p 2%nat))) by ring. rewrite E. ring. }
    unfold cartesian_to_spherical, spherical_to_cartesian, point_of. cbn [nth]. rewrite RR. apply three_coords; cbn [nth]; auto.
    + unfold polar_angle. rewrite Rabs_pos_eq by lra. destruct (Rlt_dec 0 (p 0%nat)); [|lra]. replace (p 0%nat * cos (p 1%nat) / p 0%nat) with (cos (p 1%nat)) by (field; lra). apply acos_cos. lra.
    + now apply atan2_or_polar.
  - destruct H as [R A]. apply three_coords; cbn; [apply sqrt_polar; lra|now apply atan2_or_polar|reflexivity].
Qed.

Lemma C58_ranges_pf : forall c z p, azimuth z -> in_range c (from_cartesian c z p).
Proof.
  intros c z p Z. destruct c; cbn; (split; [apply sqrt_pos|]); try (now apply atan2_or_range). split; [apply polar_angle_range|now apply atan2_or_range].
Qed.

Lemma C58_between_pf : forall p,
  same_point 3 (cylindrical_to_cartesian (spherical_to_cylindrical p)) (spherical_to_cartesian p) /\
  (0 <= p 0%nat -> same_point 3 (spherical_to_cartesian (cylindrical_to_spherical p)) (cylindrical_to_cartesian p)).
Proof.
  intros p. split; [apply three_coords; reflexivity|]. intros W.
  unfold spherical_to_cartesian, cylindrical_to_spherical, cylindrical_to_cartesian, point_of. cbn [nth].
  destruct (polar_angle_spec (p 2%nat) (p 0%nat) _ eq_refl W) as [S C]. apply three_coords; cbn [nth]; [rewrite S; reflexivity|rewrite S; reflexivity|exact C].
Qed.

Lemma C58_negative_radius_refuted_pf : forall p, p 0%nat < 0 ->
  ~ same_point 3 (spherical_to_cartesian (cylindrical_to_spherical p)) (cylindrical_to_cartesian p).
Proof.
  intros p N H.
  unfold spherical_to_cartesian, cylindrical_to_spherical, cylindrical_to_cartesian, point_of in H. cbn [nth] in H.
  assert (E : sqrt (p 0%nat * p 0%nat + p 2%nat * p 2%nat) = sqrt (- p 0%nat * - p 0%nat + p 2%nat * p 2%nat)) by (f_equal; ring).
  destruct (polar_angle_spec (p 2%nat) (- p 0%nat) _ E ltac:(lra)) as [S C].
  pose proof (H 0%nat ltac:(lia)) as H0. pose proof (H 1%nat ltac:(lia)) as H1. cbn [nth] in H0, H1. rewrite S in H0, H1.
  pose proof (sin2_cos2 (p 1%nat)) as T. unfold Rsqr in T.
  assert (cos (p 1%nat) = 0) by (apply (Rmult_eq_reg_l (p 0%nat)); lra). assert (sin (p 1%nat) = 0) by (apply (Rmult_eq_reg_l (p 0%nat)); lra). nra.
Qed.

Lemma C58_operators_pf : forall c z p q f,
  same_point (cs_dim c) (to_cartesian c (cs_add c z p q)) (fun i => to_cartesian c p i + to_cartesian c q i) /\
  same_point (cs_dim c) (to_cartesian c (cs_sub c z p q)) (fun i => to_cartesian c p i - to_cartesian c q i) /\
  same_point (cs_dim c) (to_cartesian c (cs_neg c z p)) (fun i => - to_cartesian c p i) /\
  same_point (cs_dim c) (to_cartesian c (cs_scale c z f p)) (fun i => f * to_cartesian c p i) /\
  (f <> 0 -> same_point (cs_dim c) (to_cartesian c (cs_div c z p f)) (fun i => to_cartesian c p i / f)).
Proof.
  intros c z p q f.
  assert (SC : forall f, same_point (cs_dim c) (to_cartesian c (cs_scale c z f p)) (fun i => f * to_cartesian c p i)).
  { intros g. destruct c; cbn [cs_dim cs_scale].
    - apply two_coords; cbn; ring.
    - apply three_coords; cbn; ring.
    - intros i I. rewrite (C58_there_and_back_pf Cylindrical z _ i I). unfold pscale. ring. }
  split; [|split; [|split; [|split]]].
  - intros i I. unfold cs_add. now rewrite C58_there_and_back_pf.
  - intros i I. unfold cs_sub. now rewrite C58_there_and_back_pf.
  - intros i I. unfold cs_neg, cs_sub. rewrite C58_there_and_back_pf by auto. unfold psub.
    assert (Z : to_cartesian c (point_of []) i = 0). { destruct c; cbn in *; destruct i as [|[|[|i]]]; cbn; try ring; lia. }
    rewrite Z. ring.
  - apply SC.
  - intros F i I. unfold cs_div. rewrite SC by auto. field. exact F.
Qed.

Lemma less_from_spec p q n : forall i, less_from p q i n = true <-> exists k, (i <= k < i + n)%nat /\ p k < q k /\ forall j, (i <= j < k)%nat -> p j = q j.
Proof.
  induction n as [|n IH]; intros i; cbn [less_from].
  - split; [discriminate|]. intros (k & H & _). lia.
  - destruct (Rlt_dec (p i) (q i)) as [L|L].
    + split; auto. intros _. exists i. split; [lia|]. split; auto. intros j J. lia.
    + destruct (Rlt_dec (q i) (p i)) as [G|G].
      * split; [discriminate|]. intros (k & H1 & H2 & H3). destruct (Nat.eq_dec k i) as [->|N]; [lra|]. pose proof (H3 i ltac:(lia)). lra.
      * rewrite IH. split; intros (k & H1 & H2 & H3).
        -- exists k. split; [lia|]. split; auto. intros j J. destruct (Nat.eq_dec j i) as [->|N]; [lra|]. apply H3. lia.
        -- exists k. assert (k <> i) by (intros ->; lra). split; [lia|]. split; auto. intros j J. apply H3. lia.
Qed.

Lemma C59_lexicographic_pf : forall d p q,
  point_less d p q = true <-> exists k, (k < d)%nat /\ p k < q k /\ forall j, (j < k)%nat -> p j = q j.
Proof.
  intros d p q. unfold point_less. rewrite less_from_spec. split; intros (k & H1 & H2 & H3); exists k; (split; [lia|]); (split; [auto|]); intros j J; apply H3; lia.
Qed.

Lemma C59_order_pf : forall d p q r,
  point_less d p p = false /\
  (point_less d p q = true -> point_less d q p = false) /\
  (point_less d p q = true -> point_less d q r = true -> point_less d p r = true) /\
  ((point_less d p q = false /\ point_less d q p = false) <-> same_point d p q).
Proof.
  intros d.
  assert (IR : forall p, point_less d p p = false).
  { intros p. destruct (point_less d p p) eqn:E; auto. apply C59_lexicographic_pf in E as (k & _ & H & _). lra. }
  assert (TR : forall p q r, point_less d p q = true -> point_less d q r = true -> point_less d p r = true).
  { intros p q r A B. apply C59_lexicographic_pf in A as (k & K1 & K2 & K3). apply C59_lexicographic_pf in B as (l & L1 & L2 & L3). apply C59_lexicographic_pf.
    destruct (Nat.lt_trichotomy k l) as [H|[H|H]].
    - exists k. split; auto. rewrite <- (L3 k H). split; auto. intros j J. rewrite K3 by auto. apply L3. lia.
    - subst l. exists k. split; auto. split; [lra|]. intros j J. rewrite K3 by auto. auto.
    - exists l. split; auto. rewrite (K3 l H). split; auto. intros j J. rewrite <- L3 by auto. apply K3. lia. }
  intros p q r. split; [auto|]. split; [|split; [apply TR|split]].
  - intros A. destruct (point_less d q p) eqn:E; auto. rewrite <- (IR p). symmetry. eapply TR; eauto.
  - intros [A B]. assert (G : forall n, (n <= d)%nat -> forall i, (i < n)%nat -> p i = q i).
    { induction n as [|n IH]; intros N i I; [lia|]. destruct (Nat.eq_dec i n) as [->|]; [|apply IH; lia].
      destruct (Rtotal_order (p n) (q n)) as [H|[H|H]]; auto; exfalso.
      - assert (E : point_less d p q = true); [|congruence]. apply C59_lexicographic_pf. exists n. split; [lia|]. split; auto. intros j J. apply IH; lia.
      - assert (E : point_less d q p = true); [|congruence]. apply C59_lexicographic_pf. exists n. split; [lia|]. split; [lra|]. intros j J. symmetry. apply IH; lia. }
    intros i I. apply (G d); auto.
  - intros S. split; [destruct (point_less d p q) eqn:E|destruct (point_less d q p) eqn:E]; auto; apply C59_lexicographic_pf in E as (k & K & H & _); rewrite (S k K) in H; lra.
Qed.
