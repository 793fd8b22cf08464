(** Plane geometry for the Voronoi quantities of triangles. *)
From Coq Require Import Reals List Arith Lia Lra Psatz.
From Verif Require Import ModelTopo ModelMesh ModelGeom ModelVolume ModelVoronoi.
Import ListNotations.
Local Open Scope R_scope.

(** Twice the signed area, and the squared distance. *)
Definition cr (a b c : point) : R := (b 0%nat - a 0%nat) * (c 1%nat - a 1%nat) - (b 1%nat - a 1%nat) * (c 0%nat - a 0%nat).
Definition sq (a b : point) : R := (a 0%nat - b 0%nat) * (a 0%nat - b 0%nat) + (a 1%nat - b 1%nat) * (a 1%nat - b 1%nat).

Lemma sv3 a b c : spanned_volume 2 [a; b; c] = Some (Rabs (cr a b c) / 2).
Proof.
  unfold spanned_volume. cbn [signed_spanned_volume option_map]. f_equal. unfold Rdiv. rewrite Rabs_mult, (Rabs_pos_eq (/ 2)) by lra.
  f_equal. f_equal. unfold cr. ring.
Qed.
Lemma sv2 a b : spanned_volume 2 [a; b] = Some (sqrt (sq a b)).
Proof.
  unfold spanned_volume. cbn [signed_spanned_volume option_map]. f_equal. rewrite Rabs_pos_eq by apply sqrt_pos. f_equal. unfold sq. ring.
Qed.

(** [x] lies on the two lines. *)
Lemma intersection a b c d (x : point) : (a 0%nat - b 0%nat) * (c 1%nat - d 1%nat) - (a 1%nat - b 1%nat) * (c 0%nat - d 0%nat) <> 0 ->
  cr a b x = 0 -> cr c d x = 0 -> exists y, line_intersection a b c d = Some y /\ y 0%nat = x 0%nat /\ y 1%nat = x 1%nat.
Proof.
  intros N E1 E2. unfold line_intersection. destruct (Req_EM_T _ 0) as [E|_]; [contradiction|]. eexists. split; [reflexivity|].
  unfold cr in *.
  assert (F1 : a 0%nat * b 1%nat - a 1%nat * b 0%nat = x 0%nat * (b 1%nat - a 1%nat) - x 1%nat * (b 0%nat - a 0%nat)) by lra.
  assert (F2 : c 0%nat * d 1%nat - c 1%nat * d 0%nat = x 0%nat * (d 1%nat - c 1%nat) - x 1%nat * (d 0%nat - c 0%nat)) by lra.
  rewrite F1, F2. split; field; exact N.
Qed.

Section Triangle.
Variables P A B C : point.
Notation D := (cr P A B).
Hypothesis ND : D <> 0.
(** [C] is the circumcenter. *)
Hypothesis EA : sq C A = sq C P.
Hypothesis EB : sq C B = sq C P.

Definition alpha := cr C A B / D.
Definition beta := cr P C B / D.
Definition gamma := cr P A C / D.
Lemma bary_sum : alpha + beta + gamma = 1.
Proof. unfold alpha, beta, gamma. rewrite <- !Rdiv_plus_distr. replace (cr C A B + cr P C B + cr P A C) with D by (unfold cr; ring). field. exact ND. Qed.
Lemma bary_coord i : (i < 2)%nat -> C i = alpha * P i + beta * A i + gamma * B i.
Proof.
  intros H. assert (E : C i * D = cr C A B * P i + cr P C B * A i + cr P A C * B i).
  { unfold cr. destruct i as [|[|i]]; [ring|ring|lia]. }
  unfold alpha, beta, gamma. apply (Rmult_eq_reg_r D); [|exact ND]. rewrite E. field. exact ND.
Qed.

Lemma sq_pos a b : 0 <= sq a b.
Proof. unfold sq. apply Rplus_le_le_0_compat; apply Rle_0_sqr. Qed.
Lemma cr_sq : D * D <= sq A P * sq B P.
Proof.
  enough (0 <= sq A P * sq B P - D * D) by lra.
  replace (sq A P * sq B P - D * D) with (((A 0%nat - P 0%nat) * (B 0%nat - P 0%nat) + (A 1%nat - P 1%nat) * (B 1%nat - P 1%nat)) * ((A 0%nat - P 0%nat) * (B 0%nat - P 0%nat) + (A 1%nat - P 1%nat) * (B 1%nat - P 1%nat))) by (unfold sq, cr; ring).
  apply Rle_0_sqr.
Qed.
Lemma sq_nonzero : 0 < sq A P /\ 0 < sq B P.
Proof.
  pose proof cr_sq. pose proof (sq_pos A P). pose proof (sq_pos B P). assert (0 < D * D) by nra. split.
  - destruct H0 as [|E]; auto. rewrite <- E in H. lra.
  - destruct H1 as [|E]; auto. rewrite <- E in H. lra.
Qed.
(** The inner product at [P]. *)
Definition ip := (A 0%nat - P 0%nat) * (B 0%nat - P 0%nat) + (A 1%nat - P 1%nat) * (B 1%nat - P 1%nat).
Lemma beta_eq : 2 * beta * (D * D) = sq B P * (sq A P - ip).
Proof.
  unfold beta. replace (2 * (cr P C B / D) * (D * D)) with (2 * (cr P C B * D)) by (field; exact ND).
  assert (E1 : 2 * ((C 0%nat - P 0%nat) * (A 0%nat - P 0%nat) + (C 1%nat - P 1%nat) * (A 1%nat - P 1%nat)) = sq A P) by (unfold sq in *; lra).
  assert (E2 : 2 * ((C 0%nat - P 0%nat) * (B 0%nat - P 0%nat) + (C 1%nat - P 1%nat) * (B 1%nat - P 1%nat)) = sq B P) by (unfold sq in *; lra).
  replace (2 * (cr P C B * D)) with (sq B P * (2 * ((C 0%nat - P 0%nat) * (A 0%nat - P 0%nat) + (C 1%nat - P 1%nat) * (A 1%nat - P 1%nat))) -
     ip * (2 * ((C 0%nat - P 0%nat) * (B 0%nat - P 0%nat) + (C 1%nat - P 1%nat) * (B 1%nat - P 1%nat)))) by (unfold ip, cr, sq; ring).
  rewrite E1, E2. ring.
Qed.
Lemma gamma_eq : 2 * gamma * (D * D) = sq A P * (sq B P - ip).
Proof.
  unfold gamma. replace (2 * (cr P A C / D) * (D * D)) with (2 * (cr P A C * D)) by (field; exact ND).
  assert (E1 : 2 * ((C 0%nat - P 0%nat) * (A 0%nat - P 0%nat) + (C 1%nat - P 1%nat) * (A 1%nat - P 1%nat)) = sq A P) by (unfold sq in *; lra).
  assert (E2 : 2 * ((C 0%nat - P 0%nat) * (B 0%nat - P 0%nat) + (C 1%nat - P 1%nat) * (B 1%nat - P 1%nat)) = sq B P) by (unfold sq in *; lra).
  replace (2 * (cr P A C * D)) with (sq A P * (2 * ((C 0%nat - P 0%nat) * (B 0%nat - P 0%nat) + (C 1%nat - P 1%nat) * (B 1%nat - P 1%nat))) -
     ip * (2 * ((C 0%nat - P 0%nat) * (A 0%nat - P 0%nat) + (C 1%nat - P 1%nat) * (A 1%nat - P 1%nat)))) by (unfold ip, cr, sq; ring).
  rewrite E1, E2. ring.
Qed.
(** At most one edge separates the circumcenter from the triangle. *)
Lemma obtuse : alpha < 0 -> 0 < beta /\ 0 < gamma.
Proof.
  intros H. destruct sq_nonzero as [SA SB]. pose proof beta_eq as HB. pose proof gamma_eq as HG. pose proof bary_sum as S.
  assert (DD : 0 < D * D) by nra.
  assert (GG : D * D = sq A P * sq B P - ip * ip) by (unfold cr, sq, ip; ring).
  assert (HA : 2 * alpha * (D * D) = ip * sq A B).
  { replace alpha with (1 - beta - gamma) by lra. replace (2 * (1 - beta - gamma) * (D * D)) with (2 * (D * D) - 2 * beta * (D * D) - 2 * gamma * (D * D)) by ring.
    rewrite HB, HG, GG. unfold sq, ip. ring. }
  pose proof (sq_pos A B). assert (I : ip < 0) by nra.
  split; nra.
Qed.

(** The midpoint of [P] and [A]. *)
Variable M : point.
Hypothesis M0 : M 0%nat = (P 0%nat + A 0%nat) / 2.
Hypothesis M1 : M 1%nat = (P 1%nat + A 1%nat) / 2.
Lemma height : sqrt (sq C M) = Rabs (gamma * D) / sqrt (sq P A).
Proof.
  assert (SP : 0 < sq P A). { replace (sq P A) with (sq A P) by (unfold sq; ring). apply sq_nonzero. }
  assert (E : sq C M * sq P A = (gamma * D) * (gamma * D)).
  { unfold gamma. replace (cr P A C / D * D) with (cr P A C) by (field; exact ND).
    assert (PE : (C 0%nat - M 0%nat) * (A 0%nat - P 0%nat) + (C 1%nat - M 1%nat) * (A 1%nat - P 1%nat) = 0) by (rewrite M0, M1; unfold sq in *; lra).
    replace (sq C M * sq P A) with (((C 0%nat - M 0%nat) * (A 0%nat - P 0%nat) + (C 1%nat - M 1%nat) * (A 1%nat - P 1%nat)) * ((C 0%nat - M 0%nat) * (A 0%nat - P 0%nat) + (C 1%nat - M 1%nat) * (A 1%nat - P 1%nat))
      + ((A 0%nat - P 0%nat) * (C 1%nat - M 1%nat) - (A 1%nat - P 1%nat) * (C 0%nat - M 0%nat)) * ((A 0%nat - P 0%nat) * (C 1%nat - M 1%nat) - (A 1%nat - P 1%nat) * (C 0%nat - M 0%nat))) by (unfold sq; ring).
    rewrite PE. replace ((A 0%nat - P 0%nat) * (C 1%nat - M 1%nat) - (A 1%nat - P 1%nat) * (C 0%nat - M 0%nat)) with (cr P A C) by (rewrite M0, M1; unfold cr; field). ring. }
  assert (SS : 0 < sqrt (sq P A)) by (apply sqrt_lt_R0; exact SP).
  apply (Rmult_eq_reg_r (sqrt (sq P A))); [|lra]. rewrite <- sqrt_mult by (apply sq_pos || lra). rewrite E.
  change (gamma * D * (gamma * D)) with (Rsqr (gamma * D)). rewrite sqrt_Rsqr_abs. field. lra.
Qed.
Lemma area_P : Rabs (cr C M P) / 2 = Rabs (gamma * D) / 4.
Proof.
  replace (cr C M P) with (- (gamma * D) / 2).
  - unfold Rdiv. rewrite Rabs_mult, Rabs_Ropp, (Rabs_pos_eq (/ 2)) by lra. field.
  - unfold gamma. replace (cr P A C / D * D) with (cr P A C) by (field; exact ND). unfold cr. rewrite M0, M1. field.
Qed.
Lemma area_A : Rabs (cr C M A) / 2 = Rabs (gamma * D) / 4.
Proof.
  replace (cr C M A) with ((gamma * D) / 2).
  - unfold Rdiv. rewrite Rabs_mult, (Rabs_pos_eq (/ 2)) by lra. field.
  - unfold gamma. replace (cr P A C / D * D) with (cr P A C) by (field; exact ND). unfold cr. rewrite M0, M1. field.
Qed.

(** The circumcenter is behind the edge from [A] to [B]. *)
Hypothesis OUT : alpha < 0.
Definition tt := 1 / (1 - 2 * alpha).
Definition uu := 1 / (1 - alpha).
Lemma tt_range : 0 < tt < 1.
Proof. unfold tt. split; [apply Rdiv_lt_0_compat; lra|]. apply (Rmult_lt_reg_r (1 - 2 * alpha)); [lra|]. unfold Rdiv. rewrite Rmult_1_l, Rinv_l; lra. Qed.
Lemma uu_range : 0 < uu < 1.
Proof. unfold uu. split; [apply Rdiv_lt_0_compat; lra|]. apply (Rmult_lt_reg_r (1 - alpha)); [lra|]. unfold Rdiv. rewrite Rmult_1_l, Rinv_l; lra. Qed.
(** Where the bisector of [P A], and the line from [P] to the circumcenter, cross it. *)
Definition XX : point := fun i => M i + tt * (C i - M i).
Definition YY : point := fun i => P i + uu * (C i - P i).
Lemma X_on : cr A B XX = 0.
Proof.
  replace (cr A B XX) with ((1 - tt) * (D / 2) + tt * (alpha * D)).
  - unfold tt. field. lra.
  - unfold alpha. replace (cr C A B / D * D) with (cr C A B) by (field; exact ND). unfold cr, XX. rewrite M0, M1. field.
Qed.
Lemma Y_on : cr A B YY = 0.
Proof.
  replace (cr A B YY) with ((1 - uu) * D + uu * (alpha * D)).
  - unfold uu. field. lra.
  - unfold alpha. replace (cr C A B / D * D) with (cr C A B) by (field; exact ND). unfold cr, YY. ring.
Qed.
Lemma not_parallel_M : (M 0%nat - C 0%nat) * (A 1%nat - B 1%nat) - (M 1%nat - C 1%nat) * (A 0%nat - B 0%nat) <> 0.
Proof.
  replace ((M 0%nat - C 0%nat) * (A 1%nat - B 1%nat) - (M 1%nat - C 1%nat) * (A 0%nat - B 0%nat)) with (- ((alpha - / 2) * D)).
  - apply Ropp_neq_0_compat. apply Rmult_integral_contrapositive. split; [lra|exact ND].
  - unfold alpha. replace (- ((cr C A B / D - / 2) * D)) with (D / 2 - cr C A B) by (field; exact ND). unfold cr. rewrite M0, M1. field.
Qed.
Lemma not_parallel_P : (P 0%nat - C 0%nat) * (A 1%nat - B 1%nat) - (P 1%nat - C 1%nat) * (A 0%nat - B 0%nat) <> 0.
Proof.
  replace ((P 0%nat - C 0%nat) * (A 1%nat - B 1%nat) - (P 1%nat - C 1%nat) * (A 0%nat - B 0%nat)) with (- ((alpha - 1) * D)).
  - apply Ropp_neq_0_compat. apply Rmult_integral_contrapositive. split; [lra|exact ND].
  - unfold alpha. replace (- ((cr C A B / D - 1) * D)) with (D - cr C A B) by (field; exact ND). unfold cr. ring.
Qed.
Lemma cut_M a b : (a = A /\ b = B) \/ (a = B /\ b = A) -> exists x, line_intersection M C a b = Some x /\ x 0%nat = XX 0%nat /\ x 1%nat = XX 1%nat.
Proof.
  pose proof X_on as XO. pose proof not_parallel_M as N. intros [[-> ->]|[-> ->]]; apply intersection; auto; try (intros E; apply N; lra); try (unfold cr, XX; ring).
  unfold cr in *. lra.
Qed.
Lemma cut_P a b : (a = A /\ b = B) \/ (a = B /\ b = A) -> exists x, line_intersection P C a b = Some x /\ x 0%nat = YY 0%nat /\ x 1%nat = YY 1%nat.
Proof.
  pose proof Y_on as XO. pose proof not_parallel_P as N. intros [[-> ->]|[-> ->]]; apply intersection; auto; try (intros E; apply N; lra); try (unfold cr, YY; ring).
  unfold cr in *. lra.
Qed.

Variables x y : point.
Hypothesis x0 : x 0%nat = XX 0%nat. Hypothesis x1 : x 1%nat = XX 1%nat.
Hypothesis y0 : y 0%nat = YY 0%nat. Hypothesis y1 : y 1%nat = YY 1%nat.
Lemma abs_scale k r : 0 <= k -> Rabs (k * r) = k * Rabs r.
Proof. intros H. rewrite Rabs_mult, (Rabs_pos_eq k); auto. Qed.
Lemma sqrt_scale k r : 0 <= k -> 0 <= r -> sqrt (k * k * r) = k * sqrt r.
Proof. intros H1 H2. rewrite sqrt_mult by nra. rewrite sqrt_square; auto. Qed.
Lemma len_own : sqrt (sq x M) = tt * sqrt (sq C M).
Proof. rewrite <- sqrt_scale by (apply sq_pos || apply Rlt_le, tt_range). f_equal. unfold sq. rewrite x0, x1. unfold XX. ring. Qed.
Lemma len_far : sqrt (sq x C) = (1 - tt) * sqrt (sq C M).
Proof. pose proof tt_range. rewrite <- sqrt_scale by (apply sq_pos || lra). f_equal. unfold sq. rewrite x0, x1. unfold XX. ring. Qed.
Lemma own_P : Rabs (cr x M P) / 2 = tt * (Rabs (gamma * D) / 4).
Proof. pose proof tt_range. rewrite <- area_P. replace (cr x M P) with (tt * cr C M P) by (unfold cr; rewrite x0, x1; unfold XX; ring). rewrite abs_scale by lra. field. Qed.
Lemma own_A : Rabs (cr x M A) / 2 = tt * (Rabs (gamma * D) / 4).
Proof. pose proof tt_range. rewrite <- area_A. replace (cr x M A) with (tt * cr C M A) by (unfold cr; rewrite x0, x1; unfold XX; ring). rewrite abs_scale by lra. field. Qed.
Lemma far_A : Rabs (cr C x A) / 2 = (1 - tt) * (Rabs (gamma * D) / 4).
Proof. pose proof tt_range. rewrite <- area_A. replace (cr C x A) with ((1 - tt) * cr C M A) by (unfold cr; rewrite x0, x1; unfold XX; ring). rewrite abs_scale by lra. field. Qed.
Lemma near_P : Rabs (cr y x P) / 2 = uu * ((1 - tt) * (Rabs (gamma * D) / 4)).
Proof.
  pose proof tt_range. pose proof uu_range. rewrite <- area_P. replace (cr y x P) with (uu * ((1 - tt) * cr C M P)) by (unfold cr; rewrite x0, x1, y0, y1; unfold XX, YY; ring).
  rewrite !abs_scale by lra. field.
Qed.
Lemma far_P : Rabs (cr C x y) / 2 = (1 - uu) * ((1 - tt) * (Rabs (gamma * D) / 4)).
Proof.
  pose proof tt_range. pose proof uu_range. rewrite <- area_P. replace (cr C x y) with ((1 - uu) * ((1 - tt) * cr C M P)) by (unfold cr; rewrite x0, x1, y0, y1; unfold XX, YY; ring).
  rewrite !abs_scale by lra. field.
Qed.
End Triangle.
