(** Angles between vectors, dihedral angles and solid angles. *)
From Coq Require Import Reals List Arith Lia Lra.
From Verif Require Import ModelTopo ModelMesh ModelGeom ModelVolume ModelGeometry SpecRefine SpecGeom SpecClosest SpecGeometry.
From Verif Require Import VectorProofs CenterProofs SpannedProofs InsideProofs UniqueProofs ClosestProofs GeometryProofs.
Import ListNotations.
Local Open Scope R_scope.

Notation ip := inner_prod.
Definition len (d : nat) (u : point) : R := sqrt (ip d u u).
Definition ang (d : nat) (u v : point) (x : R) : Prop := 0 <= x <= PI /\ ip d u v = len d u * len d v * cos x.
Lemma ang_is d u v x : ang d u v x <-> is_angle d u v x.
Proof. unfold ang, is_angle, len. now rewrite !dot_inner. Qed.
Lemma len_sq d u : len d u * len d u = ip d u u.
Proof. apply sqrt_sqrt, inner_nonneg. Qed.
Lemma len_nonneg d u : 0 <= len d u.
Proof. apply sqrt_pos. Qed.
Lemma len_pos d u : ~ is_zero d u <-> 0 < len d u.
Proof.
  split.
  - intros N. destruct (len_nonneg d u) as [L|L]; [exact L|]. exfalso. apply N. intros i Hi. apply (inner_zero d u); [|exact Hi]. rewrite <- len_sq, <- L. ring.
  - intros L Z. unfold len in L. rewrite (inner_zero_l d u u Z), sqrt_0 in L. lra.
Qed.
Lemma norm_len d u : norm_2 d u = len d u.
Proof. apply norm_inner. Qed.
Lemma cauchy_len d u v : - (len d u * len d v) <= ip d u v <= len d u * len d v.
Proof.
  pose proof (cauchy d u v) as C. rewrite <- (len_sq d u), <- (len_sq d v) in C.
  assert (P : 0 <= len d u * len d v) by (apply Rmult_le_pos; apply len_nonneg).
  assert (Q : Rabs (ip d u v) <= len d u * len d v).
  { rewrite <- (Rabs_pos_eq (len d u * len d v)) by exact P. apply Rsqr_le_abs_0. unfold Rsqr. eapply Rle_trans; [exact C|]. right. ring. }
  pose proof (Rle_abs (ip d u v)). pose proof (Rle_abs (- ip d u v)) as A. rewrite Rabs_Ropp in A. lra.
Qed.
Lemma angle_ang d u v : ~ is_zero d u -> ~ is_zero d v -> exists x, angle d u v = Some x /\ ang d u v x.
Proof.
  intros Nu Nv. apply len_pos in Nu, Nv. pose proof (cauchy_len d u v) as C. unfold angle. cbv zeta. rewrite (norm_len d u), (norm_len d v).
  set (den := len d u * len d v) in *. assert (DP : 0 < den) by (now apply Rmult_lt_0_compat).
  destruct (Rgt_dec (ip d u v) den) as [G|_]; [lra|]. destruct (Rlt_dec (ip d u v) (- den)) as [G|_]; [lra|]. destruct (Req_EM_T den 0) as [G|_]; [lra|].
  assert (B : -1 <= ip d u v / den <= 1).
  { split; (apply Rmult_le_reg_r with den; [exact DP|]); unfold Rdiv; rewrite Rmult_assoc, Rinv_l by lra; lra. }
  eexists. split; [reflexivity|]. split; [apply acos_bound|]. rewrite cos_acos by exact B. fold den. field. lra.
Qed.
Lemma ang_inj d u v x y : ~ is_zero d u -> ~ is_zero d v -> ang d u v x -> ang d u v y -> x = y.
Proof.
  intros Nu Nv [Bx Ex] [By Ey]. apply len_pos in Nu, Nv. rewrite Ex in Ey. rewrite <- (acos_cos x), <- (acos_cos y) by assumption. f_equal.
  apply Rmult_eq_reg_l with (len d u * len d v); [exact Ey|]. apply Rmult_integral_contrapositive. split; lra.
Qed.
Lemma C54_angle_pf : forall d u v,
  (~ is_zero d u -> ~ is_zero d v -> exists x, angle d u v = Some x /\ is_angle d u v x) /\
  (forall x, angle d u v = Some x -> forall y, is_angle d u v y -> x = y) /\
  (angle d u v = None <-> is_zero d u \/ is_zero d v).
Proof.
  intros d u v. assert (A : ~ is_zero d u -> ~ is_zero d v -> exists x, angle d u v = Some x /\ is_angle d u v x).
  { intros Nu Nv. destruct (angle_ang d u v Nu Nv) as (x & E & X). exists x. split; [exact E|]. now apply ang_is. }
  assert (Z : forall w, is_zero d w \/ ~ is_zero d w).
  { intros w. destruct (len_nonneg d w) as [L|L]; [right; now apply len_pos|]. left. intros i Hi. apply (inner_zero d w); [|exact Hi]. rewrite <- len_sq, <- L. ring. }
  assert (N : angle d u v = None <-> is_zero d u \/ is_zero d v).
  { split.
    - intros E. destruct (Z u) as [|Nu]; [now left|]. destruct (Z v) as [|Nv]; [now right|]. destruct (A Nu Nv) as (x & E' & _). congruence.
    - intros H. assert (D0 : len d u * len d v = 0).
      { destruct H as [H|H]; unfold len; rewrite (inner_zero_l d _ _ H), sqrt_0; ring. }
      pose proof (cauchy_len d u v) as C. unfold angle. cbv zeta. rewrite (norm_len d u), (norm_len d v), D0 in *.
      destruct (Rgt_dec _ _); [lra|]. destruct (Rlt_dec _ _); [lra|]. destruct (Req_EM_T 0 0); [reflexivity|lra]. }
  split; [exact A|]. split; [|exact N]. intros x E y Y.
  assert (Nu : ~ is_zero d u) by (intros H; rewrite (proj2 N) in E by (now left); discriminate).
  assert (Nv : ~ is_zero d v) by (intros H; rewrite (proj2 N) in E by (now right); discriminate).
  destruct (A Nu Nv) as (x' & E' & X). replace x with x' by congruence. apply (ang_inj d u v); auto; now apply ang_is.
Qed.

Lemma len_scale d s u : 0 <= s -> len d (fun i => s * u i) = s * len d u.
Proof.
  intros S. unfold len. rewrite (inner_ext d _ _ (fun i => s * u i + 0 * u i) (fun i => s * u i + 0 * u i)) by (intros; ring).
  rewrite inner_lin, !inner_lin_r. replace (s * (s * ip d u u + 0 * ip d u u) + 0 * (s * ip d u u + 0 * ip d u u)) with (s * s * ip d u u) by ring.
  rewrite sqrt_mult_alt by (now apply Rmult_le_pos). now rewrite sqrt_square.
Qed.
Lemma len_ext d u v : (forall i, (i < d)%nat -> u i = v i) -> len d u = len d v.
Proof. intros H. unfold len. f_equal. now apply inner_ext. Qed.
Lemma len_neg d u : len d (fun i => - u i) = len d u.
Proof.
  unfold len. f_equal. rewrite (inner_ext d _ _ (fun i => (-1) * u i + 0 * u i) (fun i => (-1) * u i + 0 * u i)) by (intros; ring).
  rewrite inner_lin, !inner_lin_r. ring.
Qed.
Lemma ang_comm d u v x : ang d u v x -> ang d v u x.
Proof. intros [B E]. split; [exact B|]. rewrite inner_comm, E. ring. Qed.
Lemma ang_ext d u v u' v' x : (forall i, (i < d)%nat -> u i = u' i) -> (forall i, (i < d)%nat -> v i = v' i) -> ang d u v x -> ang d u' v' x.
Proof. intros U V [B E]. split; [exact B|]. rewrite <- (inner_ext d u v u' v'), <- (len_ext d u u'), <- (len_ext d v v') by assumption. exact E. Qed.
Lemma ang_scale d u v x s : 0 < s -> ang d u v x -> ang d (fun i => s * u i) v x.
Proof.
  intros S [B E]. split; [exact B|]. rewrite len_scale by lra. rewrite (inner_ext d _ v (fun i => s * u i + 0 * u i) v) by (intros; try reflexivity; ring).
  rewrite inner_lin, E. ring.
Qed.
Lemma ang_neg d u v x : ang d u v x -> ang d (fun i => - u i) v (PI - x).
Proof.
  intros [B E]. split; [lra|]. rewrite len_neg. rewrite (inner_ext d _ v (fun i => (-1) * u i + 0 * u i) v) by (intros; try reflexivity; ring).
  rewrite inner_lin, E, Rtrigo_facts.cos_pi_minus. ring.
Qed.
Lemma ang_sin d u v x : ang d u v x -> len d u * len d v * sin x = sqrt (ip d u u * ip d v v - ip d u v * ip d u v).
Proof.
  intros [B E]. pose proof (sin_ge_0 x (proj1 B) (proj2 B)) as S. symmetry. apply Rsqr_inj; [apply sqrt_pos| |].
  - repeat apply Rmult_le_pos; auto using len_nonneg.
  - rewrite Rsqr_sqrt by (pose proof (cauchy d u v); lra). rewrite E, <- (len_sq d u), <- (len_sq d v). unfold Rsqr.
    pose proof (sin2_cos2 x) as T. unfold Rsqr in T.
    transitivity (len d u * len d u * (len d v * len d v) * (1 - cos x * cos x)); [ring|]. replace (1 - cos x * cos x) with (sin x * sin x) by lra. ring.
Qed.
Lemma cos_one t : -2 * PI < t < 2 * PI -> cos t = 1 -> t = 0.
Proof.
  intros B C. replace t with (2 * (t / 2)) in C by field. rewrite cos_2a_sin in C.
  assert (S : sin (t / 2) = 0). { apply Rsqr_0_uniq. unfold Rsqr. lra. }
  destruct (Rlt_or_le 0 (t / 2)) as [P|P].
  - pose proof (sin_gt_0 (t / 2) P ltac:(lra)). lra.
  - destruct (Rlt_or_le (t / 2) 0) as [Q|Q]; [|lra]. pose proof (sin_gt_0 (- (t / 2)) ltac:(lra) ltac:(lra)) as G. rewrite sin_neg in G. lra.
Qed.

(** Three vectors in the plane adding up to zero go once around. *)
Lemma around d u v w x y z : (forall i, (i < d)%nat -> u i + v i + w i = 0) -> 0 < len d u -> 0 < len d v -> 0 < len d w ->
  ang d u v z -> ang d v w x -> ang d w u y -> x + y + z = 2 * PI.
Proof.
  intros H A B C Z X Y.
  pose proof (ang_sin _ _ _ _ Z) as SZ. pose proof (ang_sin _ _ _ _ X) as SX. pose proof (ang_sin _ _ _ _ Y) as SY.
  assert (EV : ip d v w = - ip d u v - ip d v v).
  { rewrite (inner_ext d v w v (fun i => (-1) * u i + (-1) * v i)) by (try reflexivity; intros i Hi; specialize (H i Hi); lra). rewrite inner_lin_r, (inner_comm d v u). ring. }
  assert (EU : ip d w u = - ip d u u - ip d u v).
  { rewrite (inner_ext d w u (fun i => (-1) * u i + (-1) * v i) u) by (try reflexivity; intros i Hi; specialize (H i Hi); lra). rewrite inner_lin, (inner_comm d v u). ring. }
  assert (EW : ip d w w = ip d u u + 2 * ip d u v + ip d v v).
  { rewrite (inner_ext d w w (fun i => (-1) * u i + (-1) * v i) (fun i => (-1) * u i + (-1) * v i)) by (intros i Hi; specialize (H i Hi); lra).
    rewrite inner_lin, !inner_lin_r, (inner_comm d v u). ring. }
  assert (N1 : ip d v v * ip d w w - ip d v w * ip d v w = ip d u u * ip d v v - ip d u v * ip d u v) by (rewrite EV, EW; ring).
  assert (N2 : ip d w w * ip d u u - ip d w u * ip d w u = ip d u u * ip d v v - ip d u v * ip d u v) by (rewrite EU, EW; ring).
  rewrite N1 in SX. rewrite N2 in SY. set (N := sqrt (ip d u u * ip d v v - ip d u v * ip d u v)) in *.
  destruct Z as [BZ Z], X as [BX X], Y as [BY Y].
  assert (NN : N * N = ip d u u * ip d v v - ip d u v * ip d u v) by (apply sqrt_sqrt; pose proof (cauchy d u v); lra).
  set (a := len d u) in *. set (b := len d v) in *. set (c := len d w) in *.
  assert (E2 : c * c = a * a + 2 * ip d u v + b * b) by (unfold a, b, c; rewrite !len_sq; exact EW).
  assert (AA : ip d u u = a * a) by (unfold a; now rewrite len_sq). assert (BB : ip d v v = b * b) by (unfold b; now rewrite len_sq).
  rewrite AA, BB in *. set (g := ip d u v) in *. clearbody a b c N g.
  assert (PP : a * b * (c * c) <> 0) by (repeat apply Rmult_integral_contrapositive_currified; lra).
  assert (CXY : cos (x + y) = cos z).
  { rewrite cos_plus. apply Rmult_eq_reg_l with (a * b * (c * c)); [|exact PP].
    transitivity ((b * c * cos x) * (c * a * cos y) - (b * c * sin x) * (c * a * sin y)); [ring|]. rewrite SX, SY, <- X, <- Y, EV, EU.
    transitivity (c * c * (a * b * cos z)); [|ring]. rewrite <- Z, E2, NN. ring. }
  assert (SXY : sin (x + y) = - sin z).
  { rewrite sin_plus. apply Rmult_eq_reg_l with (a * b * (c * c)); [|exact PP].
    transitivity ((b * c * sin x) * (c * a * cos y) + (b * c * cos x) * (c * a * sin y)); [ring|]. rewrite SX, SY, <- X, <- Y, EV, EU.
    transitivity (- (c * c * (a * b * sin z))); [|ring]. rewrite SZ, E2. ring. }
  assert (C1 : cos (x + y + z) = 1).
  { rewrite (cos_plus (x + y) z), CXY, SXY. pose proof (sin2_cos2 z) as T. unfold Rsqr in T. lra. }
  destruct (Rlt_or_le (x + y + z) (2 * PI)) as [L|L].
  - exfalso. assert (S0 : x + y + z = 0) by (apply cos_one; [lra|exact C1]). assert (x = 0) by lra. assert (z = 0) by lra. subst x z. rewrite cos_0 in X, Z.
    assert (0 < a * b) by (now apply Rmult_lt_0_compat). assert (0 < b * c) by (now apply Rmult_lt_0_compat).
    assert (0 < b * b) by (now apply Rmult_lt_0_compat). lra.
  - assert (S0 : x + y + z - 2 * PI = 0); [|lra]. pose proof PI_RGT_0. apply cos_one; [lra|].
    replace (x + y + z - 2 * PI) with (x + y + z + 2 * IZR (-1) * PI) by ring. rewrite <- C1. rewrite cos_plus.
    replace (2 * IZR (-1) * PI) with (- (2 * PI)) by ring. rewrite cos_neg, sin_neg, cos_2PI, sin_2PI. ring.
Qed.

Lemma sub_nz d p q : ~ same_point d p q -> ~ is_zero d (psub p q).
Proof. intros N Z. apply N. intros i Hi. specialize (Z i Hi). unfold psub in Z. lra. Qed.
Lemma C54_triangle_sum_pf : forall d p q r, ~ same_point d p q -> ~ same_point d q r -> ~ same_point d p r ->
  exists x y z, angle_at d q r p = Some x /\ angle_at d p r q = Some y /\ angle_at d p q r = Some z /\ x + y + z = PI.
Proof.
  intros d p q r H1 H2 H3. assert (H1' : ~ same_point d q p) by (intros S; apply H1; intros i Hi; symmetry; now apply S).
  assert (H2' : ~ same_point d r q) by (intros S; apply H2; intros i Hi; symmetry; now apply S). assert (H3' : ~ same_point d r p) by (intros S; apply H3; intros i Hi; symmetry; now apply S).
  unfold angle_at.
  destruct (angle_ang d (psub q p) (psub r p)) as (x & Ex & X); [now apply sub_nz|now apply sub_nz|].
  destruct (angle_ang d (psub p q) (psub r q)) as (y & Ey & Y); [now apply sub_nz|now apply sub_nz|].
  destruct (angle_ang d (psub p r) (psub q r)) as (z & Ez & Z); [now apply sub_nz|now apply sub_nz|].
  exists x, y, z. split; [exact Ex|]. split; [exact Ey|]. split; [exact Ez|].
  assert (S : (PI - z) + (PI - x) + (PI - y) = 2 * PI); [|lra].
  apply (around d (psub q p) (psub r q) (psub p r)); try (apply len_pos; now apply sub_nz).
  - intros i Hi. unfold psub. ring.
  - apply ang_neg in Y. revert Y. apply ang_ext; intros; unfold psub; ring.
  - apply ang_comm, ang_neg in Z. revert Z. apply ang_ext; intros; unfold psub; ring.
  - apply ang_comm, ang_neg in X. revert X. apply ang_ext; intros; unfold psub; ring.
Qed.

(** * Dihedral angles *)
Ltac expand3 := unfold inner_prod, cross_prod, psub in *; cbn [sum_upto] in *.
Lemma cross_inner a b c e : ip 3 (cross_prod a b) (cross_prod c e) = ip 3 a c * ip 3 b e - ip 3 a e * ip 3 b c.
Proof. unfold inner_prod, cross_prod. cbn. ring. Qed.
Lemma lin2_nz a b : lin2 3 a b -> ~ is_zero 3 (cross_prod a b) /\ ~ is_zero 3 a /\ ~ is_zero 3 b.
Proof.
  intros L. split; [|split].
  - apply lin2_cross in L. intros Z. apply L. now apply inner_zero_l.
  - intros Z. destruct (L 1 0) as [Q _]; [|lra]. intros i Hi. rewrite (Z i Hi). ring.
  - intros Z. destruct (L 0 1) as [_ Q]; [|lra]. intros i Hi. rewrite (Z i Hi). ring.
Qed.
Lemma away_inner a b c : ip 3 a a <> 0 -> ip 3 (away_from 3 a b) (away_from 3 a c) = ip 3 (cross_prod a b) (cross_prod a c) / ip 3 a a.
Proof.
  intros N. rewrite cross_inner. unfold away_from. rewrite !dot_inner.
  rewrite (inner_ext 3 _ _ (fun i => 1 * b i + (- (ip 3 b a / ip 3 a a)) * a i) (fun i => 1 * c i + (- (ip 3 c a / ip 3 a a)) * a i)) by (intros; ring).
  rewrite inner_lin, !inner_lin_r, (inner_comm 3 c a), (inner_comm 3 b a). field. exact N.
Qed.
Lemma dihedral_ang a b c : lin2 3 a b -> lin2 3 a c -> exists x, angle 3 (cross_prod a b) (cross_prod a c) = Some x /\
  ang 3 (cross_prod a b) (cross_prod a c) x /\ ang 3 (away_from 3 a b) (away_from 3 a c) x.
Proof.
  intros L1 L2. destruct (lin2_nz a b L1) as (N1 & NA & _). destruct (lin2_nz a c L2) as (N2 & _ & _).
  destruct (angle_ang 3 _ _ N1 N2) as (x & E & X). exists x. split; [exact E|]. split; [exact X|]. destruct X as [B X]. split; [exact B|].
  apply len_pos in NA. assert (NZ : ip 3 a a <> 0) by (rewrite <- len_sq; apply Rmult_integral_contrapositive_currified; lra).
  assert (LL : forall v, len 3 (away_from 3 a v) = len 3 (cross_prod a v) / len 3 a).
  { intros v. unfold len. rewrite away_inner by exact NZ. rewrite sqrt_div_alt; [reflexivity|]. rewrite <- len_sq. now apply Rmult_lt_0_compat. }
  rewrite away_inner by exact NZ. rewrite X, !LL, <- (len_sq 3 a). field. lra.
Qed.
Lemma angle_ext d u v u' v' : (forall i, (i < d)%nat -> u i = u' i) -> (forall i, (i < d)%nat -> v i = v' i) -> angle d u v = angle d u' v'.
Proof. intros U V. unfold angle. cbv zeta. rewrite (norm_len d u), (norm_len d v), (norm_len d u'), (norm_len d v'), (inner_ext d u v u' v') by assumption. now rewrite (len_ext d u u'), (len_ext d v v') by assumption. Qed.
Lemma C54_dihedral_pf : forall o p q r, independent 3 [o; p; q] -> independent 3 [o; p; r] ->
  exists x, dihedral_angle o p q o p r = Some x /\
    is_angle 3 (away_from 3 (fun i => p i - o i) (fun i => q i - o i)) (away_from 3 (fun i => p i - o i) (fun i => r i - o i)) x.
Proof.
  intros o p q r L1 L2. apply indep3_lin in L1, L2. destruct (dihedral_ang _ _ _ L1 L2) as (x & E & _ & X). exists x. split; [exact E|]. now apply ang_is.
Qed.

(** * Solid angles *)
Lemma atan2_pos y x : 0 < y -> exists t, atan2 y x = Some t /\ atan2 (- y) x = Some (- t) /\ 0 < t < PI /\
  sqrt (x * x + y * y) * cos t = x /\ sqrt (x * x + y * y) * sin t = y.
Proof.
  intros Y. pose proof PI_RGT_0 as PI0. set (m := sqrt (x * x + y * y)).
  assert (YY : 0 < y * y) by (now apply Rmult_lt_0_compat). assert (XX : 0 <= x * x) by (apply Rle_0_sqr).
  assert (M0 : 0 < m) by (apply sqrt_lt_R0; lra). assert (MM : m * m = x * x + y * y) by (apply sqrt_sqrt; lra).
  assert (K : x <> 0 -> Rabs x * sqrt (1 + (y / x)²) = m).
  { intros N. apply Rsqr_inj; [apply Rmult_le_pos; [apply Rabs_pos|apply sqrt_pos]|lra|]. unfold Rsqr at 1. assert (P : 0 <= 1 + (y / x)²) by (pose proof (Rle_0_sqr (y / x)); lra).
    transitivity (Rabs x * Rabs x * (sqrt (1 + (y / x)²) * sqrt (1 + (y / x)²))); [ring|]. rewrite (sqrt_sqrt _ P). fold (Rsqr (Rabs x)). rewrite <- Rsqr_abs.
    unfold Rsqr. rewrite MM. field. exact N. }
  assert (AT : x <> 0 -> m * cos (atan (y / x)) = Rabs x /\ m * sin (atan (y / x)) = Rabs x * (y / x)).
  { intros N. rewrite cos_atan, sin_atan. assert (S0 : sqrt (1 + (y / x)²) <> 0).
    { apply Rgt_not_eq. apply sqrt_lt_R0. pose proof (Rle_0_sqr (y / x)). lra. }
    rewrite <- (K N). split; field; auto. }
  assert (NEG : forall v, - y / v = - (y / v)) by (intros; unfold Rdiv; ring).
  unfold atan2. destruct (Rlt_dec 0 x) as [P|P].
  - destruct (AT ltac:(lra)) as [C S]. rewrite Rabs_pos_eq in C, S by lra. assert (YX : 0 < y / x) by (now apply Rdiv_lt_0_compat).
    exists (atan (y / x)). split; [reflexivity|]. split; [rewrite NEG, atan_opp; reflexivity|]. split; [|split; [exact C|rewrite S; field; lra]].
    pose proof (atan_bound (y / x)). split; [|lra]. rewrite <- atan_0. now apply atan_increasing.
  - destruct (Rlt_dec x 0) as [Q|Q].
    + destruct (AT ltac:(lra)) as [C S]. rewrite Rabs_left in C, S by lra.
      destruct (Rle_dec 0 y) as [_|]; [|lra]. destruct (Rle_dec 0 (- y)) as [|_]; [lra|]. assert (YX : y / x < 0) by (unfold Rdiv; pose proof (Rinv_lt_0_compat x Q); nra).
      exists (atan (y / x) + PI). split; [reflexivity|]. split; [rewrite NEG, atan_opp; f_equal; ring|].
      pose proof (atan_bound (y / x)). assert (atan (y / x) < 0) by (rewrite <- atan_0; now apply atan_increasing).
      split; [lra|]. rewrite neg_cos, neg_sin. split; [|replace y with (- (- x * (y / x))) at 2 by (field; lra)]; lra.
    + assert (x = 0) by lra. subst x. destruct (Rlt_dec 0 y) as [_|]; [|lra]. destruct (Rlt_dec 0 (- y)); [lra|]. destruct (Rlt_dec (- y) 0) as [_|]; [|lra].
      exists (PI / 2). split; [reflexivity|]. split; [reflexivity|]. split; [lra|]. rewrite cos_PI2, sin_PI2. split; [ring|]. unfold m. replace (0 * 0 + y * y) with (y * y) by ring. rewrite sqrt_square by lra. ring.
Qed.

(** Girard's theorem in terms of lengths and products. *)
Lemma girard A B C x y z D n1 n2 n3 al be ga th m :
  0 < A -> 0 < B -> 0 < C -> 0 < D -> 0 < n1 -> 0 < n2 -> 0 < n3 -> 0 < m ->
  D * D = A * A * B * B * C * C + 2 * x * y * z - A * A * x * x - B * B * y * y - C * C * z * z ->
  n1 * n1 = B * B * C * C - x * x -> n2 * n2 = A * A * C * C - y * y -> n3 * n3 = A * A * B * B - z * z ->
  0 <= al <= PI -> 0 <= be <= PI -> 0 <= ga <= PI -> 0 < th < PI ->
  n2 * n3 * cos al = A * A * x - y * z -> n2 * n3 * sin al = A * D ->
  n1 * n3 * cos be = B * B * y - x * z -> n1 * n3 * sin be = B * D ->
  n1 * n2 * cos ga = C * C * z - x * y -> n1 * n2 * sin ga = C * D ->
  m * m = (A * B * C + z * C + y * B + x * A) * (A * B * C + z * C + y * B + x * A) + D * D ->
  m * cos th = A * B * C + z * C + y * B + x * A -> m * sin th = D ->
  al + be + ga - PI = 2 * th /\ 0 < al < PI /\ 0 < be < PI /\ 0 < ga < PI.
Proof.
  intros PA PB PC PD P1 P2 P3 Pm ED E1 E2 E3 Ba Bb Bg Bt Ca Sa Cb Sb Cc Sc Em Ct St. pose proof PI_RGT_0 as PI0.
  assert (POS : forall n s X t, 0 < n -> n * s = X * D -> 0 < X -> s = sin t -> 0 <= t <= PI -> 0 < t < PI).
  { intros n s X t Pn E PX -> Bt'. assert (0 < sin t).
    { assert (0 < X * D) by (now apply Rmult_lt_0_compat). apply Rmult_lt_reg_l with n; lra. }
    destruct Bt' as [[L|L] [U|U]]; try lra; subst; rewrite ?sin_0, ?sin_PI in *; lra. }
  assert (Ba' : 0 < al < PI) by (eapply (POS (n2 * n3)); eauto; now apply Rmult_lt_0_compat).
  assert (Bb' : 0 < be < PI) by (eapply (POS (n1 * n3)); eauto; now apply Rmult_lt_0_compat).
  assert (Bg' : 0 < ga < PI) by (eapply (POS (n1 * n2)); eauto; now apply Rmult_lt_0_compat).
  split; [|auto]. set (v := A * B * C + z * C + y * B + x * A) in *.
  set (K := (B * C - x) * (A * C - y) * (A * B - z) / 2).
  assert (EM : n1 * n1 * (n2 * n2) * (n3 * n3) = K * (m * m)). { rewrite Em, E1, E2, E3, ED. unfold K, v. field. }
  assert (MP : 0 < n1 * n1 * (n2 * n2) * (n3 * n3)) by (repeat apply Rmult_lt_0_compat; assumption).
  (* the sum exceeds PI *)
  assert (ZL : z < A * B).
  { assert (0 < A * B - z); [|lra]. assert (0 < (A * B - z) * (A * B + z)) by (replace ((A * B - z) * (A * B + z)) with (n3 * n3) by (rewrite E3; ring); now apply Rmult_lt_0_compat).
    assert (0 < A * B) by (now apply Rmult_lt_0_compat).
    destruct (Rlt_or_le 0 (A * B - z)) as [|L]; [assumption|]. exfalso. assert (0 <= (- (A * B - z)) * (A * B + z)) by (apply Rmult_le_pos; lra). lra. }
  assert (BIG : PI < al + be + ga).
  { destruct (Rlt_or_le (PI - al - be) 0) as [|L]; [lra|]. destruct (Rlt_or_le PI (al + be + ga)) as [|G]; [assumption|]. exfalso.
    assert (C1 : cos (PI - al - be) <= cos ga). { apply cos_decr_1; lra. }
    replace (PI - al - be) with (PI - (al + be)) in C1 by ring. rewrite Rtrigo_facts.cos_pi_minus, cos_plus in C1.
    assert (Q : n1 * n2 * (n3 * n3) * (cos ga + cos al * cos be - sin al * sin be) = D * D * (z - A * B)).
    { transitivity ((n1 * n2 * cos ga) * (n3 * n3) + (n2 * n3 * cos al) * (n1 * n3 * cos be) - (n2 * n3 * sin al) * (n1 * n3 * sin be)); [ring|].
      rewrite Ca, Cb, Cc, Sa, Sb, E3. rewrite (Rmult_comm A D). transitivity ((C * C * z - x * y) * (A * A * B * B - z * z) + (A * A * x - y * z) * (B * B * y - x * z) - A * B * (D * D)); [ring|].
      replace ((C * C * z - x * y) * (A * A * B * B - z * z) + (A * A * x - y * z) * (B * B * y - x * z)) with (D * D * z) by (rewrite ED; ring). ring. }
    assert (0 < n1 * n2 * (n3 * n3)) by (repeat apply Rmult_lt_0_compat; assumption).
    assert (0 < D * D * (A * B - z)) by (repeat apply Rmult_lt_0_compat; lra).
    assert (0 <= n1 * n2 * (n3 * n3) * (cos ga + cos al * cos be - sin al * sin be)) by (apply Rmult_le_pos; lra). lra. }
  assert (RE : n1 * n1 * (n2 * n2) * (n3 * n3) * cos (al + be + ga) = - (K * (v * v - D * D))).
  { rewrite cos_plus, cos_plus, sin_plus.
    transitivity ((n2 * n3 * cos al) * (n1 * n3 * cos be) * (n1 * n2 * cos ga) - (n2 * n3 * sin al) * (n1 * n3 * sin be) * (n1 * n2 * cos ga)
      - (n2 * n3 * sin al) * (n1 * n3 * cos be) * (n1 * n2 * sin ga) - (n2 * n3 * cos al) * (n1 * n3 * sin be) * (n1 * n2 * sin ga)); [ring|].
    rewrite Ca, Cb, Cc, Sa, Sb, Sc.
    transitivity ((A * A * x - y * z) * (B * B * y - x * z) * (C * C * z - x * y) - (D * D) * (A * B * (C * C * z - x * y) + A * C * (B * B * y - x * z) + B * C * (A * A * x - y * z))); [ring|].
    rewrite ED. unfold K, v. field. }
  assert (IM : n1 * n1 * (n2 * n2) * (n3 * n3) * sin (al + be + ga) = - (K * (2 * v * D))).
  { rewrite sin_plus, cos_plus, sin_plus.
    transitivity ((n2 * n3 * sin al) * (n1 * n3 * cos be) * (n1 * n2 * cos ga) + (n2 * n3 * cos al) * (n1 * n3 * sin be) * (n1 * n2 * cos ga)
      + (n2 * n3 * cos al) * (n1 * n3 * cos be) * (n1 * n2 * sin ga) - (n2 * n3 * sin al) * (n1 * n3 * sin be) * (n1 * n2 * sin ga)); [ring|].
    rewrite Ca, Cb, Cc, Sa, Sb, Sc.
    transitivity (D * (A * (B * B * y - x * z) * (C * C * z - x * y) + B * (A * A * x - y * z) * (C * C * z - x * y) + C * (A * A * x - y * z) * (B * B * y - x * z) - A * B * C * (D * D))); [ring|].
    rewrite ED. unfold K, v. field. }
  assert (C2 : cos (al + be + ga) = - cos (2 * th)).
  { apply Rmult_eq_reg_l with (n1 * n1 * (n2 * n2) * (n3 * n3)); [|lra]. rewrite RE, EM, cos_2a, <- Ct, <- St. ring. }
  assert (S2 : sin (al + be + ga) = - sin (2 * th)).
  { apply Rmult_eq_reg_l with (n1 * n1 * (n2 * n2) * (n3 * n3)); [|lra]. rewrite IM, EM, sin_2a, <- Ct, <- St. ring. }
  assert (Z0 : al + be + ga - PI - 2 * th = 0); [|lra]. apply cos_one; [lra|].
  replace (al + be + ga - PI - 2 * th) with ((al + be + ga) + - (PI + 2 * th)) by ring.
  rewrite cos_plus, cos_neg, sin_neg, C2, S2. replace (PI + 2 * th) with (2 * th + PI) by ring. rewrite neg_cos, neg_sin.
  pose proof (sin2_cos2 (2 * th)) as T. unfold Rsqr in T. lra.
Qed.

Lemma solid_core a b c : lin3 3 a b c -> exists al be ga w,
  angle 3 (cross_prod a b) (cross_prod a c) = Some al /\ angle 3 (cross_prod b a) (cross_prod b c) = Some be /\ angle 3 (cross_prod c a) (cross_prod c b) = Some ga /\
  solid_angle a b c = Some w /\ w = al + be + ga - PI /\ 0 < w < 2 * PI /\ 0 < al < PI /\ 0 < be < PI /\ 0 < ga < PI.
Proof.
  intros L. assert (Lab : lin2 3 a b). { intros s t H. destruct (L s t 0) as (? & ? & _); [|auto]. intros i Hi. specialize (H i Hi). lra. }
  assert (Lac : lin2 3 a c). { intros s t H. destruct (L s 0 t) as (? & _ & ?); [|auto]. intros i Hi. specialize (H i Hi). lra. }
  assert (Lbc : lin2 3 b c). { intros s t H. destruct (L 0 s t) as (_ & ? & ?); [|auto]. intros i Hi. specialize (H i Hi). lra. }
  assert (SW : forall u v, lin2 3 u v -> lin2 3 v u). { intros u v H s t E. destruct (H t s) as [? ?]; [|auto]. intros i Hi. specialize (E i Hi). lra. }
  destruct (dihedral_ang a b c Lab Lac) as (al & Ea & Xa & _). destruct (dihedral_ang b a c (SW _ _ Lab) Lbc) as (be & Eb & Xb & _).
  destruct (dihedral_ang c a b (SW _ _ Lac) (SW _ _ Lbc)) as (ga & Ec & Xc & _).
  destruct (lin2_nz a b Lab) as (Nab & Na & Nb). destruct (lin2_nz a c Lac) as (Nac & _ & Nc). destruct (lin2_nz b c Lbc) as (Nbc & _ & _).
  apply len_pos in Na, Nb, Nc, Nab, Nac, Nbc. apply det3_lin in L.
  set (D := Rabs (determinant3 a b c)). assert (DP : 0 < D) by (now apply Rabs_pos_lt).
  set (v := norm_2 3 a * norm_2 3 b * norm_2 3 c + ip 3 a b * norm_2 3 c + ip 3 a c * norm_2 3 b + ip 3 b c * norm_2 3 a).
  destruct (atan2_pos D v DP) as (t & T1 & T2 & Bt & Ct & St).
  assert (SA : solid_angle a b c = Some (2 * t)).
  { change (solid_angle a b c) with (option_map (fun t => Rabs (2 * t)) (atan2 (determinant3 a b c) v)).
    destruct (Rle_or_lt 0 (determinant3 a b c)) as [Q|Q].
    - assert (E : D = determinant3 a b c) by (now apply Rabs_pos_eq). rewrite <- E, T1. cbn. f_equal. apply Rabs_pos_eq. lra.
    - assert (E : - D = determinant3 a b c) by (unfold D; rewrite Rabs_left by exact Q; ring). rewrite <- E, T2. cbn. f_equal. rewrite Rabs_left by lra. ring. }
  exists al, be, ga, (2 * t). split; [exact Ea|]. split; [exact Eb|]. split; [exact Ec|]. split; [exact SA|].
  assert (DD : D * D = determinant3 a b c * determinant3 a b c). { unfold D. fold (Rsqr (Rabs (determinant3 a b c))). rewrite <- Rsqr_abs. reflexivity. }
  assert (SQ : forall u v, len 3 (cross_prod u v) * len 3 (cross_prod u v) = len 3 u * len 3 u * (len 3 v * len 3 v) - ip 3 u v * ip 3 u v).
  { intros u w. rewrite !len_sq, cross_inner, (inner_comm 3 w u). ring. }
  assert (CS : forall u v, len 3 (cross_prod v u) = len 3 (cross_prod u v)).
  { intros u w. unfold len. f_equal. rewrite !cross_inner. ring. }
  assert (SN : forall u v w x, ang 3 (cross_prod u v) (cross_prod u w) x -> determinant3 u v w * determinant3 u v w = D * D ->
     len 3 (cross_prod u v) * len 3 (cross_prod u w) * sin x = len 3 u * D).
  { intros u v' w x X E. rewrite (ang_sin _ _ _ _ X). 
    replace (ip 3 (cross_prod u v') (cross_prod u v') * ip 3 (cross_prod u w) (cross_prod u w) - ip 3 (cross_prod u v') (cross_prod u w) * ip 3 (cross_prod u v') (cross_prod u w))
      with (ip 3 u u * (D * D)) by (rewrite <- E; unfold determinant3, inner_prod, cross_prod; cbn; ring).
    rewrite sqrt_mult_alt by apply inner_nonneg. rewrite sqrt_square by lra. reflexivity. }
  assert (MP : 0 < sqrt (v * v + D * D)). { apply sqrt_lt_R0. pose proof (Rle_0_sqr v) as Q. unfold Rsqr in Q. assert (0 < D * D) by (now apply Rmult_lt_0_compat). lra. }
  assert (MM : sqrt (v * v + D * D) * sqrt (v * v + D * D) = v * v + D * D). { apply sqrt_sqrt. pose proof (Rle_0_sqr v) as Q. unfold Rsqr in Q. assert (0 < D * D) by (now apply Rmult_lt_0_compat). lra. }
  set (m := sqrt (v * v + D * D)) in *.
  destruct (girard (len 3 a) (len 3 b) (len 3 c) (ip 3 b c) (ip 3 a c) (ip 3 a b) D (len 3 (cross_prod b c)) (len 3 (cross_prod a c)) (len 3 (cross_prod a b)) al be ga t m) as (G & G1 & G2 & G3); auto.
  - rewrite DD. replace (len 3 a * len 3 a * len 3 b * len 3 b * len 3 c * len 3 c) with ((len 3 a * len 3 a) * (len 3 b * len 3 b) * (len 3 c * len 3 c)) by ring.
    rewrite !len_sq. unfold determinant3, inner_prod. cbn. ring.
  - rewrite SQ. ring.
  - rewrite SQ. ring.
  - rewrite SQ. ring.
  - apply Xa.
  - apply Xb.
  - apply Xc.
  - destruct Xa as [_ Xa]. rewrite (Rmult_comm (len 3 (cross_prod a c))), <- Xa, cross_inner, len_sq, (inner_comm 3 b a). ring.
  - rewrite (Rmult_comm (len 3 (cross_prod a c))). now apply SN.
  - destruct Xb as [_ Xb]. rewrite (CS a b) in Xb. rewrite (Rmult_comm (len 3 (cross_prod b c))), <- Xb, cross_inner, len_sq. ring.
  - rewrite (Rmult_comm (len 3 (cross_prod b c))), <- (CS a b). apply SN; [exact Xb|]. rewrite DD. unfold determinant3. ring.
  - destruct Xc as [_ Xc]. rewrite (CS a c), (CS b c) in Xc. rewrite (Rmult_comm (len 3 (cross_prod b c))), <- Xc, cross_inner, len_sq, (inner_comm 3 c b). ring.
  - rewrite (Rmult_comm (len 3 (cross_prod b c))), <- (CS a c), <- (CS b c). apply SN; [exact Xc|]. rewrite DD. unfold determinant3. ring.
  - split; [lra|]. split; [lra|]. auto.
Qed.

Lemma C55_solid_angle_pf : forall o p q r, independent 3 [o; p; q; r] ->
  exists w al be ga, solid_angle_at p q r o = Some w /\
    dihedral_angle o p q o p r = Some al /\ dihedral_angle o q p o q r = Some be /\ dihedral_angle o r p o r q = Some ga /\
    w = al + be + ga - PI /\ 0 < w < 2 * PI.
Proof.
  intros o p q r I. apply indep4_lin, solid_core in I. destruct I as (al & be & ga & w & A & B & C & E & W & BW & _).
  exists w, al, be, ga. auto 10.
Qed.

Lemma cross_comb_l a b c s t i : cross_prod (fun j => s * a j + t * b j) c i = s * cross_prod a c i + t * cross_prod b c i.
Proof. destruct i as [|[|[|i]]]; cbn; ring. Qed.
Lemma cross_comb_r a b c s t i : cross_prod c (fun j => s * a j + t * b j) i = s * cross_prod c a i + t * cross_prod c b i.
Proof. destruct i as [|[|[|i]]]; cbn; ring. Qed.
Lemma cross_self a i : cross_prod a a i = 0.
Proof. destruct i as [|[|[|i]]]; cbn; ring. Qed.
Lemma cross_anti a b i : cross_prod b a i = - cross_prod a b i.
Proof. destruct i as [|[|[|i]]]; cbn; ring. Qed.
Lemma angle_some_ang d u v x : angle d u v = Some x -> ~ is_zero d u /\ ~ is_zero d v /\ ang d u v x.
Proof.
  intros E. destruct (C54_angle_pf d u v) as (A & _ & N).
  assert (Nu : ~ is_zero d u) by (intros H; rewrite (proj2 N) in E by (now left); discriminate).
  assert (Nv : ~ is_zero d v) by (intros H; rewrite (proj2 N) in E by (now right); discriminate).
  split; [exact Nu|]. split; [exact Nv|]. destruct (A Nu Nv) as (x' & E' & X). rewrite E in E'. injection E' as ->. now apply ang_is.
Qed.
(** An angle is divided by a vector between its arms. *)
Lemma ang_between d u v w s t x y z : 0 < s -> 0 < t -> (forall i, (i < d)%nat -> w i = s * u i + t * v i) -> ~ is_zero d u -> ~ is_zero d v -> ~ is_zero d w ->
  ang d u w x -> ang d w v y -> ang d u v z -> x + y = z.
Proof.
  intros S T W Nu Nv Nw X Y Z. apply len_pos in Nu, Nv, Nw.
  assert (Q : (PI - y) + (PI - x) + z = 2 * PI); [|lra].
  apply (around d (fun i => s * u i) (fun i => t * v i) (fun i => - w i)).
  - intros i Hi. rewrite (W i Hi). ring.
  - rewrite len_scale by lra. now apply Rmult_lt_0_compat.
  - rewrite len_scale by lra. now apply Rmult_lt_0_compat.
  - now rewrite len_neg.
  - apply ang_scale; [exact S|]. apply ang_comm. apply ang_scale; [exact T|]. now apply ang_comm.
  - apply ang_comm. apply ang_neg. apply ang_comm. apply ang_scale; [exact T|]. now apply ang_comm.
  - apply ang_neg. apply ang_comm. now apply ang_scale.
Qed.

Lemma solid_split a b c s t : 0 < s -> 0 < t -> lin3 3 a b c ->
  exists w w1 w2, solid_angle a b c = Some w /\ solid_angle a (fun i => s * a i + t * b i) c = Some w1 /\ solid_angle (fun i => s * a i + t * b i) b c = Some w2 /\ w = w1 + w2.
Proof.
  intros S T L. set (m := fun i => s * a i + t * b i).
  assert (L1 : lin3 3 a m c).
  { intros x y z H. destruct (L (x + y * s) (y * t) z) as (A & B & C). { intros i Hi. specialize (H i Hi). unfold m in H. lra. }
    assert (y = 0) by (apply Rmult_eq_reg_r with t; lra). subst y. split; [lra|auto]. }
  assert (L2 : lin3 3 m b c).
  { intros x y z H. destruct (L (x * s) (x * t + y) z) as (A & B & C). { intros i Hi. specialize (H i Hi). unfold m in H. lra. }
    assert (x = 0) by (apply Rmult_eq_reg_r with s; lra). subst x. split; [auto|split; lra]. }
  destruct (solid_core a b c L) as (al & be & ga & w & A & B & C & E & W & _).
  destruct (solid_core a m c L1) as (al1 & be1 & ga1 & w1 & A1 & B1 & C1 & E1 & W1 & _).
  destruct (solid_core m b c L2) as (al2 & be2 & ga2 & w2 & A2 & B2 & C2 & E2 & W2 & _).
  exists w, w1, w2. split; [exact E|]. split; [exact E1|]. split; [exact E2|].
  apply angle_some_ang in A, B, C, A1, B1, C1, A2, B2, C2.
  destruct A as (NA & NA' & A), B as (NB & NB' & B), C as (NC & NC' & C), A1 as (NA1 & NA1' & A1), B1 as (NB1 & NB1' & B1), C1 as (NC1 & NC1' & C1), A2 as (NA2 & NA2' & A2), B2 as (NB2 & NB2' & B2), C2 as (NC2 & NC2' & C2).
  assert (Q1 : al1 = al).
  { apply (ang_inj 3 (cross_prod a m) (cross_prod a c)); auto. apply (ang_ext 3 (fun i => t * cross_prod a b i) (cross_prod a c)); [|reflexivity|now apply ang_scale].
    intros i Hi. unfold m. rewrite cross_comb_r, cross_self. ring. }
  assert (Q2 : be2 = be).
  { apply (ang_inj 3 (cross_prod b m) (cross_prod b c)); auto. apply (ang_ext 3 (fun i => s * cross_prod b a i) (cross_prod b c)); [|reflexivity|now apply ang_scale].
    intros i Hi. unfold m. rewrite cross_comb_r, cross_self. ring. }
  assert (Q3 : ga1 + ga2 = ga).
  { apply (ang_between 3 (cross_prod c a) (cross_prod c b) (cross_prod c m) s t); auto. intros i Hi. unfold m. now rewrite cross_comb_r. }
  assert (Q4 : be1 + al2 = PI).
  { assert (QQ : al2 = PI - be1); [|lra]. apply (ang_inj 3 (cross_prod m b) (cross_prod m c)); auto.
    apply (ang_ext 3 (fun i => (s / t) * - cross_prod m a i) (cross_prod m c)); [|reflexivity|].
    - intros i Hi. unfold m. rewrite !cross_comb_l, !cross_self, (cross_anti a b). field. lra.
    - apply ang_scale; [now apply Rdiv_lt_0_compat|]. now apply ang_neg. }
  lra.
Qed.
Lemma atan2_neg y x t : atan2 y x = Some t -> option_map (fun t => Rabs (2 * t)) (atan2 (- y) x) = Some (Rabs (2 * t)).
Proof.
  intros E. destruct (Rtotal_order y 0) as [L|[->|L]].
  - destruct (atan2_pos (- y) x ltac:(lra)) as (u & A & B & _). rewrite Ropp_involutive in B. rewrite E in B. injection B as ->. rewrite A. cbn. f_equal.
    replace (2 * - u) with (- (2 * u)) by ring. now rewrite Rabs_Ropp.
  - rewrite Ropp_0, E. reflexivity.
  - destruct (atan2_pos y x L) as (u & A & B & _). rewrite E in A. injection A as ->. rewrite B. cbn. f_equal.
    replace (2 * - u) with (- (2 * u)) by ring. now rewrite Rabs_Ropp.
Qed.
Lemma atan2_none y x : atan2 y x = None -> y = 0 /\ x = 0.
Proof. unfold atan2. repeat destruct (Rlt_dec _ _); try destruct (Rle_dec _ _); try discriminate. intros _. split; lra. Qed.
Lemma solid_sym a b c : solid_angle b a c = solid_angle a b c /\ solid_angle a c b = solid_angle a b c.
Proof.
  assert (G : forall y x x', x = x' -> option_map (fun t => Rabs (2 * t)) (atan2 (- y) x') = option_map (fun t => Rabs (2 * t)) (atan2 y x)).
  { intros y x x' <-. destruct (atan2 y x) as [t|] eqn:E; [now apply atan2_neg|]. destruct (atan2_none y x E) as [-> ->]. rewrite Ropp_0, E. reflexivity. }
  unfold solid_angle. cbv zeta. split.
  - match goal with |- option_map _ (atan2 ?y' ?x') = option_map _ (atan2 ?y ?x) => replace y' with (- y) by ring; apply G end. rewrite (inner_comm 3 b a). ring.
  - match goal with |- option_map _ (atan2 ?y' ?x') = option_map _ (atan2 ?y ?x) => replace y' with (- y) by ring; apply G end. rewrite (inner_comm 3 c b). ring.
Qed.

Lemma C55_order_pf : forall o p q r, solid_angle_at q p r o = solid_angle_at p q r o /\ solid_angle_at p r q o = solid_angle_at p q r o.
Proof. intros o p q r. apply solid_sym. Qed.

Lemma C55_additive_pf : forall o p q r s, independent 3 [o; p; q; r] -> 0 < s < 1 ->
  let m := fun i => (1 - s) * p i + s * q i in
  exists w w1 w2, solid_angle_at p q r o = Some w /\ solid_angle_at p m r o = Some w1 /\ solid_angle_at m q r o = Some w2 /\ w = w1 + w2.
Proof.
  intros o p q r s I S m. apply indep4_lin in I. destruct (solid_split _ _ _ (1 - s) s ltac:(lra) ltac:(lra) I) as (w & w1 & w2 & E & E1 & E2 & W).
  assert (EX : forall a a' b b' c, (forall i, (i < 3)%nat -> a i = a' i) -> (forall i, (i < 3)%nat -> b i = b' i) -> solid_angle a b c = solid_angle a' b' c).
  { intros a a' b b' c HA HB. unfold solid_angle. cbv zeta. rewrite (norm_len 3 a), (norm_len 3 b), (norm_len 3 a'), (norm_len 3 b'), (norm_len 3 c).
    rewrite (len_ext 3 a a'), (len_ext 3 b b'), (inner_ext 3 a b a' b'), (inner_ext 3 a c a' c), (inner_ext 3 b c b' c) by auto.
    rewrite !HA, !HB by lia. reflexivity. }
  exists w, w1, w2. split; [exact E|]. split; [|split; [|exact W]].
  - rewrite <- E1. apply EX; [reflexivity|]. intros i Hi. unfold m, psub. ring.
  - rewrite <- E2. apply EX; [|reflexivity]. intros i Hi. unfold m, psub. ring.
Qed.

Lemma C55_inside_pf : forall o p q r, independent 3 [p; q; r] -> in_interior 3 [p; q; r] o -> solid_angle_at p q r o = Some (2 * PI).
Proof.
  intros o p q r I (wps & EP & F & W & C).
  destruct wps as [|[s p'] [|[t q'] [|[u r'] [|]]]]; try discriminate EP. injection EP as -> -> ->.
  apply Forall_cons_iff in F as [S F]. apply Forall_cons_iff in F as [T F]. apply Forall_cons_iff in F as [U _]. unfold weight_sum in W. cbn in S, T, U, W.
  assert (H : forall i, (i < 3)%nat -> s * psub p o i + t * psub q o i + u * psub r o i = 0).
  { intros i Hi. specialize (C i Hi). unfold weighted_coord in C. cbn in C. unfold psub. rewrite C. replace u with (1 - s - t) by lra. ring. }
  unfold solid_angle_at. apply indep3_lin in I.
  assert (L2 : lin2 3 (psub p o) (psub q o)).
  { intros x y Z. destruct (I (y - (x + y) * t) (- ((x + y) * u))) as [Q1 Q2].
    - intros i Hi. specialize (H i Hi). specialize (Z i Hi). unfold psub in *.
      transitivity (- (x + y) * (s * (p i - o i) + t * (q i - o i) + u * (r i - o i)) + (x * (p i - o i) + y * (q i - o i)) + (x + y) * (s + (t + (u + 0)) - 1) * (p i - o i)); [ring|]. rewrite H, Z, W. ring.
    - assert (x + y = 0) by (apply Rmult_eq_reg_r with u; lra). assert (y = 0) by (replace y with (y - (x + y) * t + (x + y) * t) by ring; rewrite Q1, H0; ring). split; lra. }
  set (a := psub p o) in *. set (b := psub q o) in *. set (c := psub r o) in *. clearbody a b c.
  assert (G2 : 0 < ip 3 a a * ip 3 b b - ip 3 a b * ip 3 a b). { pose proof (cauchy 3 a b). pose proof (proj1 (gram2 3 a b) L2). lra. }
  destruct (lin2_nz a b L2) as (_ & Na & Nb). apply len_pos in Na, Nb.
  assert (EW : (u * len 3 c) * (u * len 3 c) = (s * len 3 a) * (s * len 3 a) + 2 * (s * t * ip 3 a b) + (t * len 3 b) * (t * len 3 b) /\
    u * s * ip 3 a c = - (s * len 3 a) * (s * len 3 a) - s * t * ip 3 a b /\ u * t * ip 3 b c = - (t * len 3 b) * (t * len 3 b) - s * t * ip 3 a b).
  { pose proof (H 0%nat ltac:(lia)) as H0. pose proof (H 1%nat ltac:(lia)) as H1. pose proof (H 2%nat ltac:(lia)) as H2'.
    assert (UC : forall v, ip 3 v (fun i => u * c i) = ip 3 v (fun i => (- s) * a i + (- t) * b i)) by (intros v; apply inner_ext; [reflexivity|intros i Hi; specialize (H i Hi); lra]).
    assert (UV : forall v, u * ip 3 v c = (- s) * ip 3 v a + (- t) * ip 3 v b).
    { intros v. rewrite <- inner_lin_r, <- UC. rewrite (inner_ext 3 v (fun i => u * c i) v (fun i => u * c i + 0 * c i)) by (try reflexivity; intros; ring). rewrite inner_lin_r. ring. }
    replace ((u * len 3 c) * (u * len 3 c)) with (u * (u * (len 3 c * len 3 c))) by ring. replace ((s * len 3 a) * (s * len 3 a)) with (s * s * (len 3 a * len 3 a)) by ring.
    replace ((t * len 3 b) * (t * len 3 b)) with (t * t * (len 3 b * len 3 b)) by ring. replace (- (s * len 3 a) * (s * len 3 a)) with (- (s * s * (len 3 a * len 3 a))) by ring.
    replace (- (t * len 3 b) * (t * len 3 b)) with (- (t * t * (len 3 b * len 3 b))) by ring. rewrite !len_sq.
    pose proof (UV c) as U1. pose proof (UV a) as U2. pose proof (UV b) as U3. rewrite (inner_comm 3 b a) in U3. rewrite (inner_comm 3 c a), (inner_comm 3 c b) in U1. split; [|split].
    - rewrite U1. transitivity ((- s) * (u * ip 3 a c) + (- t) * (u * ip 3 b c)); [ring|]. rewrite U2, U3. ring.
    - transitivity (s * (u * ip 3 a c)); [ring|]. rewrite U2. ring.
    - transitivity (t * (u * ip 3 b c)); [ring|]. rewrite U3. ring. }
  destruct EW as (EC & EA & EB).
  assert (DET : determinant3 a b c = 0).
  { destruct (Req_EM_T (determinant3 a b c) 0) as [|N]; [assumption|]. exfalso. apply det3_lin in N. destruct (N s t u) as (Q & _); [|lra]. exact H. }
  set (A1 := s * len 3 a) in *. set (B1 := t * len 3 b) in *. set (C1 := u * len 3 c) in *.
  assert (PA : 0 < A1) by (now apply Rmult_lt_0_compat). assert (PB : 0 < B1) by (now apply Rmult_lt_0_compat).
  assert (PC : 0 <= C1) by (apply Rmult_le_pos; [lra|apply len_nonneg]).
  set (g := s * t * ip 3 a b) in *.
  assert (GG : g * g < A1 * B1 * (A1 * B1)).
  { unfold g, A1, B1. replace (s * len 3 a * (t * len 3 b) * (s * len 3 a * (t * len 3 b))) with (s * t * (s * t) * ((len 3 a * len 3 a) * (len 3 b * len 3 b))) by ring. rewrite !len_sq.
    replace (s * t * ip 3 a b * (s * t * ip 3 a b)) with (s * t * (s * t) * (ip 3 a b * ip 3 a b)) by ring. apply Rmult_lt_compat_l; [|lra]. repeat apply Rmult_lt_0_compat; assumption. }
  assert (AB : - (A1 * B1) < g < A1 * B1).
  { assert (0 < A1 * B1) by (now apply Rmult_lt_0_compat). split; apply Rnot_le_lt; intros Q.
    - assert (0 <= (- g - A1 * B1) * (- g + A1 * B1)) by (apply Rmult_le_pos; lra). lra.
    - assert (0 <= (g - A1 * B1) * (g + A1 * B1)) by (apply Rmult_le_pos; lra). lra. }
  assert (T1 : C1 < A1 + B1). { apply Rnot_le_lt. intros Q. assert ((A1 + B1) * (A1 + B1) <= C1 * C1) by (apply Rmult_le_compat; lra). lra. }
  assert (T2 : A1 < B1 + C1). { apply Rnot_le_lt. intros Q. assert (C1 * C1 <= (A1 - B1) * (A1 - B1)) by (apply Rmult_le_compat; lra). lra. }
  assert (T3 : B1 < A1 + C1). { apply Rnot_le_lt. intros Q. assert (C1 * C1 <= (B1 - A1) * (B1 - A1)) by (apply Rmult_le_compat; lra). lra. }
  set (v := norm_2 3 a * norm_2 3 b * norm_2 3 c + ip 3 a b * norm_2 3 c + ip 3 a c * norm_2 3 b + ip 3 b c * norm_2 3 a).
  assert (EV : s * t * u * v = - ((A1 + B1 - C1) * (B1 + C1 - A1) * (C1 + A1 - B1) / 2)).
  { unfold v. rewrite (norm_len 3 a), (norm_len 3 b), (norm_len 3 c).
    transitivity (A1 * B1 * C1 + g * C1 + (u * s * ip 3 a c) * B1 + (u * t * ip 3 b c) * A1); [unfold A1, B1, C1, g; ring|].
    rewrite EA, EB. assert (Eg : g = (C1 * C1 - A1 * A1 - B1 * B1) / 2) by lra. rewrite Eg. field. }
  assert (VN : v < 0).
  { assert (0 < (A1 + B1 - C1) * (B1 + C1 - A1) * (C1 + A1 - B1)) by (repeat apply Rmult_lt_0_compat; lra).
    apply Rmult_lt_reg_l with (s * t * u); [repeat apply Rmult_lt_0_compat; assumption|]. lra. }
  change (solid_angle a b c) with (option_map (fun t => Rabs (2 * t)) (atan2 (determinant3 a b c) v)). rewrite DET. unfold atan2.
  destruct (Rlt_dec 0 v); [lra|]. destruct (Rlt_dec v 0); [|lra]. destruct (Rle_dec 0 0); [|lra]. cbn. f_equal. replace (0 / v) with 0 by (field; lra). rewrite atan_0.
  pose proof PI_RGT_0. rewrite Rabs_pos_eq; lra.
Qed.
