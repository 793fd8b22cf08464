(** Proofs of C27. *)
From Coq Require Import Reals List Arith Lia Lra Permutation Psatz.
From Verif Require Import ModelMesh ModelGeom ModelVolume SpecRefine SpecGeom.
Import ListNotations.
Local Open Scope R_scope.

Lemma sum_ext d f g : (forall i, (i < d)%nat -> f i = g i) -> sum_upto d f = sum_upto d g.
Proof. induction d; simpl; intros H; auto. rewrite IHd, H; auto. Qed.
Lemma sum_plus d f g : sum_upto d (fun i => f i + g i) = sum_upto d f + sum_upto d g.
Proof. induction d; simpl; rewrite ?IHd; lra. Qed.
Lemma sum_minus d f g : sum_upto d (fun i => f i - g i) = sum_upto d f - sum_upto d g.
Proof. induction d; simpl; rewrite ?IHd; lra. Qed.
Lemma sum_scal d c f : sum_upto d (fun i => c * f i) = c * sum_upto d f.
Proof. induction d; simpl; rewrite ?IHd; lra. Qed.
Lemma sum_nonneg d f : (forall i, (i < d)%nat -> 0 <= f i) -> 0 <= sum_upto d f.
Proof. induction d; simpl; intros H; [lra|]. pose proof (IHd (fun i Hi => H i (Nat.lt_lt_succ_r _ _ Hi))). specialize (H d (Nat.lt_succ_diag_r d)). lra. Qed.
Lemma sum_le d f g : (forall i, (i < d)%nat -> f i <= g i) -> sum_upto d f <= sum_upto d g.
Proof. induction d; simpl; intros H; [lra|]. pose proof (IHd (fun i Hi => H i (Nat.lt_lt_succ_r _ _ Hi))). specialize (H d (Nat.lt_succ_diag_r d)). lra. Qed.
Lemma sum_zero d f : (forall i, (i < d)%nat -> 0 <= f i) -> sum_upto d f = 0 <-> forall i, (i < d)%nat -> f i = 0.
Proof.
  intros H. split.
  - induction d; intros E i Hi; [lia|]. simpl in E.
    pose proof (sum_nonneg d f (fun i Hi => H i (Nat.lt_lt_succ_r _ _ Hi))). pose proof (H d (Nat.lt_succ_diag_r d)).
    destruct (Nat.eq_dec i d) as [->|]; [lra|]. apply IHd; [intros; apply H; lia|lra|lia].
  - intros E. rewrite (sum_ext d f (fun _ => 0)) by auto. clear. induction d; simpl; lra.
Qed.
Lemma sq_zero x : x * x = 0 <-> x = 0.
Proof. split; [|intros ->; lra]. intros H. destruct (Rmult_integral _ _ H); auto. Qed.

Lemma inner_expand d p q t : inner_prod d (fun i => p i + t * q i) (fun i => p i + t * q i) =
  inner_prod d p p + 2 * t * inner_prod d p q + t * t * inner_prod d q q.
Proof.
  unfold inner_prod. rewrite <- !sum_scal, <- !sum_plus. apply sum_ext. intros; ring.
Qed.
Lemma inner_nonneg d p : 0 <= inner_prod d p p.
Proof. apply sum_nonneg. intros. nra. Qed.
Lemma cauchy d p q : inner_prod d p q * inner_prod d p q <= inner_prod d p p * inner_prod d q q.
Proof.
  set (P := inner_prod d p p). set (Q := inner_prod d q q). set (S := inner_prod d p q).
  assert (F : forall t, 0 <= P + 2 * t * S + t * t * Q).
  { intros t. unfold P, Q, S. rewrite <- inner_expand. apply inner_nonneg. }
  assert (HQ : 0 <= Q) by apply inner_nonneg. assert (HP : 0 <= P) by apply inner_nonneg.
  destruct (Req_EM_T Q 0) as [E|N].
  - destruct (Req_EM_T S 0) as [ES|NS]; [nra|].
    specialize (F (- (P + 1) / (2 * S))).
    replace (P + 2 * (- (P + 1) / (2 * S)) * S + - (P + 1) / (2 * S) * (- (P + 1) / (2 * S)) * Q) with (-1) in F by (rewrite E; field; lra). lra.
  - specialize (F (- S / Q)). assert (0 < Q) by lra.
    replace (P + 2 * (- S / Q) * S + - S / Q * (- S / Q) * Q) with ((P * Q - S * S) / Q) in F by (field; lra).
    assert (0 <= P * Q - S * S); [|lra].
    apply (Rmult_le_compat_r Q) in F; [|lra]. unfold Rdiv in F. rewrite Rmult_assoc, Rinv_l in F by lra. lra.
Qed.

Lemma C27_inner_prod_pf : forall d p q r c,
  inner_prod d p q = inner_prod d q p /\
  inner_prod d (padd p q) r = (inner_prod d p r + inner_prod d q r)%R /\
  inner_prod d (psub p q) r = (inner_prod d p r - inner_prod d q r)%R /\
  inner_prod d (pscale c p) q = (c * inner_prod d p q)%R /\
  (0 <= inner_prod d p p)%R /\
  (inner_prod d p p = 0%R <-> forall i, (i < d)%nat -> p i = 0%R) /\
  (inner_prod d p q ^ 2 <= inner_prod d p p * inner_prod d q q)%R.
Proof.
  intros d p q r c. unfold padd, psub, pscale. repeat split.
  - apply sum_ext. intros; ring.
  - unfold inner_prod. rewrite <- sum_plus. apply sum_ext. intros; ring.
  - unfold inner_prod. rewrite <- sum_minus. apply sum_ext. intros; ring.
  - unfold inner_prod. rewrite <- sum_scal. apply sum_ext. intros; ring.
  - apply inner_nonneg.
  - intros H i Hi. apply sq_zero. revert i Hi. apply sum_zero; auto. intros; nra.
  - intros H. apply sum_zero; [intros; nra|]. intros i Hi. rewrite H by auto. lra.
  - pose proof (cauchy d p q). simpl. lra.
Qed.

Lemma norm_inf_nonneg d p : 0 <= norm_inf d p.
Proof. induction d; simpl; [lra|]. destruct Rlt_dec; auto. apply Rabs_pos. Qed.
Lemma norm_inf_ub d p i : (i < d)%nat -> Rabs (p i) <= norm_inf d p.
Proof.
  induction d; intros H; [lia|]. simpl. destruct (Nat.eq_dec i d) as [->|]; [destruct Rlt_dec; lra|].
  assert (i < d)%nat by lia. specialize (IHd H0). destruct Rlt_dec; lra.
Qed.
Lemma norm_inf_lub d p b : 0 <= b -> (forall i, (i < d)%nat -> Rabs (p i) <= b) -> norm_inf d p <= b.
Proof. induction d; simpl; intros Hb H; auto. destruct Rlt_dec; auto. Qed.

Lemma pow_incr_inv a b : 0 <= b -> 0 <= b -> a ^ 2 <= b ^ 2 -> a <= b.
Proof. intros. simpl in *. nra. Qed.

Lemma C27_norms_pf : forall d,
  is_norm d (norm_1 d) /\ is_norm d (norm_2 d) /\ is_norm d (norm_inf d) /\
  forall p, (norm_2 d p ^ 2 = inner_prod d p p)%R.
Proof.
  intros d. assert (S2 : forall p, norm_2 d p ^ 2 = inner_prod d p p).
  { intros p. unfold norm_2. simpl. rewrite Rmult_1_r. apply sqrt_sqrt, (inner_nonneg d p). }
  assert (N2 : forall p, 0 <= norm_2 d p) by (intros; apply sqrt_pos).
  split; [|split; [|split; [|exact S2]]].
  - split; [|split; [|split]].
    + intros p. apply sum_nonneg. intros; apply Rabs_pos.
    + intros p. unfold norm_1. rewrite sum_zero by (intros; apply Rabs_pos).
      split; intros H i Hi; specialize (H i Hi); [|rewrite H; apply Rabs_R0]. destruct (Req_EM_T (p i) 0); auto. now apply Rabs_no_R0 in n.
    + intros c p. unfold norm_1. rewrite <- sum_scal. apply sum_ext. intros; apply Rabs_mult.
    + intros p q. unfold norm_1. rewrite <- sum_plus. apply sum_le. intros; apply Rabs_triang.
  - split; [exact N2|split; [|split]].
    + intros p. split.
      * intros H i Hi. destruct (C27_inner_prod_pf d p p p 0) as (_ & _ & _ & _ & _ & Z & _). apply Z; auto. rewrite <- S2, H. simpl; lra.
      * intros H. unfold norm_2. replace (sum_upto d (fun i => p i * p i)) with 0; [apply sqrt_0|]. symmetry. apply sum_zero; [intros; nra|]. intros i Hi. rewrite H by auto. lra.
    + intros c p. unfold norm_2. rewrite <- sqrt_Rsqr_abs, <- sqrt_mult; [|apply Rle_0_sqr|apply (inner_nonneg d p)].
      f_equal. unfold Rsqr. rewrite <- sum_scal. apply sum_ext. intros; ring.
    + intros p q. set (a := norm_2 d p). set (b := norm_2 d q). assert (Ha := N2 p : 0 <= a). assert (Hb := N2 q : 0 <= b).
      assert (Sa : a ^ 2 = inner_prod d p p) by apply S2. assert (Sb : b ^ 2 = inner_prod d q q) by apply S2.
      assert (C : inner_prod d p q <= a * b).
      { pose proof (cauchy d p q). rewrite <- Sa, <- Sb in H. apply Rnot_lt_le. intros L.
        assert (0 <= a * b) by now apply Rmult_le_pos. nra. }
      apply pow_incr_inv; [lra|lra|].
      rewrite (S2 (fun i => p i + q i)).
        replace (inner_prod d (fun i => p i + q i) (fun i => p i + q i)) with (inner_prod d p p + 2 * inner_prod d p q + inner_prod d q q).
        2:{ unfold inner_prod. rewrite <- sum_scal, <- !sum_plus. apply sum_ext. intros; ring. }
        rewrite <- Sa, <- Sb. simpl. nra.
  - split; [apply norm_inf_nonneg|split; [|split]].
    + intros p. split.
      * intros H i Hi. pose proof (norm_inf_ub d p i Hi) as U. rewrite H in U. pose proof (Rabs_pos (p i)).
        destruct (Req_EM_T (p i) 0); auto. apply Rabs_no_R0 in n. lra.
      * intros H. apply Rle_antisym; [|apply norm_inf_nonneg]. apply norm_inf_lub; [lra|]. intros i Hi. rewrite H, Rabs_R0 by auto. lra.
    + intros c p. clear S2 N2. induction d as [|d IH]; [simpl; lra|]. simpl. rewrite IH, Rabs_mult.
      pose proof (Rabs_pos c). pose proof (Rabs_pos (p d)). pose proof (norm_inf_nonneg d p).
      destruct (Rlt_dec (Rabs c * norm_inf d p) (Rabs c * Rabs (p d))), (Rlt_dec (norm_inf d p) (Rabs (p d))); try reflexivity; nra.
    + intros p q. apply norm_inf_lub; [pose proof (norm_inf_nonneg d p); pose proof (norm_inf_nonneg d q); lra|].
      intros i Hi. pose proof (norm_inf_ub d p i Hi). pose proof (norm_inf_ub d q i Hi). pose proof (Rabs_triang (p i) (q i)). lra.
Qed.

Ltac pt3 := unfold padd, psub, pscale, inner_prod, cross_prod, dot; cbn [sum_upto].

Lemma C27_cross_prod_pf : forall p q r c i, (i < 3)%nat ->
  cross_prod p q i = (- cross_prod q p i)%R /\
  cross_prod (padd p q) r i = (cross_prod p r i + cross_prod q r i)%R /\
  cross_prod (pscale c p) q i = (c * cross_prod p q i)%R /\
  inner_prod 3 p (cross_prod p q) = 0%R /\
  inner_prod 3 q (cross_prod p q) = 0%R /\
  (norm_2 3 (cross_prod p q) ^ 2 = inner_prod 3 p p * inner_prod 3 q q - inner_prod 3 p q ^ 2)%R /\
  ((forall j, (j < 3)%nat -> cross_prod p q j = 0%R) <->
   exists s t, (s <> 0 \/ t <> 0)%R /\ forall j, (j < 3)%nat -> (s * p j + t * q j = 0)%R).
Proof.
  intros p q r c i Hi. assert (forall P : nat -> Prop, P 0%nat -> P 1%nat -> P 2%nat -> forall j, (j < 3)%nat -> P j) as Cs.
  { intros P H0 H1 H2 [|[|[|j]]] Hj; auto; lia. }
  split; [revert i Hi; apply Cs; pt3; ring|]. split; [revert i Hi; apply Cs; pt3; ring|]. split; [revert i Hi; apply Cs; pt3; ring|].
  split; [pt3; ring|]. split; [pt3; ring|]. split.
  - rewrite (proj2 (proj2 (proj2 (C27_norms_pf 3)))). pt3. ring.
  - split.
    + intros H. pose proof (H 0%nat ltac:(lia)) as E0. pose proof (H 1%nat ltac:(lia)) as E1. pose proof (H 2%nat ltac:(lia)) as E2. cbn in E0, E1, E2.
      destruct (Req_EM_T (inner_prod 3 p p) 0) as [E|N].
      * exists 1, 0. split; [left; lra|]. intros j Hj.
        destruct (C27_inner_prod_pf 3 p p p 0) as (_ & _ & _ & _ & _ & Z & _). rewrite (proj1 Z E j Hj). lra.
      * exists (- inner_prod 3 p q), (inner_prod 3 p p). split; [right; auto|]. apply Cs; pt3;
        [transitivity (- p 1%nat * (p 0%nat * q 1%nat - p 1%nat * q 0%nat) + p 2%nat * (p 2%nat * q 0%nat - p 0%nat * q 2%nat))
        |transitivity (p 0%nat * (p 0%nat * q 1%nat - p 1%nat * q 0%nat) - p 2%nat * (p 1%nat * q 2%nat - p 2%nat * q 1%nat))
        |transitivity (p 1%nat * (p 1%nat * q 2%nat - p 2%nat * q 1%nat) - p 0%nat * (p 2%nat * q 0%nat - p 0%nat * q 2%nat))];
        try ring; rewrite E0, E1 || rewrite E1, E2 || rewrite E0, E2; ring.
    + intros (s & t & N & H). pose proof (H 0%nat ltac:(lia)) as E0. pose proof (H 1%nat ltac:(lia)) as E1. pose proof (H 2%nat ltac:(lia)) as E2.
      assert (Z : forall x y u v, s * x + t * y = 0 -> s * u + t * v = 0 -> x * v - u * y = 0).
      { intros x y u v A B. destruct N as [N|N].
        - apply (Rmult_eq_reg_l s); auto. replace (s * (x * v - u * y)) with ((s * x + t * y) * v - (s * u + t * v) * y) by ring. rewrite A, B. ring.
        - apply (Rmult_eq_reg_l t); auto. replace (t * (x * v - u * y)) with ((s * u + t * v) * x - (s * x + t * y) * u) by ring. rewrite A, B. ring. }
      apply Cs; cbn; [rewrite (Rmult_comm (p 2%nat))|rewrite (Rmult_comm (p 2%nat))|rewrite (Rmult_comm (p 1%nat))];
        rewrite ?(Rmult_comm (q _) (p _)); [apply Z|apply Z|apply Z]; assumption.
Qed.
