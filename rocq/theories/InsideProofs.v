(** Proofs of C30. *)
From Coq Require Import Reals List Arith Lia Lra Psatz.
From Verif Require Import ModelMesh ModelGeom ModelVolume SpecRefine SpecGeom VectorProofs SpannedProofs VolumeProofs CenterProofs.
Import ListNotations.
Local Open Scope R_scope.

Lemma inner_comm d p q : inner_prod d p q = inner_prod d q p.
Proof. apply sum_ext. intros; ring. Qed.
Lemma inner_lin d x y (p q r : point) : inner_prod d (fun i => x * p i + y * q i) r = x * inner_prod d p r + y * inner_prod d q r.
Proof. unfold inner_prod. rewrite <- !sum_scal, <- sum_plus. apply sum_ext. intros; ring. Qed.
Lemma inner_lin_r d x y (p q r : point) : inner_prod d r (fun i => x * p i + y * q i) = x * inner_prod d r p + y * inner_prod d r q.
Proof. unfold inner_prod. rewrite <- !sum_scal, <- sum_plus. apply sum_ext. intros; ring. Qed.
Lemma inner_zero d (p : point) : inner_prod d p p = 0 -> forall i, (i < d)%nat -> p i = 0.
Proof.
  intros H i Hi. assert (K : p i * p i = 0); [|nra].
  revert i Hi. apply sum_zero; [intros; nra|exact H].
Qed.
Lemma inner_zero_l d (p q : point) : (forall i, (i < d)%nat -> p i = 0) -> inner_prod d p q = 0.
Proof.
  intros H. unfold inner_prod. rewrite (sum_ext _ _ (fun i => 0 * 0)) by (intros i Hi; rewrite H by auto; ring). rewrite sum_scal. ring.
Qed.
Lemma gram2 d (a b : point) : lin2 d a b <-> inner_prod d a a * inner_prod d b b - inner_prod d a b * inner_prod d a b <> 0.
Proof.
  split.
  - intros L E. assert (Z : forall i, (i < d)%nat -> inner_prod d b b * a i + (- inner_prod d a b) * b i = 0).
    { apply inner_zero. rewrite inner_lin, !inner_lin_r, (inner_comm d b a).
      transitivity (inner_prod d b b * (inner_prod d a a * inner_prod d b b - inner_prod d a b * inner_prod d a b)); [ring|rewrite E; ring]. }
    destruct (L _ _ Z) as [B _]. pose proof (inner_zero d b B) as B0.
    destruct (L 0 1) as [_ K]; [|lra]. intros i Hi. rewrite (B0 i Hi). ring.
  - intros N x y H.
    assert (A : x * inner_prod d a a + y * inner_prod d b a = 0) by (rewrite <- inner_lin; now apply inner_zero_l).
    assert (B : x * inner_prod d a b + y * inner_prod d b b = 0) by (rewrite <- inner_lin; now apply inner_zero_l).
    rewrite (inner_comm d b a) in A. split.
    + apply (mul_cancel _ (inner_prod d a a * inner_prod d b b - inner_prod d a b * inner_prod d a b)); auto.
      transitivity ((x * inner_prod d a a + y * inner_prod d a b) * inner_prod d b b - (x * inner_prod d a b + y * inner_prod d b b) * inner_prod d a b); [ring|rewrite A, B; ring].
    + apply (mul_cancel _ (inner_prod d a a * inner_prod d b b - inner_prod d a b * inner_prod d a b)); auto.
      transitivity ((x * inner_prod d a b + y * inner_prod d b b) * inner_prod d a a - (x * inner_prod d a a + y * inner_prod d a b) * inner_prod d a b); [ring|rewrite A, B; ring].
Qed.

Lemma bary3 d p q r ws x : barycentric d [p; q; r] ws x <-> exists a b c, ws = [a; b; c] /\ a + b + c = 1 /\
  forall i, (i < d)%nat -> x i = a * p i + b * q i + c * r i.
Proof.
  unfold barycentric. split.
  - intros (L & S & X). destruct ws as [|a [|b [|c [|]]]]; try discriminate. exists a, b, c. split; auto. cbn in S. split; [lra|]. intros i Hi. rewrite (X i Hi). cbn. lra.
  - intros (a & b & c & -> & S & X). cbn. split; auto. split; [lra|]. intros i Hi. rewrite (X i Hi). lra.
Qed.
Lemma bary4 d p q r s ws x : barycentric d [p; q; r; s] ws x <-> exists a b c e, ws = [a; b; c; e] /\ a + b + c + e = 1 /\
  forall i, (i < d)%nat -> x i = a * p i + b * q i + c * r i + e * s i.
Proof.
  unfold barycentric. split.
  - intros (L & S & X). destruct ws as [|a [|b [|c [|e [|]]]]]; try discriminate. exists a, b, c, e. split; auto. cbn in S. split; [lra|]. intros i Hi. rewrite (X i Hi). cbn. lra.
  - intros (a & b & c & e & -> & S & X). cbn. split; auto. split; [lra|]. intros i Hi. rewrite (X i Hi). lra.
Qed.
Lemma foot_unique d a b c p q x y z : independent d [a; b; c] ->
  x + y + z = 1 -> (forall i, (i < d)%nat -> q i = x * a i + y * b i + z * c i) ->
  inner_prod d (psub p q) (psub b a) = 0 -> inner_prod d (psub p q) (psub c a) = 0 ->
  let v0 := psub c a in let v1 := psub b a in let v2 := psub p a in
  let den := inner_prod d v0 v0 * inner_prod d v1 v1 - inner_prod d v0 v1 * inner_prod d v0 v1 in
  den <> 0 /\
  z = (inner_prod d v1 v1 * inner_prod d v0 v2 - inner_prod d v0 v1 * inner_prod d v1 v2) * (1 / den) /\
  y = (inner_prod d v0 v0 * inner_prod d v1 v2 - inner_prod d v0 v1 * inner_prod d v0 v2) * (1 / den).
Proof.
  intros I S Q H1 H2 v0 v1 v2 den.
  assert (N : den <> 0).
  { apply indep3_lin, gram2 in I. unfold den, v0, v1. rewrite (inner_comm d (psub c a) (psub b a)). lra. }
  assert (E : forall w, inner_prod d (psub p q) w = inner_prod d v2 w - (y * inner_prod d v1 w + z * inner_prod d v0 w)).
  { intros w. rewrite <- inner_lin. unfold inner_prod. rewrite <- sum_minus. apply sum_ext. intros i Hi. unfold v2, v1, v0, psub. rewrite (Q i Hi). replace x with (1 - y - z) by lra. ring. }
  fold v1 in H1. fold v0 in H2. rewrite E in H1, H2. rewrite (inner_comm d v1 v0), (inner_comm d v2 v1) in *. rewrite (inner_comm d v2 v0) in *.
  assert (A1 : inner_prod d v1 v2 = y * inner_prod d v1 v1 + z * inner_prod d v0 v1) by lra.
  assert (A0 : inner_prod d v0 v2 = y * inner_prod d v0 v1 + z * inner_prod d v0 v0) by lra.
  split; auto. rewrite A1, A0. unfold den in *. split; field; auto.
Qed.

Lemma C30_triangle_pf : forall d eps a b c p,
  (independent d [a; b; c] ->
     exists x y z q, is_foot d [a; b; c] p q /\ barycentric d [a; b; c] [x; y; z] q /\
       exists r, is_inside_tri d eps a b c p = Some r /\
         (r = true <-> - (2 * Rabs eps) <= x /\ - Rabs eps <= y /\ - Rabs eps <= z)%R) /\
  (~ independent d [a; b; c] -> is_inside_tri d eps a b c p = None).
Proof.
  intros d eps a b c p. unfold is_inside_tri. cbv zeta.
  set (v0 := psub c a). set (v1 := psub b a). set (v2 := psub p a).
  set (den := inner_prod d v0 v0 * inner_prod d v1 v1 - inner_prod d v0 v1 * inner_prod d v0 v1).
  assert (I : independent d [a; b; c] <-> den <> 0).
  { rewrite indep3_lin, gram2. unfold den, v0, v1. rewrite (inner_comm d (psub c a) (psub b a)). split; lra. }
  rewrite I. destruct (Req_EM_T den 0) as [Z|N]; [split; [contradiction|auto]|]. split; [|contradiction]. intros _.
  set (z := (inner_prod d v1 v1 * inner_prod d v0 v2 - inner_prod d v0 v1 * inner_prod d v1 v2) * (1 / den)).
  set (y := (inner_prod d v0 v0 * inner_prod d v1 v2 - inner_prod d v0 v1 * inner_prod d v0 v2) * (1 / den)).
  set (q := fun i => (1 - y - z) * a i + y * b i + z * c i).
  assert (B : barycentric d [a; b; c] [1 - y - z; y; z] q) by (apply bary3; exists (1 - y - z), y, z; repeat split; auto; lra).
  assert (E : forall w, inner_prod d (fun i => p i - q i) w = inner_prod d w v2 - (y * inner_prod d w v1 + z * inner_prod d w v0)).
  { intros w. rewrite !(inner_comm d w), <- inner_lin. unfold inner_prod. rewrite <- sum_minus. apply sum_ext. intros i Hi. unfold q, v2, v1, v0, psub. ring. }
  exists (1 - y - z), y, z, q. split; [|split; [exact B|]].
  - split; [eauto|]. cbn. intros v [<-|[<-|[]]]; rewrite dot_inner.
    + fold (psub b a). fold v1. rewrite E, (inner_comm d v1 v0). unfold y, z, den in *. field. auto.
    + fold (psub c a). fold v0. rewrite E. unfold y, z, den in *. field. auto.
  - eexists. split; [reflexivity|]. destruct Rle_dec as [U|U]; [|split; [discriminate|intros (_ & _ & K); contradiction]].
    destruct Rle_dec as [V|V]; [|split; [discriminate|intros (_ & K & _); contradiction]].
    destruct Rle_dec as [W|W]; split; try discriminate; auto.
    + intros _. split; [lra|auto].
    + intros (K & _). exfalso. apply W. lra.
Qed.

Lemma C30_triangle_plane_pf : forall a b c p, independent 2 [a; b; c] ->
  exists r, is_inside_tri 2 0 a b c p = Some r /\ (r = true <-> in_hull 2 [a; b; c] p).
Proof.
  intros a b c p I. destruct (proj1 (C30_triangle_pf 2 0 a b c p) I) as (x & y & z & q & [_ F] & B & r & E & R).
  exists r. split; auto. rewrite R, Rabs_R0. apply bary3 in B as (x' & y' & z' & B & S & Q). injection B as <- <- <-.
  assert (SP : forall i, (i < 2)%nat -> p i = q i).
  { cbn in F. pose proof (F _ (or_introl eq_refl)) as F1. pose proof (F _ (or_intror (or_introl eq_refl))) as F2. cbn in F1, F2.
    apply indep3_lin, lin2_det in I. unfold psub in I. set (w0 := p 0%nat - q 0%nat) in *. set (w1 := p 1%nat - q 1%nat) in *.
    assert (w0 = 0). { apply (mul_cancel _ _ ) with (2 := I). transitivity ((w0 * (b 0%nat - a 0%nat) + (w1 * (b 1%nat - a 1%nat) + 0)) * (c 1%nat - a 1%nat) - (w0 * (c 0%nat - a 0%nat) + (w1 * (c 1%nat - a 1%nat) + 0)) * (b 1%nat - a 1%nat)); [ring|rewrite F1, F2; ring]. }
    assert (w1 = 0). { apply (mul_cancel _ _ ) with (2 := I). transitivity ((w0 * (c 0%nat - a 0%nat) + (w1 * (c 1%nat - a 1%nat) + 0)) * (b 0%nat - a 0%nat) - (w0 * (b 0%nat - a 0%nat) + (w1 * (b 1%nat - a 1%nat) + 0)) * (c 0%nat - a 0%nat)); [ring|rewrite F1, F2; ring]. }
    apply lt2. unfold w0, w1 in *. split; lra. }
  rewrite hull3. split.
  - intros (X & Y & Z). exists x, y, z. repeat split; try lra. intros i Hi. rewrite SP by auto. auto.
  - intros (x' & y' & z' & X & Y & Z & S' & P').
    destruct (proj1 (indep3 2 a b c) I (x - x') (y - y') (z - z')) as (A & B & C); [lra| |lra].
    intros i Hi. pose proof (SP i Hi) as E1. rewrite (Q i Hi), (P' i Hi) in E1. lra.
Qed.

Lemma C30_triangle_no_false_negative_pf : forall d eps a b c p, independent d [a; b; c] ->
  in_hull d [a; b; c] p -> is_inside_tri d eps a b c p = Some true.
Proof.
  intros d eps a b c p I H. destruct (proj1 (C30_triangle_pf d eps a b c p) I) as (x & y & z & q & [_ F] & B & r & E & R).
  rewrite E. f_equal. apply R. apply bary3 in B as (x1 & y1 & z1 & B & S & Q). injection B as <- <- <-.
  apply hull3 in H as (x' & y' & z' & X & Y & Z & S' & P').
  assert (F1 : inner_prod d (psub p q) (psub b a) = 0) by (rewrite <- dot_inner; apply F; cbn; auto).
  assert (F2 : inner_prod d (psub p q) (psub c a) = 0) by (rewrite <- dot_inner; apply F; cbn; auto).
  assert (O : forall v, inner_prod d (psub p p) v = 0) by (intros v; apply inner_zero_l; intros; unfold psub; ring).
  destruct (foot_unique d a b c p q x y z I S Q F1 F2) as (_ & Ez & Ey).
  destruct (foot_unique d a b c p p x' y' z' I S' P' (O _) (O _)) as (_ & Ez' & Ey').
  pose proof (Rabs_pos eps). lra.
Qed.

Lemma C30_triangle_space_refuted_pf : forall eps a b c, independent 3 [a; b; c] ->
  exists p, is_inside_tri 3 eps a b c p = Some true /\ ~ in_hull 3 [a; b; c] p.
Proof.
  intros eps a b c I. set (n := cross_prod (psub b a) (psub c a)). exists (padd a n).
  assert (n1 : inner_prod 3 n (psub b a) = 0) by (unfold n; pt; ring). assert (n2 : inner_prod 3 n (psub c a) = 0) by (unfold n; pt; ring).
  assert (nn : inner_prod 3 n n <> 0) by (apply lin2_cross, indep3_lin; auto).
  assert (sub : forall v, inner_prod 3 (psub (padd a n) a) v = inner_prod 3 n v) by (intros v; apply inner_ext; intros i Hi; unfold psub, padd; ring).
  split.
  - destruct (proj1 (C30_triangle_pf 3 eps a b c (padd a n)) I) as (x & y & z & q & [_ F] & B & r & E & R).
    rewrite E. f_equal. apply R. apply bary3 in B as (x1 & y1 & z1 & B & S & Q). injection B as <- <- <-.
    assert (F1 : inner_prod 3 (psub (padd a n) q) (psub b a) = 0) by (rewrite <- dot_inner; apply F; cbn; auto).
    assert (F2 : inner_prod 3 (psub (padd a n) q) (psub c a) = 0) by (rewrite <- dot_inner; apply F; cbn; auto).
    destruct (foot_unique 3 a b c _ q x y z I S Q F1 F2) as (_ & Ez & Ey). cbv zeta in Ez, Ey.
    rewrite (inner_comm 3 (psub c a) (psub (padd a n) a)), (inner_comm 3 (psub b a) (psub (padd a n) a)), !sub, n1, n2 in Ez, Ey.
    rewrite !Rmult_0_r, Rminus_0_r, Rmult_0_l in Ez, Ey. pose proof (Rabs_pos eps). lra.
  - intros H. apply hull3 in H as (x & y & z & X & Y & Z & S & P). apply nn.
    transitivity (inner_prod 3 (fun i => y * psub b a i + z * psub c a i) n).
    + apply inner_ext; intros i Hi; [|reflexivity]. specialize (P i Hi). unfold padd in P. unfold psub. replace x with (1 - y - z) in P by lra. lra.
    + rewrite inner_lin, !(inner_comm 3 _ n), n1, n2. ring.
Qed.

Lemma sv4 a b c e : spanned_volume 3 [a; b; c; e] = Some (Rabs (det3 (psub b a) (psub c a) (psub e a)) / 6).
Proof.
  unfold spanned_volume. cbn [signed_spanned_volume]. cbn [option_map]. f_equal.
  transitivity (Rabs (det3 (psub b a) (psub c a) (psub e a) / 6)); [f_equal; unfold det3; pt; field|].
  unfold Rdiv. rewrite Rabs_mult. f_equal. apply Rabs_pos_eq. lra.
Qed.

Lemma C30_tetrahedron_pf : forall eps a b c e p,
  (independent 3 [a; b; c; e] ->
     exists ws, barycentric 3 [a; b; c; e] ws p /\
       exists r, is_inside_tet eps a b c e p = Some r /\
         (r = true <-> Rsum (map (fun w => Rmax 0 (- w)) ws) <= Rabs eps)%R) /\
  (~ independent 3 [a; b; c; e] -> is_inside_tet eps a b c e p = None).
Proof.
  intros eps a b c e p. unfold is_inside_tet. rewrite !sv4. cbn [obind]. rewrite indep4_lin, lin3_det.
  set (D := det3 (psub b a) (psub c a) (psub e a)).
  destruct (Req_EM_T (Rabs D / 6) 0) as [Z|N].
  - split; auto. intros H. exfalso. apply H, Rabs_zero. lra.
  - assert (ND : D <> 0) by (intros K; apply N; rewrite K, Rabs_R0; lra). split; [|intros H; contradiction]. intros _.
    set (dA := det3 (psub b p) (psub c p) (psub e p)). set (dB := det3 (psub p a) (psub c a) (psub e a)).
    set (dC := det3 (psub b a) (psub p a) (psub e a)). set (dE := det3 (psub b a) (psub c a) (psub p a)).
    assert (S : dA + dB + dC + dE = D) by (unfold dA, dB, dC, dE, D, det3; pt; ring).
    assert (Q : forall x, Rabs x / 6 * (1 / (Rabs D / 6)) = Rabs (x / D)).
    { intros x. replace (Rabs (x / D)) with (Rabs x / Rabs D) by (unfold Rdiv; rewrite Rabs_mult, Rabs_inv; auto). field. now apply Rabs_no_R0. }
    exists [dA / D; dB / D; dC / D; dE / D]. split.
    + apply bary4. exists (dA / D), (dB / D), (dC / D), (dE / D). split; auto. split.
      * transitivity ((dA + dB + dC + dE) / D); [field; auto|rewrite S; field; auto].
      * apply lt3. repeat split; apply (Rmult_eq_reg_r D); auto; 
        match goal with |- _ = (dA / D * ?x + dB / D * ?y + dC / D * ?z + dE / D * ?w) * D =>
          transitivity (dA * x + dB * y + dC * z + dE * w); [|field; auto] end; unfold dA, dB, dC, dE, D, det3; pt; ring.
    + eexists. split; [reflexivity|]. rewrite !Q.
      assert (S1 : dA / D + dB / D + dC / D + dE / D = 1) by (transitivity ((dA + dB + dC + dE) / D); [field; auto|rewrite S; field; auto]).
      set (A := dA / D) in *. set (B := dB / D) in *. set (C := dC / D) in *. set (E := dE / D) in *. clearbody A B C E. clear S Q.
      assert (G : Rabs A + Rabs B + Rabs C + Rabs E = 1 + 2 * Rsum (map (fun w => Rmax 0 (- w)) [A; B; C; E])).
      { assert (K : forall x, Rabs x = x + 2 * Rmax 0 (- x)).
        { intros x. unfold Rmax. destruct Rle_dec; [rewrite Rabs_left1; lra|rewrite Rabs_pos_eq; lra]. }
        cbn. rewrite !K. lra. }
      pose proof (Rabs_pos A). pose proof (Rabs_pos B). pose proof (Rabs_pos C). pose proof (Rabs_pos E). pose proof (Rabs_pos eps).
      repeat (destruct Rle_dec; [|exfalso; lra]). 
      destruct Rle_dec as [W|W]; split; try discriminate; auto; intros; lra.
Qed.

Lemma C30_tetrahedron_exact_pf : forall a b c e p, independent 3 [a; b; c; e] ->
  exists r, is_inside_tet 0 a b c e p = Some r /\ (r = true <-> in_hull 3 [a; b; c; e] p).
Proof.
  intros a b c e p I. destruct (proj1 (C30_tetrahedron_pf 0 a b c e p) I) as (ws & B & r & E & R). exists r. split; auto. rewrite R, Rabs_R0.
  apply bary4 in B as (x & y & z & w & -> & S & P).
  assert (M : forall t, 0 <= Rmax 0 (- t) /\ (Rmax 0 (- t) <= 0 <-> 0 <= t)) by (intros t; unfold Rmax; destruct Rle_dec; split; try split; lra).
  cbn. rewrite hull4. split.
  - intros H. pose proof (M x) as [Mx Nx]. pose proof (M y) as [My Ny]. pose proof (M z) as [Mz Nz]. pose proof (M w) as [Mw Nw].
    exists x, y, z, w. repeat split; auto; [apply Nx|apply Ny|apply Nz|apply Nw]; lra.
  - intros (x' & y' & z' & w' & X & Y & Z & W & S' & P').
    destruct (proj1 (indep4 3 a b c e) I (x - x') (y - y') (z - z') (w - w')) as (A & B & C & D); [lra| |].
    + intros i Hi. pose proof (P i Hi) as E1. rewrite (P' i Hi) in E1. lra.
    + assert (Ex : Rmax 0 (- x) = 0) by (unfold Rmax; destruct Rle_dec; lra). assert (Ey : Rmax 0 (- y) = 0) by (unfold Rmax; destruct Rle_dec; lra).
      assert (Ez : Rmax 0 (- z) = 0) by (unfold Rmax; destruct Rle_dec; lra). assert (Ew : Rmax 0 (- w) = 0) by (unfold Rmax; destruct Rle_dec; lra). lra.
Qed.
