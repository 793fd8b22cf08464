(** Proofs of C26. *)
From Coq Require Import Reals List Arith Lia Lra Permutation Psatz.
From Verif Require Import ModelMesh ModelGeom ModelVolume SpecRefine SpecGeom VectorProofs.
Import ListNotations.
Local Open Scope R_scope.

(** The six overloads. *)
Lemma ssv_cases d ps v : signed_spanned_volume d ps = Some v ->
  (exists p q, d = 1%nat /\ ps = [p; q]) \/ (exists p q, d = 2%nat /\ ps = [p; q]) \/
  (exists p q, d = 3%nat /\ ps = [p; q]) \/ (exists p q r, d = 2%nat /\ ps = [p; q; r]) \/
  (exists p q r, d = 3%nat /\ ps = [p; q; r]) \/ (exists p q r s, d = 3%nat /\ ps = [p; q; r; s]).
Proof.
  destruct d as [|[|[|[|d]]]], ps as [|p [|q [|r [|s [|t ps]]]]]; try discriminate; intros _.
  - left. eauto.
  - right. left. eauto.
  - do 3 right. left. eauto 6.
  - do 2 right. left. eauto.
  - do 4 right. left. eauto 6.
  - do 5 right. eauto 8.
Qed.
Ltac ssv H := let T := type of H in
  match T with
  | spanned_volume ?d ?ps = Some ?v =>
     unfold spanned_volume in H; let E := fresh "E" in destruct (signed_spanned_volume d ps) as [?v0|] eqn:E; [|discriminate H];
     cbn [option_map] in H; injection H as H; 
     destruct (ssv_cases _ _ _ E) as [(p & q & -> & ->)|[(p & q & -> & ->)|[(p & q & -> & ->)|[(p & q & r & -> & ->)|[(p & q & r & -> & ->)|(p & q & r & s & -> & ->)]]]]];
     cbn [signed_spanned_volume] in E; injection E as E
  end.
Ltac pt := unfold padd, psub, pscale, inner_prod, cross_prod, norm_2; cbn [sum_upto].
Ltac gr := unfold det, gram, edge_vectors, dot; cbn [det_n map seq length remove_nth nth Rsum fold_right pow fact Nat.add Nat.mul].
Lemma ss2 x y : 0 <= x * x + y * y.
Proof. nra. Qed.
Lemma ss3 x y z : 0 <= x * x + y * y + z * z.
Proof. nra. Qed.
Lemma ss2z x y : x * x + y * y = 0 -> x = 0 /\ y = 0.
Proof. intros; split; nra. Qed.
Lemma ss3z x y z : x * x + y * y + z * z = 0 -> x = 0 /\ y = 0 /\ z = 0.
Proof. intros; repeat split; nra. Qed.
Lemma Rabs_sqr x : Rabs x * Rabs x = x * x.
Proof. rewrite <- Rabs_mult. apply Rabs_pos_eq. nra. Qed.

Lemma C26_is_euclidean_volume_pf : forall d ps v, spanned_volume d ps = Some v ->
  (0 <= v /\ (INR (fact (length ps - 1)) * v) ^ 2 = det (gram d (edge_vectors ps)))%R.
Proof.
  intros d ps v H. ssv H; subst v; (split; [apply Rabs_pos|]); rewrite Rpow_mult_distr; cbn [length Nat.sub];
    replace (Rabs v0 ^ 2) with (v0 * v0) by (simpl; rewrite Rmult_1_r; symmetry; apply Rabs_sqr); rewrite <- E.
  - gr. cbn [INR]. ring.
  - rewrite sqrt_sqrt by (apply ss2 || apply ss3). gr. cbn [INR]. ring.
  - rewrite sqrt_sqrt by (apply ss2 || apply ss3). gr. cbn [INR]. ring.
  - replace (INR (fact 2)) with 2 by (simpl; lra). gr. field.
  - replace (INR (fact 2)) with 2 by (simpl; lra). unfold norm_2.
    set (x := sum_upto _ _). replace (sqrt x / 2 * (sqrt x / 2)) with (sqrt x * sqrt x / 4) by field.
    rewrite sqrt_sqrt by (apply (inner_nonneg 3)). subst x. pt. gr. field.
  - replace (INR (fact 3)) with 6 by (simpl; lra). pt. gr. field.
Qed.

Lemma C26_defined_for_pf : forall d ps,
  spanned_volume d ps <> None <-> (1 <= d <= 3 /\ 2 <= length ps <= d + 1)%nat.
Proof.
  intros d ps. unfold spanned_volume.
  destruct d as [|[|[|[|d]]]], ps as [|p [|q [|r [|s [|t ps]]]]]; cbn; (split; [intros H; try congruence; lia|intros [A B]; try discriminate; try lia]).
Qed.

Lemma ssv_perm_swap d pre x y post v : spanned_volume d (pre ++ x :: y :: post) = Some v -> spanned_volume d (pre ++ y :: x :: post) = Some v.
Proof.
  intros H.
  assert (L : (length (pre ++ x :: y :: post) <= 4)%nat).
  { destruct (proj1 (C26_defined_for_pf d (pre ++ x :: y :: post))) as [A B]; [congruence|lia]. }
  rewrite app_length in L. cbn [length] in L.
  assert (F : forall a b, Rabs a = Rabs b -> Some (Rabs a) = Some v -> Some (Rabs b) = Some v) by (intros; congruence).
  destruct pre as [|a [|b [|c pre]]], post as [|e [|f [|g post]]]; cbn [length] in L; try lia; cbn [app] in *;
    unfold spanned_volume in *; destruct d as [|[|[|[|d]]]]; cbn [signed_spanned_volume option_map] in *; try discriminate; revert H; apply F;
    try (apply Rabs_eq_Rabs_or; fail).
  all: try (f_equal; f_equal; ring).
  all: try (rewrite <- (Rabs_Ropp _); f_equal; pt; field; fail).
  all: try (f_equal; f_equal; unfold norm_2; f_equal; pt; ring).
Qed.

Lemma C26_permutation_pf : forall d ps qs v, Permutation ps qs ->
  spanned_volume d ps = Some v -> spanned_volume d qs = Some v.
Proof.
  intros d ps qs v H. enough (G : forall pre v, spanned_volume d (pre ++ ps) = Some v -> spanned_volume d (pre ++ qs) = Some v) by apply (G []).
  clear v. induction H; intros pre v; auto.
  - intros A. specialize (IHPermutation (pre ++ [x]) v). rewrite <- !app_assoc in IHPermutation. auto.
  - apply ssv_perm_swap.
Qed.

Lemma C26_translation_pf : forall d t ps, spanned_volume d (map (padd t) ps) = spanned_volume d ps.
Proof.
  intros d t ps. unfold spanned_volume.
  destruct d as [|[|[|[|d]]]], ps as [|p [|q [|r [|s [|u ps]]]]]; cbn [map signed_spanned_volume option_map]; try reflexivity; f_equal; f_equal;
    try (unfold padd; field; fail); try (unfold padd; f_equal; ring); pt; f_equal; f_equal; ring.
Qed.

Lemma C26_scaling_pf : forall d s ps v, spanned_volume d ps = Some v ->
  spanned_volume d (map (pscale s) ps) = Some (Rabs s ^ (length ps - 1) * v)%R.
Proof.
  intros d c ps v H. ssv H; subst v; unfold spanned_volume; cbn [map signed_spanned_volume option_map length Nat.sub]; f_equal; subst v0;
    rewrite RPow_abs, <- Rabs_mult.
  - f_equal. pt. simpl. ring.
  - replace (Rabs (c ^ 1 * _)) with (Rabs c * sqrt ((q 0%nat - p 0%nat) * (q 0%nat - p 0%nat) + (q 1%nat - p 1%nat) * (q 1%nat - p 1%nat))).
    2:{ rewrite Rabs_mult, pow_1. f_equal. symmetry. apply Rabs_pos_eq, sqrt_pos. }
    rewrite Rabs_pos_eq by apply sqrt_pos. rewrite <- sqrt_Rsqr_abs, <- sqrt_mult; [|apply Rle_0_sqr|apply ss2 || apply ss3]. f_equal. unfold Rsqr. pt. ring.
  - replace (Rabs (c ^ 1 * _)) with (Rabs c * sqrt ((q 0%nat - p 0%nat) * (q 0%nat - p 0%nat) + (q 1%nat - p 1%nat) * (q 1%nat - p 1%nat) + (q 2%nat - p 2%nat) * (q 2%nat - p 2%nat))).
    2:{ rewrite Rabs_mult, pow_1. f_equal. symmetry. apply Rabs_pos_eq, sqrt_pos. }
    rewrite Rabs_pos_eq by apply sqrt_pos. rewrite <- sqrt_Rsqr_abs, <- sqrt_mult; [|apply Rle_0_sqr|apply ss2 || apply ss3]. f_equal. unfold Rsqr. pt. ring.
  - f_equal. pt. field.
  - rewrite Rabs_mult. replace (Rabs (c ^ 2)) with (c * c) by (symmetry; rewrite Rabs_pos_eq; simpl; nra).
    unfold Rdiv. rewrite !Rabs_mult, !(Rabs_pos_eq (norm_2 _ _)) by apply sqrt_pos. rewrite <- Rmult_assoc. f_equal.
    replace (norm_2 3 (cross_prod (psub (pscale c q) (pscale c p)) (psub (pscale c r) (pscale c p)))) with (norm_2 3 (fun i => (c * c) * cross_prod (psub q p) (psub r p) i)).
    2:{ unfold norm_2. f_equal. pt. ring. }
    rewrite (proj1 (proj2 (proj2 (proj1 (proj2 (C27_norms_pf 3)))))). f_equal. apply Rabs_pos_eq. nra.
  - f_equal. pt. field.
Qed.

Lemma wps2 (wps : list (R * point)) p q : map snd wps = [p; q] -> exists a b, wps = [(a, p); (b, q)].
Proof. destruct wps as [|[a x] [|[b y] [|]]]; try discriminate. intros H. injection H as -> ->. eauto. Qed.
Lemma wps3 (wps : list (R * point)) p q r : map snd wps = [p; q; r] -> exists a b c, wps = [(a, p); (b, q); (c, r)].
Proof. destruct wps as [|[a x] [|[b y] [|[c z] [|]]]]; try discriminate. intros H. injection H as -> -> ->. eauto. Qed.
Lemma wps4 (wps : list (R * point)) p q r s : map snd wps = [p; q; r; s] -> exists a b c e, wps = [(a, p); (b, q); (c, r); (e, s)].
Proof. destruct wps as [|[a x] [|[b y] [|[c z] [|[e w] [|]]]]]; try discriminate. intros H. injection H as -> -> -> ->. eauto 6. Qed.

(** Affine independence in terms of explicit weights. *)
Lemma indep2 d p q : independent d [p; q] <-> forall a b, a + b = 0 -> (forall i, (i < d)%nat -> a * p i + b * q i = 0) -> a = 0 /\ b = 0.
Proof.
  split.
  - intros H a b S C. specialize (H [(a, p); (b, q)] eq_refl). unfold weight_sum, weighted_coord in H. cbn in H.
    specialize (H ltac:(lra) ltac:(intros i Hi; specialize (C i Hi); lra)). inversion H; subst. inversion H3; subst. auto.
  - intros H wps E S C. apply wps2 in E as (a & b & ->). unfold weight_sum, weighted_coord in *. cbn in S, C.
    destruct (H a b) as [-> ->]; [lra|intros i Hi; specialize (C i Hi); lra|]. repeat constructor; auto.
Qed.
Lemma indep3 d p q r : independent d [p; q; r] <-> forall a b c, a + b + c = 0 -> (forall i, (i < d)%nat -> a * p i + b * q i + c * r i = 0) -> a = 0 /\ b = 0 /\ c = 0.
Proof.
  split.
  - intros H a b c S C. specialize (H [(a, p); (b, q); (c, r)] eq_refl). unfold weight_sum, weighted_coord in H. cbn in H.
    specialize (H ltac:(lra) ltac:(intros i Hi; specialize (C i Hi); lra)). inversion H as [|? ? ? H3]; subst. inversion H3 as [|? ? ? H4]; subst. inversion H4; subst. auto.
  - intros H wps E S C. apply wps3 in E as (a & b & c & ->). unfold weight_sum, weighted_coord in *. cbn in S, C.
    destruct (H a b c) as (-> & -> & ->); [lra|intros i Hi; specialize (C i Hi); lra|]. repeat constructor; auto.
Qed.
Lemma indep4 d p q r s : independent d [p; q; r; s] <-> forall a b c e, a + b + c + e = 0 ->
  (forall i, (i < d)%nat -> a * p i + b * q i + c * r i + e * s i = 0) -> a = 0 /\ b = 0 /\ c = 0 /\ e = 0.
Proof.
  split.
  - intros H a b c e S C. specialize (H [(a, p); (b, q); (c, r); (e, s)] eq_refl). unfold weight_sum, weighted_coord in H. cbn in H.
    specialize (H ltac:(lra) ltac:(intros i Hi; specialize (C i Hi); lra)). inversion H as [|? ? ? H3]; subst. inversion H3 as [|? ? ? H4]; subst.
    inversion H4 as [|? ? ? H5]; subst. inversion H5; subst. auto.
  - intros H wps E S C. apply wps4 in E as (a & b & c & e & ->). unfold weight_sum, weighted_coord in *. cbn in S, C.
    destruct (H a b c e) as (-> & -> & -> & ->); [lra|intros i Hi; specialize (C i Hi); lra|]. repeat constructor; auto.
Qed.

(** Vectors: two, three of them are linearly independent. *)
Definition lin2 (d : nat) (a b : point) := forall x y, (forall i, (i < d)%nat -> x * a i + y * b i = 0) -> x = 0 /\ y = 0.
Definition lin3 (d : nat) (a b c : point) := forall x y z, (forall i, (i < d)%nat -> x * a i + y * b i + z * c i = 0) -> x = 0 /\ y = 0 /\ z = 0.
Lemma indep3_lin d p q r : independent d [p; q; r] <-> lin2 d (psub q p) (psub r p).
Proof.
  rewrite indep3. unfold lin2, psub. split; intros H.
  - intros x y C. destruct (H (- x - y) x y) as (_ & A & B); auto; [lra|]. intros i Hi. rewrite <- (C i Hi). ring.
  - intros a b c S C. destruct (H b c) as [-> ->]; [|repeat split; lra]. intros i Hi. rewrite <- (C i Hi). replace a with (- b - c) by lra. ring.
Qed.
Lemma indep4_lin d p q r s : independent d [p; q; r; s] <-> lin3 d (psub q p) (psub r p) (psub s p).
Proof.
  rewrite indep4. unfold lin3, psub. split; intros H.
  - intros x y z C. destruct (H (- x - y - z) x y z) as (_ & A & B); auto; [lra|]. intros i Hi. rewrite <- (C i Hi). ring.
  - intros a b c e S C. destruct (H b c e) as (-> & -> & ->); [|repeat split; lra]. intros i Hi. rewrite <- (C i Hi). replace a with (- b - c - e) by lra. ring.
Qed.
Lemma lt2 (P : nat -> Prop) : (forall i, (i < 2)%nat -> P i) <-> P 0%nat /\ P 1%nat.
Proof. split; [intros H; split; apply H; lia|]. intros [A B] [|[|i]] Hi; auto; lia. Qed.
Lemma lt3 (P : nat -> Prop) : (forall i, (i < 3)%nat -> P i) <-> P 0%nat /\ P 1%nat /\ P 2%nat.
Proof. split; [intros H; repeat split; apply H; lia|]. intros (A & B & C) [|[|[|i]]] Hi; auto; lia. Qed.

Lemma mul_cancel x y : x * y = 0 -> y <> 0 -> x = 0.
Proof. intros H N. destruct (Rmult_integral _ _ H); [auto|contradiction]. Qed.

Lemma lin2_det (a b : point) : lin2 2 a b <-> a 0%nat * b 1%nat - a 1%nat * b 0%nat <> 0.
Proof.
  unfold lin2. split.
  - intros H E.
    destruct (H (b 0%nat) (- a 0%nat)) as [B0 A0]. { apply lt2. split; lra. }
    destruct (H (b 1%nat) (- a 1%nat)) as [B1 A1]. { apply lt2. split; lra. }
    destruct (H 1 0) as [A _]; [|lra]. apply lt2. split; lra.
  - intros N x y C. apply (lt2 (fun i => _)) in C as [C0 C1]. split; apply (mul_cancel _ (a 0%nat * b 1%nat - a 1%nat * b 0%nat)); auto.
    + replace (x * (a 0%nat * b 1%nat - a 1%nat * b 0%nat)) with ((x * a 0%nat + y * b 0%nat) * b 1%nat - (x * a 1%nat + y * b 1%nat) * b 0%nat) by ring. rewrite C0, C1. ring.
    + replace (y * (a 0%nat * b 1%nat - a 1%nat * b 0%nat)) with ((x * a 1%nat + y * b 1%nat) * a 0%nat - (x * a 0%nat + y * b 0%nat) * a 1%nat) by ring. rewrite C0, C1. ring.
Qed.

Lemma lin2_cross (a b : point) : lin2 3 a b <-> inner_prod 3 (cross_prod a b) (cross_prod a b) <> 0.
Proof.
  split.
  - intros H E. destruct (C27_inner_prod_pf 3 (cross_prod a b) a a 0) as (_ & _ & _ & _ & _ & Z & _). pose proof (proj1 Z E) as C.
    destruct (C27_cross_prod_pf a b a 0 0%nat ltac:(lia)) as (_ & _ & _ & _ & _ & _ & W). destruct (proj1 W C) as (s & t & N & D).
    destruct (H s t D) as [-> ->]. destruct N; lra.
  - intros N x y C. destruct (Req_EM_T x 0) as [->|Nx]; [destruct (Req_EM_T y 0) as [->|Ny]; [auto|]|];
      (exfalso; apply N; destruct (C27_inner_prod_pf 3 (cross_prod a b) a a 0) as (_ & _ & _ & _ & _ & Z & _); apply Z;
       destruct (C27_cross_prod_pf a b a 0 0%nat ltac:(lia)) as (_ & _ & _ & _ & _ & _ & W); apply W; eauto).
Qed.

Definition det3 (a b c : point) : R := inner_prod 3 a (cross_prod b c).
Lemma lin3_det (a b c : point) : lin3 3 a b c <-> det3 a b c <> 0.
Proof.
  unfold det3. split.
  - intros H E. assert (N : lin2 3 a b). { intros x y C. destruct (H x y 0) as (A & B & _); auto. intros i Hi. specialize (C i Hi). lra. }
    apply lin2_cross in N. set (n := cross_prod a b) in *.
    destruct (H (inner_prod 3 (cross_prod c b) n) (inner_prod 3 (cross_prod a c) n) (- inner_prod 3 n n)) as (_ & _ & Z); [|lra].
    assert (K : forall i, (i < 3)%nat -> inner_prod 3 (cross_prod c b) n * a i + inner_prod 3 (cross_prod a c) n * b i - inner_prod 3 n n * c i = - inner_prod 3 a (cross_prod b c) * n i).
    { apply lt3. subst n. pt. repeat split; ring. }
    intros i Hi. specialize (K i Hi). rewrite E in K. lra.
  - intros N x y z C. apply (lt3 (fun i => _)) in C as (C0 & C1 & C2). revert N. pt. intros N.
    repeat split; refine (mul_cancel _ _ _ N).
    + transitivity ((x * a 0%nat + y * b 0%nat + z * c 0%nat) * (b 1%nat * c 2%nat - b 2%nat * c 1%nat)
        + (x * a 1%nat + y * b 1%nat + z * c 1%nat) * (b 2%nat * c 0%nat - b 0%nat * c 2%nat)
        + (x * a 2%nat + y * b 2%nat + z * c 2%nat) * (b 0%nat * c 1%nat - b 1%nat * c 0%nat)); [ring|rewrite C0, C1, C2; ring].
    + transitivity ((x * a 0%nat + y * b 0%nat + z * c 0%nat) * (c 1%nat * a 2%nat - c 2%nat * a 1%nat)
        + (x * a 1%nat + y * b 1%nat + z * c 1%nat) * (c 2%nat * a 0%nat - c 0%nat * a 2%nat)
        + (x * a 2%nat + y * b 2%nat + z * c 2%nat) * (c 0%nat * a 1%nat - c 1%nat * a 0%nat)); [ring|rewrite C0, C1, C2; ring].
    + transitivity ((x * a 0%nat + y * b 0%nat + z * c 0%nat) * (a 1%nat * b 2%nat - a 2%nat * b 1%nat)
        + (x * a 1%nat + y * b 1%nat + z * c 1%nat) * (a 2%nat * b 0%nat - a 0%nat * b 2%nat)
        + (x * a 2%nat + y * b 2%nat + z * c 2%nat) * (a 0%nat * b 1%nat - a 1%nat * b 0%nat)); [ring|rewrite C0, C1, C2; ring].
Qed.

Lemma indep2_ne d p q : independent d [p; q] <-> ~ same_point d p q.
Proof.
  rewrite indep2. unfold same_point. split.
  - intros H E. destruct (H 1 (-1)) as [A _]; [lra| |lra]. intros i Hi. rewrite (E i Hi). ring.
  - intros N a b S C. destruct (Req_EM_T a 0) as [->|Na]; [split; lra|]. exfalso. apply N. intros i Hi. specialize (C i Hi).
    replace b with (- a) in C by lra. apply (Rmult_eq_reg_l a); auto. lra.
Qed.
Lemma Rabs_zero x : Rabs x = 0 <-> x = 0.
Proof. split; [|intros ->; apply Rabs_R0]. intros H. destruct (Req_EM_T x 0); auto. now apply Rabs_no_R0 in n. Qed.
Lemma sqrt_zero x : 0 <= x -> sqrt x = 0 <-> x = 0.
Proof. intros H. split; [now apply sqrt_eq_0|intros ->; apply sqrt_0]. Qed.

Lemma C26_zero_iff_dependent_pf : forall d ps v, spanned_volume d ps = Some v ->
  (v = 0%R <-> ~ independent d ps).
Proof.
  intros d ps v H. assert (DN : forall P : Prop, P \/ ~ P -> (~ ~ P <-> P)) by (intros; tauto).
  ssv H; subst v; rewrite Rabs_zero, <- E; clear E v0.
  - rewrite indep2_ne. rewrite DN. 2:{ destruct (Req_EM_T (p 0%nat) (q 0%nat)); [left|right]; unfold same_point; [intros [|i] Hi; auto; lia|intros C; apply n; apply C; lia]. }
    unfold same_point. split; [intros A [|i] Hi; [lra|lia]|intros A; specialize (A 0%nat ltac:(lia)); lra].
  - rewrite indep2_ne, sqrt_zero by (apply ss2 || apply ss3). unfold same_point.
    assert (W : (q 0%nat - p 0%nat) * (q 0%nat - p 0%nat) + (q 1%nat - p 1%nat) * (q 1%nat - p 1%nat) = 0 <-> forall i, (i < 2)%nat -> p i = q i).
    { rewrite lt2. split; [intros A; apply ss2z in A; lra|intros [-> ->]; ring]. }
    rewrite <- W. destruct (Req_EM_T ((q 0%nat - p 0%nat) * (q 0%nat - p 0%nat) + (q 1%nat - p 1%nat) * (q 1%nat - p 1%nat)) 0); tauto.
  - rewrite indep2_ne, sqrt_zero by (apply ss2 || apply ss3). unfold same_point.
    assert (W : (q 0%nat - p 0%nat) * (q 0%nat - p 0%nat) + (q 1%nat - p 1%nat) * (q 1%nat - p 1%nat) + (q 2%nat - p 2%nat) * (q 2%nat - p 2%nat) = 0 <-> forall i, (i < 3)%nat -> p i = q i).
    { rewrite lt3. split; [intros A; apply ss3z in A; lra|intros (-> & -> & ->); ring]. }
    rewrite <- W. destruct (Req_EM_T ((q 0%nat - p 0%nat) * (q 0%nat - p 0%nat) + (q 1%nat - p 1%nat) * (q 1%nat - p 1%nat) + (q 2%nat - p 2%nat) * (q 2%nat - p 2%nat)) 0); tauto.
  - rewrite indep3_lin, lin2_det. unfold psub.
    set (x := (q 0%nat - p 0%nat) * _ - _). replace ((_ + _) / 2) with (x / 2) by (subst x; field).
    destruct (Req_EM_T x 0) as [->|N]; [split; [tauto|lra]|]. split; [lra|tauto].
  - rewrite indep3_lin, lin2_cross. pose proof (inner_nonneg 3 (cross_prod (psub q p) (psub r p))) as P.
    unfold norm_2. fold (inner_prod 3 (cross_prod (psub q p) (psub r p)) (cross_prod (psub q p) (psub r p))).
    set (x := inner_prod 3 _ _) in *. pose proof (sqrt_zero x P). destruct (Req_EM_T x 0) as [Ex|N]; [rewrite Ex in *; split; [tauto|intros _; rewrite sqrt_0; lra]|].
    split; [intros; exfalso; apply N, H; lra|tauto].
  - rewrite indep4_lin, lin3_det. fold (det3 (psub q p) (psub r p) (psub s p)). set (x := det3 _ _ _).
    destruct (Req_EM_T x 0) as [->|N]; [split; [tauto|lra]|]. split; [lra|tauto].
Qed.

Lemma C26_signed_orientation_pf : forall d ps v, length ps = (d + 1)%nat ->
  signed_spanned_volume d ps = Some v ->
  (INR (fact d) * v = det (map (fun e => map e (seq 0 d)) (edge_vectors ps)))%R /\
  spanned_volume d ps = Some (Rabs v) /\
  forall pre x y post, ps = pre ++ x :: y :: post ->
    signed_spanned_volume d (pre ++ y :: x :: post) = Some (- v)%R.
Proof.
  intros d ps v L H. split; [|split; [unfold spanned_volume; rewrite H; reflexivity|]].
  - destruct (ssv_cases _ _ _ H) as [(p & q & -> & ->)|[(p & q & -> & ->)|[(p & q & -> & ->)|[(p & q & r & -> & ->)|[(p & q & r & -> & ->)|(p & q & r & s & -> & ->)]]]]];
      try discriminate L; cbn in H; injection H as <-.
    + gr. simpl. ring.
    + replace (INR (fact 2)) with 2 by (simpl; lra). gr. field.
    + replace (INR (fact 3)) with 6 by (simpl; lra). pt. gr. field.
  - intros pre x y post ->. rewrite app_length in L. cbn [length] in L.
    assert (D : (d <= 3)%nat) by (destruct (ssv_cases _ _ _ H) as [(p & q & -> & _)|[(p & q & -> & _)|[(p & q & -> & _)|[(p & q & r & -> & _)|[(p & q & r & -> & _)|(p & q & r & s & -> & _)]]]]]; lia).
    destruct pre as [|a [|b [|c pre]]], post as [|e [|f [|g post]]]; cbn [length] in L; try (destruct d as [|[|[|[|d]]]]; exfalso; lia); cbn [app] in *;
      destruct d as [|[|[|[|d]]]]; try lia; cbn [signed_spanned_volume] in *; injection H as <-; f_equal; pt; field.
Qed.
