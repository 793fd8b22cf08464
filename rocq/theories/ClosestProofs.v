(** Closest points. *)
From Coq Require Import Reals List Arith Lia Lra Psatz Permutation.
From Verif Require Import ModelMesh ModelGeom ModelVolume ModelClosest SpecRefine SpecGeom SpecClosest VectorProofs SpannedProofs VolumeProofs CenterProofs InsideProofs UniqueProofs RefineGeom.
Import ListNotations.
Local Open Scope R_scope.

Ltac fall := repeat apply Forall_cons; try apply Forall_nil; cbn; lra.
Definition D2 d p q := inner_prod d (psub p q) (psub p q).
Lemma D2_nonneg d p q : 0 <= D2 d p q.
Proof. apply inner_nonneg. Qed.
Lemma pd_D2 d a : pair_distance d a = sqrt (D2 d (fst a) (snd a)).
Proof. unfold pair_distance. rewrite norm_dist, dist_inner. reflexivity. Qed.
Lemma dist_D2 d p q : dist d p q = sqrt (D2 d p q).
Proof. unfold dist. now rewrite dist_inner. Qed.
Lemma sqrt_le a b : 0 <= a -> 0 <= b -> (sqrt a <= sqrt b <-> a <= b).
Proof. intros A B. split; [now apply sqrt_le_0|now apply sqrt_le_1]. Qed.
Lemma pd_le d a b : pair_distance d a <= pair_distance d b <-> D2 d (fst a) (snd a) <= D2 d (fst b) (snd b).
Proof. rewrite !pd_D2. apply sqrt_le; apply D2_nonneg. Qed.
Lemma dist_le d p q p' q' : dist d p q <= dist d p' q' <-> D2 d p q <= D2 d p' q'.
Proof. rewrite !dist_D2. apply sqrt_le; apply D2_nonneg. Qed.
Lemma inner_ext d p q p' q' : (forall i, (i < d)%nat -> p i = p' i) -> (forall i, (i < d)%nat -> q i = q' i) -> inner_prod d p q = inner_prod d p' q'.
Proof. intros H K. apply sum_ext. intros i Hi. now rewrite H, K by auto. Qed.
Lemma D2_ext d p q p' q' : (forall i, (i < d)%nat -> p i = p' i) -> (forall i, (i < d)%nat -> q i = q' i) -> D2 d p q = D2 d p' q'.
Proof. intros H K. apply inner_ext; intros i Hi; unfold psub; now rewrite H, K by auto. Qed.
Lemma D2_sym d p q : D2 d p q = D2 d q p.
Proof. apply sum_ext. intros. unfold psub. ring. Qed.

(** Choosing the shortest pair. *)
Lemma shorter2_spec d a b : (shorter2 d a b = a \/ shorter2 d a b = b) /\
  D2 d (fst (shorter2 d a b)) (snd (shorter2 d a b)) <= D2 d (fst a) (snd a) /\
  D2 d (fst (shorter2 d a b)) (snd (shorter2 d a b)) <= D2 d (fst b) (snd b).
Proof.
  unfold shorter2. destruct Rle_dec as [H|H]; rewrite pd_le in H.
  - split; auto. split; [apply Rle_refl|auto].
  - split; auto. split; lra.
Qed.
Lemma shorter3_spec d a b c : (shorter3 d a b c = a \/ shorter3 d a b c = b \/ shorter3 d a b c = c) /\
  D2 d (fst (shorter3 d a b c)) (snd (shorter3 d a b c)) <= D2 d (fst a) (snd a) /\
  D2 d (fst (shorter3 d a b c)) (snd (shorter3 d a b c)) <= D2 d (fst b) (snd b) /\
  D2 d (fst (shorter3 d a b c)) (snd (shorter3 d a b c)) <= D2 d (fst c) (snd c).
Proof.
  unfold shorter3. repeat destruct Rle_dec as [?H|?H]; rewrite ?pd_le in *; (split; [tauto|]); lra.
Qed.
Lemma shorter4_spec d a b c e : (shorter4 d a b c e = a \/ shorter4 d a b c e = b \/ shorter4 d a b c e = c \/ shorter4 d a b c e = e) /\
  D2 d (fst (shorter4 d a b c e)) (snd (shorter4 d a b c e)) <= D2 d (fst a) (snd a) /\
  D2 d (fst (shorter4 d a b c e)) (snd (shorter4 d a b c e)) <= D2 d (fst b) (snd b) /\
  D2 d (fst (shorter4 d a b c e)) (snd (shorter4 d a b c e)) <= D2 d (fst c) (snd c) /\
  D2 d (fst (shorter4 d a b c e)) (snd (shorter4 d a b c e)) <= D2 d (fst e) (snd e).
Proof.
  unfold shorter4. destruct (shorter2_spec d a b) as (A & A1 & A2), (shorter2_spec d c e) as (C & C1 & C2).
  destruct (shorter2_spec d (shorter2 d a b) (shorter2 d c e)) as (E & E1 & E2).
  split; [destruct E as [E|E]; rewrite E; tauto|]. lra.
Qed.
Lemma shorter6_spec d a b c e f g : (let r := shorter6 d a b c e f g in r = a \/ r = b \/ r = c \/ r = e \/ r = f \/ r = g) /\
  forall x, In x [a; b; c; e; f; g] -> D2 d (fst (shorter6 d a b c e f g)) (snd (shorter6 d a b c e f g)) <= D2 d (fst x) (snd x).
Proof.
  unfold shorter6. destruct (shorter3_spec d a b c) as (A & A1 & A2 & A3), (shorter3_spec d e f g) as (C & C1 & C2 & C3).
  destruct (shorter2_spec d (shorter3 d a b c) (shorter3 d e f g)) as (E & E1 & E2).
  split; [cbn zeta; destruct E as [E|E]; rewrite E; tauto|].
  intros x [<-|[<-|[<-|[<-|[<-|[<-|[]]]]]]]; lra.
Qed.

(** Convex hulls of two, three and four points. *)
Lemma hull2 d a b x : in_hull d [a; b] x <-> exists t, 0 <= t <= 1 /\ forall i, (i < d)%nat -> x i = a i + t * (b i - a i).
Proof.
  split.
  - intros (wps & E & F & W & X). destruct wps as [|[w0 q0] [|[w1 q1] [|]]]; try discriminate. cbn in E. injection E as <- <-.
    unfold weight_sum in W. cbn in W. inversion F as [|? ? F0 F']; subst. inversion F' as [|? ? F1 _]; subst. cbn in F0, F1.
    exists w1. split; [lra|]. intros i Hi. rewrite (X i Hi). unfold weighted_coord. cbn. replace w0 with (1 - w1) by lra. ring.
  - intros (t & T & X). exists [(1 - t, a); (t, b)]. split; [reflexivity|]. split; [fall|].
    split; [unfold weight_sum; cbn; lra|]. intros i Hi. rewrite (X i Hi). unfold weighted_coord. cbn. ring.
Qed.
Lemma hull3 d a b c x : in_hull d [a; b; c] x <-> exists s t, 0 <= s /\ 0 <= t /\ s + t <= 1 /\
  forall i, (i < d)%nat -> x i = a i + s * (b i - a i) + t * (c i - a i).
Proof.
  split.
  - intros (wps & E & F & W & X). destruct wps as [|[w0 q0] [|[w1 q1] [|[w2 q2] [|]]]]; try discriminate. cbn in E. injection E as <- <- <-.
    unfold weight_sum in W. cbn in W. inversion F as [|? ? F0 F']; subst. inversion F' as [|? ? F1 F'']; subst. inversion F'' as [|? ? F2 _]; subst. cbn in F0, F1, F2.
    exists w1, w2. split; [lra|]. split; [lra|]. split; [lra|]. intros i Hi. rewrite (X i Hi). unfold weighted_coord. cbn. replace w0 with (1 - w1 - w2) by lra. ring.
  - intros (s & t & S & T & ST & X). exists [(1 - s - t, a); (s, b); (t, c)]. split; [reflexivity|]. split; [fall|].
    split; [unfold weight_sum; cbn; lra|]. intros i Hi. rewrite (X i Hi). unfold weighted_coord. cbn. ring.
Qed.
Lemma hull4 d a b c e x : in_hull d [a; b; c; e] x <-> exists r s t, 0 <= r /\ 0 <= s /\ 0 <= t /\ r + s + t <= 1 /\
  forall i, (i < d)%nat -> x i = a i + r * (b i - a i) + s * (c i - a i) + t * (e i - a i).
Proof.
  split.
  - intros (wps & E & F & W & X). destruct wps as [|[w0 q0] [|[w1 q1] [|[w2 q2] [|[w3 q3] [|]]]]]; try discriminate. cbn in E. injection E as <- <- <- <-.
    unfold weight_sum in W. cbn in W. inversion F as [|? ? F0 F']; subst. inversion F' as [|? ? F1 F'']; subst. inversion F'' as [|? ? F2 F3]; subst. inversion F3 as [|? ? F4 _]; subst. cbn in F0, F1, F2, F4.
    exists w1, w2, w3. repeat (split; [lra|]). intros i Hi. rewrite (X i Hi). unfold weighted_coord. cbn. replace w0 with (1 - w1 - w2 - w3) by lra. ring.
  - intros (r & s & t & R & S & T & ST & X). exists [(1 - r - s - t, a); (r, b); (s, c); (t, e)]. split; [reflexivity|]. split; [fall|].
    split; [unfold weight_sum; cbn; lra|]. intros i Hi. rewrite (X i Hi). unfold weighted_coord. cbn. ring.
Qed.

(** A point that is nearest, in terms of squares. *)
Definition near d p (S : point -> Prop) q := S q /\ forall x, S x -> D2 d p q <= D2 d p x.
Lemma near_nearest d p S q : near d p S q <-> nearest d p S q.
Proof. unfold near, nearest. split; intros [A B]; (split; [exact A|]); intros x X; apply dist_le; auto. Qed.

(** ** Point and line *)
Lemma quad_expand d (w u : point) t : inner_prod d (fun i => w i - t * u i) (fun i => w i - t * u i) =
  inner_prod d w w - 2 * t * inner_prod d w u + t * t * inner_prod d u u.
Proof. unfold inner_prod. induction d as [|d IH]; cbn; [ring|]. rewrite IH. ring. Qed.
Lemma clamp_opt t t0 : 0 <= t <= 1 -> 0 <= (t - Rmax 0 (Rmin 1 t0)) * (t + Rmax 0 (Rmin 1 t0) - 2 * t0).
Proof.
  intros T. assert (C : exists tau, tau = Rmax 0 (Rmin 1 t0) /\ ((tau = 0 /\ t0 <= 0) \/ tau = t0 \/ (tau = 1 /\ 1 <= t0))).
  { eexists. split; [reflexivity|]. unfold Rmax, Rmin. destruct (Rle_dec 1 t0); destruct (Rle_dec 0 _); lra. }
  destruct C as (tau & <- & C). destruct C as [[-> C]|[->|[-> C]]].
  - apply Rmult_le_pos; lra.
  - replace ((t - t0) * (t + t0 - 2 * t0)) with (Rsqr (t - t0)) by (unfold Rsqr; ring). apply Rle_0_sqr.
  - replace ((t - 1) * (t + 1 - 2 * t0)) with ((1 - t) * (2 * t0 - t - 1)) by ring. apply Rmult_le_pos; lra.
Qed.
Lemma line_near d p a b : near d p (in_hull d [a; b]) (snd (closest_point_line d p a b)).
Proof.
  unfold closest_point_line. cbn [snd]. set (u := psub b a). set (w := psub p a).
  set (t0 := inner_prod d w u / inner_prod d u u). set (tau := Rmax 0 (Rmin 1 t0)).
  assert (T : 0 <= tau <= 1).
  { unfold tau, Rmax, Rmin. repeat destruct Rle_dec; lra. }
  split.
  - apply hull2. exists tau. split; [exact T|]. intros i _. unfold padd, pscale, u, psub. ring.
  - intros x X. apply hull2 in X. destruct X as (t & Ht & X).
    assert (E1 : D2 d p (padd a (pscale tau u)) = inner_prod d w w - 2 * tau * inner_prod d w u + tau * tau * inner_prod d u u).
    { rewrite <- quad_expand. apply inner_ext; intros i _; unfold psub, padd, pscale, w, psub; ring. }
    assert (E2 : D2 d p x = inner_prod d w w - 2 * t * inner_prod d w u + t * t * inner_prod d u u).
    { rewrite <- quad_expand. apply inner_ext; intros i Hi; unfold psub, w, u, psub; rewrite (X i Hi); ring. }
    rewrite E1, E2. pose proof (inner_nonneg d u) as U.
    destruct (Req_dec (inner_prod d u u) 0) as [Z|NZ].
    + pose proof (inner_zero d u Z) as U0. rewrite (inner_comm d w u), (inner_zero_l d u w U0), Z. lra.
    + assert (W : inner_prod d w u = t0 * inner_prod d u u) by (unfold t0; field; exact NZ).
      rewrite W. set (q := inner_prod d u u) in *. assert (Q : 0 < q) by lra.
      assert (G : 0 <= q * ((t - tau) * (t + tau - 2 * t0))).
      { apply Rmult_le_pos; [lra|]. now apply clamp_opt. }
      nra.
Qed.

Lemma C47_point_line_pf : forall d p a b,
  let '(x, y) := closest_point_line d p a b in
  x = p /\ nearest d p (in_hull d [a; b]) y.
Proof. intros d p a b. split; [reflexivity|]. apply near_nearest. exact (line_near d p a b). Qed.

(** ** Leaving a convex set *)
Lemma exit_point (l : list (R * R)) : Forall (fun ab => 0 <= fst ab) l -> Exists (fun ab => snd ab < 0) l ->
  exists k, 0 <= k <= 1 /\ Forall (fun ab => 0 <= fst ab + k * (snd ab - fst ab)) l /\ Exists (fun ab => fst ab + k * (snd ab - fst ab) = 0) l.
Proof.
  induction l as [|[a b] l IH]; intros F E; [inversion E|].
  inversion F as [|? ? A F']; subst. cbn in A.
  destruct (Exists_dec (fun ab : R * R => snd ab < 0) l) as [X|X].
  { intros [x y]. cbn. destruct (Rlt_dec y 0); auto. }
  - destruct (IH F' X) as (k & K & G & Z).
    destruct (Rle_dec 0 (a + k * (b - a))) as [P|P].
    + exists k. split; [exact K|]. split; [now constructor|now constructor 2].
    + assert (B : b < 0) by nra. exists (a / (a - b)).
      assert (M : a / (a - b) * (a - b) = a) by (field; lra).
      assert (M0 : 0 <= a / (a - b)) by (apply Rmult_le_pos; [lra|left; apply Rinv_0_lt_compat; lra]).
      assert (M1 : a / (a - b) <= k) by nra.
      set (m := a / (a - b)) in *. split; [lra|]. split.
      * constructor; [cbn; nra|]. rewrite Forall_forall in *. intros [x y] I. specialize (G _ I). specialize (F' _ I). cbn in *.
        destruct (Rle_dec x y); nra.
      * constructor 1. cbn. nra.
  - inversion E as [? ? B|? ? B]; subst; [|now elim X]. cbn in B. exists (a / (a - b)).
    assert (M : a / (a - b) * (a - b) = a) by (field; lra).
    assert (M0 : 0 <= a / (a - b)) by (apply Rmult_le_pos; [lra|left; apply Rinv_0_lt_compat; lra]).
    set (m := a / (a - b)) in *. assert (M1 : m <= 1) by nra. split; [lra|]. split.
    + constructor; [cbn; nra|]. rewrite Forall_forall in *. intros [x y] I. specialize (F' _ I). cbn in *.
      assert (Y : 0 <= y). { destruct (Rlt_dec y 0) as [L|L]; [|lra]. elim X. apply Exists_exists. exists (x, y). auto. }
      nra.
    + constructor 1. cbn. nra.
Qed.

Lemma D2_shrink d q x y k : 0 <= k <= 1 -> (forall i, (i < d)%nat -> y i = x i + k * (q i - x i)) -> D2 d q y <= D2 d q x.
Proof.
  intros K Y. assert (E : D2 d q y = (1 - k) * (1 - k) * D2 d q x).
  { unfold D2. rewrite (inner_ext d _ _ (fun i => (1 - k) * psub q x i + 0 * psub q x i) (fun i => (1 - k) * psub q x i + 0 * psub q x i)).
    - rewrite inner_lin, inner_lin_r. ring.
    - intros i Hi. unfold psub. rewrite (Y i Hi). ring.
    - intros i Hi. unfold psub. rewrite (Y i Hi). ring. }
  rewrite E. pose proof (D2_nonneg d q x). assert ((1 - k) * (1 - k) <= 1) by nra. nra.
Qed.
Lemma pyth d p q x : inner_prod d (psub p q) (psub q x) = 0 -> D2 d p x = D2 d p q + D2 d q x.
Proof.
  intros H. transitivity (D2 d p q + D2 d q x + 2 * inner_prod d (psub p q) (psub q x)); [|rewrite H; ring].
  unfold D2, inner_prod, psub. clear H. induction d as [|d IH]; cbn; [ring|]. rewrite IH. ring.
Qed.

(** ** Point and triangle *)
Lemma triangle_exit d a b c q s t : (forall i, (i < d)%nat -> q i = a i + s * (b i - a i) + t * (c i - a i)) ->
  s < 0 \/ t < 0 \/ s + t > 1 -> forall x, in_hull d [a; b; c] x ->
  exists y e, In e [[a; b]; [a; c]; [b; c]] /\ in_hull d e y /\ D2 d q y <= D2 d q x.
Proof.
  intros Q O x X. apply hull3 in X. destruct X as (s' & t' & S & T & ST & X).
  destruct (exit_point [(s', s); (t', t); (1 - s' - t', 1 - s - t)]) as (k & K & F & E).
  { fall. }
  { destruct O as [O|[O|O]]; [constructor 1|constructor 2; constructor 1|constructor 2; constructor 2; constructor 1]; cbn; lra. }
  inversion F as [|? ? F0 F']; subst. inversion F' as [|? ? F1 F'']; subst. inversion F'' as [|? ? F2 _]; subst. cbn in F0, F1, F2.
  exists (fun i => x i + k * (q i - x i)).
  assert (N : D2 d q (fun i => x i + k * (q i - x i)) <= D2 d q x) by (apply (D2_shrink d q x _ k K); auto).
  inversion E as [? ? E0|? ? E']; subst; [|inversion E' as [? ? E0|? ? E'']; subst; [|inversion E'' as [? ? E0|? ? E3]; subst; [|inversion E3]]]; cbn in E0.
  - exists [a; c]. split; [cbn; tauto|]. split; [|exact N]. apply hull2. exists (t' + k * (t - t')). split; [lra|].
    intros i Hi. rewrite (X i Hi), (Q i Hi). transitivity (a i + (s' + k * (s - s')) * (b i - a i) + (t' + k * (t - t')) * (c i - a i)); [ring|]. rewrite E0. ring.
  - exists [a; b]. split; [cbn; tauto|]. split; [|exact N]. apply hull2. exists (s' + k * (s - s')). split; [lra|].
    intros i Hi. rewrite (X i Hi), (Q i Hi). transitivity (a i + (s' + k * (s - s')) * (b i - a i) + (t' + k * (t - t')) * (c i - a i)); [ring|]. rewrite E0. ring.
  - exists [b; c]. split; [cbn; tauto|]. split; [|exact N]. apply hull2. exists (t' + k * (t - t')). split; [lra|].
    intros i Hi. rewrite (X i Hi), (Q i Hi).
    assert (E1 : s' + k * (s - s') = 1 - (t' + k * (t - t'))) by lra.
    transitivity (a i + (s' + k * (s - s')) * (b i - a i) + (t' + k * (t - t')) * (c i - a i)); [ring|]. rewrite E1. ring.
Qed.

Lemma orth2 d p q (u0 u1 x : point) a b : inner_prod d (psub p q) u0 = 0 -> inner_prod d (psub p q) u1 = 0 ->
  (forall i, (i < d)%nat -> q i - x i = a * u0 i + b * u1 i) -> inner_prod d (psub p q) (psub q x) = 0.
Proof.
  intros A B X. rewrite (inner_ext d _ _ (psub p q) (fun i => a * u0 i + b * u1 i)); auto.
  rewrite inner_lin_r, A, B. ring.
Qed.

Lemma hull_edge_tri d a b c e x : In e [[a; b]; [a; c]; [b; c]] -> in_hull d e x -> in_hull d [a; b; c] x.
Proof.
  intros I X. apply hull3. destruct I as [<-|[<-|[<-|[]]]]; apply hull2 in X; destruct X as (t & T & X).
  - exists t, 0. repeat (split; [lra|]). intros i Hi. rewrite (X i Hi). ring.
  - exists 0, t. repeat (split; [lra|]). intros i Hi. rewrite (X i Hi). ring.
  - exists (1 - t), t. repeat (split; [lra|]). intros i Hi. rewrite (X i Hi). ring.
Qed.

Lemma outside01_spec x : outside01 x = true <-> x < 0 \/ x > 1.
Proof. unfold outside01. destruct Rlt_dec; [tauto|]. destruct Rgt_dec; [tauto|]. split; [discriminate|lra]. Qed.
Lemma above1_spec x : above1 x = true <-> x > 1.
Proof. unfold above1. destruct Rgt_dec; [tauto|]. split; [discriminate|lra]. Qed.

Lemma triangle_near d p a b c : independent d [a; b; c] ->
  exists q, closest_point_triangle d p a b c = Some (p, q) /\ near d p (in_hull d [a; b; c]) q.
Proof.
  intros I. apply indep3_lin, gram2 in I. unfold closest_point_triangle. cbv zeta.
  set (u0 := psub b a) in *. set (u1 := psub c a) in *. set (u := psub p a).
  set (A := inner_prod d u0 u0) in *. set (B := inner_prod d u0 u1) in *. set (E := inner_prod d u1 u1) in *.
  set (U0 := inner_prod d u u0). set (U1 := inner_prod d u u1).
  destruct Req_EM_T as [Z|NZ]; [now elim I|].
  set (s := (E * U0 - B * U1) / (A * E - B * B)). set (t := (- B * U0 + A * U1) / (A * E - B * B)).
  set (q := padd (padd a (pscale s u0)) (pscale t u1)).
  assert (Q : forall i, q i = a i + s * (b i - a i) + t * (c i - a i)).
  { intros i. unfold q, padd, pscale, u0, u1, psub. ring. }
  assert (PQ : forall i, psub p q i = 1 * u i + 1 * (- s * u0 i + - t * u1 i)).
  { intros i. unfold psub at 1. rewrite Q. unfold u, u0, u1, psub. ring. }
  assert (O0 : inner_prod d (psub p q) u0 = 0).
  { rewrite (inner_ext d _ u0 (fun i => 1 * u i + 1 * (- s * u0 i + - t * u1 i)) u0) by auto.
    rewrite inner_lin, inner_lin, (inner_comm d u1 u0). fold U0 A B. unfold s, t. field. exact NZ. }
  assert (O1 : inner_prod d (psub p q) u1 = 0).
  { rewrite (inner_ext d _ u1 (fun i => 1 * u i + 1 * (- s * u0 i + - t * u1 i)) u1) by auto.
    rewrite inner_lin, inner_lin. fold U1 B E. unfold s, t. field. exact NZ. }
  assert (PY : forall x, in_hull d [a; b; c] x -> D2 d p x = D2 d p q + D2 d q x).
  { intros x X. apply pyth. apply hull3 in X. destruct X as (s' & t' & _ & _ & _ & X).
    apply (orth2 d p q u0 u1 x (s - s') (t - t')); auto. intros i Hi. rewrite Q, (X i Hi). unfold u0, u1, psub. ring. }
  destruct (outside01 s || outside01 t || above1 (s + t))%bool eqn:OUT.
  - set (r := shorter3 d _ _ _).
    destruct (shorter3_spec d (p, snd (closest_point_line d q a b)) (p, snd (closest_point_line d q a c)) (p, snd (closest_point_line d q b c))) as (R & R1 & R2 & R3).
    fold r in R, R1, R2, R3. cbn [fst snd] in R1, R2, R3.
    destruct (line_near d q a b) as [H1 N1], (line_near d q a c) as [H2 N2], (line_near d q b c) as [H3 N3].
    apply (hull_edge_tri d a b c) in H1; [|cbn; tauto]. apply (hull_edge_tri d a b c) in H2; [|cbn; tauto]. apply (hull_edge_tri d a b c) in H3; [|cbn; tauto].
    assert (RP : fst r = p) by (destruct R as [R|[R|R]]; rewrite R; reflexivity).
    exists (snd r). split; [rewrite <- RP; now rewrite <- surjective_pairing|].
    assert (RH : in_hull d [a; b; c] (snd r)) by (destruct R as [R|[R|R]]; rewrite R; assumption).
    split; [exact RH|].
    intros x X. rewrite RP in R1, R2, R3.
    assert (OO : s < 0 \/ t < 0 \/ s + t > 1).
    { rewrite !Bool.orb_true_iff, !outside01_spec, above1_spec in OUT. destruct (Rlt_dec s 0); auto. destruct (Rlt_dec t 0); auto. right; right. lra. }
    destruct (triangle_exit d a b c q s t (fun i _ => Q i) OO x X) as (y & e & Ie & Y & DY).
    assert (YH : in_hull d [a; b; c] y) by (now apply (hull_edge_tri d a b c e)).
    rewrite (PY x X). assert (M : D2 d p (snd r) <= D2 d p q + D2 d q y); [|lra].
    rewrite (PY _ H1) in R1. rewrite (PY _ H2) in R2. rewrite (PY _ H3) in R3.
    destruct Ie as [<-|[<-|[<-|[]]]]; [specialize (N1 y Y)|specialize (N2 y Y)|specialize (N3 y Y)]; lra.
  - exists q. split; [reflexivity|].
    assert (IN : 0 <= s /\ 0 <= t /\ s + t <= 1).
    { apply Bool.orb_false_iff in OUT. destruct OUT as [OUT O3]. apply Bool.orb_false_iff in OUT. destruct OUT as [O4 O5].
      assert (X1 : ~ (s < 0 \/ s > 1)) by (rewrite <- outside01_spec; congruence).
      assert (X2 : ~ (t < 0 \/ t > 1)) by (rewrite <- outside01_spec; congruence).
      assert (X3 : ~ (s + t > 1)) by (rewrite <- above1_spec; congruence). lra. }
    split.
    + apply hull3. exists s, t. repeat (split; [tauto|]). auto.
    + intros x X. rewrite (PY x X). pose proof (D2_nonneg d q x). lra.
Qed.

Lemma C47_point_triangle_pf : forall d p a b c, independent d [a; b; c] ->
  exists y, closest_point_triangle d p a b c = Some (p, y) /\ nearest d p (in_hull d [a; b; c]) y.
Proof.
  intros d p a b c I. destruct (triangle_near d p a b c I) as (q & E & N). exists q. split; [exact E|now apply near_nearest].
Qed.

(** ** Point and tetrahedron *)
Lemma inner_lin3 d x y z (p q r w : point) : inner_prod d (fun i => x * p i + y * q i + z * r i) w =
  x * inner_prod d p w + y * inner_prod d q w + z * inner_prod d r w.
Proof. unfold inner_prod. induction d as [|d IH]; cbn; [ring|]. rewrite IH. ring. Qed.
Lemma gram3 d (u0 u1 u2 : point) : lin3 d u0 u1 u2 ->
  inner_prod d u0 u0 * inner_prod d u1 u1 * inner_prod d u2 u2 + inner_prod d u1 u0 * inner_prod d u2 u1 * inner_prod d u2 u0 + inner_prod d u2 u0 * inner_prod d u1 u0 * inner_prod d u2 u1
  - inner_prod d u2 u0 * inner_prod d u1 u1 * inner_prod d u2 u0 - inner_prod d u2 u1 * inner_prod d u2 u1 * inner_prod d u0 u0 - inner_prod d u2 u2 * inner_prod d u1 u0 * inner_prod d u1 u0 <> 0.
Proof.
  intros L Z. assert (L2 : lin2 d u0 u1).
  { intros x y C. destruct (L x y 0) as (A & B & _); auto. intros i Hi. specialize (C i Hi). lra. }
  apply gram2 in L2. rewrite (inner_comm d u0 u1) in L2.
  set (a := inner_prod d u0 u0) in *. set (b := inner_prod d u1 u1) in *. set (c := inner_prod d u2 u2) in *.
  set (e := inner_prod d u1 u0) in *. set (f := inner_prod d u2 u0) in *. set (g := inner_prod d u2 u1) in *.
  set (z0 := e * g - f * b). set (z1 := e * f - a * g). set (z2 := a * b - e * e).
  assert (ZZ : forall i, (i < d)%nat -> z0 * u0 i + z1 * u1 i + z2 * u2 i = 0).
  { apply (inner_zero d (fun i => z0 * u0 i + z1 * u1 i + z2 * u2 i)). rewrite inner_lin3.
    rewrite (inner_comm d u0), (inner_comm d u1), (inner_comm d u2), !inner_lin3.
    rewrite (inner_comm d u0 u1), (inner_comm d u0 u2), (inner_comm d u1 u2). fold a b c e f g.
    transitivity (z2 * (a * b * c + e * g * f + f * e * g - f * b * f - g * g * a - c * e * e)); [unfold z0, z1, z2; ring|]. rewrite Z. ring. }
  destruct (L z0 z1 z2 ZZ) as (_ & _ & Z2). apply L2. unfold z2 in Z2. lra.
Qed.

Lemma tet_faces_indep d a b c e : independent d [a; b; c; e] ->
  independent d [a; b; c] /\ independent d [a; b; e] /\ independent d [a; c; e] /\ independent d [b; c; e].
Proof.
  intros I. apply indep4_lin in I. unfold lin3 in I.
  repeat split; apply indep3_lin; intros x y C.
  - destruct (I x y 0) as (A & B & _); auto. intros i Hi. specialize (C i Hi). lra.
  - destruct (I x 0 y) as (A & _ & B); auto. intros i Hi. specialize (C i Hi). lra.
  - destruct (I 0 x y) as (_ & A & B); auto. intros i Hi. specialize (C i Hi). lra.
  - destruct (I (- x - y) x y) as (_ & A & B); auto. intros i Hi. specialize (C i Hi). unfold psub in *. lra.
Qed.

Definition tet_faces (a b c e : point) := [[a; b; c]; [a; b; e]; [a; c; e]; [b; c; e]].
Lemma hull_face_tet d a b c e f x : In f (tet_faces a b c e) -> in_hull d f x -> in_hull d [a; b; c; e] x.
Proof.
  intros I X. apply hull4. destruct I as [<-|[<-|[<-|[<-|[]]]]]; apply hull3 in X; destruct X as (s & t & S & T & ST & X).
  - exists s, t, 0. repeat (split; [lra|]). intros i Hi. rewrite (X i Hi). ring.
  - exists s, 0, t. repeat (split; [lra|]). intros i Hi. rewrite (X i Hi). ring.
  - exists 0, s, t. repeat (split; [lra|]). intros i Hi. rewrite (X i Hi). ring.
  - exists (1 - s - t), s, t. repeat (split; [lra|]). intros i Hi. rewrite (X i Hi). ring.
Qed.
Lemma tet_exit d a b c e q r s t : (forall i, (i < d)%nat -> q i = a i + r * (b i - a i) + s * (c i - a i) + t * (e i - a i)) ->
  r < 0 \/ s < 0 \/ t < 0 \/ r + s + t > 1 -> forall x, in_hull d [a; b; c; e] x ->
  exists y f, In f (tet_faces a b c e) /\ in_hull d f y /\ D2 d q y <= D2 d q x.
Proof.
  intros Q O x X. apply hull4 in X. destruct X as (r' & s' & t' & RR & S & T & ST & X).
  destruct (exit_point [(r', r); (s', s); (t', t); (1 - r' - s' - t', 1 - r - s - t)]) as (k & K & F & E).
  { fall. }
  { destruct O as [O|[O|[O|O]]]; [constructor 1|constructor 2; constructor 1|constructor 2; constructor 2; constructor 1|constructor 2; constructor 2; constructor 2; constructor 1]; cbn; lra. }
  inversion F as [|? ? F0 F']; subst. inversion F' as [|? ? F1 F'']; subst. inversion F'' as [|? ? F2 F3]; subst. inversion F3 as [|? ? F4 _]; subst. cbn in F0, F1, F2, F4.
  exists (fun i => x i + k * (q i - x i)).
  assert (N : D2 d q (fun i => x i + k * (q i - x i)) <= D2 d q x) by (apply (D2_shrink d q x _ k K); auto).
  set (R1 := r' + k * (r - r')) in *. set (S1 := s' + k * (s - s')) in *. set (T1 := t' + k * (t - t')) in *.
  assert (BL : forall i, (i < d)%nat -> x i + k * (q i - x i) = a i + R1 * (b i - a i) + S1 * (c i - a i) + T1 * (e i - a i)).
  { intros i Hi. rewrite (X i Hi), (Q i Hi). unfold R1, S1, T1. ring. }
  assert (F5 : R1 + S1 + T1 <= 1) by (unfold R1, S1, T1; lra).
  inversion E as [? ? E0|? ? E']; subst; [|inversion E' as [? ? E0|? ? E'']; subst; [|inversion E'' as [? ? E0|? ? E3]; subst; [|inversion E3 as [? ? E0|? ? E4]; subst; [|inversion E4]]]]; cbn in E0.
  - exists [a; c; e]. split; [cbn; tauto|]. split; [|exact N]. apply hull3. exists S1, T1. fold R1 in E0. repeat (split; [lra|]).
    intros i Hi. rewrite (BL i Hi), E0. ring.
  - exists [a; b; e]. split; [cbn; tauto|]. split; [|exact N]. apply hull3. exists R1, T1. fold S1 in E0. repeat (split; [lra|]).
    intros i Hi. rewrite (BL i Hi), E0. ring.
  - exists [a; b; c]. split; [cbn; tauto|]. split; [|exact N]. apply hull3. exists R1, S1. fold T1 in E0. repeat (split; [lra|]).
    intros i Hi. rewrite (BL i Hi), E0. ring.
  - exists [b; c; e]. split; [cbn; tauto|]. split; [|exact N]. apply hull3. exists S1, T1.
    assert (E1 : R1 = 1 - S1 - T1) by (unfold R1, S1, T1; lra). repeat (split; [lra|]).
    intros i Hi. rewrite (BL i Hi), E1. ring.
Qed.

Lemma tet_near d p a b c e : independent d [a; b; c; e] ->
  exists q, closest_point_tetrahedron d p a b c e = Some (p, q) /\ near d p (in_hull d [a; b; c; e]) q.
Proof.
  intros I. pose proof (tet_faces_indep d a b c e I) as (I1 & I2 & I3 & I4). apply indep4_lin, gram3 in I.
  unfold closest_point_tetrahedron. cbv zeta.
  set (u0 := psub b a) in *. set (u1 := psub c a) in *. set (u2 := psub e a) in *. set (u := psub p a).
  set (a00 := inner_prod d u0 u0) in *. set (a11 := inner_prod d u1 u1) in *. set (a22 := inner_prod d u2 u2) in *.
  set (a01 := inner_prod d u1 u0) in *. set (a02 := inner_prod d u2 u0) in *. set (a12 := inner_prod d u2 u1) in *.
  set (b0 := inner_prod d u u0). set (b1 := inner_prod d u u1). set (b2 := inner_prod d u u2).
  set (det := a00 * a11 * a22 + a01 * a12 * a02 + a02 * a01 * a12 - a02 * a11 * a02 - a12 * a12 * a00 - a22 * a01 * a01) in *.
  destruct Req_EM_T as [Z|NZ]; [now elim I|].
  match goal with |- context [orb (orb (orb (outside01 ?x) (outside01 ?y)) (outside01 ?z)) _] => set (r := x) in *; set (s := y) in *; set (t := z) in * end.
  set (q := padd _ (pscale t u2)).
  assert (Q : forall i, q i = a i + r * (b i - a i) + s * (c i - a i) + t * (e i - a i)).
  { intros i. unfold q, padd, pscale, u0, u1, u2, psub. ring. }
  assert (PQ : forall i, psub p q i = 1 * u i + 1 * (- r * u0 i + - s * u1 i + - t * u2 i)).
  { intros i. unfold psub at 1. rewrite Q. unfold u, u0, u1, u2, psub. ring. }
  assert (O0 : inner_prod d (psub p q) u0 = 0).
  { rewrite (inner_ext d _ u0 (fun i => 1 * u i + 1 * (- r * u0 i + - s * u1 i + - t * u2 i)) u0) by auto.
    rewrite inner_lin, inner_lin3. fold b0 a00 a01 a02. unfold r, s, t, det. field. exact NZ. }
  assert (O1 : inner_prod d (psub p q) u1 = 0).
  { rewrite (inner_ext d _ u1 (fun i => 1 * u i + 1 * (- r * u0 i + - s * u1 i + - t * u2 i)) u1) by auto.
    rewrite inner_lin, inner_lin3, (inner_comm d u0 u1). fold b1 a01 a11 a12. unfold r, s, t, det. field. exact NZ. }
  assert (O2 : inner_prod d (psub p q) u2 = 0).
  { rewrite (inner_ext d _ u2 (fun i => 1 * u i + 1 * (- r * u0 i + - s * u1 i + - t * u2 i)) u2) by auto.
    rewrite inner_lin, inner_lin3, (inner_comm d u0 u2), (inner_comm d u1 u2). fold b2 a02 a12 a22. unfold r, s, t, det. field. exact NZ. }
  assert (PY : forall x, in_hull d [a; b; c; e] x -> D2 d p x = D2 d p q + D2 d q x).
  { intros x X. apply pyth. apply hull4 in X. destruct X as (r' & s' & t' & _ & _ & _ & _ & X).
    rewrite (inner_ext d _ _ (psub p q) (fun i => (r - r') * u0 i + 1 * ((s - s') * u1 i + (t - t') * u2 i))); auto.
    - rewrite !inner_lin_r, O0, O1, O2. ring.
    - intros i Hi. unfold psub. rewrite Q, (X i Hi). unfold u0, u1, u2, psub. ring. }
  destruct (triangle_near d q a b c I1) as (q1 & -> & H1 & N1), (triangle_near d q a b e I2) as (q2 & -> & H2 & N2),
    (triangle_near d q a c e I3) as (q3 & -> & H3 & N3), (triangle_near d q b c e I4) as (q4 & -> & H4 & N4). cbn [snd].
  destruct (outside01 r || outside01 s || outside01 t || above1 (r + s + t))%bool eqn:OUT.
  - set (m := shorter4 d _ _ _ _).
    destruct (shorter4_spec d (p, q1) (p, q2) (p, q3) (p, q4)) as (M & M1 & M2 & M3 & M4).
    fold m in M, M1, M2, M3, M4. cbn [fst snd] in M1, M2, M3, M4.
    apply (hull_face_tet d a b c e) in H1; [|cbn; tauto]. apply (hull_face_tet d a b c e) in H2; [|cbn; tauto].
    apply (hull_face_tet d a b c e) in H3; [|cbn; tauto]. apply (hull_face_tet d a b c e) in H4; [|cbn; tauto].
    assert (MP : fst m = p) by (destruct M as [M|[M|[M|M]]]; rewrite M; reflexivity).
    exists (snd m). split; [rewrite <- MP; now rewrite <- surjective_pairing|].
    assert (MH : in_hull d [a; b; c; e] (snd m)) by (destruct M as [M|[M|[M|M]]]; rewrite M; assumption).
    split; [exact MH|].
    intros x X. rewrite MP in M1, M2, M3, M4.
    assert (OO : r < 0 \/ s < 0 \/ t < 0 \/ r + s + t > 1).
    { rewrite !Bool.orb_true_iff, !outside01_spec, above1_spec in OUT. destruct (Rlt_dec r 0); auto. destruct (Rlt_dec s 0); auto. destruct (Rlt_dec t 0); auto. right; right; right. lra. }
    destruct (tet_exit d a b c e q r s t (fun i _ => Q i) OO x X) as (y & f & If & Y & DY).
    rewrite (PY x X). assert (W : D2 d p (snd m) <= D2 d p q + D2 d q y); [|lra].
    rewrite (PY _ H1) in M1. rewrite (PY _ H2) in M2. rewrite (PY _ H3) in M3. rewrite (PY _ H4) in M4.
    destruct If as [<-|[<-|[<-|[<-|[]]]]]; [specialize (N1 y Y)|specialize (N2 y Y)|specialize (N3 y Y)|specialize (N4 y Y)]; lra.
  - exists q. split; [reflexivity|].
    assert (IN : 0 <= r /\ 0 <= s /\ 0 <= t /\ r + s + t <= 1).
    { rewrite !Bool.orb_false_iff in OUT. destruct OUT as [[[O4 O5] O6] O7].
      assert (X1 : ~ (r < 0 \/ r > 1)) by (rewrite <- outside01_spec; congruence).
      assert (X2 : ~ (s < 0 \/ s > 1)) by (rewrite <- outside01_spec; congruence).
      assert (X3 : ~ (t < 0 \/ t > 1)) by (rewrite <- outside01_spec; congruence).
      assert (X4 : ~ (r + s + t > 1)) by (rewrite <- above1_spec; congruence). lra. }
    split.
    + apply hull4. exists r, s, t. repeat (split; [tauto|]). auto.
    + intros x X. rewrite (PY x X). pose proof (D2_nonneg d q x). lra.
Qed.

Lemma C47_point_tetrahedron_pf : forall d p a b c e, independent d [a; b; c; e] ->
  exists y, closest_point_tetrahedron d p a b c e = Some (p, y) /\ nearest d p (in_hull d [a; b; c; e]) y.
Proof.
  intros d p a b c e I. destruct (tet_near d p a b c e I) as (q & E & N). exists q. split; [exact E|now apply near_nearest].
Qed.

Lemma C47_inside_pf : forall d p a b c e,
  (independent d [a; b; c] -> in_hull d [a; b; c] p ->
   exists y, closest_point_triangle d p a b c = Some (p, y) /\ same_point d p y) /\
  (independent d [a; b; c; e] -> in_hull d [a; b; c; e] p ->
   exists y, closest_point_tetrahedron d p a b c e = Some (p, y) /\ same_point d p y).
Proof.
  assert (G : forall d p y, D2 d p y <= D2 d p p -> same_point d p y).
  { intros d p y H i Hi. assert (Z : D2 d p p = 0).
    { unfold D2. apply inner_zero_l. intros j _. unfold psub. ring. }
    pose proof (D2_nonneg d p y). assert (Y : D2 d p y = 0) by lra. pose proof (inner_zero d _ Y i Hi) as K. unfold psub in K. lra. }
  intros d p a b c e. split; intros I X.
  - destruct (triangle_near d p a b c I) as (q & E & _ & N). exists q. split; [exact E|auto].
  - destruct (tet_near d p a b c e I) as (q & E & _ & N). exists q. split; [exact E|auto].
Qed.

(** ** Quadrilaterals and hexahedra *)
Lemma near_union d p (cs : list (list point)) q : near d p (in_union d cs) q <->
  in_union d cs q /\ forall c, In c cs -> forall x, in_hull d c x -> D2 d p q <= D2 d p x.
Proof.
  unfold near. split; intros [A B]; (split; [exact A|]).
  - intros c I x X. apply B. now exists c.
  - intros x (c & I & X). now apply (B c).
Qed.

Lemma quad_near d p v0 v1 v2 v3 : independent d [v0; v1; v2] -> independent d [v1; v3; v2] ->
  exists y, closest_point_quadrilateral d p v0 v1 v2 v3 = Some (p, y) /\
    near d p (in_union d [[v0; v1; v2]; [v1; v3; v2]]) y.
Proof.
  intros I J. unfold closest_point_quadrilateral.
  destruct (triangle_near d p _ _ _ I) as (q1 & -> & H1 & N1), (triangle_near d p _ _ _ J) as (q2 & -> & H2 & N2).
  destruct (shorter2_spec d (p, q1) (p, q2)) as (M & M1 & M2). set (m := shorter2 d _ _) in *. cbn [fst snd] in M1, M2.
  assert (MP : fst m = p) by (destruct M as [M|M]; rewrite M; reflexivity).
  exists (snd m). split; [rewrite <- MP; now rewrite <- surjective_pairing|]. rewrite MP in M1, M2.
  apply near_union. split.
  - destruct M as [M|M]; rewrite M; eexists; (split; [|eassumption]); cbn; tauto.
  - intros c [<-|[<-|[]]] x X; [specialize (N1 x X)|specialize (N2 x X)]; lra.
Qed.
Lemma C49_quadrilateral_pf : forall d p v0 v1 v2 v3, independent d [v0; v1; v2] -> independent d [v1; v3; v2] ->
  exists y, closest_point_quadrilateral d p v0 v1 v2 v3 = Some (p, y) /\
    nearest d p (in_union d [[v0; v1; v2]; [v1; v3; v2]]) y.
Proof.
  intros d p v0 v1 v2 v3 I J. destruct (quad_near d p v0 v1 v2 v3 I J) as (y & E & N). exists y. split; [exact E|now apply near_nearest].
Qed.

Lemma area_indep a b c : signed_area a b c <> 0 -> independent 2 [a; b; c].
Proof.
  intros H. apply indep3_lin. intros x y C. pose proof (C 0%nat ltac:(auto)) as A. pose proof (C 1%nat ltac:(auto)) as B.
  unfold psub, signed_area in *. cbn in *.
  assert (X : x * ((b 0%nat - a 0%nat) * (c 1%nat - a 1%nat) - (c 0%nat - a 0%nat) * (b 1%nat - a 1%nat)) = 0).
  { transitivity ((x * (b 0%nat - a 0%nat) + y * (c 0%nat - a 0%nat)) * (c 1%nat - a 1%nat) - (x * (b 1%nat - a 1%nat) + y * (c 1%nat - a 1%nat)) * (c 0%nat - a 0%nat)); [ring|]. rewrite A, B. ring. }
  assert (Y : y * ((b 0%nat - a 0%nat) * (c 1%nat - a 1%nat) - (c 0%nat - a 0%nat) * (b 1%nat - a 1%nat)) = 0).
  { transitivity ((x * (b 1%nat - a 1%nat) + y * (c 1%nat - a 1%nat)) * (b 0%nat - a 0%nat) - (x * (b 0%nat - a 0%nat) + y * (c 0%nat - a 0%nat)) * (b 1%nat - a 1%nat)); [ring|]. rewrite A, B. ring. }
  apply Rmult_integral in X. apply Rmult_integral in Y. split; [destruct X as [X|X]|destruct Y as [Y|Y]]; auto; elim H; lra.
Qed.
Lemma C49_convex_quadrilateral_pf : forall p v0 v1 v2 v3, convex_quad v0 v1 v2 v3 ->
  exists y, closest_point_quadrilateral 2 p v0 v1 v2 v3 = Some (p, y) /\ nearest 2 p (in_hull 2 [v0; v1; v2; v3]) y.
Proof.
  intros p v0 v1 v2 v3 C. assert (C' : convex_quad v1 v3 v0 v2) by (unfold convex_quad in *; tauto).
  destruct (C28_quadrilateral_pf _ _ _ _ C') as (CO & _).
  destruct (quad_near 2 p v0 v1 v2 v3) as (y & E & N).
  { apply area_indep. destruct C as (_ & _ & _ & H). unfold signed_area in *. lra. }
  { apply area_indep. destruct C as (_ & H & _). lra. }
  exists y. split; [exact E|]. apply near_nearest.
  assert (EQ : forall x, in_hull 2 [v0; v1; v2; v3] x <-> in_union 2 [[v0; v1; v2]; [v1; v3; v2]] x).
  { intros x. split.
    - intros X. assert (X' : in_hull 2 [v1; v3; v0; v2] x).
      { revert X. apply in_hull_perm. eapply perm_trans; [apply (Permutation_cons_append [v1; v2; v3] v0)|]. cbn. constructor.
        eapply perm_trans; [apply perm_swap|]. constructor. apply perm_swap. }
      apply CO in X'. destruct X' as (c & [<-|[<-|[]]] & X').
      + exists [v1; v3; v2]. split; [cbn; tauto|exact X'].
      + exists [v0; v1; v2]. split; [cbn; tauto|]. revert X'. apply in_hull_perm. apply (Permutation_sym (Permutation_cons_append [v1; v2] v0)).
    - intros (c & I & X). assert (X' : in_hull 2 [v1; v3; v0; v2] x).
      { apply CO. destruct I as [<-|[<-|[]]].
        - exists [v1; v2; v0]. split; [cbn; tauto|]. revert X. apply in_hull_perm. apply (Permutation_cons_append [v1; v2] v0).
        - exists [v1; v3; v2]. split; [cbn; tauto|exact X]. }
      revert X'. apply in_hull_perm. apply Permutation_sym. eapply perm_trans; [apply (Permutation_cons_append [v1; v2; v3] v0)|]. cbn. constructor.
      eapply perm_trans; [apply perm_swap|]. constructor. apply perm_swap. }
  destruct N as [N1 N2]. split; [now apply EQ|]. intros x X. apply N2. now apply EQ.
Qed.

Lemma hex_near d p v0 v1 v2 v3 v4 v5 v6 v7 :
  (forall c, In c (diagonal_tets [v0; v1; v2; v3; v4; v5; v6; v7]) -> independent d c) ->
  exists y, closest_point_hexahedron d p v0 v1 v2 v3 v4 v5 v6 v7 = Some (p, y) /\
    near d p (in_union d (diagonal_tets [v0; v1; v2; v3; v4; v5; v6; v7])) y.
Proof.
  intros I. unfold diagonal_tets in *. cbn [map nth] in *.
  assert (PE : forall a b c e : point, Permutation [a; b; c; e] [a; b; e; c]) by (intros; do 2 constructor; apply perm_swap).
  assert (PF : forall a b c e : point, Permutation [a; b; c; e] [a; c; b; e]) by (intros; constructor; apply perm_swap).
  assert (IP : forall l l', Permutation l l' -> independent d l -> independent d l').
  { intros l l' P J wps E W X. apply Permutation_sym in P. rewrite <- E in P. symmetry in E.
    destruct (Permutation_map_inv _ _ (Permutation_sym P)) as (w' & -> & P').
    assert (F : Forall (fun wp : R * point => fst wp = 0) w').
    { apply J; auto.
      - rewrite <- W. unfold weight_sum. now apply Rsum_perm, Permutation_map, Permutation_sym.
      - intros i Hi. rewrite <- (X i Hi). unfold weighted_coord. now apply Rsum_perm, Permutation_map, Permutation_sym. }
    rewrite Forall_forall in *. intros x Hx. apply F. now apply (Permutation_in x P'). }
  unfold closest_point_hexahedron.
  destruct (tet_near d p v0 v1 v3 v7) as (q1 & -> & H1 & N1). { apply I. cbn; tauto. }
  destruct (tet_near d p v0 v1 v7 v5) as (q2 & -> & H2 & N2). { eapply IP; [apply PE|]. apply I. cbn; tauto. }
  destruct (tet_near d p v0 v2 v6 v7) as (q3 & -> & H3 & N3). { apply I. cbn; tauto. }
  destruct (tet_near d p v0 v3 v2 v7) as (q4 & -> & H4 & N4). { eapply IP; [apply PF|]. apply I. cbn; tauto. }
  destruct (tet_near d p v0 v5 v7 v4) as (q5 & -> & H5 & N5). { eapply IP; [|apply I; right; right; right; right; left; reflexivity]. eapply perm_trans; [apply PF|]. apply PE. }
  destruct (tet_near d p v0 v6 v4 v7) as (q6 & -> & H6 & N6). { eapply IP; [apply PF|]. apply I. cbn; tauto. }
  assert (P4 : Permutation [v0; v5; v7; v4] [v0; v4; v5; v7]).
  { eapply perm_trans; [apply PE|]. apply PF. }
  destruct (shorter6_spec d (p, q1) (p, q2) (p, q3) (p, q4) (p, q5) (p, q6)) as (M & MM). set (m := shorter6 d _ _ _ _ _ _) in *. cbn zeta in M.
  assert (MP : fst m = p) by (destruct M as [M|[M|[M|[M|[M|M]]]]]; rewrite M; reflexivity).
  exists (snd m). split; [rewrite <- MP; now rewrite <- surjective_pairing|]. rewrite MP in MM.
  apply near_union. split.
  - destruct M as [M|[M|[M|[M|[M|M]]]]]; rewrite M; cbn [snd].
    + exists [v0; v1; v3; v7]. split; [cbn; tauto|exact H1].
    + exists [v0; v1; v5; v7]. split; [cbn; tauto|]. revert H2. apply in_hull_perm, PE.
    + exists [v0; v2; v6; v7]. split; [cbn; tauto|exact H3].
    + exists [v0; v2; v3; v7]. split; [cbn; tauto|]. revert H4. apply in_hull_perm, PF.
    + exists [v0; v4; v5; v7]. split; [cbn; tauto|]. revert H5. now apply in_hull_perm.
    + exists [v0; v4; v6; v7]. split; [cbn; tauto|]. revert H6. apply in_hull_perm, PF.
  - intros c Ic x X.
    pose proof (MM (p, q1) ltac:(cbn; tauto)) as L1. pose proof (MM (p, q2) ltac:(cbn; tauto)) as L2. pose proof (MM (p, q3) ltac:(cbn; tauto)) as L3.
    pose proof (MM (p, q4) ltac:(cbn; tauto)) as L4. pose proof (MM (p, q5) ltac:(cbn; tauto)) as L5. pose proof (MM (p, q6) ltac:(cbn; tauto)) as L6. cbn [fst snd] in *.
    destruct Ic as [<-|[<-|[<-|[<-|[<-|[<-|[]]]]]]].
    + specialize (N1 x X). lra.
    + apply (in_hull_perm d _ _ x (PE v0 v1 v5 v7)) in X. specialize (N2 x X). lra.
    + apply (in_hull_perm d _ _ x (PF v0 v2 v3 v7)) in X. specialize (N4 x X). lra.
    + specialize (N3 x X). lra.
    + apply (in_hull_perm d _ _ x (Permutation_sym P4)) in X. specialize (N5 x X). lra.
    + apply (in_hull_perm d _ _ x (PF v0 v4 v6 v7)) in X. specialize (N6 x X). lra.
Qed.
Lemma C49_hexahedron_pf : forall d p v0 v1 v2 v3 v4 v5 v6 v7,
  (forall c, In c (diagonal_tets [v0; v1; v2; v3; v4; v5; v6; v7]) -> independent d c) ->
  exists y, closest_point_hexahedron d p v0 v1 v2 v3 v4 v5 v6 v7 = Some (p, y) /\
    nearest d p (in_union d (diagonal_tets [v0; v1; v2; v3; v4; v5; v6; v7])) y.
Proof.
  intros d p v0 v1 v2 v3 v4 v5 v6 v7 I. destruct (hex_near d p v0 v1 v2 v3 v4 v5 v6 v7 I) as (y & E & N). exists y. split; [exact E|now apply near_nearest].
Qed.

Lemma C49_parallelepiped_pf : forall p o a b c v0 v1 v2 v3 v4 v5 v6 v7,
  independent 3 [o; padd o a; padd o b; padd o c] ->
  parallelepiped o a b c = [v0; v1; v2; v3; v4; v5; v6; v7] ->
  exists y, closest_point_hexahedron 3 p v0 v1 v2 v3 v4 v5 v6 v7 = Some (p, y) /\
    nearest 3 p (in_hull 3 (parallelepiped o a b c)) y.
Proof.
  intros p o a b c v0 v1 v2 v3 v4 v5 v6 v7 I E.
  destruct (C28_parallelepiped_pf o a b c I) as (CO & _). rewrite E in *.
  destruct (hex_near 3 p v0 v1 v2 v3 v4 v5 v6 v7) as (y & EQ & N).
  { rewrite <- E. apply indep4_lin in I. unfold diagonal_tets, parallelepiped. cbn [map nth fst snd].
    intros l Hl. repeat destruct Hl as [<-|Hl]; try contradiction; apply indep4_lin; intros x y z C.
    - destruct (I (x + y + z) (y + z) z) as (A & B & D); [|lra]. intros i Hi. rewrite <- (C i Hi). unfold psub, padd. ring.
    - destruct (I (x + y + z) z (y + z)) as (A & B & D); [|lra]. intros i Hi. rewrite <- (C i Hi). unfold psub, padd. ring.
    - destruct (I (y + z) (x + y + z) z) as (A & B & D); [|lra]. intros i Hi. rewrite <- (C i Hi). unfold psub, padd. ring.
    - destruct (I z (x + y + z) (y + z)) as (A & B & D); [|lra]. intros i Hi. rewrite <- (C i Hi). unfold psub, padd. ring.
    - destruct (I (y + z) z (x + y + z)) as (A & B & D); [|lra]. intros i Hi. rewrite <- (C i Hi). unfold psub, padd. ring.
    - destruct (I z (y + z) (x + y + z)) as (A & B & D); [|lra]. intros i Hi. rewrite <- (C i Hi). unfold psub, padd. ring. }
  exists y. split; [exact EQ|]. apply near_nearest. destruct N as [N1 N2]. split; [now apply CO|]. intros x X. apply N2. now apply CO.
Qed.

(** ** Two lines *)
Definition on (a b : point) (t : R) : point := fun i => a i + t * (b i - a i).
Lemma hull_on d a b t : 0 <= t <= 1 -> in_hull d [a; b] (on a b t).
Proof. intros T. apply hull2. exists t. split; [exact T|]. reflexivity. Qed.
Lemma end_case d v0 v1 w0 w1 : let r := end_points_case d v0 v1 w0 w1 in
  (((fst r = w0 \/ fst r = w1) /\ in_hull d [v0; v1] (snd r)) \/ ((fst r = v0 \/ fst r = v1) /\ in_hull d [w0; w1] (snd r))) /\
  (forall z, in_hull d [v0; v1] z -> D2 d (fst r) (snd r) <= D2 d w0 z /\ D2 d (fst r) (snd r) <= D2 d w1 z) /\
  (forall z, in_hull d [w0; w1] z -> D2 d (fst r) (snd r) <= D2 d v0 z /\ D2 d (fst r) (snd r) <= D2 d v1 z).
Proof.
  cbv zeta. unfold end_points_case.
  destruct (shorter4_spec d (closest_point_line d w0 v0 v1) (closest_point_line d w1 v0 v1) (closest_point_line d v0 w0 w1) (closest_point_line d v1 w0 w1)) as (M & M1 & M2 & M3 & M4).
  destruct (line_near d w0 v0 v1) as [H1 N1], (line_near d w1 v0 v1) as [H2 N2], (line_near d v0 w0 w1) as [H3 N3], (line_near d v1 w0 w1) as [H4 N4].
  change (fst (closest_point_line d w0 v0 v1)) with w0 in M1. change (fst (closest_point_line d w1 v0 v1)) with w1 in M2.
  change (fst (closest_point_line d v0 w0 w1)) with v0 in M3. change (fst (closest_point_line d v1 w0 w1)) with v1 in M4.
  set (r := shorter4 d _ _ _ _) in *. split; [|split].
  - destruct M as [M|[M|[M|M]]]; rewrite M; [left|left|right|right]; (split; [|assumption]); cbn [fst closest_point_line]; auto.
  - intros z Z. specialize (N1 z Z). specialize (N2 z Z). lra.
  - intros z Z. specialize (N3 z Z). specialize (N4 z Z). lra.
Qed.
Lemma box_side d v0 v1 w0 w1 s t : 0 <= s <= 1 -> 0 <= t <= 1 -> s = 0 \/ s = 1 \/ t = 0 \/ t = 1 ->
  let r := end_points_case d v0 v1 w0 w1 in D2 d (fst r) (snd r) <= D2 d (on v0 v1 s) (on w0 w1 t).
Proof.
  intros S T B. cbv zeta. destruct (end_case d v0 v1 w0 w1) as (_ & N1 & N2). set (r := end_points_case d v0 v1 w0 w1) in *.
  destruct B as [B|[B|[B|B]]]; rewrite B in *; clear B.
  - destruct (N2 _ (hull_on d w0 w1 t T)) as [A _]. rewrite (D2_ext d (on v0 v1 0) _ v0 (on w0 w1 t)); auto. intros i _. unfold on. ring.
  - destruct (N2 _ (hull_on d w0 w1 t T)) as [_ A]. rewrite (D2_ext d (on v0 v1 1) _ v1 (on w0 w1 t)); auto. intros i _. unfold on. ring.
  - destruct (N1 _ (hull_on d v0 v1 s S)) as [A _]. rewrite (D2_ext d (on v0 v1 s) (on w0 w1 0) (on v0 v1 s) w0); [|auto|intros i _; unfold on; ring]. rewrite (D2_sym d (on v0 v1 s)). exact A.
  - destruct (N1 _ (hull_on d v0 v1 s S)) as [_ A]. rewrite (D2_ext d (on v0 v1 s) (on w0 w1 1) (on v0 v1 s) w1); [|auto|intros i _; unfold on; ring]. rewrite (D2_sym d (on v0 v1 s)). exact A.
Qed.
(** Leaving the unit square from (s, t) towards (s', t'). *)
Lemma box_exit s t s' t' : 0 <= s <= 1 -> 0 <= t <= 1 -> s' < 0 \/ s' > 1 \/ t' < 0 \/ t' > 1 ->
  exists k, 0 <= k <= 1 /\ 0 <= s + k * (s' - s) <= 1 /\ 0 <= t + k * (t' - t) <= 1 /\
    (s + k * (s' - s) = 0 \/ s + k * (s' - s) = 1 \/ t + k * (t' - t) = 0 \/ t + k * (t' - t) = 1).
Proof.
  intros S T O. destruct (exit_point [(s, s'); (1 - s, 1 - s'); (t, t'); (1 - t, 1 - t')]) as (k & K & F & E).
  { fall. }
  { destruct O as [O|[O|[O|O]]]; [constructor 1|constructor 2; constructor 1|constructor 2; constructor 2; constructor 1|constructor 2; constructor 2; constructor 2; constructor 1]; cbn; lra. }
  inversion F as [|? ? F0 F']; subst. inversion F' as [|? ? F1 F'']; subst. inversion F'' as [|? ? F2 F3]; subst. inversion F3 as [|? ? F4 _]; subst. cbn in F0, F1, F2, F4.
  exists k. split; [exact K|]. split; [lra|]. split; [lra|].
  inversion E as [? ? E0|? ? E']; subst; [|inversion E' as [? ? E0|? ? E'']; subst; [|inversion E'' as [? ? E0|? ? E3]; subst; [|inversion E3 as [? ? E0|? ? E4]; subst; [|inversion E4]]]]; cbn in E0; lra.
Qed.

Lemma orth_pair d (x dv dw : point) a b : inner_prod d x dv = 0 -> inner_prod d x dw = 0 ->
  inner_prod d (fun i => x i + a * dv i + b * dw i) (fun i => x i + a * dv i + b * dw i) =
  inner_prod d x x + inner_prod d (fun i => a * dv i + b * dw i) (fun i => a * dv i + b * dw i).
Proof.
  intros A B. transitivity (inner_prod d x x + inner_prod d (fun i => a * dv i + b * dw i) (fun i => a * dv i + b * dw i) + 2 * a * inner_prod d x dv + 2 * b * inner_prod d x dw); [|rewrite A, B; ring].
  unfold inner_prod. clear A B. induction d as [|d IH]; cbn; [ring|]. rewrite IH. ring.
Qed.

Lemma not_same_pos d p q : ~ same_point d p q -> 0 < inner_prod d (psub q p) (psub q p).
Proof.
  intros H. pose proof (inner_nonneg d (psub q p)) as P. destruct (Req_dec (inner_prod d (psub q p) (psub q p)) 0) as [Z|NZ]; [|lra].
  elim H. intros i Hi. pose proof (inner_zero d _ Z i Hi) as K. unfold psub in K. lra.
Qed.
Lemma same_zero d p q : same_point d p q -> inner_prod d (psub q p) (psub q p) = 0.
Proof. intros H. apply inner_zero_l. intros i Hi. unfold psub. rewrite (H i Hi). ring. Qed.
Lemma nearly_lt d v0 v1 w0 w1 : nearly_parallel d v0 v1 w0 w1 <->
  inner_prod d (psub v1 v0) (psub v1 v0) * inner_prod d (psub w1 w0) (psub w1 w0) - inner_prod d (psub v1 v0) (psub w1 w0) * inner_prod d (psub v1 v0) (psub w1 w0)
  < / 1000000 * inner_prod d (psub v1 v0) (psub v1 v0) * inner_prod d (psub w1 w0) (psub w1 w0).
Proof.
  unfold nearly_parallel. cbv zeta. rewrite !dot_inner. fold (psub v1 v0) (psub w1 w0). split; intros H; lra.
Qed.
Lemma parallel_zero d v0 v1 w0 w1 : parallel d v0 v1 w0 w1 ->
  inner_prod d (psub v1 v0) (psub v1 v0) * inner_prod d (psub w1 w0) (psub w1 w0) - inner_prod d (psub v1 v0) (psub w1 w0) * inner_prod d (psub v1 v0) (psub w1 w0) = 0.
Proof.
  intros (c & C). set (v := psub v1 v0).
  assert (E : forall i, (i < d)%nat -> psub w1 w0 i = c * v i + 0 * v i) by (intros i Hi; unfold psub at 1, v, psub; rewrite (C i Hi); ring).
  rewrite (inner_ext d (psub w1 w0) (psub w1 w0) (fun i => c * v i + 0 * v i) (fun i => c * v i + 0 * v i)) by auto.
  rewrite (inner_ext d v (psub w1 w0) v (fun i => c * v i + 0 * v i)) by auto.
  rewrite inner_lin, !inner_lin_r. ring.
Qed.

Definition near_pair d (S T : point -> Prop) x y := S x /\ T y /\ forall x' y', S x' -> T y' -> D2 d x y <= D2 d x' y'.
Lemma near_pair_nearest d S T x y : near_pair d S T x y <-> nearest_pair d S T x y.
Proof. unfold near_pair, nearest_pair. split; intros (A & B & C); (split; [exact A|split; [exact B|]]); intros x' y' X Y; apply dist_le; auto. Qed.
Lemma hull_end0 d a b : in_hull d [a; b] a.
Proof. apply hull2. exists 0. split; [lra|]. intros; ring. Qed.
Lemma hull_end1 d a b : in_hull d [a; b] b.
Proof. apply hull2. exists 1. split; [lra|]. intros; ring. Qed.

Lemma end_case_pair d v0 v1 w0 w1 : let r := end_points_case d v0 v1 w0 w1 in
  (forall s t, 0 <= s <= 1 -> 0 <= t <= 1 -> D2 d (fst r) (snd r) <= D2 d (on v0 v1 s) (on w0 w1 t)) ->
  near_pair d (in_hull d [v0; v1]) (in_hull d [w0; w1]) (fst r) (snd r) \/ near_pair d (in_hull d [w0; w1]) (in_hull d [v0; v1]) (fst r) (snd r).
Proof.
  cbv zeta. intros H. destruct (end_case d v0 v1 w0 w1) as (M & _). set (r := end_points_case d v0 v1 w0 w1) in *.
  assert (G : forall x y, in_hull d [v0; v1] x -> in_hull d [w0; w1] y -> D2 d (fst r) (snd r) <= D2 d x y).
  { intros x y X Y. apply hull2 in X. apply hull2 in Y. destruct X as (s & S & X), Y as (t & T & Y).
    rewrite (D2_ext d x y (on v0 v1 s) (on w0 w1 t)); auto. }
  destruct M as [[[M|M] K]|[[M|M] K]]; [right|right|left|left]; (split; [rewrite M; first [apply hull_end0|apply hull_end1]|split; [exact K|]]); intros x y X Y; auto; rewrite (D2_sym d x y); auto.
Qed.

Lemma C48_lines_partial_pf : forall d v0 v1 w0 w1,
  ~ same_point d v0 v1 -> ~ same_point d w0 w1 ->
  parallel d v0 v1 w0 w1 \/ ~ nearly_parallel d v0 v1 w0 w1 ->
  exists x y, closest_line_line d v0 v1 w0 w1 = Some (x, y) /\
    (nearest_pair d (in_hull d [v0; v1]) (in_hull d [w0; w1]) x y \/
     nearest_pair d (in_hull d [w0; w1]) (in_hull d [v0; v1]) x y).
Proof.
  intros d v0 v1 w0 w1 DV DW PN.
  assert (MAIN : exists r, closest_line_line d v0 v1 w0 w1 = Some r /\
    (near_pair d (in_hull d [v0; v1]) (in_hull d [w0; w1]) (fst r) (snd r) \/ near_pair d (in_hull d [w0; w1]) (in_hull d [v0; v1]) (fst r) (snd r))).
  2: { destruct MAIN as ([x y] & E & M). exists x, y. split; [exact E|]. cbn [fst snd] in M. now rewrite <- !near_pair_nearest. }
  apply not_same_pos in DV. apply not_same_pos in DW. unfold closest_line_line. cbv zeta.
  destruct PN as [P|P].
  - (* parallel *)
    pose proof (parallel_zero d v0 v1 w0 w1 P) as Z. destruct Rlt_dec as [L|L].
    2: { elim L. rewrite Z. apply Rmult_lt_0_compat; [lra|exact DW]. }
    eexists. split; [reflexivity|]. apply end_case_pair. intros s t S T.
    destruct P as (c & C). destruct (box_exit s t (s + 2 * c) (t + 2) S T) as (k & K & SK & TK & B); [lra|].
    eapply Rle_trans; [exact (box_side d v0 v1 w0 w1 _ _ SK TK B)|]. right. apply inner_ext; intros i Hi; unfold psub, on; rewrite (C i Hi); ring.
  - rewrite nearly_lt in P. destruct Rlt_dec as [L|L]; [contradiction|].
    set (dv := psub v1 v0) in *. set (dw := psub w1 w0) in *. set (dd := psub v0 w0).
    set (A := inner_prod d dv dv) in *. set (B := inner_prod d dv dw) in *. set (E := inner_prod d dw dw) in *.
    assert (POS : 0 < A * E - B * B). { assert (0 < / 1000000 * A * E) by (apply Rmult_lt_0_compat; [lra|exact DW]). lra. }
    destruct Req_EM_T as [Z|_]; [lra|].
    set (F := inner_prod d dv dd). set (G := inner_prod d dw dd).
    set (s0 := (B * G - E * F) / (A * E - B * B)). set (t0 := (A * G - B * F) / (A * E - B * B)).
    set (x := fun i => dd i + s0 * dv i + - t0 * dw i).
    assert (XE : forall i, x i = 1 * dd i + 1 * (s0 * dv i + - t0 * dw i)) by (intros i; unfold x; ring).
    assert (OV : inner_prod d x dv = 0).
    { rewrite (inner_ext d x dv (fun i => 1 * dd i + 1 * (s0 * dv i + - t0 * dw i)) dv) by auto.
      rewrite !inner_lin, (inner_comm d dd dv), (inner_comm d dw dv). fold A B F. unfold s0, t0. field. lra. }
    assert (OW : inner_prod d x dw = 0).
    { rewrite (inner_ext d x dw (fun i => 1 * dd i + 1 * (s0 * dv i + - t0 * dw i)) dw) by auto.
      rewrite !inner_lin, (inner_comm d dd dw). fold B E G. unfold s0, t0. field. lra. }
    assert (FF : forall s t, D2 d (on v0 v1 s) (on w0 w1 t) = inner_prod d x x + inner_prod d (fun i => (s - s0) * dv i + - (t - t0) * dw i) (fun i => (s - s0) * dv i + - (t - t0) * dw i)).
    { intros s t. rewrite <- orth_pair by auto. apply inner_ext; intros i _; unfold psub at 1, on, x, dd, dv, dw, psub; ring. }
    assert (FS : forall s t k, 0 <= k <= 1 -> D2 d (on v0 v1 (s + k * (s0 - s))) (on w0 w1 (t + k * (t0 - t))) <= D2 d (on v0 v1 s) (on w0 w1 t)).
    { intros s t k K. rewrite !FF. apply Rplus_le_compat_l.
      rewrite (inner_ext d (fun i => (s + k * (s0 - s) - s0) * dv i + - (t + k * (t0 - t) - t0) * dw i) _ (fun i => (1 - k) * ((s - s0) * dv i + - (t - t0) * dw i) + 0 * dv i) (fun i => (1 - k) * ((s - s0) * dv i + - (t - t0) * dw i) + 0 * dv i)) by (intros i _; ring).
      set (z := fun i => (s - s0) * dv i + - (t - t0) * dw i).
      change (inner_prod d (fun i => (1 - k) * z i + 0 * dv i) (fun i => (1 - k) * z i + 0 * dv i) <= inner_prod d z z).
      rewrite inner_lin, !inner_lin_r. pose proof (inner_nonneg d z). assert ((1 - k) * (1 - k) <= 1) by nra. nra. }
    assert (OUT : s0 < 0 \/ s0 > 1 \/ t0 < 0 \/ t0 > 1 -> let r := end_points_case d v0 v1 w0 w1 in
      near_pair d (in_hull d [v0; v1]) (in_hull d [w0; w1]) (fst r) (snd r) \/ near_pair d (in_hull d [w0; w1]) (in_hull d [v0; v1]) (fst r) (snd r)).
    { intros O. apply end_case_pair. intros s t S T. destruct (box_exit s t s0 t0 S T O) as (k & K & SK & TK & BB).
      eapply Rle_trans; [exact (box_side d v0 v1 w0 w1 _ _ SK TK BB)|]. now apply FS. }
    destruct (Rlt_dec s0 0); [eexists; split; [reflexivity|apply OUT; tauto]|].
    destruct (Rgt_dec s0 1); [eexists; split; [reflexivity|apply OUT; tauto]|].
    destruct (Rlt_dec t0 0); [eexists; split; [reflexivity|apply OUT; tauto]|].
    destruct (Rgt_dec t0 1); [eexists; split; [reflexivity|apply OUT; tauto]|].
    eexists. split; [reflexivity|]. cbn [fst snd]. left.
    assert (XV : forall i, padd v0 (pscale s0 dv) i = on v0 v1 s0 i) by (intros i; unfold padd, pscale, dv, psub, on; ring).
    assert (XW : forall i, padd w0 (pscale t0 dw) i = on w0 w1 t0 i) by (intros i; unfold padd, pscale, dw, psub, on; ring).
    split; [|split].
    + apply hull2. exists s0. split; [lra|]. intros i _. apply XV.
    + apply hull2. exists t0. split; [lra|]. intros i _. apply XW.
    + intros x' y' X Y. apply hull2 in X. apply hull2 in Y. destruct X as (s & _ & X), Y as (t & _ & Y).
      rewrite (D2_ext d x' y' (on v0 v1 s) (on w0 w1 t)) by auto.
      rewrite (D2_ext d (padd v0 (pscale s0 dv)) (padd w0 (pscale t0 dw)) (on v0 v1 s0) (on w0 w1 t0)) by auto.
      rewrite !FF. apply Rplus_le_compat_l. rewrite (inner_zero_l d (fun i => (s0 - s0) * dv i + - (t0 - t0) * dw i)) by (intros i _; ring). apply inner_nonneg.
Qed.

Lemma C48_end_points_pf : forall d v0 v1 w0 w1,
  ~ same_point d v0 v1 -> ~ same_point d w0 w1 ->
  exists x y, closest_line_line d v0 v1 w0 w1 = Some (x, y) /\
    (in_hull d [v0; v1] x /\ in_hull d [w0; w1] y \/ in_hull d [w0; w1] x /\ in_hull d [v0; v1] y) /\
    (forall e z, In e [v0; v1] -> in_hull d [w0; w1] z -> dist d x y <= dist d e z) /\
    (forall e z, In e [w0; w1] -> in_hull d [v0; v1] z -> dist d x y <= dist d e z).
Proof.
  intros d v0 v1 w0 w1 DV DW.
  assert (ND : nearly_parallel d v0 v1 w0 w1 \/ ~ nearly_parallel d v0 v1 w0 w1).
  { rewrite nearly_lt. destruct (Rlt_dec (inner_prod d (psub v1 v0) (psub v1 v0) * inner_prod d (psub w1 w0) (psub w1 w0) - inner_prod d (psub v1 v0) (psub w1 w0) * inner_prod d (psub v1 v0) (psub w1 w0))
      (/ 1000000 * inner_prod d (psub v1 v0) (psub v1 v0) * inner_prod d (psub w1 w0) (psub w1 w0))); tauto. }
  destruct ND as [N|N].
  - rewrite nearly_lt in N. unfold closest_line_line. cbv zeta. destruct Rlt_dec as [_|L]; [|contradiction].
    destruct (end_case d v0 v1 w0 w1) as (M & N1 & N2). set (r := end_points_case d v0 v1 w0 w1) in *.
    exists (fst r), (snd r). split; [now rewrite <- surjective_pairing|]. split; [|split].
    + destruct M as [[[M|M] K]|[[M|M] K]]; [right|right|left|left]; (split; [rewrite M; first [apply hull_end0|apply hull_end1]|exact K]).
    + intros e z [<-|[<-|[]]] Z; apply dist_le; apply (N2 z Z).
    + intros e z [<-|[<-|[]]] Z; apply dist_le; apply (N1 z Z).
  - destruct (C48_lines_partial_pf d v0 v1 w0 w1 DV DW (or_intror N)) as (x & y & E & M). exists x, y. split; [exact E|].
    destruct M as [(A & B & C)|(A & B & C)]; (split; [tauto|]); (split; intros e z I Z).
    + apply C; auto. destruct I as [<-|[<-|[]]]; [apply hull_end0|apply hull_end1].
    + assert (X : dist d e z = dist d z e) by (rewrite !dist_D2; now rewrite D2_sym). rewrite X. apply C; auto. destruct I as [<-|[<-|[]]]; [apply hull_end0|apply hull_end1].
    + assert (X : dist d e z = dist d z e) by (rewrite !dist_D2; now rewrite D2_sym). rewrite X. apply C; auto. destruct I as [<-|[<-|[]]]; [apply hull_end0|apply hull_end1].
    + apply C; auto. destruct I as [<-|[<-|[]]]; [apply hull_end0|apply hull_end1].
Qed.

Lemma C48_nearly_parallel_refuted_pf : forall h, 0 < h <= 1 / 1000 ->
  let v0 := pt2 (-1) 0 in let v1 := pt2 1 0 in
  let w0 := pt2 (-1) (- h) in let w1 := pt2 1 h in
  (exists z, in_hull 2 [v0; v1] z /\ in_hull 2 [w0; w1] z) /\
  exists x y, closest_line_line 2 v0 v1 w0 w1 = Some (x, y) /\ 0 < dist 2 x y.
Proof.
  intros h H. cbv zeta. split.
  { exists (pt2 0 0). split; apply hull2; exists (1 / 2); (split; [lra|]); intros [|[|i]] Hi; unfold pt2; try lra; lia. }
  unfold closest_line_line. cbv zeta. destruct Rlt_dec as [_|L].
  2: { elim L. unfold inner_prod, psub, pt2. cbn. assert (h * h <= 1 / 1000 * (1 / 1000)) by (apply Rmult_le_compat; lra). nra. }
  set (v0 := pt2 (-1) 0). set (v1 := pt2 1 0). set (w0 := pt2 (-1) (- h)). set (w1 := pt2 1 h).
  destruct (end_case 2 v0 v1 w0 w1) as (M & _). set (r := end_points_case 2 v0 v1 w0 w1) in *.
  exists (fst r), (snd r). split; [now rewrite <- surjective_pairing|].
  rewrite dist_D2. apply sqrt_lt_R0. pose proof (D2_nonneg 2 (fst r) (snd r)) as P.
  destruct (Req_dec (D2 2 (fst r) (snd r)) 0) as [Z|NZ]; [exfalso|lra].
  pose proof (inner_zero 2 _ Z) as Q. pose proof (Q 0%nat ltac:(auto)) as Q0. pose proof (Q 1%nat ltac:(auto)) as Q1. unfold psub in Q0, Q1.
  destruct M as [[M K]|[M K]]; apply hull2 in K; destruct K as (t & T & K); pose proof (K 0%nat ltac:(auto)) as K0; pose proof (K 1%nat ltac:(auto)) as K1;
    destruct M as [M|M]; rewrite M in *; unfold v0, v1, w0, w1, pt2 in *; nra.
Qed.

Lemma C48_order_refuted_pf :
  let v0 := pt2 0 0 in let v1 := pt2 2 0 in let w0 := pt2 1 1 in let w1 := pt2 1 2 in
  exists x y, closest_line_line 2 v0 v1 w0 w1 = Some (x, y) /\ ~ in_hull 2 [v0; v1] x /\ ~ in_hull 2 [w0; w1] y.
Proof.
  cbv zeta. set (v0 := pt2 0 0). set (v1 := pt2 2 0). set (w0 := pt2 1 1). set (w1 := pt2 1 2).
  assert (E : closest_line_line 2 v0 v1 w0 w1 = Some (end_points_case 2 v0 v1 w0 w1)).
  { unfold closest_line_line. cbv zeta. destruct Rlt_dec as [_|L]; [reflexivity|].
    destruct Req_EM_T as [Z|_].
    { exfalso. revert Z. unfold inner_prod, psub, v0, v1, w0, w1, pt2. cbn. lra. }
    repeat destruct Rlt_dec; repeat destruct Rgt_dec; try reflexivity. exfalso.
    match goal with N : ~ (?a / ?b < 0), M : ~ (_ < 0) |- _ => idtac end.
    unfold inner_prod, psub, v0, v1, w0, w1, pt2 in *. cbn in *. lra. }
  destruct (end_case 2 v0 v1 w0 w1) as (M & N1 & N2). rewrite E. set (r := end_points_case 2 v0 v1 w0 w1) in *.
  exists (fst r), (snd r). split; [now rewrite <- surjective_pairing|].
  assert (S : D2 2 (fst r) (snd r) <= 1).
  { destruct (N1 (pt2 1 0)) as [A _].
    { apply hull2. exists (1 / 2). split; [lra|]. intros [|[|i]] Hi; unfold v0, v1, pt2; try lra; lia. }
    eapply Rle_trans; [exact A|]. unfold D2, inner_prod, psub, w0, pt2. cbn. lra. }
  destruct M as [[M K]|[M K]].
  - split; intros X.
    + apply hull2 in X. destruct X as (t & T & X). specialize (X 1%nat ltac:(auto)). destruct M as [M|M]; rewrite M in X; unfold v0, v1, w0, w1, pt2 in X; lra.
    + apply hull2 in X. destruct X as (t & T & X). specialize (X 1%nat ltac:(auto)). apply hull2 in K. destruct K as (t' & T' & K). specialize (K 1%nat ltac:(auto)).
      unfold v0, v1, w0, w1, pt2 in *. lra.
  - exfalso. apply hull2 in K. destruct K as (t & T & K). pose proof (K 0%nat ltac:(auto)) as K0. pose proof (K 1%nat ltac:(auto)) as K1.
    unfold D2, inner_prod, psub in S. cbn in S. rewrite K0, K1 in S. destruct M as [M|M]; rewrite M in S; unfold v0, v1, w0, w1, pt2 in S; nra.
Qed.
