(** Transfer from barycentric weights to points; used by the proofs of C33-C36. *)
From Coq Require Import Reals List Arith Lia Lra Permutation.
From Verif Require Import ModelGeom SpecRefine.
Import ListNotations.
Local Open Scope R_scope.

Lemma Rsum_app a b : Rsum (a ++ b) = Rsum a + Rsum b.
Proof. induction a; simpl; lra. Qed.
Lemma Rsum_perm a b : Permutation a b -> Rsum a = Rsum b.
Proof. induction 1; simpl; lra. Qed.
Lemma Rsum_map_plus {A} (f g : A -> R) l : Rsum (map (fun x => f x + g x) l) = Rsum (map f l) + Rsum (map g l).
Proof. induction l; simpl; lra. Qed.
Lemma Rsum_map_scale {A} c (f : A -> R) l : Rsum (map (fun x => c * f x) l) = c * Rsum (map f l).
Proof. induction l; simpl; [lra|rewrite IHl; lra]. Qed.
Lemma Rsum_map_ext {A} (f g : A -> R) l : (forall x, In x l -> f x = g x) -> Rsum (map f l) = Rsum (map g l).
Proof. intros H. f_equal. now apply map_ext_in. Qed.
Lemma Rsum_zero {A} (f : A -> R) l : (forall x, In x l -> f x = 0) -> Rsum (map f l) = 0.
Proof. induction l; simpl; intros H; auto. rewrite IHl, H; auto; lra. Qed.
Lemma Rsum_swap {A B} (f : A -> B -> R) la lb :
  Rsum (map (fun a => Rsum (map (f a) lb)) la) = Rsum (map (fun b => Rsum (map (fun a => f a b) la)) lb).
Proof.
  induction la as [|a la IH]; simpl.
  - induction lb; simpl; lra.
  - rewrite IH. rewrite <- Rsum_map_plus. reflexivity.
Qed.
Lemma Rsum_nonneg l : Forall (Rle 0) l -> 0 <= Rsum l.
Proof. induction 1; simpl; lra. Qed.

Lemma Forall_perm {A} (P : A -> Prop) l r : Permutation l r -> Forall P l -> Forall P r.
Proof. intros HP. rewrite !Forall_forall. intros H x Hx. apply H. now apply (Permutation_in _ (Permutation_sym HP)). Qed.

Lemma in_hull_perm d ps ps' x : Permutation ps ps' -> in_hull d ps x -> in_hull d ps' x.
Proof.
  intros HP (wps & H1 & H2 & H3 & H4). subst ps.
  apply Permutation_sym in HP. apply Permutation_map_inv in HP as (w' & -> & HP).
  exists w'. split; auto. split; [eapply Forall_perm; eauto|]. split.
  - rewrite <- H3. apply Rsum_perm. apply Permutation_map. now apply Permutation_sym.
  - intros i Hi. rewrite H4 by auto. apply Rsum_perm. now apply Permutation_map.
Qed.
Lemma in_interior_perm d ps ps' x : Permutation ps ps' -> in_interior d ps x -> in_interior d ps' x.
Proof.
  intros HP (wps & H1 & H2 & H3 & H4). subst ps.
  apply Permutation_sym in HP. apply Permutation_map_inv in HP as (w' & -> & HP).
  exists w'. split; auto. split; [eapply Forall_perm; eauto|]. split.
  - rewrite <- H3. apply Rsum_perm. apply Permutation_map. now apply Permutation_sym.
  - intros i Hi. rewrite H4 by auto. apply Rsum_perm. now apply Permutation_map.
Qed.

Lemma wps_seq (vp : nat -> point) n : forall s (wps : list (R * point)), map snd wps = map vp (seq s n) ->
  exists b : nat -> R, map fst wps = map b (seq s n) /\ wps = map (fun k => (b k, vp k)) (seq s n).
Proof.
  induction n as [|m IH]; intros s wps H.
  - destruct wps; [|discriminate]. exists (fun _ => 0). auto.
  - destruct wps as [|[w p] wps]; [discriminate|]. simpl in H. inversion H; subst.
    destruct (IH (S s) wps H2) as (b & Hb1 & Hb2).
    exists (fun k => if Nat.eqb k s then w else b k). simpl. rewrite Nat.eqb_refl.
    split; [|f_equal].
    + f_equal. rewrite Hb1. apply map_ext_in. intros k Hk. apply in_seq in Hk. destruct (Nat.eqb_spec k s); auto; lia.
    + rewrite Hb2 at 1. apply map_ext_in. intros k Hk. apply in_seq in Hk. destruct (Nat.eqb_spec k s); auto; lia.
Qed.

(** ** Cells given by labels with barycentric weights *)
Section Labels.
Variable n : nat.                      (* number of vertices of the parent *)
Variable wt : nat -> nat -> R.         (* weight of a label at a vertex of the parent *)

Definition lcomb (ws : list (R * nat)) (i : nat) : R := Rsum (map (fun wl => fst wl * wt (snd wl) i) ws).

Definition lcover (cells : list (list nat)) : Prop :=
  forall b : nat -> R, (forall i, (i < n)%nat -> 0 <= b i) ->
  exists cell ws, In cell cells /\ map snd ws = cell /\ Forall (fun w => 0 <= fst w) ws /\
    forall i, (i < n)%nat -> b i = lcomb ws i.

Definition ldisjoint2 (c1 c2 : list nat) : Prop :=
  forall ws1 ws2, map snd ws1 = c1 -> map snd ws2 = c2 ->
    Forall (fun w => 0 < fst w) ws1 -> Forall (fun w => 0 < fst w) ws2 ->
    (forall i, (i < n)%nat -> lcomb ws1 i = lcomb ws2 i) -> False.

(** Two different cells (as sets) of the list never meet in their interior. *)
Definition ldisjoint (cells : list (list nat)) : Prop :=
  forall c1 c2, In c1 cells -> In c2 cells -> Permutation c1 c2 \/ ldisjoint2 c1 c2.

Variable okl : nat -> Prop.            (* the labels in use *)
Hypothesis wt_pos : forall l i, okl l -> 0 <= wt l i.
Hypothesis wt_sum : forall l, okl l -> Rsum (map (wt l) (seq 0 n)) = 1.

Variable d : nat.
Variable vp : nat -> point.            (* points of the vertices of the parent *)
Variable lp : nat -> point.            (* points of the labels *)
Hypothesis lp_ok : forall l i, okl l -> (i < d)%nat -> lp l i = Rsum (map (fun k => wt l k * vp k i) (seq 0 n)).

Definition parent : list point := map vp (seq 0 n).

Lemma lcomb_sum ws : (forall wl, In wl ws -> okl (snd wl)) ->
  Rsum (map (lcomb ws) (seq 0 n)) = Rsum (map fst ws).
Proof.
  intros H. unfold lcomb. rewrite (Rsum_swap (fun i wl => fst wl * wt (snd wl) i)).
  apply Rsum_map_ext. intros wl Hwl. rewrite Rsum_map_scale.
  change (fun x => wt (snd wl) x) with (wt (snd wl)). rewrite wt_sum by auto. lra.
Qed.

Lemma lcomb_point ws i : (forall wl, In wl ws -> okl (snd wl)) -> (i < d)%nat ->
  Rsum (map (fun k => lcomb ws k * vp k i) (seq 0 n)) = Rsum (map (fun wl => fst wl * lp (snd wl) i) ws).
Proof.
  intros H Hi. unfold lcomb.
  transitivity (Rsum (map (fun k => Rsum (map (fun wl => fst wl * (wt (snd wl) k * vp k i)) ws)) (seq 0 n))).
  - apply Rsum_map_ext. intros k _. rewrite Rmult_comm, <- Rsum_map_scale. apply Rsum_map_ext. intros; ring.
  - rewrite (Rsum_swap (fun k wl => fst wl * (wt (snd wl) k * vp k i))).
    apply Rsum_map_ext. intros wl Hwl. rewrite Rsum_map_scale, lp_ok by auto. reflexivity.
Qed.

Lemma map_fst_snd_combine {A B} (la : list A) (lb : list B) : length la = length lb ->
  map snd (combine la lb) = lb /\ map fst (combine la lb) = la.
Proof.
  revert lb. induction la; destruct lb; simpl; intros H; try discriminate; auto.
  destruct (IHla lb ltac:(congruence)) as [-> ->]. auto.
Qed.

Definition lwps (ws : list (R * nat)) : list (R * point) := map (fun wl => (fst wl, lp (snd wl))) ws.
Lemma lwps_snd ws : map snd (lwps ws) = map lp (map snd ws).
Proof. unfold lwps. rewrite !map_map. reflexivity. Qed.
Lemma lwps_weight ws : weight_sum (lwps ws) = Rsum (map fst ws).
Proof. unfold lwps, weight_sum. rewrite map_map. reflexivity. Qed.
Lemma lwps_coord ws i : weighted_coord (lwps ws) i = Rsum (map (fun wl => fst wl * lp (snd wl) i) ws).
Proof. unfold lwps, weighted_coord. rewrite map_map. reflexivity. Qed.

Lemma wps_parent wps : map snd wps = parent ->
  exists b : nat -> R, map fst wps = map b (seq 0 n) /\ wps = map (fun k => (b k, vp k)) (seq 0 n).
Proof. apply wps_seq. Qed.

Lemma lwps_inv wps c : map snd wps = map lp c -> exists ws, map snd ws = c /\ wps = lwps ws.
Proof.
  revert c. induction wps as [|[w p] wps IH]; intros [|l c] H; simpl in H; try discriminate.
  - exists []. auto.
  - inversion H; subst. destruct (IH c H2) as (ws & H3 & ->). exists ((w, l) :: ws). simpl. now rewrite H3.
Qed.

Lemma lcover_covers cells : lcover cells -> (forall c l, In c cells -> In l c -> okl l) ->
  covers d parent (map (map lp) cells).
Proof.
  intros HC HL x. split.
  - intros (wps & H1 & H2 & H3 & H4). destruct (wps_parent wps H1) as (b & Hb & ->).
    destruct (HC b) as (cell & ws & HI & HS & HP & HE).
    { intros i Hi. rewrite Forall_forall in H2. apply (H2 (b i, vp i)). apply in_map_iff. exists i. split; auto. apply in_seq. lia. }
    assert (OK : forall wl, In wl ws -> okl (snd wl)).
    { intros wl Hwl. apply (HL cell); auto. rewrite <- HS. now apply in_map. }
    assert (EX : forall f, Rsum (map (fun k => b k * f k) (seq 0 n)) = Rsum (map (fun k => lcomb ws k * f k) (seq 0 n))).
    { intros f. apply Rsum_map_ext. intros k Hk. apply in_seq in Hk. rewrite HE by lia. reflexivity. }
    exists (map lp cell). split; [now apply in_map|]. exists (lwps ws). split; [now rewrite lwps_snd, HS|]. split.
    + unfold lwps. apply Forall_map. exact HP.
    + split.
      * rewrite lwps_weight, <- lcomb_sum by auto. rewrite <- H3. unfold weight_sum. rewrite Hb.
        apply Rsum_map_ext. intros k Hk. apply in_seq in Hk. rewrite HE by lia. reflexivity.
      * intros i Hi. rewrite H4, lwps_coord by auto. unfold weighted_coord. rewrite map_map. cbn [fst snd].
        rewrite EX, lcomb_point by auto. reflexivity.
  - intros (c & Hc & (wps & H1 & H2 & H3 & H4)). apply in_map_iff in Hc as (cell & <- & HI).
    destruct (lwps_inv wps cell H1) as (ws & HS & ->).
    assert (OK : forall wl, In wl ws -> okl (snd wl)).
    { intros wl Hwl. apply (HL cell); auto. rewrite <- HS. now apply in_map. }
    unfold lwps in H2. rewrite Forall_map in H2. cbn [fst] in H2.
    exists (map (fun k => (lcomb ws k, vp k)) (seq 0 n)). split; [unfold parent; rewrite map_map; reflexivity|]. split; [|split].
    + apply Forall_map, Forall_forall. intros k _. cbn [fst]. unfold lcomb. apply Rsum_nonneg.
      apply Forall_map. rewrite Forall_forall in *. intros wl Hwl. apply Rmult_le_pos; [now apply H2|apply wt_pos; auto].
    + unfold weight_sum. rewrite map_map. cbn [fst]. change (fun x => lcomb ws x) with (lcomb ws).
      rewrite lcomb_sum, <- H3, lwps_weight by auto. reflexivity.
    + intros i Hi. rewrite H4, lwps_coord by auto. unfold weighted_coord. rewrite map_map. cbn [fst snd].
      rewrite lcomb_point by auto. reflexivity.
Qed.

Lemma ldisjoint_no_overlap cells : (forall i j c1 c2, nth_error cells i = Some c1 -> nth_error cells j = Some c2 ->
     i = j \/ ldisjoint2 c1 c2) ->
  (forall c l, In c cells -> In l c -> okl l) -> independent d parent ->
  no_overlap d (map (map lp) cells).
Proof.
  intros HD HL HI i j ci cj x Hi Hj (w1 & A1 & A2 & A3 & A4) (w2 & B1 & B2 & B3 & B4).
  rewrite nth_error_map in Hi, Hj.
  destruct (nth_error cells i) as [c1|] eqn:E1; [|discriminate]. destruct (nth_error cells j) as [c2|] eqn:E2; [|discriminate].
  simpl in Hi, Hj. injection Hi as Hi. injection Hj as Hj. rewrite <- Hi in A1. rewrite <- Hj in B1. clear Hi Hj.
  destruct (HD i j c1 c2 E1 E2) as [|X]; auto. exfalso.
  destruct (lwps_inv w1 c1 A1) as (ws1 & S1 & ->). destruct (lwps_inv w2 c2 B1) as (ws2 & S2 & ->).
  assert (OK1 : forall wl, In wl ws1 -> okl (snd wl)).
  { intros wl Hwl. apply (HL c1); [eapply nth_error_In; eauto|]. rewrite <- S1. now apply in_map. }
  assert (OK2 : forall wl, In wl ws2 -> okl (snd wl)).
  { intros wl Hwl. apply (HL c2); [eapply nth_error_In; eauto|]. rewrite <- S2. now apply in_map. }
  unfold lwps in A2, B2. rewrite Forall_map in A2, B2. cbn [fst] in A2, B2.
  apply (X ws1 ws2); auto. intros k Hk.
  specialize (HI (map (fun k => (lcomb ws1 k - lcomb ws2 k, vp k)) (seq 0 n))).
  assert (Z : Forall (fun wp => fst wp = 0) (map (fun k => (lcomb ws1 k - lcomb ws2 k, vp k)) (seq 0 n))).
  { apply HI.
    - rewrite map_map. reflexivity.
    - unfold weight_sum. rewrite map_map. cbn [fst].
      transitivity (Rsum (map (lcomb ws1) (seq 0 n)) + Rsum (map (fun k => -1 * lcomb ws2 k) (seq 0 n))).
      + rewrite <- Rsum_map_plus. apply Rsum_map_ext. intros; ring.
      + rewrite Rsum_map_scale. change (fun x => lcomb ws2 x) with (lcomb ws2). rewrite !lcomb_sum by auto.
        rewrite lwps_weight in A3, B3. lra.
    - intros i0 Hi0. unfold weighted_coord. rewrite map_map. cbn [fst snd].
      transitivity (Rsum (map (fun k => lcomb ws1 k * vp k i0) (seq 0 n)) + Rsum (map (fun k => -1 * (lcomb ws2 k * vp k i0)) (seq 0 n))).
      + rewrite <- Rsum_map_plus. apply Rsum_map_ext. intros; ring.
      + rewrite Rsum_map_scale, !lcomb_point by auto. rewrite <- !lwps_coord, <- A4, <- B4 by auto. lra. }
  rewrite Forall_map, Forall_forall in Z. specialize (Z k). cbn [fst] in Z. rewrite in_seq in Z. specialize (Z ltac:(lia)). lra.
Qed.
End Labels.

Lemma lcomb_perm wt ws ws' i : Permutation ws ws' -> lcomb wt ws i = lcomb wt ws' i.
Proof. intros HP. apply Rsum_perm. now apply Permutation_map. Qed.
