(** Generated: the eleven ways in which a triangle is subdivided, each shown to
    cover the triangle without overlap, in barycentric coordinates, with the new
    vertex of edge k at an arbitrary position s k of the edge. Used by the
    proofs of C33. *)
From Coq Require Import Reals List Arith Lia Lra.
From Verif Require Import SpecRefine RefineGeom.
Import ListNotations.
Local Open Scope R_scope.

Section Base.
Variable s : nat -> R.
Hypothesis s_pos : forall k, 0 < s k.
Hypothesis s_lt1 : forall k, 0 < 1 - s k.

(** Barycentric coordinate [i] of label [l]. *)
Definition wt3 (l i : nat) : R :=
  if (l <? 3)%nat then (if (l =? i)%nat then 1 else 0)
  else let (a, b) := tri_edge (l - 3) in
    if (a =? i)%nat then 1 - s (l - 3) else if (b =? i)%nat then s (l - 3) else 0.

Ltac wt3_cbn := cbv [wt3 tri_edge Nat.ltb Nat.leb Nat.eqb Nat.sub]; cbn iota.
Ltac nz := pose proof (s_pos 0); pose proof (s_pos 1); pose proof (s_pos 2);
  pose proof (s_lt1 0); pose proof (s_lt1 1); pose proof (s_lt1 2).

Lemma leaf3 cells b l0 l1 l2 c0 c1 c2 : In [l0; l1; l2] cells ->
  0 <= c0 -> 0 <= c1 -> 0 <= c2 ->
  b 0%nat = c0 * wt3 l0 0 + c1 * wt3 l1 0 + c2 * wt3 l2 0 ->
  b 1%nat = c0 * wt3 l0 1 + c1 * wt3 l1 1 + c2 * wt3 l2 1 ->
  b 2%nat = c0 * wt3 l0 2 + c1 * wt3 l1 2 + c2 * wt3 l2 2 ->
  exists cell ws, In cell cells /\ map snd ws = cell /\ Forall (fun w => 0 <= fst w) ws /\
    forall i, (i < 3)%nat -> b i = lcomb wt3 ws i.
Proof.
  intros HI P0 P1 P2 E0 E1 E2. exists [l0;l1;l2], [(c0,l0);(c1,l1);(c2,l2)].
  split; auto. split; auto. split; [repeat (apply Forall_cons; [cbn [fst]; assumption|]); apply Forall_nil|].
  intros i Hi. unfold lcomb. cbn [map fst snd Rsum fold_right].
  destruct i as [|[|[|i]]]; [rewrite E0|rewrite E1|rewrite E2|lia]; ring.
Qed.

Lemma pair3 (l0 l1 l2 k0 k1 k2 : nat) (f0 f1 f2 : R) :
  (0 <= f0 * wt3 l0 0 + f1 * wt3 l0 1 + f2 * wt3 l0 2) ->
  (0 <= f0 * wt3 l1 0 + f1 * wt3 l1 1 + f2 * wt3 l1 2) ->
  (0 <= f0 * wt3 l2 0 + f1 * wt3 l2 1 + f2 * wt3 l2 2) ->
  (f0 * wt3 k0 0 + f1 * wt3 k0 1 + f2 * wt3 k0 2 <= 0) ->
  (f0 * wt3 k1 0 + f1 * wt3 k1 1 + f2 * wt3 k1 2 <= 0) ->
  (f0 * wt3 k2 0 + f1 * wt3 k2 1 + f2 * wt3 k2 2 <= 0) ->
  (0 < (f0 * wt3 l0 0 + f1 * wt3 l0 1 + f2 * wt3 l0 2) + (f0 * wt3 l1 0 + f1 * wt3 l1 1 + f2 * wt3 l1 2) + (f0 * wt3 l2 0 + f1 * wt3 l2 1 + f2 * wt3 l2 2)) ->
  ldisjoint2 3 wt3 [l0;l1;l2] [k0;k1;k2] /\ ldisjoint2 3 wt3 [k0;k1;k2] [l0;l1;l2].
Proof.
  intros A0 A1 A2 B0 B1 B2 S.
  assert (G : forall a0 a1 a2 b0 b1 b2, 0 < a0 -> 0 < a1 -> 0 < a2 -> 0 < b0 -> 0 < b1 -> 0 < b2 ->
     (forall i, (i < 3)%nat -> a0 * wt3 l0 i + a1 * wt3 l1 i + a2 * wt3 l2 i = b0 * wt3 k0 i + b1 * wt3 k1 i + b2 * wt3 k2 i) -> False).
  { intros a0 a1 a2 b0 b1 b2 P0 P1 P2 Q0 Q1 Q2 HE.
    pose proof (HE 0%nat ltac:(lia)) as E0. pose proof (HE 1%nat ltac:(lia)) as E1. pose proof (HE 2%nat ltac:(lia)) as E2. clear HE.
    set (F0 := f0 * wt3 l0 0 + f1 * wt3 l0 1 + f2 * wt3 l0 2) in *. set (F1 := f0 * wt3 l1 0 + f1 * wt3 l1 1 + f2 * wt3 l1 2) in *.
    set (F2 := f0 * wt3 l2 0 + f1 * wt3 l2 1 + f2 * wt3 l2 2) in *. set (G0 := f0 * wt3 k0 0 + f1 * wt3 k0 1 + f2 * wt3 k0 2) in *.
    set (G1 := f0 * wt3 k1 0 + f1 * wt3 k1 1 + f2 * wt3 k1 2) in *. set (G2 := f0 * wt3 k2 0 + f1 * wt3 k2 1 + f2 * wt3 k2 2) in *.
    assert (E : a0 * F0 + a1 * F1 + a2 * F2 = b0 * G0 + b1 * G1 + b2 * G2).
    { transitivity (f0 * (a0 * wt3 l0 0 + a1 * wt3 l1 0 + a2 * wt3 l2 0) + f1 * (a0 * wt3 l0 1 + a1 * wt3 l1 1 + a2 * wt3 l2 1)
        + f2 * (a0 * wt3 l0 2 + a1 * wt3 l1 2 + a2 * wt3 l2 2)); [unfold F0, F1, F2; ring|]. rewrite E0, E1, E2. unfold G0, G1, G2. ring. }
    clearbody F0 F1 F2 G0 G1 G2.
    assert (NN : forall u v, 0 < u -> v <= 0 -> u * v <= 0) by (intros u v Hu Hv; rewrite <- (Rmult_0_r u); apply Rmult_le_compat_l; lra).
    assert (PP : forall u v, 0 < u -> 0 <= v -> 0 <= u * v) by (intros u v Hu Hv; apply Rmult_le_pos; lra).
    pose proof (NN b0 G0 Q0 B0). pose proof (NN b1 G1 Q1 B1). pose proof (NN b2 G2 Q2 B2).
    pose proof (PP a0 F0 P0 A0). pose proof (PP a1 F1 P1 A1). pose proof (PP a2 F2 P2 A2).
    assert (H5 : a0 * F0 = 0) by lra. assert (H6 : a1 * F1 = 0) by lra. assert (H7 : a2 * F2 = 0) by lra.
    assert (ZZ : forall u v, 0 < u -> u * v = 0 -> v = 0) by (intros u v Hu Huv; apply Rmult_integral in Huv as [?|?]; lra).
    apply ZZ in H5; auto. apply ZZ in H6; auto. apply ZZ in H7; auto. lra. }
  assert (I : forall (ws : list (R * nat)) x y z, map snd ws = [x;y;z] -> Forall (fun w => 0 < fst w) ws ->
     exists a0 a1 a2, ws = [(a0,x);(a1,y);(a2,z)] /\ 0 < a0 /\ 0 < a1 /\ 0 < a2).
  { intros ws x y z E F. destruct ws as [|[a0 ?] [|[a1 ?] [|[a2 ?] [|? ?]]]]; try discriminate. injection E as -> -> ->.
    repeat match goal with HF : Forall _ (_ :: _) |- _ => inversion HF; clear HF; subst end. cbn [fst] in *. exists a0, a1, a2. auto. }
  split; intros ws1 ws2 M1 M2 F1 F2 HE;
    destruct (I _ _ _ _ M1 F1) as (a0 & a1 & a2 & -> & P0 & P1 & P2); destruct (I _ _ _ _ M2 F2) as (b0 & b1 & b2 & -> & Q0 & Q1 & Q2).
  - apply (G a0 a1 a2 b0 b1 b2); auto. intros i Hi. specialize (HE i Hi). unfold lcomb in HE. cbn [map fst snd Rsum fold_right] in HE. lra.
  - apply (G b0 b1 b2 a0 a1 a2); auto. intros i Hi. specialize (HE i Hi). unfold lcomb in HE. cbn [map fst snd Rsum fold_right] in HE. lra.
Qed.

Ltac pos_tac := repeat first [assumption | apply Rmult_lt_0_compat | apply Rplus_lt_0_compat].
Ltac three := 
  pose proof (Rmult_lt_0_compat _ _ (Rmult_lt_0_compat _ _ (s_pos 0) (s_pos 1)) (s_pos 2)); pose proof (Rmult_lt_0_compat _ _ (Rmult_lt_0_compat _ _ (s_pos 0) (s_pos 1)) (s_lt1 2));
  pose proof (Rmult_lt_0_compat _ _ (Rmult_lt_0_compat _ _ (s_pos 0) (s_lt1 1)) (s_pos 2)); pose proof (Rmult_lt_0_compat _ _ (Rmult_lt_0_compat _ _ (s_pos 0) (s_lt1 1)) (s_lt1 2));
  pose proof (Rmult_lt_0_compat _ _ (Rmult_lt_0_compat _ _ (s_lt1 0) (s_pos 1)) (s_pos 2)); pose proof (Rmult_lt_0_compat _ _ (Rmult_lt_0_compat _ _ (s_lt1 0) (s_pos 1)) (s_lt1 2));
  pose proof (Rmult_lt_0_compat _ _ (Rmult_lt_0_compat _ _ (s_lt1 0) (s_lt1 1)) (s_pos 2)); pose proof (Rmult_lt_0_compat _ _ (Rmult_lt_0_compat _ _ (s_lt1 0) (s_lt1 1)) (s_lt1 2)).
Ltac sgn := wt3_cbn; nz; first [lra | three; lra | nra].

Ltac nn := nz; first [lra | apply Rle_mult_inv_pos; [lra|pos_tac]
  | apply Rle_mult_inv_pos; [nra|pos_tac] ].
Ltac eqs := wt3_cbn; nz; field; repeat split; apply Rgt_not_eq; apply Rlt_gt; first [lra | pos_tac].

Definition tri0 : list (list nat) := [[0; 1; 2]]%nat.
Lemma tri0_cover : lcover 3 wt3 tri0.
Proof.
  intros b Hb. pose proof (Hb 0%nat ltac:(lia)) as B0. pose proof (Hb 1%nat ltac:(lia)) as B1. pose proof (Hb 2%nat ltac:(lia)) as B2. clear Hb.
  unfold tri0. apply (leaf3 _ b 0 1 2 (b 0%nat) (b 1%nat) (b 2%nat)); [simpl; tauto|nn|nn|nn|eqs|eqs|eqs].
Qed.
Lemma tri0_disjoint c1 c2 : In c1 tri0 -> In c2 tri0 -> c1 = c2 \/ ldisjoint2 3 wt3 c1 c2.
Proof.
  unfold tri0. intros H1 H2.

  simpl in H1, H2. destruct H1 as [<-|[]]; destruct H2 as [<-|[]]; first [left; reflexivity | right; tauto].
Qed.

Definition tri1_0 : list (list nat) := [[0; 3; 2]; [3; 1; 2]]%nat.
Lemma tri1_0_cover : lcover 3 wt3 tri1_0.
Proof.
  intros b Hb. pose proof (Hb 0%nat ltac:(lia)) as B0. pose proof (Hb 1%nat ltac:(lia)) as B1. pose proof (Hb 2%nat ltac:(lia)) as B2. clear Hb.
  unfold tri1_0. destruct (Rle_dec 0 (s 0%nat * b 0%nat + (- (1 - s 0%nat)) * b 1%nat + 0 * b 2%nat)) as [G|G].
  - apply (leaf3 _ b 0 3 2 ((s 0%nat * b 0%nat + (- (1 - s 0%nat)) * b 1%nat + 0 * b 2%nat) / s 0%nat) (b 1%nat / s 0%nat) (b 2%nat)); [simpl; tauto|nn|nn|nn|eqs|eqs|eqs].
  - apply (leaf3 _ b 3 1 2 (b 0%nat / (1 - s 0%nat)) ((- (s 0%nat * b 0%nat + (- (1 - s 0%nat)) * b 1%nat + 0 * b 2%nat)) / (1 - s 0%nat)) (b 2%nat)); [simpl; tauto|nn|nn|nn|eqs|eqs|eqs].
Qed.
Lemma tri1_0_disjoint c1 c2 : In c1 tri1_0 -> In c2 tri1_0 -> c1 = c2 \/ ldisjoint2 3 wt3 c1 c2.
Proof.
  unfold tri1_0. intros H1 H2.
  pose proof (pair3 0 3 2 3 1 2 (s 0%nat) ((- (1 - s 0%nat))) (0) ltac:(sgn) ltac:(sgn) ltac:(sgn) ltac:(sgn) ltac:(sgn) ltac:(sgn) ltac:(sgn)) as D01.
  simpl in H1, H2. destruct H1 as [<-|[<-|[]]]; destruct H2 as [<-|[<-|[]]]; first [left; reflexivity | right; tauto].
Qed.

Definition tri1_2 : list (list nat) := [[2; 4; 1]; [4; 0; 1]]%nat.
Lemma tri1_2_cover : lcover 3 wt3 tri1_2.
Proof.
  intros b Hb. pose proof (Hb 0%nat ltac:(lia)) as B0. pose proof (Hb 1%nat ltac:(lia)) as B1. pose proof (Hb 2%nat ltac:(lia)) as B2. clear Hb.
  unfold tri1_2. destruct (Rle_dec 0 ((- s 1%nat) * b 0%nat + 0 * b 1%nat + (1 - s 1%nat) * b 2%nat)) as [G|G].
  - apply (leaf3 _ b 2 4 1 (((- s 1%nat) * b 0%nat + 0 * b 1%nat + (1 - s 1%nat) * b 2%nat) / (1 - s 1%nat)) (b 0%nat / (1 - s 1%nat)) (b 1%nat)); [simpl; tauto|nn|nn|nn|eqs|eqs|eqs].
  - apply (leaf3 _ b 4 0 1 (b 2%nat / s 1%nat) ((- ((- s 1%nat) * b 0%nat + 0 * b 1%nat + (1 - s 1%nat) * b 2%nat)) / s 1%nat) (b 1%nat)); [simpl; tauto|nn|nn|nn|eqs|eqs|eqs].
Qed.
Lemma tri1_2_disjoint c1 c2 : In c1 tri1_2 -> In c2 tri1_2 -> c1 = c2 \/ ldisjoint2 3 wt3 c1 c2.
Proof.
  unfold tri1_2. intros H1 H2.
  pose proof (pair3 2 4 1 4 0 1 ((- s 1%nat)) (0) ((1 - s 1%nat)) ltac:(sgn) ltac:(sgn) ltac:(sgn) ltac:(sgn) ltac:(sgn) ltac:(sgn) ltac:(sgn)) as D01.
  simpl in H1, H2. destruct H1 as [<-|[<-|[]]]; destruct H2 as [<-|[<-|[]]]; first [left; reflexivity | right; tauto].
Qed.

Definition tri1_1 : list (list nat) := [[1; 5; 0]; [5; 2; 0]]%nat.
Lemma tri1_1_cover : lcover 3 wt3 tri1_1.
Proof.
  intros b Hb. pose proof (Hb 0%nat ltac:(lia)) as B0. pose proof (Hb 1%nat ltac:(lia)) as B1. pose proof (Hb 2%nat ltac:(lia)) as B2. clear Hb.
  unfold tri1_1. destruct (Rle_dec 0 (0 * b 0%nat + s 2%nat * b 1%nat + (- (1 - s 2%nat)) * b 2%nat)) as [G|G].
  - apply (leaf3 _ b 1 5 0 ((0 * b 0%nat + s 2%nat * b 1%nat + (- (1 - s 2%nat)) * b 2%nat) / s 2%nat) (b 2%nat / s 2%nat) (b 0%nat)); [simpl; tauto|nn|nn|nn|eqs|eqs|eqs].
  - apply (leaf3 _ b 5 2 0 (b 1%nat / (1 - s 2%nat)) ((- (0 * b 0%nat + s 2%nat * b 1%nat + (- (1 - s 2%nat)) * b 2%nat)) / (1 - s 2%nat)) (b 0%nat)); [simpl; tauto|nn|nn|nn|eqs|eqs|eqs].
Qed.
Lemma tri1_1_disjoint c1 c2 : In c1 tri1_1 -> In c2 tri1_1 -> c1 = c2 \/ ldisjoint2 3 wt3 c1 c2.
Proof.
  unfold tri1_1. intros H1 H2.
  pose proof (pair3 1 5 0 5 2 0 (0) (s 2%nat) ((- (1 - s 2%nat))) ltac:(sgn) ltac:(sgn) ltac:(sgn) ltac:(sgn) ltac:(sgn) ltac:(sgn) ltac:(sgn)) as D01.
  simpl in H1, H2. destruct H1 as [<-|[<-|[]]]; destruct H2 as [<-|[<-|[]]]; first [left; reflexivity | right; tauto].
Qed.

Definition tri2_2t : list (list nat) := [[4; 0; 3]; [2; 4; 1]; [1; 4; 3]]%nat.
Lemma tri2_2t_cover : lcover 3 wt3 tri2_2t.
Proof.
  intros b Hb. pose proof (Hb 0%nat ltac:(lia)) as B0. pose proof (Hb 1%nat ltac:(lia)) as B1. pose proof (Hb 2%nat ltac:(lia)) as B2. clear Hb.
  unfold tri2_2t. destruct (Rle_dec 0 ((s 1%nat * s 0%nat) * b 0%nat + (- (s 1%nat * (1 - s 0%nat))) * b 1%nat + (- (s 0%nat * (1 - s 1%nat))) * b 2%nat)) as [F|F]; [|destruct (Rle_dec 0 (s 1%nat * b 0%nat + 0 * b 1%nat + (- (1 - s 1%nat)) * b 2%nat)) as [G|G]].
  - apply (leaf3 _ b 4 0 3 (b 2%nat / s 1%nat) (((s 1%nat * s 0%nat) * b 0%nat + (- (s 1%nat * (1 - s 0%nat))) * b 1%nat + (- (s 0%nat * (1 - s 1%nat))) * b 2%nat) / (s 1%nat * s 0%nat)) (b 1%nat / s 0%nat)); [simpl; tauto|nn|nn|nn|eqs|eqs|eqs].
  - apply (leaf3 _ b 1 4 3 ((- ((s 1%nat * s 0%nat) * b 0%nat + (- (s 1%nat * (1 - s 0%nat))) * b 1%nat + (- (s 0%nat * (1 - s 1%nat))) * b 2%nat)) / (s 1%nat * (1 - s 0%nat))) (b 2%nat / s 1%nat) ((s 1%nat * b 0%nat + 0 * b 1%nat + (- (1 - s 1%nat)) * b 2%nat) / (s 1%nat * (1 - s 0%nat)))); [simpl; tauto|nn|nn|nn|eqs|eqs|eqs].
  - apply (leaf3 _ b 2 4 1 ((- (s 1%nat * b 0%nat + 0 * b 1%nat + (- (1 - s 1%nat)) * b 2%nat)) / (1 - s 1%nat)) (b 0%nat / (1 - s 1%nat)) (b 1%nat)); [simpl; tauto|nn|nn|nn|eqs|eqs|eqs].
Qed.
Lemma tri2_2t_disjoint c1 c2 : In c1 tri2_2t -> In c2 tri2_2t -> c1 = c2 \/ ldisjoint2 3 wt3 c1 c2.
Proof.
  unfold tri2_2t. intros H1 H2.
  pose proof (pair3 4 0 3 2 4 1 ((s 1%nat * s 0%nat)) ((- (s 1%nat * (1 - s 0%nat)))) ((- (s 0%nat * (1 - s 1%nat)))) ltac:(sgn) ltac:(sgn) ltac:(sgn) ltac:(sgn) ltac:(sgn) ltac:(sgn) ltac:(sgn)) as D01.
  pose proof (pair3 4 0 3 1 4 3 ((s 1%nat * s 0%nat)) ((- (s 1%nat * (1 - s 0%nat)))) ((- (s 0%nat * (1 - s 1%nat)))) ltac:(sgn) ltac:(sgn) ltac:(sgn) ltac:(sgn) ltac:(sgn) ltac:(sgn) ltac:(sgn)) as D02.
  pose proof (pair3 2 4 1 1 4 3 ((- s 1%nat)) ((- 0)) ((- (- (1 - s 1%nat)))) ltac:(sgn) ltac:(sgn) ltac:(sgn) ltac:(sgn) ltac:(sgn) ltac:(sgn) ltac:(sgn)) as D12.
  simpl in H1, H2. destruct H1 as [<-|[<-|[<-|[]]]]; destruct H2 as [<-|[<-|[<-|[]]]]; first [left; reflexivity | right; tauto].
Qed.

Definition tri2_2f : list (list nat) := [[4; 0; 3]; [2; 4; 3]; [2; 3; 1]]%nat.
Lemma tri2_2f_cover : lcover 3 wt3 tri2_2f.
Proof.
  intros b Hb. pose proof (Hb 0%nat ltac:(lia)) as B0. pose proof (Hb 1%nat ltac:(lia)) as B1. pose proof (Hb 2%nat ltac:(lia)) as B2. clear Hb.
  unfold tri2_2f. destruct (Rle_dec 0 ((s 1%nat * s 0%nat) * b 0%nat + (- (s 1%nat * (1 - s 0%nat))) * b 1%nat + (- (s 0%nat * (1 - s 1%nat))) * b 2%nat)) as [F|F]; [|destruct (Rle_dec 0 (s 0%nat * b 0%nat + (- (1 - s 0%nat)) * b 1%nat + 0 * b 2%nat)) as [G|G]].
  - apply (leaf3 _ b 4 0 3 (b 2%nat / s 1%nat) (((s 1%nat * s 0%nat) * b 0%nat + (- (s 1%nat * (1 - s 0%nat))) * b 1%nat + (- (s 0%nat * (1 - s 1%nat))) * b 2%nat) / (s 1%nat * s 0%nat)) (b 1%nat / s 0%nat)); [simpl; tauto|nn|nn|nn|eqs|eqs|eqs].
  - apply (leaf3 _ b 2 4 3 ((- ((s 1%nat * s 0%nat) * b 0%nat + (- (s 1%nat * (1 - s 0%nat))) * b 1%nat + (- (s 0%nat * (1 - s 1%nat))) * b 2%nat)) / (s 0%nat * (1 - s 1%nat))) ((s 0%nat * b 0%nat + (- (1 - s 0%nat)) * b 1%nat + 0 * b 2%nat) / (s 0%nat * (1 - s 1%nat))) (b 1%nat / s 0%nat)); [simpl; tauto|nn|nn|nn|eqs|eqs|eqs].
  - apply (leaf3 _ b 2 3 1 (b 2%nat) (b 0%nat / (1 - s 0%nat)) ((- (s 0%nat * b 0%nat + (- (1 - s 0%nat)) * b 1%nat + 0 * b 2%nat)) / (1 - s 0%nat))); [simpl; tauto|nn|nn|nn|eqs|eqs|eqs].
Qed.
Lemma tri2_2f_disjoint c1 c2 : In c1 tri2_2f -> In c2 tri2_2f -> c1 = c2 \/ ldisjoint2 3 wt3 c1 c2.
Proof.
  unfold tri2_2f. intros H1 H2.
  pose proof (pair3 4 0 3 2 4 3 ((s 1%nat * s 0%nat)) ((- (s 1%nat * (1 - s 0%nat)))) ((- (s 0%nat * (1 - s 1%nat)))) ltac:(sgn) ltac:(sgn) ltac:(sgn) ltac:(sgn) ltac:(sgn) ltac:(sgn) ltac:(sgn)) as D01.
  pose proof (pair3 4 0 3 2 3 1 ((s 1%nat * s 0%nat)) ((- (s 1%nat * (1 - s 0%nat)))) ((- (s 0%nat * (1 - s 1%nat)))) ltac:(sgn) ltac:(sgn) ltac:(sgn) ltac:(sgn) ltac:(sgn) ltac:(sgn) ltac:(sgn)) as D02.
  pose proof (pair3 2 4 3 2 3 1 (s 0%nat) ((- (1 - s 0%nat))) (0) ltac:(sgn) ltac:(sgn) ltac:(sgn) ltac:(sgn) ltac:(sgn) ltac:(sgn) ltac:(sgn)) as D12.
  simpl in H1, H2. destruct H1 as [<-|[<-|[<-|[]]]]; destruct H2 as [<-|[<-|[<-|[]]]]; first [left; reflexivity | right; tauto].
Qed.

Definition tri2_0t : list (list nat) := [[3; 1; 5]; [0; 3; 2]; [2; 3; 5]]%nat.
Lemma tri2_0t_cover : lcover 3 wt3 tri2_0t.
Proof.
  intros b Hb. pose proof (Hb 0%nat ltac:(lia)) as B0. pose proof (Hb 1%nat ltac:(lia)) as B1. pose proof (Hb 2%nat ltac:(lia)) as B2. clear Hb.
  unfold tri2_0t. destruct (Rle_dec 0 ((- (s 2%nat * s 0%nat)) * b 0%nat + ((1 - s 0%nat) * s 2%nat) * b 1%nat + (- ((1 - s 0%nat) * (1 - s 2%nat))) * b 2%nat)) as [F|F]; [|destruct (Rle_dec 0 ((- s 0%nat) * b 0%nat + (1 - s 0%nat) * b 1%nat + 0 * b 2%nat)) as [G|G]].
  - apply (leaf3 _ b 3 1 5 (b 0%nat / (1 - s 0%nat)) (((- (s 2%nat * s 0%nat)) * b 0%nat + ((1 - s 0%nat) * s 2%nat) * b 1%nat + (- ((1 - s 0%nat) * (1 - s 2%nat))) * b 2%nat) / ((1 - s 0%nat) * s 2%nat)) (b 2%nat / s 2%nat)); [simpl; tauto|nn|nn|nn|eqs|eqs|eqs].
  - apply (leaf3 _ b 2 3 5 ((- ((- (s 2%nat * s 0%nat)) * b 0%nat + ((1 - s 0%nat) * s 2%nat) * b 1%nat + (- ((1 - s 0%nat) * (1 - s 2%nat))) * b 2%nat)) / ((1 - s 0%nat) * (1 - s 2%nat))) (b 0%nat / (1 - s 0%nat)) (((- s 0%nat) * b 0%nat + (1 - s 0%nat) * b 1%nat + 0 * b 2%nat) / ((1 - s 0%nat) * (1 - s 2%nat)))); [simpl; tauto|nn|nn|nn|eqs|eqs|eqs].
  - apply (leaf3 _ b 0 3 2 ((- ((- s 0%nat) * b 0%nat + (1 - s 0%nat) * b 1%nat + 0 * b 2%nat)) / s 0%nat) (b 1%nat / s 0%nat) (b 2%nat)); [simpl; tauto|nn|nn|nn|eqs|eqs|eqs].
Qed.
Lemma tri2_0t_disjoint c1 c2 : In c1 tri2_0t -> In c2 tri2_0t -> c1 = c2 \/ ldisjoint2 3 wt3 c1 c2.
Proof.
  unfold tri2_0t. intros H1 H2.
  pose proof (pair3 3 1 5 0 3 2 ((- (s 2%nat * s 0%nat))) (((1 - s 0%nat) * s 2%nat)) ((- ((1 - s 0%nat) * (1 - s 2%nat)))) ltac:(sgn) ltac:(sgn) ltac:(sgn) ltac:(sgn) ltac:(sgn) ltac:(sgn) ltac:(sgn)) as D01.
  pose proof (pair3 3 1 5 2 3 5 ((- (s 2%nat * s 0%nat))) (((1 - s 0%nat) * s 2%nat)) ((- ((1 - s 0%nat) * (1 - s 2%nat)))) ltac:(sgn) ltac:(sgn) ltac:(sgn) ltac:(sgn) ltac:(sgn) ltac:(sgn) ltac:(sgn)) as D02.
  pose proof (pair3 0 3 2 2 3 5 ((- (- s 0%nat))) ((- (1 - s 0%nat))) ((- 0)) ltac:(sgn) ltac:(sgn) ltac:(sgn) ltac:(sgn) ltac:(sgn) ltac:(sgn) ltac:(sgn)) as D12.
  simpl in H1, H2. destruct H1 as [<-|[<-|[<-|[]]]]; destruct H2 as [<-|[<-|[<-|[]]]]; first [left; reflexivity | right; tauto].
Qed.

Definition tri2_0f : list (list nat) := [[3; 1; 5]; [0; 3; 5]; [0; 5; 2]]%nat.
Lemma tri2_0f_cover : lcover 3 wt3 tri2_0f.
Proof.
  intros b Hb. pose proof (Hb 0%nat ltac:(lia)) as B0. pose proof (Hb 1%nat ltac:(lia)) as B1. pose proof (Hb 2%nat ltac:(lia)) as B2. clear Hb.
  unfold tri2_0f. destruct (Rle_dec 0 ((- (s 2%nat * s 0%nat)) * b 0%nat + ((1 - s 0%nat) * s 2%nat) * b 1%nat + (- ((1 - s 0%nat) * (1 - s 2%nat))) * b 2%nat)) as [F|F]; [|destruct (Rle_dec 0 (0 * b 0%nat + s 2%nat * b 1%nat + (- (1 - s 2%nat)) * b 2%nat)) as [G|G]].
  - apply (leaf3 _ b 3 1 5 (b 0%nat / (1 - s 0%nat)) (((- (s 2%nat * s 0%nat)) * b 0%nat + ((1 - s 0%nat) * s 2%nat) * b 1%nat + (- ((1 - s 0%nat) * (1 - s 2%nat))) * b 2%nat) / ((1 - s 0%nat) * s 2%nat)) (b 2%nat / s 2%nat)); [simpl; tauto|nn|nn|nn|eqs|eqs|eqs].
  - apply (leaf3 _ b 0 3 5 ((- ((- (s 2%nat * s 0%nat)) * b 0%nat + ((1 - s 0%nat) * s 2%nat) * b 1%nat + (- ((1 - s 0%nat) * (1 - s 2%nat))) * b 2%nat)) / (s 2%nat * s 0%nat)) ((0 * b 0%nat + s 2%nat * b 1%nat + (- (1 - s 2%nat)) * b 2%nat) / (s 2%nat * s 0%nat)) (b 2%nat / s 2%nat)); [simpl; tauto|nn|nn|nn|eqs|eqs|eqs].
  - apply (leaf3 _ b 0 5 2 (b 0%nat) (b 1%nat / (1 - s 2%nat)) ((- (0 * b 0%nat + s 2%nat * b 1%nat + (- (1 - s 2%nat)) * b 2%nat)) / (1 - s 2%nat))); [simpl; tauto|nn|nn|nn|eqs|eqs|eqs].
Qed.
Lemma tri2_0f_disjoint c1 c2 : In c1 tri2_0f -> In c2 tri2_0f -> c1 = c2 \/ ldisjoint2 3 wt3 c1 c2.
Proof.
  unfold tri2_0f. intros H1 H2.
  pose proof (pair3 3 1 5 0 3 5 ((- (s 2%nat * s 0%nat))) (((1 - s 0%nat) * s 2%nat)) ((- ((1 - s 0%nat) * (1 - s 2%nat)))) ltac:(sgn) ltac:(sgn) ltac:(sgn) ltac:(sgn) ltac:(sgn) ltac:(sgn) ltac:(sgn)) as D01.
  pose proof (pair3 3 1 5 0 5 2 ((- (s 2%nat * s 0%nat))) (((1 - s 0%nat) * s 2%nat)) ((- ((1 - s 0%nat) * (1 - s 2%nat)))) ltac:(sgn) ltac:(sgn) ltac:(sgn) ltac:(sgn) ltac:(sgn) ltac:(sgn) ltac:(sgn)) as D02.
  pose proof (pair3 0 3 5 0 5 2 (0) (s 2%nat) ((- (1 - s 2%nat))) ltac:(sgn) ltac:(sgn) ltac:(sgn) ltac:(sgn) ltac:(sgn) ltac:(sgn) ltac:(sgn)) as D12.
  simpl in H1, H2. destruct H1 as [<-|[<-|[<-|[]]]]; destruct H2 as [<-|[<-|[<-|[]]]]; first [left; reflexivity | right; tauto].
Qed.

Definition tri2_1t : list (list nat) := [[5; 2; 4]; [1; 5; 0]; [0; 5; 4]]%nat.
Lemma tri2_1t_cover : lcover 3 wt3 tri2_1t.
Proof.
  intros b Hb. pose proof (Hb 0%nat ltac:(lia)) as B0. pose proof (Hb 1%nat ltac:(lia)) as B1. pose proof (Hb 2%nat ltac:(lia)) as B2. clear Hb.
  unfold tri2_1t. destruct (Rle_dec 0 ((- ((1 - s 2%nat) * s 1%nat)) * b 0%nat + (- ((1 - s 1%nat) * s 2%nat)) * b 1%nat + ((1 - s 2%nat) * (1 - s 1%nat)) * b 2%nat)) as [F|F]; [|destruct (Rle_dec 0 (0 * b 0%nat + (- s 2%nat) * b 1%nat + (1 - s 2%nat) * b 2%nat)) as [G|G]].
  - apply (leaf3 _ b 5 2 4 (b 1%nat / (1 - s 2%nat)) (((- ((1 - s 2%nat) * s 1%nat)) * b 0%nat + (- ((1 - s 1%nat) * s 2%nat)) * b 1%nat + ((1 - s 2%nat) * (1 - s 1%nat)) * b 2%nat) / ((1 - s 2%nat) * (1 - s 1%nat))) (b 0%nat / (1 - s 1%nat))); [simpl; tauto|nn|nn|nn|eqs|eqs|eqs].
  - apply (leaf3 _ b 0 5 4 ((- ((- ((1 - s 2%nat) * s 1%nat)) * b 0%nat + (- ((1 - s 1%nat) * s 2%nat)) * b 1%nat + ((1 - s 2%nat) * (1 - s 1%nat)) * b 2%nat)) / ((1 - s 2%nat) * s 1%nat)) (b 1%nat / (1 - s 2%nat)) ((0 * b 0%nat + (- s 2%nat) * b 1%nat + (1 - s 2%nat) * b 2%nat) / ((1 - s 2%nat) * s 1%nat))); [simpl; tauto|nn|nn|nn|eqs|eqs|eqs].
  - apply (leaf3 _ b 1 5 0 ((- (0 * b 0%nat + (- s 2%nat) * b 1%nat + (1 - s 2%nat) * b 2%nat)) / s 2%nat) (b 2%nat / s 2%nat) (b 0%nat)); [simpl; tauto|nn|nn|nn|eqs|eqs|eqs].
Qed.
Lemma tri2_1t_disjoint c1 c2 : In c1 tri2_1t -> In c2 tri2_1t -> c1 = c2 \/ ldisjoint2 3 wt3 c1 c2.
Proof.
  unfold tri2_1t. intros H1 H2.
  pose proof (pair3 5 2 4 1 5 0 ((- ((1 - s 2%nat) * s 1%nat))) ((- ((1 - s 1%nat) * s 2%nat))) (((1 - s 2%nat) * (1 - s 1%nat))) ltac:(sgn) ltac:(sgn) ltac:(sgn) ltac:(sgn) ltac:(sgn) ltac:(sgn) ltac:(sgn)) as D01.
  pose proof (pair3 5 2 4 0 5 4 ((- ((1 - s 2%nat) * s 1%nat))) ((- ((1 - s 1%nat) * s 2%nat))) (((1 - s 2%nat) * (1 - s 1%nat))) ltac:(sgn) ltac:(sgn) ltac:(sgn) ltac:(sgn) ltac:(sgn) ltac:(sgn) ltac:(sgn)) as D02.
  pose proof (pair3 1 5 0 0 5 4 ((- 0)) ((- (- s 2%nat))) ((- (1 - s 2%nat))) ltac:(sgn) ltac:(sgn) ltac:(sgn) ltac:(sgn) ltac:(sgn) ltac:(sgn) ltac:(sgn)) as D12.
  simpl in H1, H2. destruct H1 as [<-|[<-|[<-|[]]]]; destruct H2 as [<-|[<-|[<-|[]]]]; first [left; reflexivity | right; tauto].
Qed.

Definition tri2_1f : list (list nat) := [[5; 2; 4]; [1; 5; 4]; [1; 4; 0]]%nat.
Lemma tri2_1f_cover : lcover 3 wt3 tri2_1f.
Proof.
  intros b Hb. pose proof (Hb 0%nat ltac:(lia)) as B0. pose proof (Hb 1%nat ltac:(lia)) as B1. pose proof (Hb 2%nat ltac:(lia)) as B2. clear Hb.
  unfold tri2_1f. destruct (Rle_dec 0 ((- ((1 - s 2%nat) * s 1%nat)) * b 0%nat + (- ((1 - s 1%nat) * s 2%nat)) * b 1%nat + ((1 - s 2%nat) * (1 - s 1%nat)) * b 2%nat)) as [F|F]; [|destruct (Rle_dec 0 ((- s 1%nat) * b 0%nat + 0 * b 1%nat + (1 - s 1%nat) * b 2%nat)) as [G|G]].
  - apply (leaf3 _ b 5 2 4 (b 1%nat / (1 - s 2%nat)) (((- ((1 - s 2%nat) * s 1%nat)) * b 0%nat + (- ((1 - s 1%nat) * s 2%nat)) * b 1%nat + ((1 - s 2%nat) * (1 - s 1%nat)) * b 2%nat) / ((1 - s 2%nat) * (1 - s 1%nat))) (b 0%nat / (1 - s 1%nat))); [simpl; tauto|nn|nn|nn|eqs|eqs|eqs].
  - apply (leaf3 _ b 1 5 4 ((- ((- ((1 - s 2%nat) * s 1%nat)) * b 0%nat + (- ((1 - s 1%nat) * s 2%nat)) * b 1%nat + ((1 - s 2%nat) * (1 - s 1%nat)) * b 2%nat)) / ((1 - s 1%nat) * s 2%nat)) (((- s 1%nat) * b 0%nat + 0 * b 1%nat + (1 - s 1%nat) * b 2%nat) / ((1 - s 1%nat) * s 2%nat)) (b 0%nat / (1 - s 1%nat))); [simpl; tauto|nn|nn|nn|eqs|eqs|eqs].
  - apply (leaf3 _ b 1 4 0 (b 1%nat) (b 2%nat / s 1%nat) ((- ((- s 1%nat) * b 0%nat + 0 * b 1%nat + (1 - s 1%nat) * b 2%nat)) / s 1%nat)); [simpl; tauto|nn|nn|nn|eqs|eqs|eqs].
Qed.
Lemma tri2_1f_disjoint c1 c2 : In c1 tri2_1f -> In c2 tri2_1f -> c1 = c2 \/ ldisjoint2 3 wt3 c1 c2.
Proof.
  unfold tri2_1f. intros H1 H2.
  pose proof (pair3 5 2 4 1 5 4 ((- ((1 - s 2%nat) * s 1%nat))) ((- ((1 - s 1%nat) * s 2%nat))) (((1 - s 2%nat) * (1 - s 1%nat))) ltac:(sgn) ltac:(sgn) ltac:(sgn) ltac:(sgn) ltac:(sgn) ltac:(sgn) ltac:(sgn)) as D01.
  pose proof (pair3 5 2 4 1 4 0 ((- ((1 - s 2%nat) * s 1%nat))) ((- ((1 - s 1%nat) * s 2%nat))) (((1 - s 2%nat) * (1 - s 1%nat))) ltac:(sgn) ltac:(sgn) ltac:(sgn) ltac:(sgn) ltac:(sgn) ltac:(sgn) ltac:(sgn)) as D02.
  pose proof (pair3 1 5 4 1 4 0 ((- s 1%nat)) (0) ((1 - s 1%nat)) ltac:(sgn) ltac:(sgn) ltac:(sgn) ltac:(sgn) ltac:(sgn) ltac:(sgn) ltac:(sgn)) as D12.
  simpl in H1, H2. destruct H1 as [<-|[<-|[<-|[]]]]; destruct H2 as [<-|[<-|[<-|[]]]]; first [left; reflexivity | right; tauto].
Qed.

Definition tri3 : list (list nat) := [[0; 3; 4]; [3; 1; 5]; [4; 5; 2]; [4; 3; 5]]%nat.
Lemma tri3_cover : lcover 3 wt3 tri3.
Proof.
  intros b Hb. pose proof (Hb 0%nat ltac:(lia)) as B0. pose proof (Hb 1%nat ltac:(lia)) as B1. pose proof (Hb 2%nat ltac:(lia)) as B2. clear Hb.
  unfold tri3. destruct (Rle_dec 0 ((s 0%nat * s 1%nat) * b 0%nat + (- (s 1%nat * (1 - s 0%nat))) * b 1%nat + (- (s 0%nat * (1 - s 1%nat))) * b 2%nat)) as [F0|F0]; [|destruct (Rle_dec 0 ((- (s 2%nat * s 0%nat)) * b 0%nat + ((1 - s 0%nat) * s 2%nat) * b 1%nat + (- ((1 - s 0%nat) * (1 - s 2%nat))) * b 2%nat)) as [F1|F1]; [|destruct (Rle_dec 0 ((- ((1 - s 2%nat) * s 1%nat)) * b 0%nat + (- ((1 - s 1%nat) * s 2%nat)) * b 1%nat + ((1 - s 1%nat) * (1 - s 2%nat)) * b 2%nat)) as [F2|F2]]].
  - apply (leaf3 _ b 0 3 4 (((s 0%nat * s 1%nat) * b 0%nat + (- (s 1%nat * (1 - s 0%nat))) * b 1%nat + (- (s 0%nat * (1 - s 1%nat))) * b 2%nat) / (s 0%nat * s 1%nat)) (b 1%nat / s 0%nat) (b 2%nat / s 1%nat)); [simpl; tauto|nn|nn|nn|eqs|eqs|eqs].
  - apply (leaf3 _ b 3 1 5 (b 0%nat / (1 - s 0%nat)) (((- (s 2%nat * s 0%nat)) * b 0%nat + ((1 - s 0%nat) * s 2%nat) * b 1%nat + (- ((1 - s 0%nat) * (1 - s 2%nat))) * b 2%nat) / ((1 - s 0%nat) * s 2%nat)) (b 2%nat / s 2%nat)); [simpl; tauto|nn|nn|nn|eqs|eqs|eqs].
  - apply (leaf3 _ b 4 5 2 (b 0%nat / (1 - s 1%nat)) (b 1%nat / (1 - s 2%nat)) (((- ((1 - s 2%nat) * s 1%nat)) * b 0%nat + (- ((1 - s 1%nat) * s 2%nat)) * b 1%nat + ((1 - s 1%nat) * (1 - s 2%nat)) * b 2%nat) / ((1 - s 1%nat) * (1 - s 2%nat)))); [simpl; tauto|nn|nn|nn|eqs|eqs|eqs].
  - apply (leaf3 _ b 4 3 5 ((- ((- (s 2%nat * s 0%nat)) * b 0%nat + ((1 - s 0%nat) * s 2%nat) * b 1%nat + (- ((1 - s 0%nat) * (1 - s 2%nat))) * b 2%nat)) / (((1 - s 0%nat) * (1 - s 2%nat)) * s 1%nat + (s 0%nat * (1 - s 1%nat)) * s 2%nat)) ((- ((- ((1 - s 2%nat) * s 1%nat)) * b 0%nat + (- ((1 - s 1%nat) * s 2%nat)) * b 1%nat + ((1 - s 1%nat) * (1 - s 2%nat)) * b 2%nat)) / (((1 - s 0%nat) * (1 - s 2%nat)) * s 1%nat + (s 0%nat * (1 - s 1%nat)) * s 2%nat)) ((- ((s 0%nat * s 1%nat) * b 0%nat + (- (s 1%nat * (1 - s 0%nat))) * b 1%nat + (- (s 0%nat * (1 - s 1%nat))) * b 2%nat)) / (((1 - s 0%nat) * (1 - s 2%nat)) * s 1%nat + (s 0%nat * (1 - s 1%nat)) * s 2%nat))); [simpl; tauto|nn|nn|nn|eqs|eqs|eqs].
Qed.
Lemma tri3_disjoint c1 c2 : In c1 tri3 -> In c2 tri3 -> c1 = c2 \/ ldisjoint2 3 wt3 c1 c2.
Proof.
  unfold tri3. intros H1 H2.
  pose proof (pair3 0 3 4 3 1 5 ((s 0%nat * s 1%nat)) ((- (s 1%nat * (1 - s 0%nat)))) ((- (s 0%nat * (1 - s 1%nat)))) ltac:(sgn) ltac:(sgn) ltac:(sgn) ltac:(sgn) ltac:(sgn) ltac:(sgn) ltac:(sgn)) as D01.
  pose proof (pair3 0 3 4 4 5 2 ((s 0%nat * s 1%nat)) ((- (s 1%nat * (1 - s 0%nat)))) ((- (s 0%nat * (1 - s 1%nat)))) ltac:(sgn) ltac:(sgn) ltac:(sgn) ltac:(sgn) ltac:(sgn) ltac:(sgn) ltac:(sgn)) as D02.
  pose proof (pair3 0 3 4 4 3 5 ((s 0%nat * s 1%nat)) ((- (s 1%nat * (1 - s 0%nat)))) ((- (s 0%nat * (1 - s 1%nat)))) ltac:(sgn) ltac:(sgn) ltac:(sgn) ltac:(sgn) ltac:(sgn) ltac:(sgn) ltac:(sgn)) as D03.
  pose proof (pair3 3 1 5 4 5 2 ((- (s 2%nat * s 0%nat))) (((1 - s 0%nat) * s 2%nat)) ((- ((1 - s 0%nat) * (1 - s 2%nat)))) ltac:(sgn) ltac:(sgn) ltac:(sgn) ltac:(sgn) ltac:(sgn) ltac:(sgn) ltac:(sgn)) as D12.
  pose proof (pair3 3 1 5 4 3 5 ((- (s 2%nat * s 0%nat))) (((1 - s 0%nat) * s 2%nat)) ((- ((1 - s 0%nat) * (1 - s 2%nat)))) ltac:(sgn) ltac:(sgn) ltac:(sgn) ltac:(sgn) ltac:(sgn) ltac:(sgn) ltac:(sgn)) as D13.
  pose proof (pair3 4 5 2 4 3 5 ((- ((1 - s 2%nat) * s 1%nat))) ((- ((1 - s 1%nat) * s 2%nat))) (((1 - s 1%nat) * (1 - s 2%nat))) ltac:(sgn) ltac:(sgn) ltac:(sgn) ltac:(sgn) ltac:(sgn) ltac:(sgn) ltac:(sgn)) as D23.
  simpl in H1, H2. destruct H1 as [<-|[<-|[<-|[<-|[]]]]]; destruct H2 as [<-|[<-|[<-|[<-|[]]]]]; first [left; reflexivity | right; tauto].
Qed.

Definition tri_pats : list (list (list nat)) := [tri0; tri1_0; tri1_2; tri1_1; tri2_2t; tri2_2f; tri2_0t; tri2_0f; tri2_1t; tri2_1f; tri3].
Lemma tri_pats_ok B : In B tri_pats -> lcover 3 wt3 B /\ forall c1 c2, In c1 B -> In c2 B -> c1 = c2 \/ ldisjoint2 3 wt3 c1 c2.
Proof.
  intros H. unfold tri_pats in H. simpl in H.
  repeat match goal with H : _ = B \/ _ |- _ => destruct H as [<-|H] end; [..|destruct H].
  - split; [exact tri0_cover|exact tri0_disjoint].
  - split; [exact tri1_0_cover|exact tri1_0_disjoint].
  - split; [exact tri1_2_cover|exact tri1_2_disjoint].
  - split; [exact tri1_1_cover|exact tri1_1_disjoint].
  - split; [exact tri2_2t_cover|exact tri2_2t_disjoint].
  - split; [exact tri2_2f_cover|exact tri2_2f_disjoint].
  - split; [exact tri2_0t_cover|exact tri2_0t_disjoint].
  - split; [exact tri2_0f_cover|exact tri2_0f_disjoint].
  - split; [exact tri2_1t_cover|exact tri2_1t_disjoint].
  - split; [exact tri2_1f_cover|exact tri2_1f_disjoint].
  - split; [exact tri3_cover|exact tri3_disjoint].
Qed.
End Base.
