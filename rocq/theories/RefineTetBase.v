(** Generated: the nineteen ways, up to renaming of the vertices, in which a
    tetrahedron is subdivided, each shown to cover the tetrahedron without
    overlap, in barycentric coordinates. Used by the proofs of C34. *)
From Coq Require Import Reals List Arith Lia Lra.
From Verif Require Import SpecRefine RefineGeom.
Import ListNotations.
Local Open Scope R_scope.

(** Barycentric coordinate [i] of label [l]. *)
Definition wt4 (l i : nat) : R :=
  if (l <? 4)%nat then (if (l =? i)%nat then 1 else 0)
  else let (a, b) := tet_edge (l - 4) in
    if (a =? i)%nat then / 2 else if (b =? i)%nat then / 2 else 0.

Lemma leaf4 cells b l0 l1 l2 l3 c0 c1 c2 c3 : In [l0; l1; l2; l3] cells ->
  0 <= c0 -> 0 <= c1 -> 0 <= c2 -> 0 <= c3 ->
  b 0%nat = c0 * wt4 l0 0 + c1 * wt4 l1 0 + c2 * wt4 l2 0 + c3 * wt4 l3 0 ->
  b 1%nat = c0 * wt4 l0 1 + c1 * wt4 l1 1 + c2 * wt4 l2 1 + c3 * wt4 l3 1 ->
  b 2%nat = c0 * wt4 l0 2 + c1 * wt4 l1 2 + c2 * wt4 l2 2 + c3 * wt4 l3 2 ->
  b 3%nat = c0 * wt4 l0 3 + c1 * wt4 l1 3 + c2 * wt4 l2 3 + c3 * wt4 l3 3 ->
  exists cell ws, In cell cells /\ map snd ws = cell /\ Forall (fun w => 0 <= fst w) ws /\
    forall i, (i < 4)%nat -> b i = lcomb wt4 ws i.
Proof.
  intros HI P0 P1 P2 P3 E0 E1 E2 E3. exists [l0;l1;l2;l3], [(c0,l0);(c1,l1);(c2,l2);(c3,l3)].
  split; auto. split; auto. split; [repeat (apply Forall_cons; [cbn [fst]; assumption|]); apply Forall_nil|].
  intros i Hi. unfold lcomb. cbn [map fst snd Rsum fold_right].
  destruct i as [|[|[|[|i]]]]; [rewrite E0|rewrite E1|rewrite E2|rewrite E3|lia]; ring.
Qed.

Ltac wt4_cbn := cbv [wt4 tet_edge Nat.ltb Nat.leb Nat.eqb Nat.sub]; cbn iota.

Lemma pair4 (c1 c2 : list nat) : length c1 = 4%nat -> length c2 = 4%nat ->
  (forall a0 a1 a2 a3 b0 b1 b2 b3, 0 < a0 -> 0 < a1 -> 0 < a2 -> 0 < a3 -> 0 < b0 -> 0 < b1 -> 0 < b2 -> 0 < b3 ->
    (forall i, (i < 4)%nat -> lcomb wt4 (combine [a0;a1;a2;a3] c1) i = lcomb wt4 (combine [b0;b1;b2;b3] c2) i) -> False) ->
  ldisjoint2 4 wt4 c1 c2.
Proof.
  intros L1 L2 H ws1 ws2 E1 E2 F1 F2 HE.
  assert (G : forall (ws : list (R * nat)) c, map snd ws = c -> length c = 4%nat -> exists a0 a1 a2 a3, ws = combine [a0;a1;a2;a3] c).
  { intros ws c <- L. rewrite map_length in L. destruct ws as [|[? ?] [|[? ?] [|[? ?] [|[? ?] [|? ?]]]]]; try discriminate.
    simpl. do 4 eexists. reflexivity. }
  destruct (G ws1 c1 E1 L1) as (a0 & a1 & a2 & a3 & ->). destruct (G ws2 c2 E2 L2) as (b0 & b1 & b2 & b3 & ->).
  destruct c1 as [|? [|? [|? [|? [|? ?]]]]]; try discriminate. destruct c2 as [|? [|? [|? [|? [|? ?]]]]]; try discriminate.
  simpl in F1, F2.
  repeat match goal with HF : Forall _ (_ :: _) |- _ => inversion HF; clear HF; subst end. cbn [fst] in *.
  apply (H a0 a1 a2 a3 b0 b1 b2 b3); auto.
Qed.

Ltac dis4 := apply pair4; [reflexivity|reflexivity|];
  intros a0 a1 a2 a3 b0 b1 b2 b3 ? ? ? ? ? ? ? ? HE;
  pose proof (HE 0%nat ltac:(lia)) as HE0; pose proof (HE 1%nat ltac:(lia)) as HE1;
  pose proof (HE 2%nat ltac:(lia)) as HE2; pose proof (HE 3%nat ltac:(lia)) as HE3; clear HE;
  cbv [lcomb combine map fst snd Rsum fold_right wt4 tet_edge Nat.ltb Nat.leb Nat.eqb Nat.sub] in HE0, HE1, HE2, HE3;
  lra.

Definition base0 : list (list nat) := [[0;1;2;3]]%nat.
Lemma base0_cover : lcover 4 wt4 base0.
Proof.
  intros b H. pose proof (H 0%nat ltac:(lia)). pose proof (H 1%nat ltac:(lia)). pose proof (H 2%nat ltac:(lia)). pose proof (H 3%nat ltac:(lia)).
  apply (leaf4 _ b 0%nat 1%nat 2%nat 3%nat (b 0%nat) (b 1%nat) (b 2%nat) (b 3%nat)); [simpl; tauto|..]; wt4_cbn; lra.
Qed.
Lemma base0_disjoint c1 c2 : In c1 base0 -> In c2 base0 -> c1 = c2 \/ ldisjoint2 4 wt4 c1 c2.
Proof.
  unfold base0. intros H1 H2. simpl in H1, H2.
  destruct H1 as [<-|[]]; destruct H2 as [<-|[]]; first [left; reflexivity | right; dis4].
Qed.

Definition base1 : list (list nat) := [[0;1;2;6]; [1;2;3;6]]%nat.
Lemma base1_cover : lcover 4 wt4 base1.
Proof.
  intros b H. pose proof (H 0%nat ltac:(lia)). pose proof (H 1%nat ltac:(lia)). pose proof (H 2%nat ltac:(lia)). pose proof (H 3%nat ltac:(lia)).
  destruct (Rle_lt_dec 0 (b 0%nat - b 3%nat)).
  {
    apply (leaf4 _ b 0%nat 1%nat 2%nat 6%nat (b 0%nat - b 3%nat) (b 1%nat) (b 2%nat) (2 * b 3%nat)); [simpl; tauto|..]; wt4_cbn; lra.
  }
  {
    apply (leaf4 _ b 1%nat 2%nat 3%nat 6%nat (b 1%nat) (b 2%nat) (- b 0%nat + b 3%nat) (2 * b 0%nat)); [simpl; tauto|..]; wt4_cbn; lra.
  }
Qed.
Lemma base1_disjoint c1 c2 : In c1 base1 -> In c2 base1 -> c1 = c2 \/ ldisjoint2 4 wt4 c1 c2.
Proof.
  unfold base1. intros H1 H2. simpl in H1, H2.
  destruct H1 as [<-|[<-|[]]]; destruct H2 as [<-|[<-|[]]]; first [left; reflexivity | right; dis4].
Qed.

Definition base2 : list (list nat) := [[0;1;2;6]; [1;2;6;8]; [2;3;6;8]]%nat.
Lemma base2_cover : lcover 4 wt4 base2.
Proof.
  intros b H. pose proof (H 0%nat ltac:(lia)). pose proof (H 1%nat ltac:(lia)). pose proof (H 2%nat ltac:(lia)). pose proof (H 3%nat ltac:(lia)).
  destruct (Rle_lt_dec 0 (- 2 * b 0%nat + 2 * b 3%nat)).
  {
    destruct (Rle_lt_dec 0 (b 0%nat + b 1%nat - b 3%nat)).
    {
      apply (leaf4 _ b 1%nat 2%nat 6%nat 8%nat (b 0%nat + b 1%nat - b 3%nat) (b 2%nat) (2 * b 0%nat) (- 2 * b 0%nat + 2 * b 3%nat)); [simpl; tauto|..]; wt4_cbn; lra.
    }
    {
      apply (leaf4 _ b 2%nat 3%nat 6%nat 8%nat (b 2%nat) (- b 0%nat - b 1%nat + b 3%nat) (2 * b 0%nat) (2 * b 1%nat)); [simpl; tauto|..]; wt4_cbn; lra.
    }
  }
  {
    apply (leaf4 _ b 0%nat 1%nat 2%nat 6%nat (b 0%nat - b 3%nat) (b 1%nat) (b 2%nat) (2 * b 3%nat)); [simpl; tauto|..]; wt4_cbn; lra.
  }
Qed.
Lemma base2_disjoint c1 c2 : In c1 base2 -> In c2 base2 -> c1 = c2 \/ ldisjoint2 4 wt4 c1 c2.
Proof.
  unfold base2. intros H1 H2. simpl in H1, H2.
  destruct H1 as [<-|[<-|[<-|[]]]]; destruct H2 as [<-|[<-|[<-|[]]]]; first [left; reflexivity | right; dis4].
Qed.

Definition base3 : list (list nat) := [[0;1;2;6]; [1;2;6;8]; [2;6;8;9]; [3;6;8;9]]%nat.
Lemma base3_cover : lcover 4 wt4 base3.
Proof.
  intros b H. pose proof (H 0%nat ltac:(lia)). pose proof (H 1%nat ltac:(lia)). pose proof (H 2%nat ltac:(lia)). pose proof (H 3%nat ltac:(lia)).
  destruct (Rle_lt_dec 0 (- 2 * b 0%nat - 2 * b 1%nat + 2 * b 3%nat)).
  {
    destruct (Rle_lt_dec 0 (b 0%nat + b 1%nat + b 2%nat - b 3%nat)).
    {
      apply (leaf4 _ b 2%nat 6%nat 8%nat 9%nat (b 0%nat + b 1%nat + b 2%nat - b 3%nat) (2 * b 0%nat) (2 * b 1%nat) (- 2 * b 0%nat - 2 * b 1%nat + 2 * b 3%nat)); [simpl; tauto|..]; wt4_cbn; lra.
    }
    {
      apply (leaf4 _ b 3%nat 6%nat 8%nat 9%nat (- b 0%nat - b 1%nat - b 2%nat + b 3%nat) (2 * b 0%nat) (2 * b 1%nat) (2 * b 2%nat)); [simpl; tauto|..]; wt4_cbn; lra.
    }
  }
  {
    destruct (Rle_lt_dec 0 (- 2 * b 0%nat + 2 * b 3%nat)).
    {
      apply (leaf4 _ b 1%nat 2%nat 6%nat 8%nat (b 0%nat + b 1%nat - b 3%nat) (b 2%nat) (2 * b 0%nat) (- 2 * b 0%nat + 2 * b 3%nat)); [simpl; tauto|..]; wt4_cbn; lra.
    }
    {
      apply (leaf4 _ b 0%nat 1%nat 2%nat 6%nat (b 0%nat - b 3%nat) (b 1%nat) (b 2%nat) (2 * b 3%nat)); [simpl; tauto|..]; wt4_cbn; lra.
    }
  }
Qed.
Lemma base3_disjoint c1 c2 : In c1 base3 -> In c2 base3 -> c1 = c2 \/ ldisjoint2 4 wt4 c1 c2.
Proof.
  unfold base3. intros H1 H2. simpl in H1, H2.
  destruct H1 as [<-|[<-|[<-|[<-|[]]]]]; destruct H2 as [<-|[<-|[<-|[<-|[]]]]]; first [left; reflexivity | right; dis4].
Qed.

Definition base4 : list (list nat) := [[0;1;5;6]; [1;2;5;6]; [1;2;6;8]; [2;3;6;8]]%nat.
Lemma base4_cover : lcover 4 wt4 base4.
Proof.
  intros b H. pose proof (H 0%nat ltac:(lia)). pose proof (H 1%nat ltac:(lia)). pose proof (H 2%nat ltac:(lia)). pose proof (H 3%nat ltac:(lia)).
  destruct (Rle_lt_dec 0 (2 * b 0%nat - 2 * b 3%nat)).
  {
    destruct (Rle_lt_dec 0 (b 0%nat - b 2%nat - b 3%nat)).
    {
      apply (leaf4 _ b 0%nat 1%nat 5%nat 6%nat (b 0%nat - b 2%nat - b 3%nat) (b 1%nat) (2 * b 2%nat) (2 * b 3%nat)); [simpl; tauto|..]; wt4_cbn; lra.
    }
    {
      apply (leaf4 _ b 1%nat 2%nat 5%nat 6%nat (b 1%nat) (- b 0%nat + b 2%nat + b 3%nat) (2 * b 0%nat - 2 * b 3%nat) (2 * b 3%nat)); [simpl; tauto|..]; wt4_cbn; lra.
    }
  }
  {
    destruct (Rle_lt_dec 0 (b 0%nat + b 1%nat - b 3%nat)).
    {
      apply (leaf4 _ b 1%nat 2%nat 6%nat 8%nat (b 0%nat + b 1%nat - b 3%nat) (b 2%nat) (2 * b 0%nat) (- 2 * b 0%nat + 2 * b 3%nat)); [simpl; tauto|..]; wt4_cbn; lra.
    }
    {
      apply (leaf4 _ b 2%nat 3%nat 6%nat 8%nat (b 2%nat) (- b 0%nat - b 1%nat + b 3%nat) (2 * b 0%nat) (2 * b 1%nat)); [simpl; tauto|..]; wt4_cbn; lra.
    }
  }
Qed.
Lemma base4_disjoint c1 c2 : In c1 base4 -> In c2 base4 -> c1 = c2 \/ ldisjoint2 4 wt4 c1 c2.
Proof.
  unfold base4. intros H1 H2. simpl in H1, H2.
  destruct H1 as [<-|[<-|[<-|[<-|[]]]]]; destruct H2 as [<-|[<-|[<-|[<-|[]]]]]; first [left; reflexivity | right; dis4].
Qed.

Definition base5 : list (list nat) := [[0;1;5;6]; [1;2;5;9]; [1;3;6;9]; [1;5;6;9]]%nat.
Lemma base5_cover : lcover 4 wt4 base5.
Proof.
  intros b H. pose proof (H 0%nat ltac:(lia)). pose proof (H 1%nat ltac:(lia)). pose proof (H 2%nat ltac:(lia)). pose proof (H 3%nat ltac:(lia)).
  destruct (Rle_lt_dec 0 (- b 0%nat - b 2%nat + b 3%nat)).
  {
    apply (leaf4 _ b 1%nat 3%nat 6%nat 9%nat (b 1%nat) (- b 0%nat - b 2%nat + b 3%nat) (2 * b 0%nat) (2 * b 2%nat)); [simpl; tauto|..]; wt4_cbn; lra.
  }
  {
    destruct (Rle_lt_dec 0 (- b 0%nat + b 2%nat - b 3%nat)).
    {
      apply (leaf4 _ b 1%nat 2%nat 5%nat 9%nat (b 1%nat) (- b 0%nat + b 2%nat - b 3%nat) (2 * b 0%nat) (2 * b 3%nat)); [simpl; tauto|..]; wt4_cbn; lra.
    }
    {
      destruct (Rle_lt_dec 0 (b 0%nat - b 2%nat - b 3%nat)).
      {
        apply (leaf4 _ b 0%nat 1%nat 5%nat 6%nat (b 0%nat - b 2%nat - b 3%nat) (b 1%nat) (2 * b 2%nat) (2 * b 3%nat)); [simpl; tauto|..]; wt4_cbn; lra.
      }
      {
        apply (leaf4 _ b 1%nat 5%nat 6%nat 9%nat (b 1%nat) (b 0%nat + b 2%nat - b 3%nat) (b 0%nat - b 2%nat + b 3%nat) (- b 0%nat + b 2%nat + b 3%nat)); [simpl; tauto|..]; wt4_cbn; lra.
      }
    }
  }
Qed.
Lemma base5_disjoint c1 c2 : In c1 base5 -> In c2 base5 -> c1 = c2 \/ ldisjoint2 4 wt4 c1 c2.
Proof.
  unfold base5. intros H1 H2. simpl in H1, H2.
  destruct H1 as [<-|[<-|[<-|[<-|[]]]]]; destruct H2 as [<-|[<-|[<-|[<-|[]]]]]; first [left; reflexivity | right; dis4].
Qed.

Definition base6 : list (list nat) := [[0;1;5;8]; [0;3;5;8]; [1;2;5;8]; [2;3;5;8]]%nat.
Lemma base6_cover : lcover 4 wt4 base6.
Proof.
  intros b H. pose proof (H 0%nat ltac:(lia)). pose proof (H 1%nat ltac:(lia)). pose proof (H 2%nat ltac:(lia)). pose proof (H 3%nat ltac:(lia)).
  destruct (Rle_lt_dec 0 (b 1%nat - b 3%nat)).
  {
    destruct (Rle_lt_dec 0 (b 0%nat - b 2%nat)).
    {
      apply (leaf4 _ b 0%nat 1%nat 5%nat 8%nat (b 0%nat - b 2%nat) (b 1%nat - b 3%nat) (2 * b 2%nat) (2 * b 3%nat)); [simpl; tauto|..]; wt4_cbn; lra.
    }
    {
      apply (leaf4 _ b 1%nat 2%nat 5%nat 8%nat (b 1%nat - b 3%nat) (- b 0%nat + b 2%nat) (2 * b 0%nat) (2 * b 3%nat)); [simpl; tauto|..]; wt4_cbn; lra.
    }
  }
  {
    destruct (Rle_lt_dec 0 (b 0%nat - b 2%nat)).
    {
      apply (leaf4 _ b 0%nat 3%nat 5%nat 8%nat (b 0%nat - b 2%nat) (- b 1%nat + b 3%nat) (2 * b 2%nat) (2 * b 1%nat)); [simpl; tauto|..]; wt4_cbn; lra.
    }
    {
      apply (leaf4 _ b 2%nat 3%nat 5%nat 8%nat (- b 0%nat + b 2%nat) (- b 1%nat + b 3%nat) (2 * b 0%nat) (2 * b 1%nat)); [simpl; tauto|..]; wt4_cbn; lra.
    }
  }
Qed.
Lemma base6_disjoint c1 c2 : In c1 base6 -> In c2 base6 -> c1 = c2 \/ ldisjoint2 4 wt4 c1 c2.
Proof.
  unfold base6. intros H1 H2. simpl in H1, H2.
  destruct H1 as [<-|[<-|[<-|[<-|[]]]]]; destruct H2 as [<-|[<-|[<-|[<-|[]]]]]; first [left; reflexivity | right; dis4].
Qed.

Definition base7 : list (list nat) := [[0;1;5;6]; [1;2;5;8]; [1;5;6;8]; [2;3;5;8]; [3;5;6;8]]%nat.
Lemma base7_cover : lcover 4 wt4 base7.
Proof.
  intros b H. pose proof (H 0%nat ltac:(lia)). pose proof (H 1%nat ltac:(lia)). pose proof (H 2%nat ltac:(lia)). pose proof (H 3%nat ltac:(lia)).
  destruct (Rle_lt_dec 0 (- 2 * b 0%nat + 2 * b 2%nat + 2 * b 3%nat)).
  {
    destruct (Rle_lt_dec 0 (- b 0%nat + b 2%nat)).
    {
      destruct (Rle_lt_dec 0 (b 1%nat - b 3%nat)).
      {
        apply (leaf4 _ b 1%nat 2%nat 5%nat 8%nat (b 1%nat - b 3%nat) (- b 0%nat + b 2%nat) (2 * b 0%nat) (2 * b 3%nat)); [simpl; tauto|..]; wt4_cbn; lra.
      }
      {
        apply (leaf4 _ b 2%nat 3%nat 5%nat 8%nat (- b 0%nat + b 2%nat) (- b 1%nat + b 3%nat) (2 * b 0%nat) (2 * b 1%nat)); [simpl; tauto|..]; wt4_cbn; lra.
      }
    }
    {
      destruct (Rle_lt_dec 0 (b 0%nat + b 1%nat - b 2%nat - b 3%nat)).
      {
        apply (leaf4 _ b 1%nat 5%nat 6%nat 8%nat (b 0%nat + b 1%nat - b 2%nat - b 3%nat) (2 * b 2%nat) (2 * b 0%nat - 2 * b 2%nat) (- 2 * b 0%nat + 2 * b 2%nat + 2 * b 3%nat)); [simpl; tauto|..]; wt4_cbn; lra.
      }
      {
        apply (leaf4 _ b 3%nat 5%nat 6%nat 8%nat (- b 0%nat - b 1%nat + b 2%nat + b 3%nat) (2 * b 2%nat) (2 * b 0%nat - 2 * b 2%nat) (2 * b 1%nat)); [simpl; tauto|..]; wt4_cbn; lra.
      }
    }
  }
  {
    apply (leaf4 _ b 0%nat 1%nat 5%nat 6%nat (b 0%nat - b 2%nat - b 3%nat) (b 1%nat) (2 * b 2%nat) (2 * b 3%nat)); [simpl; tauto|..]; wt4_cbn; lra.
  }
Qed.
Lemma base7_disjoint c1 c2 : In c1 base7 -> In c2 base7 -> c1 = c2 \/ ldisjoint2 4 wt4 c1 c2.
Proof.
  unfold base7. intros H1 H2. simpl in H1, H2.
  destruct H1 as [<-|[<-|[<-|[<-|[<-|[]]]]]]; destruct H2 as [<-|[<-|[<-|[<-|[<-|[]]]]]]; first [left; reflexivity | right; dis4].
Qed.

Definition base8 : list (list nat) := [[0;1;5;6]; [1;2;5;9]; [1;5;6;9]; [1;6;8;9]; [3;6;8;9]]%nat.
Lemma base8_cover : lcover 4 wt4 base8.
Proof.
  intros b H. pose proof (H 0%nat ltac:(lia)). pose proof (H 1%nat ltac:(lia)). pose proof (H 2%nat ltac:(lia)). pose proof (H 3%nat ltac:(lia)).
  destruct (Rle_lt_dec 0 (- 2 * b 0%nat - 2 * b 2%nat + 2 * b 3%nat)).
  {
    destruct (Rle_lt_dec 0 (b 0%nat + b 1%nat + b 2%nat - b 3%nat)).
    {
      apply (leaf4 _ b 1%nat 6%nat 8%nat 9%nat (b 0%nat + b 1%nat + b 2%nat - b 3%nat) (2 * b 0%nat) (- 2 * b 0%nat - 2 * b 2%nat + 2 * b 3%nat) (2 * b 2%nat)); [simpl; tauto|..]; wt4_cbn; lra.
    }
    {
      apply (leaf4 _ b 3%nat 6%nat 8%nat 9%nat (- b 0%nat - b 1%nat - b 2%nat + b 3%nat) (2 * b 0%nat) (2 * b 1%nat) (2 * b 2%nat)); [simpl; tauto|..]; wt4_cbn; lra.
    }
  }
  {
    destruct (Rle_lt_dec 0 (- b 0%nat + b 2%nat - b 3%nat)).
    {
      apply (leaf4 _ b 1%nat 2%nat 5%nat 9%nat (b 1%nat) (- b 0%nat + b 2%nat - b 3%nat) (2 * b 0%nat) (2 * b 3%nat)); [simpl; tauto|..]; wt4_cbn; lra.
    }
    {
      destruct (Rle_lt_dec 0 (b 0%nat - b 2%nat - b 3%nat)).
      {
        apply (leaf4 _ b 0%nat 1%nat 5%nat 6%nat (b 0%nat - b 2%nat - b 3%nat) (b 1%nat) (2 * b 2%nat) (2 * b 3%nat)); [simpl; tauto|..]; wt4_cbn; lra.
      }
      {
        apply (leaf4 _ b 1%nat 5%nat 6%nat 9%nat (b 1%nat) (b 0%nat + b 2%nat - b 3%nat) (b 0%nat - b 2%nat + b 3%nat) (- b 0%nat + b 2%nat + b 3%nat)); [simpl; tauto|..]; wt4_cbn; lra.
      }
    }
  }
Qed.
Lemma base8_disjoint c1 c2 : In c1 base8 -> In c2 base8 -> c1 = c2 \/ ldisjoint2 4 wt4 c1 c2.
Proof.
  unfold base8. intros H1 H2. simpl in H1, H2.
  destruct H1 as [<-|[<-|[<-|[<-|[<-|[]]]]]]; destruct H2 as [<-|[<-|[<-|[<-|[<-|[]]]]]]; first [left; reflexivity | right; dis4].
Qed.

Definition base9 : list (list nat) := [[0;1;5;8]; [0;3;5;8]; [1;2;5;8]; [2;5;8;9]; [3;5;8;9]]%nat.
Lemma base9_cover : lcover 4 wt4 base9.
Proof.
  intros b H. pose proof (H 0%nat ltac:(lia)). pose proof (H 1%nat ltac:(lia)). pose proof (H 2%nat ltac:(lia)). pose proof (H 3%nat ltac:(lia)).
  destruct (Rle_lt_dec 0 (- 2 * b 0%nat + 2 * b 2%nat)).
  {
    destruct (Rle_lt_dec 0 (- b 0%nat + b 1%nat + b 2%nat - b 3%nat)).
    {
      destruct (Rle_lt_dec 0 (- 2 * b 1%nat + 2 * b 3%nat)).
      {
        apply (leaf4 _ b 2%nat 5%nat 8%nat 9%nat (- b 0%nat + b 1%nat + b 2%nat - b 3%nat) (2 * b 0%nat) (2 * b 1%nat) (- 2 * b 1%nat + 2 * b 3%nat)); [simpl; tauto|..]; wt4_cbn; lra.
      }
      {
        apply (leaf4 _ b 1%nat 2%nat 5%nat 8%nat (b 1%nat - b 3%nat) (- b 0%nat + b 2%nat) (2 * b 0%nat) (2 * b 3%nat)); [simpl; tauto|..]; wt4_cbn; lra.
      }
    }
    {
      apply (leaf4 _ b 3%nat 5%nat 8%nat 9%nat (b 0%nat - b 1%nat - b 2%nat + b 3%nat) (2 * b 0%nat) (2 * b 1%nat) (- 2 * b 0%nat + 2 * b 2%nat)); [simpl; tauto|..]; wt4_cbn; lra.
    }
  }
  {
    destruct (Rle_lt_dec 0 (- 2 * b 1%nat + 2 * b 3%nat)).
    {
      apply (leaf4 _ b 0%nat 3%nat 5%nat 8%nat (b 0%nat - b 2%nat) (- b 1%nat + b 3%nat) (2 * b 2%nat) (2 * b 1%nat)); [simpl; tauto|..]; wt4_cbn; lra.
    }
    {
      apply (leaf4 _ b 0%nat 1%nat 5%nat 8%nat (b 0%nat - b 2%nat) (b 1%nat - b 3%nat) (2 * b 2%nat) (2 * b 3%nat)); [simpl; tauto|..]; wt4_cbn; lra.
    }
  }
Qed.
Lemma base9_disjoint c1 c2 : In c1 base9 -> In c2 base9 -> c1 = c2 \/ ldisjoint2 4 wt4 c1 c2.
Proof.
  unfold base9. intros H1 H2. simpl in H1, H2.
  destruct H1 as [<-|[<-|[<-|[<-|[<-|[]]]]]]; destruct H2 as [<-|[<-|[<-|[<-|[<-|[]]]]]]; first [left; reflexivity | right; dis4].
Qed.

Definition base10 : list (list nat) := [[0;1;5;6]; [1;2;5;8]; [1;5;6;8]; [2;5;8;9]; [3;6;8;9]; [5;6;8;9]]%nat.
Lemma base10_cover : lcover 4 wt4 base10.
Proof.
  intros b H. pose proof (H 0%nat ltac:(lia)). pose proof (H 1%nat ltac:(lia)). pose proof (H 2%nat ltac:(lia)). pose proof (H 3%nat ltac:(lia)).
  destruct (Rle_lt_dec 0 (b 0%nat + b 1%nat - b 2%nat - b 3%nat)).
  {
    destruct (Rle_lt_dec 0 (- 2 * b 0%nat + 2 * b 2%nat + 2 * b 3%nat)).
    {
      destruct (Rle_lt_dec 0 (- b 0%nat + b 2%nat)).
      {
        apply (leaf4 _ b 1%nat 2%nat 5%nat 8%nat (b 1%nat - b 3%nat) (- b 0%nat + b 2%nat) (2 * b 0%nat) (2 * b 3%nat)); [simpl; tauto|..]; wt4_cbn; lra.
      }
      {
        apply (leaf4 _ b 1%nat 5%nat 6%nat 8%nat (b 0%nat + b 1%nat - b 2%nat - b 3%nat) (2 * b 2%nat) (2 * b 0%nat - 2 * b 2%nat) (- 2 * b 0%nat + 2 * b 2%nat + 2 * b 3%nat)); [simpl; tauto|..]; wt4_cbn; lra.
      }
    }
    {
      apply (leaf4 _ b 0%nat 1%nat 5%nat 6%nat (b 0%nat - b 2%nat - b 3%nat) (b 1%nat) (2 * b 2%nat) (2 * b 3%nat)); [simpl; tauto|..]; wt4_cbn; lra.
    }
  }
  {
    destruct (Rle_lt_dec 0 (- b 0%nat + b 1%nat + b 2%nat - b 3%nat)).
    {
      destruct (Rle_lt_dec 0 (- 2 * b 1%nat + 2 * b 3%nat)).
      {
        apply (leaf4 _ b 2%nat 5%nat 8%nat 9%nat (- b 0%nat + b 1%nat + b 2%nat - b 3%nat) (2 * b 0%nat) (2 * b 1%nat) (- 2 * b 1%nat + 2 * b 3%nat)); [simpl; tauto|..]; wt4_cbn; lra.
      }
      {
        apply (leaf4 _ b 1%nat 2%nat 5%nat 8%nat (b 1%nat - b 3%nat) (- b 0%nat + b 2%nat) (2 * b 0%nat) (2 * b 3%nat)); [simpl; tauto|..]; wt4_cbn; lra.
      }
    }
    {
      destruct (Rle_lt_dec 0 (- b 0%nat - b 1%nat - b 2%nat + b 3%nat)).
      {
        apply (leaf4 _ b 3%nat 6%nat 8%nat 9%nat (- b 0%nat - b 1%nat - b 2%nat + b 3%nat) (2 * b 0%nat) (2 * b 1%nat) (2 * b 2%nat)); [simpl; tauto|..]; wt4_cbn; lra.
      }
      {
        apply (leaf4 _ b 5%nat 6%nat 8%nat 9%nat (b 0%nat + b 1%nat + b 2%nat - b 3%nat) (b 0%nat - b 1%nat - b 2%nat + b 3%nat) (2 * b 1%nat) (- b 0%nat - b 1%nat + b 2%nat + b 3%nat)); [simpl; tauto|..]; wt4_cbn; lra.
      }
    }
  }
Qed.
Lemma base10_disjoint c1 c2 : In c1 base10 -> In c2 base10 -> c1 = c2 \/ ldisjoint2 4 wt4 c1 c2.
Proof.
  unfold base10. intros H1 H2. simpl in H1, H2.
  destruct H1 as [<-|[<-|[<-|[<-|[<-|[<-|[]]]]]]]; destruct H2 as [<-|[<-|[<-|[<-|[<-|[<-|[]]]]]]]; first [left; reflexivity | right; dis4].
Qed.

Definition base11 : list (list nat) := [[0;1;5;6]; [1;5;6;7]; [1;6;7;8]; [2;3;5;7]; [3;5;6;7]; [3;6;7;8]]%nat.
Lemma base11_cover : lcover 4 wt4 base11.
Proof.
  intros b H. pose proof (H 0%nat ltac:(lia)). pose proof (H 1%nat ltac:(lia)). pose proof (H 2%nat ltac:(lia)). pose proof (H 3%nat ltac:(lia)).
  destruct (Rle_lt_dec 0 (b 0%nat + b 1%nat - b 2%nat - b 3%nat)).
  {
    destruct (Rle_lt_dec 0 (- 2 * b 0%nat + 2 * b 2%nat + 2 * b 3%nat)).
    {
      destruct (Rle_lt_dec 0 (2 * b 0%nat - 2 * b 3%nat)).
      {
        apply (leaf4 _ b 1%nat 5%nat 6%nat 7%nat (b 0%nat + b 1%nat - b 2%nat - b 3%nat) (2 * b 0%nat - 2 * b 3%nat) (2 * b 3%nat) (- 2 * b 0%nat + 2 * b 2%nat + 2 * b 3%nat)); [simpl; tauto|..]; wt4_cbn; lra.
      }
      {
        apply (leaf4 _ b 1%nat 6%nat 7%nat 8%nat (b 0%nat + b 1%nat - b 2%nat - b 3%nat) (2 * b 0%nat) (2 * b 2%nat) (- 2 * b 0%nat + 2 * b 3%nat)); [simpl; tauto|..]; wt4_cbn; lra.
      }
    }
    {
      apply (leaf4 _ b 0%nat 1%nat 5%nat 6%nat (b 0%nat - b 2%nat - b 3%nat) (b 1%nat) (2 * b 2%nat) (2 * b 3%nat)); [simpl; tauto|..]; wt4_cbn; lra.
    }
  }
  {
    destruct (Rle_lt_dec 0 (- b 0%nat - b 1%nat + b 2%nat)).
    {
      apply (leaf4 _ b 2%nat 3%nat 5%nat 7%nat (- b 0%nat - b 1%nat + b 2%nat) (b 3%nat) (2 * b 0%nat) (2 * b 1%nat)); [simpl; tauto|..]; wt4_cbn; lra.
    }
    {
      destruct (Rle_lt_dec 0 (- 2 * b 1%nat + 2 * b 2%nat)).
      {
        apply (leaf4 _ b 3%nat 5%nat 6%nat 7%nat (- b 0%nat - b 1%nat + b 2%nat + b 3%nat) (- 2 * b 1%nat + 2 * b 2%nat) (2 * b 0%nat + 2 * b 1%nat - 2 * b 2%nat) (2 * b 1%nat)); [simpl; tauto|..]; wt4_cbn; lra.
      }
      {
        apply (leaf4 _ b 3%nat 6%nat 7%nat 8%nat (- b 0%nat - b 1%nat + b 2%nat + b 3%nat) (2 * b 0%nat) (2 * b 2%nat) (2 * b 1%nat - 2 * b 2%nat)); [simpl; tauto|..]; wt4_cbn; lra.
      }
    }
  }
Qed.
Lemma base11_disjoint c1 c2 : In c1 base11 -> In c2 base11 -> c1 = c2 \/ ldisjoint2 4 wt4 c1 c2.
Proof.
  unfold base11. intros H1 H2. simpl in H1, H2.
  destruct H1 as [<-|[<-|[<-|[<-|[<-|[<-|[]]]]]]]; destruct H2 as [<-|[<-|[<-|[<-|[<-|[<-|[]]]]]]]; first [left; reflexivity | right; dis4].
Qed.

Definition base12 : list (list nat) := [[0;1;5;6]; [1;5;6;7]; [1;6;7;8]; [2;3;6;7]; [2;5;6;7]; [3;6;7;8]]%nat.
Lemma base12_cover : lcover 4 wt4 base12.
Proof.
  intros b H. pose proof (H 0%nat ltac:(lia)). pose proof (H 1%nat ltac:(lia)). pose proof (H 2%nat ltac:(lia)). pose proof (H 3%nat ltac:(lia)).
  destruct (Rle_lt_dec 0 (- b 0%nat + b 3%nat)).
  {
    destruct (Rle_lt_dec 0 (- b 1%nat + b 2%nat)).
    {
      apply (leaf4 _ b 2%nat 3%nat 6%nat 7%nat (- b 1%nat + b 2%nat) (- b 0%nat + b 3%nat) (2 * b 0%nat) (2 * b 1%nat)); [simpl; tauto|..]; wt4_cbn; lra.
    }
    {
      destruct (Rle_lt_dec 0 (b 0%nat + b 1%nat - b 2%nat - b 3%nat)).
      {
        apply (leaf4 _ b 1%nat 6%nat 7%nat 8%nat (b 0%nat + b 1%nat - b 2%nat - b 3%nat) (2 * b 0%nat) (2 * b 2%nat) (- 2 * b 0%nat + 2 * b 3%nat)); [simpl; tauto|..]; wt4_cbn; lra.
      }
      {
        apply (leaf4 _ b 3%nat 6%nat 7%nat 8%nat (- b 0%nat - b 1%nat + b 2%nat + b 3%nat) (2 * b 0%nat) (2 * b 2%nat) (2 * b 1%nat - 2 * b 2%nat)); [simpl; tauto|..]; wt4_cbn; lra.
      }
    }
  }
  {
    destruct (Rle_lt_dec 0 (- 2 * b 0%nat + 2 * b 2%nat + 2 * b 3%nat)).
    {
      destruct (Rle_lt_dec 0 (b 0%nat + b 1%nat - b 2%nat - b 3%nat)).
      {
        apply (leaf4 _ b 1%nat 5%nat 6%nat 7%nat (b 0%nat + b 1%nat - b 2%nat - b 3%nat) (2 * b 0%nat - 2 * b 3%nat) (2 * b 3%nat) (- 2 * b 0%nat + 2 * b 2%nat + 2 * b 3%nat)); [simpl; tauto|..]; wt4_cbn; lra.
      }
      {
        apply (leaf4 _ b 2%nat 5%nat 6%nat 7%nat (- b 0%nat - b 1%nat + b 2%nat + b 3%nat) (2 * b 0%nat - 2 * b 3%nat) (2 * b 3%nat) (2 * b 1%nat)); [simpl; tauto|..]; wt4_cbn; lra.
      }
    }
    {
      apply (leaf4 _ b 0%nat 1%nat 5%nat 6%nat (b 0%nat - b 2%nat - b 3%nat) (b 1%nat) (2 * b 2%nat) (2 * b 3%nat)); [simpl; tauto|..]; wt4_cbn; lra.
    }
  }
Qed.
Lemma base12_disjoint c1 c2 : In c1 base12 -> In c2 base12 -> c1 = c2 \/ ldisjoint2 4 wt4 c1 c2.
Proof.
  unfold base12. intros H1 H2. simpl in H1, H2.
  destruct H1 as [<-|[<-|[<-|[<-|[<-|[<-|[]]]]]]]; destruct H2 as [<-|[<-|[<-|[<-|[<-|[<-|[]]]]]]]; first [left; reflexivity | right; dis4].
Qed.

Definition base13 : list (list nat) := [[0;1;5;6]; [1;5;6;7]; [1;6;7;8]; [2;3;6;8]; [2;5;6;7]; [2;6;7;8]]%nat.
Lemma base13_cover : lcover 4 wt4 base13.
Proof.
  intros b H. pose proof (H 0%nat ltac:(lia)). pose proof (H 1%nat ltac:(lia)). pose proof (H 2%nat ltac:(lia)). pose proof (H 3%nat ltac:(lia)).
  destruct (Rle_lt_dec 0 (b 0%nat + b 1%nat - b 2%nat - b 3%nat)).
  {
    destruct (Rle_lt_dec 0 (- 2 * b 0%nat + 2 * b 2%nat + 2 * b 3%nat)).
    {
      destruct (Rle_lt_dec 0 (2 * b 0%nat - 2 * b 3%nat)).
      {
        apply (leaf4 _ b 1%nat 5%nat 6%nat 7%nat (b 0%nat + b 1%nat - b 2%nat - b 3%nat) (2 * b 0%nat - 2 * b 3%nat) (2 * b 3%nat) (- 2 * b 0%nat + 2 * b 2%nat + 2 * b 3%nat)); [simpl; tauto|..]; wt4_cbn; lra.
      }
      {
        apply (leaf4 _ b 1%nat 6%nat 7%nat 8%nat (b 0%nat + b 1%nat - b 2%nat - b 3%nat) (2 * b 0%nat) (2 * b 2%nat) (- 2 * b 0%nat + 2 * b 3%nat)); [simpl; tauto|..]; wt4_cbn; lra.
      }
    }
    {
      apply (leaf4 _ b 0%nat 1%nat 5%nat 6%nat (b 0%nat - b 2%nat - b 3%nat) (b 1%nat) (2 * b 2%nat) (2 * b 3%nat)); [simpl; tauto|..]; wt4_cbn; lra.
    }
  }
  {
    destruct (Rle_lt_dec 0 (- b 0%nat - b 1%nat + b 3%nat)).
    {
      apply (leaf4 _ b 2%nat 3%nat 6%nat 8%nat (b 2%nat) (- b 0%nat - b 1%nat + b 3%nat) (2 * b 0%nat) (2 * b 1%nat)); [simpl; tauto|..]; wt4_cbn; lra.
    }
    {
      destruct (Rle_lt_dec 0 (2 * b 0%nat - 2 * b 3%nat)).
      {
        apply (leaf4 _ b 2%nat 5%nat 6%nat 7%nat (- b 0%nat - b 1%nat + b 2%nat + b 3%nat) (2 * b 0%nat - 2 * b 3%nat) (2 * b 3%nat) (2 * b 1%nat)); [simpl; tauto|..]; wt4_cbn; lra.
      }
      {
        apply (leaf4 _ b 2%nat 6%nat 7%nat 8%nat (- b 0%nat - b 1%nat + b 2%nat + b 3%nat) (2 * b 0%nat) (2 * b 0%nat + 2 * b 1%nat - 2 * b 3%nat) (- 2 * b 0%nat + 2 * b 3%nat)); [simpl; tauto|..]; wt4_cbn; lra.
      }
    }
  }
Qed.
Lemma base13_disjoint c1 c2 : In c1 base13 -> In c2 base13 -> c1 = c2 \/ ldisjoint2 4 wt4 c1 c2.
Proof.
  unfold base13. intros H1 H2. simpl in H1, H2.
  destruct H1 as [<-|[<-|[<-|[<-|[<-|[<-|[]]]]]]]; destruct H2 as [<-|[<-|[<-|[<-|[<-|[<-|[]]]]]]]; first [left; reflexivity | right; dis4].
Qed.

Definition base14 : list (list nat) := [[0;1;5;8]; [0;3;5;8]; [1;5;7;8]; [2;5;7;9]; [3;5;8;9]; [5;7;8;9]]%nat.
Lemma base14_cover : lcover 4 wt4 base14.
Proof.
  intros b H. pose proof (H 0%nat ltac:(lia)). pose proof (H 1%nat ltac:(lia)). pose proof (H 2%nat ltac:(lia)). pose proof (H 3%nat ltac:(lia)).
  destruct (Rle_lt_dec 0 (b 0%nat - b 1%nat - b 2%nat + b 3%nat)).
  {
    destruct (Rle_lt_dec 0 (- 2 * b 0%nat + 2 * b 2%nat)).
    {
      apply (leaf4 _ b 3%nat 5%nat 8%nat 9%nat (b 0%nat - b 1%nat - b 2%nat + b 3%nat) (2 * b 0%nat) (2 * b 1%nat) (- 2 * b 0%nat + 2 * b 2%nat)); [simpl; tauto|..]; wt4_cbn; lra.
    }
    {
      destruct (Rle_lt_dec 0 (b 1%nat - b 3%nat)).
      {
        apply (leaf4 _ b 0%nat 1%nat 5%nat 8%nat (b 0%nat - b 2%nat) (b 1%nat - b 3%nat) (2 * b 2%nat) (2 * b 3%nat)); [simpl; tauto|..]; wt4_cbn; lra.
      }
      {
        apply (leaf4 _ b 0%nat 3%nat 5%nat 8%nat (b 0%nat - b 2%nat) (- b 1%nat + b 3%nat) (2 * b 2%nat) (2 * b 1%nat)); [simpl; tauto|..]; wt4_cbn; lra.
      }
    }
  }
  {
    destruct (Rle_lt_dec 0 (b 0%nat + b 1%nat - b 2%nat - b 3%nat)).
    {
      destruct (Rle_lt_dec 0 (- 2 * b 0%nat + 2 * b 2%nat)).
      {
        apply (leaf4 _ b 1%nat 5%nat 7%nat 8%nat (b 0%nat + b 1%nat - b 2%nat - b 3%nat) (2 * b 0%nat) (- 2 * b 0%nat + 2 * b 2%nat) (2 * b 3%nat)); [simpl; tauto|..]; wt4_cbn; lra.
      }
      {
        apply (leaf4 _ b 0%nat 1%nat 5%nat 8%nat (b 0%nat - b 2%nat) (b 1%nat - b 3%nat) (2 * b 2%nat) (2 * b 3%nat)); [simpl; tauto|..]; wt4_cbn; lra.
      }
    }
    {
      destruct (Rle_lt_dec 0 (- b 0%nat - b 1%nat + b 2%nat - b 3%nat)).
      {
        apply (leaf4 _ b 2%nat 5%nat 7%nat 9%nat (- b 0%nat - b 1%nat + b 2%nat - b 3%nat) (2 * b 0%nat) (2 * b 1%nat) (2 * b 3%nat)); [simpl; tauto|..]; wt4_cbn; lra.
      }
      {
        apply (leaf4 _ b 5%nat 7%nat 8%nat 9%nat (2 * b 0%nat) (- b 0%nat + b 1%nat + b 2%nat - b 3%nat) (b 0%nat + b 1%nat - b 2%nat + b 3%nat) (- b 0%nat - b 1%nat + b 2%nat + b 3%nat)); [simpl; tauto|..]; wt4_cbn; lra.
      }
    }
  }
Qed.
Lemma base14_disjoint c1 c2 : In c1 base14 -> In c2 base14 -> c1 = c2 \/ ldisjoint2 4 wt4 c1 c2.
Proof.
  unfold base14. intros H1 H2. simpl in H1, H2.
  destruct H1 as [<-|[<-|[<-|[<-|[<-|[<-|[]]]]]]]; destruct H2 as [<-|[<-|[<-|[<-|[<-|[<-|[]]]]]]]; first [left; reflexivity | right; dis4].
Qed.

Definition base15 : list (list nat) := [[0;1;5;8]; [0;5;6;8]; [1;5;7;8]; [2;3;5;8]; [2;5;7;8]; [3;5;6;8]]%nat.
Lemma base15_cover : lcover 4 wt4 base15.
Proof.
  intros b H. pose proof (H 0%nat ltac:(lia)). pose proof (H 1%nat ltac:(lia)). pose proof (H 2%nat ltac:(lia)). pose proof (H 3%nat ltac:(lia)).
  destruct (Rle_lt_dec 0 (- 2 * b 0%nat + 2 * b 2%nat)).
  {
    destruct (Rle_lt_dec 0 (- 2 * b 1%nat + 2 * b 3%nat)).
    {
      apply (leaf4 _ b 2%nat 3%nat 5%nat 8%nat (- b 0%nat + b 2%nat) (- b 1%nat + b 3%nat) (2 * b 0%nat) (2 * b 1%nat)); [simpl; tauto|..]; wt4_cbn; lra.
    }
    {
      destruct (Rle_lt_dec 0 (b 0%nat + b 1%nat - b 2%nat - b 3%nat)).
      {
        apply (leaf4 _ b 1%nat 5%nat 7%nat 8%nat (b 0%nat + b 1%nat - b 2%nat - b 3%nat) (2 * b 0%nat) (- 2 * b 0%nat + 2 * b 2%nat) (2 * b 3%nat)); [simpl; tauto|..]; wt4_cbn; lra.
      }
      {
        apply (leaf4 _ b 2%nat 5%nat 7%nat 8%nat (- b 0%nat - b 1%nat + b 2%nat + b 3%nat) (2 * b 0%nat) (2 * b 1%nat - 2 * b 3%nat) (2 * b 3%nat)); [simpl; tauto|..]; wt4_cbn; lra.
      }
    }
  }
  {
    destruct (Rle_lt_dec 0 (- 2 * b 1%nat + 2 * b 3%nat)).
    {
      destruct (Rle_lt_dec 0 (b 0%nat + b 1%nat - b 2%nat - b 3%nat)).
      {
        apply (leaf4 _ b 0%nat 5%nat 6%nat 8%nat (b 0%nat + b 1%nat - b 2%nat - b 3%nat) (2 * b 2%nat) (- 2 * b 1%nat + 2 * b 3%nat) (2 * b 1%nat)); [simpl; tauto|..]; wt4_cbn; lra.
      }
      {
        apply (leaf4 _ b 3%nat 5%nat 6%nat 8%nat (- b 0%nat - b 1%nat + b 2%nat + b 3%nat) (2 * b 2%nat) (2 * b 0%nat - 2 * b 2%nat) (2 * b 1%nat)); [simpl; tauto|..]; wt4_cbn; lra.
      }
    }
    {
      apply (leaf4 _ b 0%nat 1%nat 5%nat 8%nat (b 0%nat - b 2%nat) (b 1%nat - b 3%nat) (2 * b 2%nat) (2 * b 3%nat)); [simpl; tauto|..]; wt4_cbn; lra.
    }
  }
Qed.
Lemma base15_disjoint c1 c2 : In c1 base15 -> In c2 base15 -> c1 = c2 \/ ldisjoint2 4 wt4 c1 c2.
Proof.
  unfold base15. intros H1 H2. simpl in H1, H2.
  destruct H1 as [<-|[<-|[<-|[<-|[<-|[<-|[]]]]]]]; destruct H2 as [<-|[<-|[<-|[<-|[<-|[<-|[]]]]]]]; first [left; reflexivity | right; dis4].
Qed.

Definition base16 : list (list nat) := [[0;1;5;6]; [1;5;6;7]; [1;6;7;8]; [2;5;7;9]; [3;6;8;9]; [5;6;7;9]; [6;7;8;9]]%nat.
Lemma base16_cover : lcover 4 wt4 base16.
Proof.
  intros b H. pose proof (H 0%nat ltac:(lia)). pose proof (H 1%nat ltac:(lia)). pose proof (H 2%nat ltac:(lia)). pose proof (H 3%nat ltac:(lia)).
  destruct (Rle_lt_dec 0 (b 0%nat + b 1%nat - b 2%nat - b 3%nat)).
  {
    destruct (Rle_lt_dec 0 (- 2 * b 0%nat + 2 * b 2%nat + 2 * b 3%nat)).
    {
      destruct (Rle_lt_dec 0 (2 * b 0%nat - 2 * b 3%nat)).
      {
        apply (leaf4 _ b 1%nat 5%nat 6%nat 7%nat (b 0%nat + b 1%nat - b 2%nat - b 3%nat) (2 * b 0%nat - 2 * b 3%nat) (2 * b 3%nat) (- 2 * b 0%nat + 2 * b 2%nat + 2 * b 3%nat)); [simpl; tauto|..]; wt4_cbn; lra.
      }
      {
        apply (leaf4 _ b 1%nat 6%nat 7%nat 8%nat (b 0%nat + b 1%nat - b 2%nat - b 3%nat) (2 * b 0%nat) (2 * b 2%nat) (- 2 * b 0%nat + 2 * b 3%nat)); [simpl; tauto|..]; wt4_cbn; lra.
      }
    }
    {
      apply (leaf4 _ b 0%nat 1%nat 5%nat 6%nat (b 0%nat - b 2%nat - b 3%nat) (b 1%nat) (2 * b 2%nat) (2 * b 3%nat)); [simpl; tauto|..]; wt4_cbn; lra.
    }
  }
  {
    destruct (Rle_lt_dec 0 (b 0%nat - b 1%nat + b 2%nat - b 3%nat)).
    {
      destruct (Rle_lt_dec 0 (- b 0%nat - b 1%nat + b 2%nat - b 3%nat)).
      {
        apply (leaf4 _ b 2%nat 5%nat 7%nat 9%nat (- b 0%nat - b 1%nat + b 2%nat - b 3%nat) (2 * b 0%nat) (2 * b 1%nat) (2 * b 3%nat)); [simpl; tauto|..]; wt4_cbn; lra.
      }
      {
        apply (leaf4 _ b 5%nat 6%nat 7%nat 9%nat (b 0%nat - b 1%nat + b 2%nat - b 3%nat) (b 0%nat + b 1%nat - b 2%nat + b 3%nat) (2 * b 1%nat) (- b 0%nat - b 1%nat + b 2%nat + b 3%nat)); [simpl; tauto|..]; wt4_cbn; lra.
      }
    }
    {
      destruct (Rle_lt_dec 0 (- b 0%nat - b 1%nat - b 2%nat + b 3%nat)).
      {
        apply (leaf4 _ b 3%nat 6%nat 8%nat 9%nat (- b 0%nat - b 1%nat - b 2%nat + b 3%nat) (2 * b 0%nat) (2 * b 1%nat) (2 * b 2%nat)); [simpl; tauto|..]; wt4_cbn; lra.
      }
      {
        apply (leaf4 _ b 6%nat 7%nat 8%nat 9%nat (2 * b 0%nat) (b 0%nat + b 1%nat + b 2%nat - b 3%nat) (- b 0%nat + b 1%nat - b 2%nat + b 3%nat) (- b 0%nat - b 1%nat + b 2%nat + b 3%nat)); [simpl; tauto|..]; wt4_cbn; lra.
      }
    }
  }
Qed.
Lemma base16_disjoint c1 c2 : In c1 base16 -> In c2 base16 -> c1 = c2 \/ ldisjoint2 4 wt4 c1 c2.
Proof.
  unfold base16. intros H1 H2. simpl in H1, H2.
  destruct H1 as [<-|[<-|[<-|[<-|[<-|[<-|[<-|[]]]]]]]]; destruct H2 as [<-|[<-|[<-|[<-|[<-|[<-|[<-|[]]]]]]]]; first [left; reflexivity | right; dis4].
Qed.

Definition base17 : list (list nat) := [[0;1;5;8]; [0;5;6;8]; [1;5;7;8]; [2;5;7;9]; [3;6;8;9]; [5;6;8;9]; [5;7;8;9]]%nat.
Lemma base17_cover : lcover 4 wt4 base17.
Proof.
  intros b H. pose proof (H 0%nat ltac:(lia)). pose proof (H 1%nat ltac:(lia)). pose proof (H 2%nat ltac:(lia)). pose proof (H 3%nat ltac:(lia)).
  destruct (Rle_lt_dec 0 (b 0%nat + b 1%nat - b 2%nat - b 3%nat)).
  {
    destruct (Rle_lt_dec 0 (- 2 * b 0%nat + 2 * b 2%nat)).
    {
      apply (leaf4 _ b 1%nat 5%nat 7%nat 8%nat (b 0%nat + b 1%nat - b 2%nat - b 3%nat) (2 * b 0%nat) (- 2 * b 0%nat + 2 * b 2%nat) (2 * b 3%nat)); [simpl; tauto|..]; wt4_cbn; lra.
    }
    {
      destruct (Rle_lt_dec 0 (- 2 * b 1%nat + 2 * b 3%nat)).
      {
        apply (leaf4 _ b 0%nat 5%nat 6%nat 8%nat (b 0%nat + b 1%nat - b 2%nat - b 3%nat) (2 * b 2%nat) (- 2 * b 1%nat + 2 * b 3%nat) (2 * b 1%nat)); [simpl; tauto|..]; wt4_cbn; lra.
      }
      {
        apply (leaf4 _ b 0%nat 1%nat 5%nat 8%nat (b 0%nat - b 2%nat) (b 1%nat - b 3%nat) (2 * b 2%nat) (2 * b 3%nat)); [simpl; tauto|..]; wt4_cbn; lra.
      }
    }
  }
  {
    destruct (Rle_lt_dec 0 (b 0%nat - b 1%nat - b 2%nat + b 3%nat)).
    {
      destruct (Rle_lt_dec 0 (- b 0%nat - b 1%nat - b 2%nat + b 3%nat)).
      {
        apply (leaf4 _ b 3%nat 6%nat 8%nat 9%nat (- b 0%nat - b 1%nat - b 2%nat + b 3%nat) (2 * b 0%nat) (2 * b 1%nat) (2 * b 2%nat)); [simpl; tauto|..]; wt4_cbn; lra.
      }
      {
        apply (leaf4 _ b 5%nat 6%nat 8%nat 9%nat (b 0%nat + b 1%nat + b 2%nat - b 3%nat) (b 0%nat - b 1%nat - b 2%nat + b 3%nat) (2 * b 1%nat) (- b 0%nat - b 1%nat + b 2%nat + b 3%nat)); [simpl; tauto|..]; wt4_cbn; lra.
      }
    }
    {
      destruct (Rle_lt_dec 0 (- b 0%nat - b 1%nat + b 2%nat - b 3%nat)).
      {
        apply (leaf4 _ b 2%nat 5%nat 7%nat 9%nat (- b 0%nat - b 1%nat + b 2%nat - b 3%nat) (2 * b 0%nat) (2 * b 1%nat) (2 * b 3%nat)); [simpl; tauto|..]; wt4_cbn; lra.
      }
      {
        apply (leaf4 _ b 5%nat 7%nat 8%nat 9%nat (2 * b 0%nat) (- b 0%nat + b 1%nat + b 2%nat - b 3%nat) (b 0%nat + b 1%nat - b 2%nat + b 3%nat) (- b 0%nat - b 1%nat + b 2%nat + b 3%nat)); [simpl; tauto|..]; wt4_cbn; lra.
      }
    }
  }
Qed.
Lemma base17_disjoint c1 c2 : In c1 base17 -> In c2 base17 -> c1 = c2 \/ ldisjoint2 4 wt4 c1 c2.
Proof.
  unfold base17. intros H1 H2. simpl in H1, H2.
  destruct H1 as [<-|[<-|[<-|[<-|[<-|[<-|[<-|[]]]]]]]]; destruct H2 as [<-|[<-|[<-|[<-|[<-|[<-|[<-|[]]]]]]]]; first [left; reflexivity | right; dis4].
Qed.

Definition base18 : list (list nat) := [[0;4;5;6]; [1;4;7;8]; [2;5;7;9]; [3;6;8;9]; [4;5;6;7]; [4;6;7;8]; [5;6;7;9]; [6;7;8;9]]%nat.
Lemma base18_cover : lcover 4 wt4 base18.
Proof.
  intros b H. pose proof (H 0%nat ltac:(lia)). pose proof (H 1%nat ltac:(lia)). pose proof (H 2%nat ltac:(lia)). pose proof (H 3%nat ltac:(lia)).
  destruct (Rle_lt_dec 0 (b 0%nat - b 1%nat + b 2%nat - b 3%nat)).
  {
    destruct (Rle_lt_dec 0 (b 0%nat + b 1%nat - b 2%nat - b 3%nat)).
    {
      destruct (Rle_lt_dec 0 (b 0%nat - b 1%nat - b 2%nat - b 3%nat)).
      {
        apply (leaf4 _ b 0%nat 4%nat 5%nat 6%nat (b 0%nat - b 1%nat - b 2%nat - b 3%nat) (2 * b 1%nat) (2 * b 2%nat) (2 * b 3%nat)); [simpl; tauto|..]; wt4_cbn; lra.
      }
      {
        apply (leaf4 _ b 4%nat 5%nat 6%nat 7%nat (b 0%nat + b 1%nat - b 2%nat - b 3%nat) (b 0%nat - b 1%nat + b 2%nat - b 3%nat) (2 * b 3%nat) (- b 0%nat + b 1%nat + b 2%nat + b 3%nat)); [simpl; tauto|..]; wt4_cbn; lra.
      }
    }
    {
      destruct (Rle_lt_dec 0 (- b 0%nat - b 1%nat + b 2%nat - b 3%nat)).
      {
        apply (leaf4 _ b 2%nat 5%nat 7%nat 9%nat (- b 0%nat - b 1%nat + b 2%nat - b 3%nat) (2 * b 0%nat) (2 * b 1%nat) (2 * b 3%nat)); [simpl; tauto|..]; wt4_cbn; lra.
      }
      {
        apply (leaf4 _ b 5%nat 6%nat 7%nat 9%nat (b 0%nat - b 1%nat + b 2%nat - b 3%nat) (b 0%nat + b 1%nat - b 2%nat + b 3%nat) (2 * b 1%nat) (- b 0%nat - b 1%nat + b 2%nat + b 3%nat)); [simpl; tauto|..]; wt4_cbn; lra.
      }
    }
  }
  {
    destruct (Rle_lt_dec 0 (b 0%nat + b 1%nat - b 2%nat - b 3%nat)).
    {
      destruct (Rle_lt_dec 0 (- b 0%nat + b 1%nat - b 2%nat - b 3%nat)).
      {
        apply (leaf4 _ b 1%nat 4%nat 7%nat 8%nat (- b 0%nat + b 1%nat - b 2%nat - b 3%nat) (2 * b 0%nat) (2 * b 2%nat) (2 * b 3%nat)); [simpl; tauto|..]; wt4_cbn; lra.
      }
      {
        apply (leaf4 _ b 4%nat 6%nat 7%nat 8%nat (b 0%nat + b 1%nat - b 2%nat - b 3%nat) (b 0%nat - b 1%nat + b 2%nat + b 3%nat) (2 * b 2%nat) (- b 0%nat + b 1%nat - b 2%nat + b 3%nat)); [simpl; tauto|..]; wt4_cbn; lra.
      }
    }
    {
      destruct (Rle_lt_dec 0 (- b 0%nat - b 1%nat - b 2%nat + b 3%nat)).
      {
        apply (leaf4 _ b 3%nat 6%nat 8%nat 9%nat (- b 0%nat - b 1%nat - b 2%nat + b 3%nat) (2 * b 0%nat) (2 * b 1%nat) (2 * b 2%nat)); [simpl; tauto|..]; wt4_cbn; lra.
      }
      {
        apply (leaf4 _ b 6%nat 7%nat 8%nat 9%nat (2 * b 0%nat) (b 0%nat + b 1%nat + b 2%nat - b 3%nat) (- b 0%nat + b 1%nat - b 2%nat + b 3%nat) (- b 0%nat - b 1%nat + b 2%nat + b 3%nat)); [simpl; tauto|..]; wt4_cbn; lra.
      }
    }
  }
Qed.
Lemma base18_disjoint c1 c2 : In c1 base18 -> In c2 base18 -> c1 = c2 \/ ldisjoint2 4 wt4 c1 c2.
Proof.
  unfold base18. intros H1 H2. simpl in H1, H2.
  destruct H1 as [<-|[<-|[<-|[<-|[<-|[<-|[<-|[<-|[]]]]]]]]]; destruct H2 as [<-|[<-|[<-|[<-|[<-|[<-|[<-|[<-|[]]]]]]]]]; first [left; reflexivity | right; dis4].
Qed.

Definition bases : list (list (list nat)) := [base0; base1; base2; base3; base4; base5; base6; base7; base8; base9; base10; base11; base12; base13; base14; base15; base16; base17; base18].
Lemma bases_ok B : In B bases -> lcover 4 wt4 B /\ forall c1 c2, In c1 B -> In c2 B -> c1 = c2 \/ ldisjoint2 4 wt4 c1 c2.
Proof.
  intros H. unfold bases in H. simpl in H.
  repeat match goal with H : _ = B \/ _ |- _ => destruct H as [<-|H] end; [..|destruct H].
  - split; [exact base0_cover|exact base0_disjoint].
  - split; [exact base1_cover|exact base1_disjoint].
  - split; [exact base2_cover|exact base2_disjoint].
  - split; [exact base3_cover|exact base3_disjoint].
  - split; [exact base4_cover|exact base4_disjoint].
  - split; [exact base5_cover|exact base5_disjoint].
  - split; [exact base6_cover|exact base6_disjoint].
  - split; [exact base7_cover|exact base7_disjoint].
  - split; [exact base8_cover|exact base8_disjoint].
  - split; [exact base9_cover|exact base9_disjoint].
  - split; [exact base10_cover|exact base10_disjoint].
  - split; [exact base11_cover|exact base11_disjoint].
  - split; [exact base12_cover|exact base12_disjoint].
  - split; [exact base13_cover|exact base13_disjoint].
  - split; [exact base14_cover|exact base14_disjoint].
  - split; [exact base15_cover|exact base15_disjoint].
  - split; [exact base16_cover|exact base16_disjoint].
  - split; [exact base17_cover|exact base17_disjoint].
  - split; [exact base18_cover|exact base18_disjoint].
Qed.
