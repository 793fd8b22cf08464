(** stable_line_is_longer as a lexicographic comparison; used by the proofs of C34-C37. *)
From Coq Require Import Reals List Arith Bool Lia Lra.
From Verif Require Import ModelGeom ModelRefine SpecRefine RefineTetCheck.
Import ListNotations.

Lemma sum_upto_ext d f g : (forall i, i < d -> f i = g i) -> sum_upto d f = sum_upto d g.
Proof. induction d; simpl; intros H; auto. rewrite IHd, H; auto. Qed.

Section Order.
Context {V : Type}.
Variable d : nat.
Variable pos : V -> point.
Variable vid : V -> nat.
Notation longer := (stable_line_is_longer d pos vid).
Notation len := (line_length d pos).

Lemma len_sym a b : len a b = len b a.
Proof.
  unfold line_length, norm_2. f_equal. apply sum_upto_ext. intros i _. unfold psub. ring.
Qed.

Definition lo a b := Nat.min (vid a) (vid b).
Definition hi a b := Nat.max (vid a) (vid b).

Lemma longer_spec a b c e : longer a b c e = true <->
  (len a b > len c e)%R \/ (len a b = len c e /\ (lo c e < lo a b \/ (lo a b = lo c e /\ hi c e < hi a b))).
Proof.
  unfold stable_line_is_longer. cbv zeta.
  assert (L : forall a b, vid (if vid a <? vid b then a else b) = lo a b).
  { intros x y. unfold lo. destruct (Nat.ltb_spec (vid x) (vid y)); lia. }
  assert (H : forall a b, vid (if vid a <? vid b then b else a) = hi a b).
  { intros x y. unfold hi. destruct (Nat.ltb_spec (vid x) (vid y)); lia. }
  rewrite !L, !H. destruct (Rgt_dec (len a b) (len c e)) as [G|G].
  - split; auto.
  - destruct (Rge_dec (len a b) (len c e)) as [E|E].
    + assert (len a b = len c e) by lra.
      destruct (Nat.ltb_spec (lo c e) (lo a b)); [split; auto|].
      destruct (Nat.eqb_spec (lo a b) (lo c e)).
      * destruct (Nat.ltb_spec (hi c e) (hi a b)); [split; auto|split; [discriminate|]].
        intros [?|[? [?|[? ?]]]]; [lra|lia|lia].
      * split; [discriminate|]. intros [?|[? [?|[? ?]]]]; [lra|lia|lia].
    + split; [discriminate|]. intros [?|[? ?]]; lra.
Qed.

Lemma lo_sym a b : lo a b = lo b a. Proof. unfold lo. lia. Qed.
Lemma hi_sym a b : hi a b = hi b a. Proof. unfold hi. lia. Qed.

Lemma bool_ext (x y : bool) : (x = true <-> y = true) -> x = y.
Proof. destruct x, y; intros [? ?]; auto; symmetry; auto. Qed.

Lemma longer_sym1 a b c e : longer b a c e = longer a b c e.
Proof. apply bool_ext. rewrite !longer_spec, (len_sym b a), (lo_sym b a), (hi_sym b a). reflexivity. Qed.
Lemma longer_sym2 a b c e : longer a b e c = longer a b c e.
Proof. apply bool_ext. rewrite !longer_spec, (len_sym e c), (lo_sym e c), (hi_sym e c). reflexivity. Qed.
Lemma longer_irr a b : longer a b a b = false.
Proof.
  destruct (longer a b a b) eqn:E; auto. apply longer_spec in E as [?|[_ [?|[_ ?]]]]; [lra|lia|lia].
Qed.
Lemma longer_asym a b c e : longer a b c e = true -> longer c e a b = false.
Proof.
  intros H. destruct (longer c e a b) eqn:E; auto. apply longer_spec in E, H.
  destruct E as [?|[? [?|[? ?]]]], H as [?|[? [?|[? ?]]]]; first [lra|lia].
Qed.
Lemma longer_trans a b c e f g : longer a b c e = true -> longer c e f g = true -> longer a b f g = true.
Proof.
  intros H E. apply longer_spec in E, H. apply longer_spec.
  destruct E as [?|[? E]], H as [?|[? H]]; [left; lra|left; lra|left; lra|right; split; [lra|]].
  destruct E as [?|[? ?]], H as [?|[? ?]]; lia.
Qed.
Lemma longer_total a b c e : ~ ((vid a = vid c /\ vid b = vid e) \/ (vid a = vid e /\ vid b = vid c)) ->
  longer a b c e = true \/ longer c e a b = true.
Proof.
  intros H. rewrite !longer_spec.
  destruct (Rtotal_order (len a b) (len c e)) as [|[|]]; [right; left; lra| |left; left; lra].
  assert (lo c e < lo a b \/ (lo a b = lo c e /\ hi c e < hi a b) \/ lo a b < lo c e \/ (lo a b = lo c e /\ hi a b < hi c e)).
  { unfold lo, hi. lia. }
  destruct H1 as [?|[[? ?]|[?|[? ?]]]]; symmetry in H0 || idtac.
  - left. right. auto.
  - left. right. auto.
  - right. right. auto.
  - right. right. split; auto.
Qed.

(** The comparison of the edges of a tetrahedron. *)
Definition edge_cmp (vtx : nat -> V) (i j : nat) : bool :=
  longer (vtx (fst (tet_edge i))) (vtx (snd (tet_edge i))) (vtx (fst (tet_edge j))) (vtx (snd (tet_edge j))).

Lemma edge_no_tet a b : a < 4 -> b < 4 -> a <> b -> tet_edge (edge_no a b) = (a, b) \/ tet_edge (edge_no a b) = (b, a).
Proof.
  intros Ha Hb Hab. do 4 (destruct a as [|a]; [do 4 (destruct b as [|b]; [first [lia|simpl; auto]|]); lia|]). lia.
Qed.

Lemma edge_good vtx mid : corner_ids_distinct vid 4 vtx ->
  good_cmp (fun a b c e => longer (handle_no 4 vtx mid a) (handle_no 4 vtx mid b) (handle_no 4 vtx mid c) (handle_no 4 vtx mid e))
    (edge_cmp vtx).
Proof.
  intros HD. constructor.
  - intros a b c e Ha Hb Hc He Hab Hce. unfold handle_no.
    rewrite (proj2 (Nat.ltb_lt a 4) Ha), (proj2 (Nat.ltb_lt b 4) Hb), (proj2 (Nat.ltb_lt c 4) Hc), (proj2 (Nat.ltb_lt e 4) He).
    unfold edge_cmp. destruct (edge_no_tet a b Ha Hb Hab) as [->| ->], (edge_no_tet c e Hc He Hce) as [->| ->]; cbn [fst snd];
      rewrite ?(longer_sym1 (vtx a) (vtx b)), ?(longer_sym2 (vtx a) (vtx b) (vtx c) (vtx e)); auto.
  - intros i. apply longer_irr.
  - intros i j Hi Hj Hij. unfold edge_cmp.
    assert (N : ~ ((vid (vtx (fst (tet_edge i))) = vid (vtx (fst (tet_edge j))) /\ vid (vtx (snd (tet_edge i))) = vid (vtx (snd (tet_edge j)))) \/
                   (vid (vtx (fst (tet_edge i))) = vid (vtx (snd (tet_edge j))) /\ vid (vtx (snd (tet_edge i))) = vid (vtx (fst (tet_edge j)))))).
    { assert (L : forall k, fst (tet_edge k) < 4 /\ snd (tet_edge k) < 4) by (intros [|[|[|[|[|k]]]]]; simpl; lia).
      assert (E : ~ ((fst (tet_edge i) = fst (tet_edge j) /\ snd (tet_edge i) = snd (tet_edge j)) \/
                     (fst (tet_edge i) = snd (tet_edge j) /\ snd (tet_edge i) = fst (tet_edge j)))).
      { do 6 (destruct i as [|i]; [do 6 (destruct j as [|j]; [simpl; lia|]); lia|]). lia. }
      intros [[A B]|[A B]]; apply E; [left|right]; split; apply HD; auto; apply L. }
    destruct (longer_total _ _ _ _ N) as [X|X]; rewrite X; [rewrite (longer_asym _ _ _ _ X)|rewrite (longer_asym _ _ _ _ X)]; reflexivity.
  - intros i j k. apply longer_trans.
Qed.
End Order.
