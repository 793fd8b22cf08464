(** Tetrahedra cut at other points than the middles of their edges; used by the
    proofs of C34 and C69. *)
From Coq Require Import Reals List Arith Bool Lia Lra Permutation ZArith.
From Verif Require Import ModelMesh MeshBase ModelGeom ModelRefineTet ModelRefineTri ModelRefine SpecRefine SpecHyperplane RefineGeom
  RefineTetBase RefineTetTree RefineTetCheck RefineTetLemmas RefineOrder RefineProofs.
Import ListNotations.

(** ** An edge is an edge of a part exactly if it is not split *)
Definition both_ends (k : nat) (c : list nat) : bool := existsb (Nat.eqb (fst (tet_edge k))) c && existsb (Nat.eqb (snd (tet_edge k))) c.
Definition edges_gone (f : list bool) (P : list (list nat)) : bool :=
  forallb (fun k => Bool.eqb (negb (bit f k)) (existsb (both_ends k) P)) (seq 0 6).
Lemma leaves_gone : forallb (fun f => check_tree (fun _ P _ _ => edges_gone f P) [] (tree_of f)) (all_bits 6) = true.
Proof. vm_compute. reflexivity. Qed.

Lemma tet_edges_gone {V} d (pos : V -> point) vid vtx mid fl : corner_ids_distinct vid 4 vtx ->
  exists P path, good_pat fl path P /\ tet_children d pos vid vtx mid fl = Some (map (map (handle_no 4 vtx mid)) P) /\
    forall k, k < 6 -> (fl k = false <-> exists c, In c P /\ In (fst (tet_edge k)) c /\ In (snd (tet_edge k)) c).
Proof.
  intros HD.
  set (dle := fun a b c e => if Rle_dec (line_length d pos (handle_no 4 vtx mid a) (handle_no 4 vtx mid b))
                       (line_length d pos (handle_no 4 vtx mid c) (handle_no 4 vtx mid e)) then true else false).
  destruct (refine_tet_good _ dle fl _ (edge_good d pos vid vtx mid HD)) as (P & path & E & _ & GP).
  exists P, path. split; auto. split; [unfold tet_children; cbv zeta; fold dle; now rewrite E|].
  set (f := map fl (seq 0 6)).
  assert (Hf : In f (all_bits 6)) by apply (all_bits_complete (map fl (seq 0 6))).
  pose proof leaves_gone as L. rewrite forallb_forall in L. specialize (L f Hf).
  assert (S0 : sound (edge_cmp d pos vid vtx) []) by (intros i j []).
  destruct (check_tree_sound _ _ dle _ (edge_good d pos vid vtx mid HD) _ _ S0 L) as (P' & path' & s & b & E' & _ & H).
  rewrite refine_tet_tree in E. fold f in E. rewrite E' in E. injection E as ->.
  intros k Hk. unfold edges_gone in H. rewrite forallb_forall in H. specialize (H k ltac:(apply in_seq; lia)).
  unfold f in H. rewrite bit_map in H by auto. apply eqb_prop in H.
  assert (X : forall l x, existsb (Nat.eqb x) l = true <-> In x l).
  { intros l x. rewrite existsb_exists. split; [intros (y & A & B); apply Nat.eqb_eq in B; now subst|]. intros A. exists x. split; auto. apply Nat.eqb_refl. }
  rewrite <- negb_true_iff, H, existsb_exists. unfold both_ends. split; intros (c & Hc & A).
  - apply andb_true_iff in A as [A B]. apply X in A. apply X in B. eauto.
  - exists c. split; auto. apply andb_true_iff. split; apply X; tauto.
Qed.

(** ** Other points on the edges *)
Local Open Scope R_scope.

(** The weight of a label when the corners carry the masses [r]. *)
Definition mass (r : nat -> R) (l : nat) : R :=
  if (l <? 4)%nat then r l else (r (fst (tet_edge (l - 4))) + r (snd (tet_edge (l - 4)))) / 2.
Definition wtr (r : nat -> R) (l i : nat) : R := r i * wt4 l i / mass r l.

Section Mass.
Variable r : nat -> R.
Hypothesis Pos : forall i, (i < 4)%nat -> 0 < r i.

Lemma tet_edge_lt k : (fst (tet_edge k) < 4)%nat /\ (snd (tet_edge k) < 4)%nat.
Proof. do 6 (destruct k as [|k]; [cbn; lia|]). cbn. lia. Qed.
Lemma mass_pos l : 0 < mass r l.
Proof.
  unfold mass. destruct (Nat.ltb_spec l 4); [auto|]. destruct (tet_edge_lt (l - 4)) as [A B]. apply Pos in A. apply Pos in B. lra.
Qed.
Lemma lcomb_scale ws i : (i < 4)%nat -> lcomb (wtr r) ws i = r i * lcomb wt4 (map (fun w => (fst w / mass r (snd w), snd w)) ws) i.
Proof.
  intros Hi. unfold lcomb. rewrite map_map. rewrite <- Rsum_map_scale. apply Rsum_map_ext. intros w _. cbn [fst snd]. unfold wtr.
  pose proof (mass_pos (snd w)). field. lra.
Qed.
Lemma lcomb_scale' ws i : (i < 4)%nat -> lcomb (wtr r) (map (fun w => (fst w * mass r (snd w), snd w)) ws) i = r i * lcomb wt4 ws i.
Proof.
  intros Hi. unfold lcomb. rewrite map_map. rewrite <- Rsum_map_scale. apply Rsum_map_ext. intros w _. cbn [fst snd]. unfold wtr.
  pose proof (mass_pos (snd w)). field. lra.
Qed.
Lemma lcover_scale P : lcover 4 wt4 P -> lcover 4 (wtr r) P.
Proof.
  intros HC b Hb. destruct (HC (fun i => b i / r i)) as (cell & ws & A & B & C & D).
  { intros i Hi. specialize (Hb i Hi). pose proof (Pos i Hi). apply Rmult_le_pos; [auto|]. left. now apply Rinv_0_lt_compat. }
  exists cell, (map (fun w => (fst w * mass r (snd w), snd w)) ws). split; auto. split; [now rewrite map_map|]. split.
  - apply Forall_map. eapply Forall_impl; [|exact C]. cbn. intros w Hw. apply Rmult_le_pos; auto. left. apply mass_pos.
  - intros i Hi. rewrite lcomb_scale', <- D by auto. pose proof (Pos i Hi). field. lra.
Qed.
Lemma ldisjoint2_scale c1 c2 : ldisjoint2 4 wt4 c1 c2 -> ldisjoint2 4 (wtr r) c1 c2.
Proof.
  intros H ws1 ws2 E1 E2 F1 F2 HE.
  assert (F : forall ws : list (R * nat), Forall (fun w => 0 < fst w) ws -> Forall (fun w => 0 < fst w) (map (fun w => (fst w / mass r (snd w), snd w)) ws)).
  { intros ws Fw. apply Forall_map. eapply Forall_impl; [|exact Fw]. cbn. intros w Hw. apply Rdiv_lt_0_compat; auto. apply mass_pos. }
  apply (H (map (fun w => (fst w / mass r (snd w), snd w)) ws1) (map (fun w => (fst w / mass r (snd w), snd w)) ws2)); auto; try now rewrite map_map.
  intros i Hi. specialize (HE i Hi). rewrite !lcomb_scale in HE by auto. pose proof (Pos i Hi). apply Rmult_eq_reg_l in HE; auto. lra.
Qed.
Lemma wtr_pos fl l i : okl fl l -> 0 <= wtr r l i.
Proof.
  intros HL. unfold wtr. destruct (Nat.lt_ge_cases i 4) as [Hi|Hi].
  - apply Rmult_le_pos; [apply Rmult_le_pos; [left; auto|apply wt4_pos]|]. left. apply Rinv_0_lt_compat, mass_pos.
  - enough (E : wt4 l i = 0) by (rewrite E; unfold Rdiv; lra). unfold wt4. destruct (Nat.ltb_spec l 4); [destruct (Nat.eqb_spec l i); [lia|auto]|].
    pose proof (tet_edge_lt (l - 4)) as [A B]. destruct (tet_edge (l - 4)) as [x y]. cbn [fst snd] in A, B.
    destruct (Nat.eqb_spec x i); [lia|]. destruct (Nat.eqb_spec y i); [lia|auto].
Qed.
Ltac lab := cbv [wtr mass wt4 tet_edge Nat.ltb Nat.leb Nat.eqb Nat.sub fst snd]; cbn iota.
Lemma wtr_sum fl l : okl fl l -> Rsum (map (wtr r l) (seq 0 4)) = 1.
Proof.
  intros HL. cbn [map seq Rsum fold_right]. pose proof (mass_pos l) as M.
  pose proof (Pos 0 ltac:(lia)). pose proof (Pos 1 ltac:(lia)). pose proof (Pos 2 ltac:(lia)). pose proof (Pos 3 ltac:(lia)).
  destruct HL as [HL|[HL _]].
  - do 4 (destruct l as [|l]; [lab; field; lra|]). lia.
  - do 10 (destruct l as [|l]; [first [lia|lab; field; lra]|]). lia.
Qed.
Lemma handle_wtr {V} d (pos : V -> point) vtx mid fl l i :
  (forall k, (k < 6)%nat -> fl k = true -> mass_centre d (r (fst (tet_edge k))) (pos (vtx (fst (tet_edge k)))) (r (snd (tet_edge k))) (pos (vtx (snd (tet_edge k)))) (pos (mid k))) ->
  okl fl l -> (i < d)%nat ->
  pos (handle_no 4 vtx mid l) i = Rsum (map (fun k => (wtr r l k * pos (vtx k) i)) (seq 0 4)).
Proof.
  intros HM HL Hi. cbn [map seq Rsum fold_right].
  pose proof (Pos 0 ltac:(lia)). pose proof (Pos 1 ltac:(lia)). pose proof (Pos 2 ltac:(lia)). pose proof (Pos 3 ltac:(lia)).
  destruct HL as [HL|[HL HF]].
  - do 4 (destruct l as [|l]; [cbv [handle_no]; lab; field; lra|]). lia.
  - specialize (HM (l - 4)%nat ltac:(lia) HF i Hi).
    do 10 (destruct l as [|l]; [first [lia|cbv [handle_no]; lab; cbv [tet_edge Nat.sub fst snd] in HM; rewrite HM; field; lra]|]). lia.
Qed.
End Mass.
