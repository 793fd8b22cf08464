(** From the checked subdivisions to coverage, disjointness, orientation and
    traces of arbitrary tetrahedra. Used by the proofs of C34-C36. *)
From Coq Require Import Reals List Arith Bool Lia Lra Permutation ZArith.
From Verif Require Import ModelMesh MeshBase ModelGeom ModelRefineTet ModelRefineTri SpecRefine RefineGeom RefineTetBase
  RefineTetTree RefineTetCheck.
Import ListNotations.
Local Open Scope R_scope.

Lemma wt4_wz l i : wt4 l i = IZR (wz l i) / 2.
Proof.
  unfold wt4, wz. destruct (l <? 4)%nat; [destruct (l =? i)%nat; lra|].
  destruct (tet_edge (l - 4)) as [a b]. destruct (a =? i)%nat; [lra|]. destruct (b =? i)%nat; lra.
Qed.

Definition relab_chk : bool :=
  forallb (fun s => forallb (fun l => forallb (fun i => (wz (relab s l) (nth i s 0%nat) =? wz l i)%Z) (seq 0 4)) (seq 0 10)) perms4.
Lemma relab_chk_ok : relab_chk = true.
Proof. vm_compute. reflexivity. Qed.

Lemma relab_wt s l i : In s perms4 -> (l < 10)%nat -> (i < 4)%nat -> wt4 (relab s l) (nth i s 0%nat) = wt4 l i.
Proof.
  intros Hs Hl Hi. pose proof relab_chk_ok as H. unfold relab_chk in H. rewrite forallb_forall in H. specialize (H s Hs).
  rewrite forallb_forall in H. specialize (H l ltac:(apply in_seq; lia)). rewrite forallb_forall in H.
  specialize (H i ltac:(apply in_seq; lia)). apply Z.eqb_eq in H. rewrite !wt4_wz, H. reflexivity.
Qed.

Lemma perms4_onto s k : In s perms4 -> (k < 4)%nat -> exists i, (i < 4)%nat /\ nth i s 0%nat = k.
Proof.
  intros Hs Hk.
  assert (C : forallb (fun s => forallb (fun k => existsb (fun i => nth i s 0 =? k)%nat (seq 0 4)) (seq 0 4)) perms4 = true)
    by (vm_compute; reflexivity).
  rewrite forallb_forall in C. specialize (C s Hs). rewrite forallb_forall in C. specialize (C k ltac:(apply in_seq; lia)).
  apply existsb_exists in C as (i & Hi & E). apply in_seq in Hi. apply Nat.eqb_eq in E. exists i. split; [lia|auto].
Qed.

Definition rel_ws (s : list nat) (ws : list (R * nat)) : list (R * nat) := map (fun w => (fst w, relab s (snd w))) ws.

Lemma rel_ws_lcomb s ws i : In s perms4 -> (forall w, In w ws -> (snd w < 10)%nat) -> (i < 4)%nat ->
  lcomb wt4 (rel_ws s ws) (nth i s 0%nat) = lcomb wt4 ws i.
Proof.
  intros Hs Hw Hi. unfold lcomb, rel_ws. rewrite map_map. apply Rsum_map_ext. intros w HI. cbn [fst snd].
  rewrite relab_wt; auto.
Qed.

Lemma relab_lcover s B : In s perms4 -> (forall c l, In c B -> In l c -> (l < 10)%nat) ->
  lcover 4 wt4 B -> lcover 4 wt4 (map (map (relab s)) B).
Proof.
  intros Hs HL HC b Hb. destruct (HC (fun i => b (nth i s 0%nat))) as (cell & ws & HI & HS & HP & HE).
  { intros i Hi. apply Hb.
    assert (C : forallb (fun s => forallb (fun i => nth i s 0 <? 4)%nat (seq 0 4)) perms4 = true) by (vm_compute; reflexivity).
    rewrite forallb_forall in C. specialize (C s Hs). rewrite forallb_forall in C. specialize (C i ltac:(apply in_seq; lia)).
    now apply Nat.ltb_lt. }
  exists (map (relab s) cell), (rel_ws s ws). split; [now apply in_map|]. split.
  { unfold rel_ws. rewrite map_map. cbn [snd]. rewrite <- HS, map_map. reflexivity. }
  split; [unfold rel_ws; now apply Forall_map|].
  intros k Hk. destruct (perms4_onto s k Hs Hk) as (i & Hi & <-). rewrite rel_ws_lcomb; [now apply HE|auto|idtac|auto].
  intros w Hw. apply (HL cell); auto. rewrite <- HS. now apply in_map.
Qed.

Lemma rel_ws_inv s ws c : map snd ws = map (relab s) c -> exists ws', map snd ws' = c /\ ws = rel_ws s ws'.
Proof.
  revert c. induction ws as [|[w p] ws IH]; intros [|l c] H; simpl in H; try discriminate.
  - exists []. auto.
  - inversion H; subst. destruct (IH c H2) as (ws' & H3 & ->). exists ((w, l) :: ws'). simpl. now rewrite H3.
Qed.

Lemma relab_ldisjoint2 s c1 c2 : In s perms4 -> (forall l, In l c1 -> (l < 10)%nat) -> (forall l, In l c2 -> (l < 10)%nat) ->
  ldisjoint2 4 wt4 c1 c2 -> ldisjoint2 4 wt4 (map (relab s) c1) (map (relab s) c2).
Proof.
  intros Hs L1 L2 H ws1 ws2 E1 E2 F1 F2 HE.
  destruct (rel_ws_inv s ws1 c1 E1) as (w1 & S1 & ->). destruct (rel_ws_inv s ws2 c2 E2) as (w2 & S2 & ->).
  unfold rel_ws in F1, F2. rewrite Forall_map in F1, F2. cbn [fst] in F1, F2.
  apply (H w1 w2); auto. intros i Hi.
  assert (K : (nth i s 0 < 4)%nat).
  { assert (C : forallb (fun s => forallb (fun i => nth i s 0 <? 4)%nat (seq 0 4)) perms4 = true) by (vm_compute; reflexivity).
    rewrite forallb_forall in C. specialize (C s Hs). rewrite forallb_forall in C. specialize (C i ltac:(apply in_seq; lia)).
    now apply Nat.ltb_lt. }
  specialize (HE _ K). rewrite !rel_ws_lcomb in HE; auto.
  - intros w Hw. apply L2. rewrite <- S2. now apply in_map.
  - intros w Hw. apply L1. rewrite <- S1. now apply in_map.
Qed.

Lemma perm_lcover B P : (forall c, In c B -> exists c', In c' P /\ Permutation c c') -> lcover 4 wt4 B -> lcover 4 wt4 P.
Proof.
  intros H HC b Hb. destruct (HC b Hb) as (cell & ws & HI & HS & HP & HE).
  destruct (H cell HI) as (c' & Hc & Pc). rewrite <- HS in Pc. apply Permutation_sym in Pc.
  apply Permutation_map_inv in Pc as (w' & -> & Pw).
  exists (map snd w'), w'. split; auto. split; auto. split; [eapply Forall_perm; eauto|].
  intros i Hi. rewrite HE by auto. now apply lcomb_perm.
Qed.

Lemma perm_ldisjoint2 c1 c2 c1' c2' : Permutation c1 c1' -> Permutation c2 c2' ->
  ldisjoint2 4 wt4 c1 c2 -> ldisjoint2 4 wt4 c1' c2'.
Proof.
  intros P1 P2 H w1 w2 E1 E2 F1 F2 HE. rewrite <- E1 in P1. rewrite <- E2 in P2.
  apply Permutation_map_inv in P1 as (v1 & -> & Q1). apply Permutation_map_inv in P2 as (v2 & -> & Q2).
  apply (H v1 v2); auto; [eapply Forall_perm; eauto|eapply Forall_perm; eauto|].
  intros i Hi. rewrite <- (lcomb_perm _ _ _ i Q1), <- (lcomb_perm _ _ _ i Q2). auto.
Qed.

Definition class_cert (P : list (list nat)) (s : list nat) (b : nat) : bool :=
  existsb (list_eqb Nat.eqb s) perms4 &&
  match nth_error bases b with Some B => same_cells (map (map (relab s)) B) P | None => false end.
Lemma leaves_class : forallb (fun f => check_tree (fun _ P s b => class_cert P s b) [] (tree_of f)) (all_bits 6) = true.
Proof. vm_compute. reflexivity. Qed.

(** What is known about every result of the subdivision. *)
Definition good_pat (fl : nat -> bool) (path : list (nat * nat)) (P : list (list nat)) : Prop :=
  leaf_ok (map fl (seq 0 6)) path P = true /\ exists s b, class_cert P s b = true.

Lemma refine_tet_good lg dle fl cmp : good_cmp lg cmp ->
  exists P path, refine_tet lg dle fl = Some P /\ sound cmp path /\ good_pat fl path P.
Proof.
  intros G. rewrite refine_tet_tree. set (f := map fl (seq 0 6)).
  assert (Hf : In f (all_bits 6)) by apply (all_bits_complete (map fl (seq 0 6))).
  pose proof leaves_ok as L1. pose proof leaves_class as L2. rewrite forallb_forall in L1, L2.
  specialize (L1 f Hf). specialize (L2 f Hf).
  assert (S0 : sound cmp []) by (intros i j []).
  destruct (check_tree_sound _ lg dle cmp G _ _ S0 L1) as (P & path & s & b & E & S & H).
  destruct (check_tree_sound _ lg dle cmp G _ _ S0 L2) as (P' & path' & s' & b' & E' & _ & H').
  rewrite E in E'. injection E' as <-. exists P, path. split; auto. split; auto. split; eauto.
Qed.

Lemma good_parts fl path P : good_pat fl path P -> let f := map fl (seq 0 6) in
  labels_ok f P = true /\ labels_used f P = true /\ facets_ok P = true /\ trace_small P = true /\
  nodupb (map isort P) = true /\ dets_ok P = true /\ turned_chk f path P = true /\ face_check f path P = true.
Proof. intros [H _] f. unfold leaf_ok in H. rewrite !andb_true_iff in H. tauto. Qed.

Lemma bases_labels : forallb (forallb (forallb (fun l => l <? 10)%nat)) bases = true.
Proof. vm_compute. reflexivity. Qed.

Lemma nodupb_nth l : nodupb l = true -> forall i j (x : list nat), nth_error l i = Some x -> nth_error l j = Some x -> i = j.
Proof.
  induction l as [|y l IH]; intros H i j x Hi Hj; simpl in H; [destruct i; discriminate|].
  apply andb_true_iff in H as [H1 H2]. apply negb_true_iff in H1.
  assert (N : ~ In y l).
  { intros HI. assert (existsb (list_eqb Nat.eqb y) l = true); [|congruence]. apply existsb_exists. exists y. split; auto.
    clear. induction y; simpl; auto. now rewrite Nat.eqb_refl. }
  destruct i, j; simpl in Hi, Hj; auto.
  - injection Hi as ->. apply nth_error_In in Hj. contradiction.
  - injection Hj as ->. apply nth_error_In in Hi. contradiction.
  - f_equal. eauto.
Qed.

Lemma existsb_list_eq (c : list nat) B : existsb (list_eqb Nat.eqb c) B = true -> In c B.
Proof.
  intros H. apply existsb_exists in H as (x & Hx & E). apply list_eqb_eq in E; [now subst|]. intros a b. apply Nat.eqb_eq.
Qed.

Lemma known_geometry fl path P : good_pat fl path P ->
  lcover 4 wt4 P /\ (forall i j c1 c2, nth_error P i = Some c1 -> nth_error P j = Some c2 -> i = j \/ ldisjoint2 4 wt4 c1 c2).
Proof.
  intros HP. pose proof (good_parts fl path P HP) as (_ & _ & _ & _ & HN & _). destruct HP as (_ & s & bi & HC).
  unfold class_cert in HC. apply andb_true_iff in HC as [Hs HC]. apply existsb_list_eq in Hs.
  destruct (nth_error bases bi) as [B|] eqn:EB; [|discriminate]. assert (HB : In B bases) by (eapply nth_error_In; eauto).
  unfold same_cells in HC. apply andb_true_iff in HC as [HC1 HC2].
  rewrite forallb_forall in HC1, HC2.
  destruct (bases_ok B HB) as [BC BD].
  assert (BL : forall c l, In c B -> In l c -> (l < 10)%nat).
  { intros c l Hc Hl. pose proof bases_labels as X. rewrite forallb_forall in X. specialize (X B HB). rewrite forallb_forall in X.
    specialize (X c Hc). rewrite forallb_forall in X. apply Nat.ltb_lt. auto. }
  split.
  - apply (perm_lcover (map (map (relab s)) B)); [|now apply relab_lcover].
    intros c Hc. specialize (HC1 (isort c) (in_map _ _ _ Hc)). apply existsb_list_eq in HC1.
    apply in_map_iff in HC1 as (c' & E & Hc'). exists c'. split; auto. apply isort_eq_iff. auto.
  - intros i j c1 c2 Hi Hj.
    assert (G : forall c, In c P -> exists b, In b B /\ Permutation (map (relab s) b) c).
    { intros c Hc. specialize (HC2 (isort c) (in_map _ _ _ Hc)). apply existsb_list_eq in HC2.
      apply in_map_iff in HC2 as (c' & E & Hc'). apply in_map_iff in Hc' as (b & <- & Hb). exists b. split; auto.
      now apply isort_eq_iff. }
    destruct (G c1) as (b1 & B1 & P1); [eapply nth_error_In; eauto|].
    destruct (G c2) as (b2 & B2 & P2); [eapply nth_error_In; eauto|].
    destruct (BD b1 b2 B1 B2) as [->|D].
    + left. assert (isort c1 = isort c2).
      { apply isort_eq_iff. eapply Permutation_trans; [apply Permutation_sym; eauto|auto]. }
      apply (nodupb_nth _ HN i j (isort c1)); rewrite nth_error_map; [now rewrite Hi|rewrite Hj; simpl; now rewrite H].
    + right. apply (perm_ldisjoint2 _ _ _ _ P1 P2). apply relab_ldisjoint2; eauto.
Qed.

(** ** Orientation *)
Lemma wt4_sum l : (l < 10)%nat -> wt4 l 0 = 1 - wt4 l 1 - wt4 l 2 - wt4 l 3.
Proof.
  intros H. do 10 (destruct l as [|l]; [cbv [wt4 tet_edge Nat.ltb Nat.leb Nat.eqb Nat.sub]; cbn iota; lra|]). lia.
Qed.

Lemma signed_volume_weights (p : nat -> point) (lp : nat -> point) l0 l1 l2 l3 :
  (l0 < 10)%nat -> (l1 < 10)%nat -> (l2 < 10)%nat -> (l3 < 10)%nat ->
  (forall l i, In l [l0; l1; l2; l3] -> (i < 3)%nat -> lp l i = Rsum (map (fun k => wt4 l k * p k i) (seq 0 4))) ->
  signed_volume (lp l0) (lp l1) (lp l2) (lp l3) =
  IZR (cell_det [l0; l1; l2; l3]) / 8 * signed_volume (p 0%nat) (p 1%nat) (p 2%nat) (p 3%nat).
Proof.
  intros H0 H1 H2 H3 H. unfold signed_volume.
  rewrite !H by (simpl; auto; lia). cbn [map seq Rsum fold_right].
  rewrite (wt4_sum l0), (wt4_sum l1), (wt4_sum l2), (wt4_sum l3) by auto.
  unfold cell_det, det3. rewrite ?plus_IZR, ?minus_IZR, ?mult_IZR, ?minus_IZR, ?mult_IZR, ?minus_IZR.
  rewrite !wt4_wz. field.
Qed.
