(** What each call does to a mesh with a segmentation, and that the invariant is kept. *)
From Coq Require Import List Arith ZArith Bool Lia Permutation Sorted.
From Verif Require Import ModelTopo ModelMesh ModelErase ModelAccessor ModelQuery ModelView ModelSegmentation ModelSegment
  SpecMesh SpecErase SpecQuery SpecView SpecSegmentation SpecSegment
  MeshBase MeshInv MeshIds MeshReach MeshProofs MeshWf MeshErase MeshSimple AccessorProofs QueryBase QueryBnd QueryMono ViewBase ViewTrans
  SegmentationBase SegmentationProofs SegmentView SegmentBase SegmentInv.
Import ModelSegmentation ListNotations.
Open Scope nat_scope.

Section SegmentStep.
Context {Pt : Type}.
Notation mesh := (@mesh Pt).
Notation element := (@element Pt).
Notation node := (@node Pt).
Variable cfg : config.
Hypothesis NH : cfg_cell cfg <> Hex.

Lemma handle_inserts_spec (m : mesh) L : wf cfg m -> (forall t h, In (t, h) L -> is_live m t h) -> forall k, good_view m (k_view k) ->
  exists k', handle_inserts m k L = Some k' /\ good_view m (k_view k') /\ k_cc k' = k_cc k + length L /\
    (forall t x, In x (k_view k' t) <-> In x (k_view k t) \/ In (t, x) L) /\
    k_linked k' = k_linked k /\ k_cob k' = k_cob k /\ k_nb k' = k_nb k /\ k_bnd k' = k_bnd k.
Proof.
  intros W. induction L as [|[t h] L IH]; intros HL k G; unfold handle_inserts; cbn [ofold].
  - exists k. cbn [length]. rewrite Nat.add_0_r. split; auto. split; auto. split; auto. split; [|auto]. simpl. tauto.
  - cbn [fst snd]. destruct (view_insert_spec cfg m t (k_view k) h W (HL t h (or_introl eq_refl)) G) as (v & -> & Gv & Xv).
    cbn [option_map obind]. destruct (IH (fun t h H => HL t h (or_intror H)) (bump (with_view k v) 1)) as (k' & E & G' & C' & X' & R); auto.
    exists k'. split; [exact E|]. split; auto. split; [rewrite C'; cbn; lia|]. split; [|exact R].
    intros t' x. rewrite X'. cbn [bump with_view k_view]. rewrite Xv. simpl. intuition congruence.
Qed.

Lemma seg_of (s : sstate Pt) a : sinv cfg s -> is_segment s a ->
  exists z nm, In (z, a) (g_ids (st_segs s)) /\ find_seg a (g_segs (st_segs s)) = Some (mkSeg z nm).
Proof. intros I H. apply in_range_id; auto. apply I. Qed.

(** Replacing the caches of one segment. *)
Lemma sinv_caches (s : sstate Pt) a (q : qstate Pt) : sinv cfg s -> is_segment s a ->
  content_ok cfg (st_mesh s) (with_caches (st_con s a) q) -> sinv cfg (set_con s a (with_caches (st_con s a) q)).
Proof.
  intros I Ha K. destruct (seg_of s a I Ha) as (z & nm & Hz & _).
  apply (sinv_added cfg s _ a z []); auto; cbn [set_con st_mesh st_segs st_con st_map]; unfold upd_con; rewrite ?Nat.eqb_refl; auto.
  - destruct (si_mid cfg s I) as [A B C D]. constructor; auto.
  - intros b Nb. destruct (Nat.eqb_spec a b); [congruence|auto].
  - intros t i y. split; auto. intros [H|(_ & x & [] & _)]; auto.
  - apply (si_con cfg s I a z Hz).
  - intros t x. simpl. tauto.
Qed.

(** The counter of a segment tells whether its members changed. *)
Definition counted (k k' : @content) : Prop :=
  k_cc k <= k_cc k' /\ (k_cc k' = k_cc k -> forall t x, In x (k_view k' t) <-> In x (k_view k t)).
Lemma counted_refl k : counted k k.
Proof. split; auto. tauto. Qed.

(** ** Adding *)
Lemma seg_add_more (s : sstate Pt) a t h : sinv cfg s -> is_segment s a -> is_live (st_mesh s) t h ->
  exists s', seg_add a t h s = Some s' /\ sinv cfg s' /\ st_mesh s' = st_mesh s /\ st_segs s' = st_segs s /\
    (forall b, b <> a -> st_con s' b = st_con s b) /\
    (forall bt b, In b (k_view (st_con s' a) bt) <-> In b (k_view (st_con s a) bt) \/ part_of (st_mesh s) bt b t h) /\
    counted (st_con s a) (st_con s' a).
Proof.
  intros I Ha HL. destruct (seg_of s a I Ha) as (z & nm & Hz & F).
  destruct (si_con cfg s I a z Hz) as (K & LK & Mem). pose proof (si_mid cfg s I) as M.
  destruct (seg_add_spec cfg a z nm t h s M F (co_good _ _ _ K) HL) as (s' & L & E & M' & A & XL).
  assert (A' := A). destruct A' as [A1 A2 A3 A4 A5 A6 A7 A8 A9 A10 A11 A12].
  assert (V : forall bt b, In b (k_view (st_con s' a) bt) <-> In b (k_view (st_con s a) bt) \/ part_of (st_mesh s) bt b t h).
  { intros bt b. now rewrite A5, XL. }
  assert (CT : counted (st_con s a) (st_con s' a)).
  { split; auto. intros EC t' x. rewrite A5. split; auto. intros [H|H]; auto.
    assert (is_live (st_mesh s) t' x) as (e & D).
    { apply XL in H as [[-> ->]|H]; auto. eapply bounded_right_live; eauto. apply M. }
    assert (Hi : id_at (st_mesh s) t' x = Some (e_id e)) by (apply id_at_deref; eauto).
    apply (Mem t' x _ Hi). eapply A7; eauto. }
  exists s'. split; auto. split; [|auto 10].
  apply (sinv_added cfg s s' a z L); auto; [|congruence].
  apply (content_change cfg (st_mesh s) (st_con s a)); auto; try apply CT.
  - apply M.
  - apply (part_closed (st_mesh s) (k_view (st_con s a)) _ t h); auto; [|apply K]. apply (reach_transitive cfg); auto. apply I.
Qed.

Lemma seg_add_full (s : sstate Pt) a t h : sinv cfg s -> is_segment s a -> is_live (st_mesh s) t h ->
  exists s', seg_add a t h s = Some s' /\ sinv cfg s' /\ st_mesh s' = st_mesh s /\ st_segs s' = st_segs s /\
    (forall b, b <> a -> st_con s' b = st_con s b) /\
    (forall bt b, In b (k_view (st_con s' a) bt) <-> In b (k_view (st_con s a) bt) \/ part_of (st_mesh s) bt b t h).
Proof.
  intros I Ha HL. destruct (seg_add_more s a t h I Ha HL) as (s' & H1 & H2 & H3 & H4 & H5 & H6 & _). exists s'. auto 10.
Qed.

(** ** Creating inside a segment *)
Lemma seg_create_more (s : sstate Pt) a o : sinv cfg s -> is_segment s a -> creation o -> valid_op cfg (st_mesh s) o ->
  exists s' m' t h, made cfg (st_mesh s) o = Some (m', (t, h)) /\ step cfg (st_mesh s) o = Some m' /\ is_live m' t h /\
    seg_create cfg a o s = Some s' /\ sinv cfg s' /\ st_mesh s' = m' /\ st_segs s' = st_segs s /\
    (forall b, b <> a -> st_con s' b = st_con s b) /\
    (forall bt b, In b (k_view (st_con s' a) bt) <-> In b (k_view (st_con s a) bt) \/ part_of m' bt b t h) /\
    frame (st_mesh s) m' /\ counted (st_con s a) (st_con s' a).
Proof.
  intros I Ha CO VO. destruct (seg_of s a I Ha) as (z & nm & Hz & F).
  destruct (creation_spec cfg (st_mesh s) o NH (si_reach cfg s I) CO VO) as (m' & t & h & Lg & E1 & E2 & R' & FR & HL & EL & NL & PL).
  exists (* s' *) (match seg_create cfg a o s with Some s' => s' | None => s end), m', t, h.
  split; auto. split; auto. split; auto.
  set (s0 := mkS m' (st_segs s) (st_con s) (st_map s) (st_all s)).
  assert (I0 : sinv cfg s0) by (apply sinv_grow; auto).
  pose proof (si_mid cfg s0 I0) as M0. pose proof (md_wf cfg s0 M0) as W0. change (st_mesh s0) with m' in W0.
  destruct (si_con cfg s0 I0 a z Hz) as (K & LK & Mem). change (st_con s0 a) with (st_con s a) in *.
  assert (PLive : forall bt b, part_of m' bt b t h -> is_live m' bt b).
  { intros bt b [[-> ->]|B]; auto. eapply bounded_right_live; eauto. }
  destruct (handle_inserts_spec m' Lg W0) with (k := st_con s a) as (k & EK & GK & CK & XK & LK' & C1 & C2 & C3).
  { intros t' h' H. auto. }
  { apply K. }
  set (s1 := mkS m' (st_segs s) (upd_con (st_con s) a k) (st_map s) (st_all s)).
  assert (M1 : mid cfg s1) by (destruct M0 as [Q1 Q2 Q3 Q4]; constructor; auto).
  assert (K1 : st_con s1 a = k) by (cbn; unfold upd_con; now rewrite Nat.eqb_refl).
  destruct (seg_add_spec cfg a z nm t h s1 M1 F) as (s' & L & E & M' & A & XL); [now rewrite K1|auto|].
  assert (SC : seg_create cfg a o s = Some s').
  { unfold seg_create. rewrite LK. fold (made cfg (st_mesh s) o). rewrite E1. cbn [obind].
    replace (skipn (length (m_log (st_mesh s))) (m_log m')) with Lg.
    - rewrite EK. cbn [obind]. exact E.
    - rewrite EL, skipn_app, skipn_all, Nat.sub_diag. reflexivity. }
  rewrite SC. split; auto.
  destruct A as [A1 A2 A3 A4 A5 A6 A7 A8 A9 A10 A11 A12]. rewrite K1 in *. change (st_mesh s1) with m' in *.
  change (st_segs s1) with (st_segs s) in A2.
  assert (V : forall bt b, In b (k_view (st_con s' a) bt) <-> In b (k_view (st_con s a) bt) \/ part_of m' bt b t h).
  { intros bt b. rewrite A5, XK, XL. split; [intros [[H|H]|H]; auto|intros [H|H]; auto]. }
  assert (O : forall b, b <> a -> st_con s' b = st_con s b).
  { intros b Nb. rewrite A3; auto. cbn. unfold upd_con. destruct (Nat.eqb_spec a b); [congruence|auto]. }
  assert (CT : counted (st_con s a) (st_con s' a)).
  { split; [lia|]. intros EC. exfalso. destruct Lg; [congruence|]. cbn [length] in CK. lia. }
  split; [|auto 10].
  apply (sinv_added cfg s0 s' a z L); auto.
  - apply (content_change cfg m' (st_con s a)); auto; try congruence; try apply CT.
    apply (part_closed m' (k_view (st_con s a)) _ t h); auto; [|apply K]. apply (reach_transitive cfg); auto.
  - rewrite A8, LK'. auto.
  - intros t' x. change (st_con s0 a) with (st_con s a). rewrite V, XL. tauto.
Qed.

Lemma seg_create_full (s : sstate Pt) a o : sinv cfg s -> is_segment s a -> creation o -> valid_op cfg (st_mesh s) o ->
  exists s' m' t h, made cfg (st_mesh s) o = Some (m', (t, h)) /\ step cfg (st_mesh s) o = Some m' /\ is_live m' t h /\
    seg_create cfg a o s = Some s' /\ sinv cfg s' /\ st_mesh s' = m' /\ st_segs s' = st_segs s /\
    (forall b, b <> a -> st_con s' b = st_con s b) /\
    (forall bt b, In b (k_view (st_con s' a) bt) <-> In b (k_view (st_con s a) bt) \/ part_of m' bt b t h).
Proof.
  intros I Ha CO VO. destruct (seg_create_more s a o I Ha CO VO) as (s' & m' & t & h & H1 & H2 & H3 & H4 & H5 & H6 & H7 & H8 & H9 & _).
  exists s', m', t, h. auto 15.
Qed.

(** ** Erasing *)
Lemma seg_mark_spec (m : mesh) t h cts : wf cfg m -> simple m -> forall k v, content_ok cfg m k -> In h (k_view k t) -> good_view m v ->
  exists k' v', ofold (seg_mark_type m t h) cts (k, v) = Some (k', v') /\ content_ok cfg m k' /\ good_view m v' /\
    k_view k' = k_view k /\ k_cc k' = k_cc k /\ k_linked k' = k_linked k /\
    forall t' x, In x (v' t') <-> (In t' cts /\ In x (k_view k t') /\ bounded_by m t' x t h) \/ In x (v t').
Proof.
  intros W S. induction cts as [|ct cts IH]; intros k v K Hh G; cbn [ofold].
  - exists k, v. split; auto. split; auto. split; auto. split; auto. split; auto. split; auto. intros t' x. simpl. tauto.
  - unfold seg_mark_type at 1. destruct (seg_cob_spec cfg m k false t ct h W S K Hh) as (q & l & -> & K1 & ND & X). cbn [obind].
    destruct (fold_insert_spec cfg m ct l W) with (v := v) as (v1 & -> & G1 & X1); auto.
    { intros a Ha. apply X in Ha as (_ & B). eapply bounded_live; eauto. }
    cbn [option_map obind]. destruct (IH (with_caches k q) v1 K1 Hh G1) as (k2 & v2 & -> & K2 & G2 & E1 & E2 & E3 & X2).
    exists k2, v2. split; auto. split; auto. split; auto. split; [exact E1|]. split; [exact E2|]. split; [exact E3|].
    intros t' x. rewrite X2, X1, X. cbn [with_caches k_view]. simpl. split.
    + intros [(A & B & C)|[(-> & A & B)|A]]; auto.
    + intros [([->|A] & B & C)|A]; auto.
Qed.

Lemma seg_erase_more (s : sstate Pt) a t h : sinv cfg s -> is_segment s a -> in_segment s a t h ->
  exists s', seg_erase a t h s = Some s' /\ sinv cfg s' /\ st_mesh s' = st_mesh s /\ st_segs s' = st_segs s /\
    (forall b, b <> a -> st_con s' b = st_con s b) /\
    (forall t' x, In x (k_view (st_con s' a) t') <-> In x (k_view (st_con s a) t') /\ ~ bounded_by (st_mesh s) t' x t h) /\
    counted (st_con s a) (st_con s' a).
Proof.
  intros I Ha Hh. destruct (seg_of s a I Ha) as (z & nm & Hz & F).
  destruct (si_con cfg s I a z Hz) as (K & LK & Mem). pose proof (si_mid cfg s I) as M. pose proof (md_wf cfg s M) as W.
  destruct (seg_mark_spec (st_mesh s) t h (referencing_types t) W (reach_simple cfg _ (si_reach cfg s I)) (st_con s a) empty_view K Hh (empty_view_good _))
    as (k & v & EM & K1 & Gv & E1 & E2 & E3 & X).
  unfold seg_erase. rewrite EM. cbn [obind].
  set (L := flat_map (fun ct => map (pair ct) (v ct)) all_tags).
  assert (XL : forall t' x, In (t', x) L <-> In x (k_view (st_con s a) t') /\ bounded_by (st_mesh s) t' x t h).
  { intros t' x. unfold L. rewrite in_flat_map. split.
    - intros (ct & _ & H). apply in_map_iff in H as (y & E & H). inversion E; subst. apply X in H as [(_ & H)|[]]. auto.
    - intros (H & B). exists t'. split; [destruct t'; simpl; auto 10|]. apply in_map_iff. exists x. split; auto. apply X. left.
      split; auto. eapply referencing_all; eauto. }
  set (s1 := set_con s a k).
  assert (K1' : st_con s1 a = k) by (cbn; unfold upd_con; now rewrite Nat.eqb_refl).
  assert (M1 : mid cfg s1) by (destruct M as [Q1 Q2 Q3 Q4]; constructor; auto).
  destruct (erases_spec cfg a z nm L s1 M1 F) as (s' & E & M' & A).
  { rewrite K1'. apply K1. }
  { intros t' x H. apply XL in H as [_ H]. eapply bounded_live; eauto. }
  assert (A' := A). destruct A' as [A1 A2 A3 A4 A5 A6 A7 A8 A9 A10 A11 A12]. rewrite K1' in *. rewrite E1, ?E2 in *.
  change (st_mesh s1) with (st_mesh s) in *. change (st_map s1) with (st_map s) in *. change (st_segs s1) with (st_segs s) in *.
  assert (V : forall t' x, In x (k_view (st_con s' a) t') <-> In x (k_view (st_con s a) t') /\ ~ bounded_by (st_mesh s) t' x t h).
  { intros t' x. rewrite A5, XL. tauto. }
  assert (O : forall b, b <> a -> st_con s' b = st_con s b).
  { intros b Nb. rewrite A3; auto. cbn. unfold upd_con. destruct (Nat.eqb_spec a b); [congruence|auto]. }
  assert (CT : counted (st_con s a) (st_con s' a)).
  { split; [congruence|]. intros EC t' x. rewrite A5. split; [tauto|]. intros Hx. split; auto. intros HL.
    assert (HL' := HL). apply XL in HL' as (_ & B). destruct (bounded_live _ _ _ _ _ B) as (e & D).
    assert (Hi : id_at (st_mesh s) t' x = Some (e_id e)) by (apply id_at_deref; eauto).
    apply (A7 EC t' x _ HL Hi). now apply (Mem t' x _ Hi). }
  exists s'. split; auto. split; [|auto 10].
  apply (sinv_erased cfg s s' a z L); auto; [|congruence].
  apply (content_change cfg (st_mesh s) k); auto; try congruence; rewrite ?E1, ?E2; auto; try apply CT.
  intros t1 x bt b Hx B. apply V in Hx as [Hx N]. apply V. split; [eapply (co_closed _ _ _ K); eauto|].
  intros B'. apply N. assert (T : boundary_transitive (st_mesh s)) by (apply (reach_transitive cfg); auto; apply I). eapply T; eauto.
Qed.

Lemma seg_erase_full (s : sstate Pt) a t h : sinv cfg s -> is_segment s a -> in_segment s a t h ->
  exists s', seg_erase a t h s = Some s' /\ sinv cfg s' /\ st_mesh s' = st_mesh s /\ st_segs s' = st_segs s /\
    (forall b, b <> a -> st_con s' b = st_con s b) /\
    (forall t' x, In x (k_view (st_con s' a) t') <-> In x (k_view (st_con s a) t') /\ ~ bounded_by (st_mesh s) t' x t h).
Proof.
  intros I Ha Hh. destruct (seg_erase_more s a t h I Ha Hh) as (s' & H1 & H2 & H3 & H4 & H5 & H6 & _). exists s'. auto 10.
Qed.

(** ** Managing segments *)
Lemma sinv_manage (s : sstate Pt) g' : sinv cfg s -> ginv g' -> named g' -> grown (st_segs s) g' ->
  sinv cfg (mkS (st_mesh s) g' (st_con s) (st_map s) (st_all s)).
Proof.
  intros [R G N M C F O] G' N' (X1 & X2 & X3). constructor; cbn [st_mesh st_segs st_con st_map]; auto.
  - destruct M as [Q1 Q2 Q3 Q4]; constructor; auto.
  - intros a z Ha. apply X3 in Ha as [Ha|[Ha Nz]]; [apply (C a z Ha)|]. rewrite (F a Ha). split; [apply fresh_ok, reach_wf; auto|].
    split; auto. intros t x i Hi. cbn [st_mesh st_con st_map]. rewrite (F a Ha). cbn. split; [easy|]. intros Rz.
    destruct (O t i z Rz) as ((b & Hb) & _). now apply Nz in Hb.
  - intros a Ha. apply F. lia.
  - intros t i z Rz. destruct (O t i z Rz) as ((b & Hb) & H). split; eauto.
Qed.

Lemma sstep_inv (s : sstate Pt) o : sinv cfg s -> valid_sop cfg s o -> exists s', sstep cfg s o = Some s' /\ sinv cfg s'.
Proof.
  intros I V. destruct o as [o|o|a o|a t h|a t h|a c bt ct b|a c t k x|a t x]; cbn [sstep valid_sop] in *.
  - destruct V as [CO VO]. destruct (creation_spec cfg (st_mesh s) o NH (si_reach cfg s I) CO VO) as (m' & t & h & Lg & E1 & E2 & R' & FR & _).
    rewrite E2. cbn. eexists. split; [reflexivity|]. apply sinv_grow; auto.
  - destruct V as (V & C1 & C2). destruct (manage_spec o (st_segs s) (si_g cfg s I) (si_named cfg s I) V C1 C2) as (g' & E & G' & N' & W).
    exists (mkS (st_mesh s) g' (st_con s) (st_map s) (st_all s)). split; [|now apply sinv_manage].
    destruct (sgstep o (st_segs s)); simpl in E; inversion E; subst; auto.
  - destruct V as (Ha & CO & VO). destruct (seg_create_full s a o I Ha CO VO) as (s' & m' & t & h & _ & _ & _ & E & I' & _). eauto.
  - destruct V as (Ha & L). destruct (seg_add_full s a t h I Ha L) as (s' & E & I' & _). eauto.
  - destruct V as (Ha & L). destruct (seg_erase_full s a t h I Ha L) as (s' & E & I' & _). eauto.
  - destruct V as (Ha & L). destruct (seg_of s a I Ha) as (z & nm & Hz & F). destruct (si_con cfg s I a z Hz) as (K & _).
    destruct (seg_cob_spec cfg (st_mesh s) (st_con s a) c bt ct b (md_wf _ _ (si_mid _ _ I)) (reach_simple cfg _ (si_reach _ _ I)) K L)
      as (q & l & -> & K' & _). cbn. eexists. split; [reflexivity|]. now apply sinv_caches.
  - destruct V as (Ha & L). destruct (seg_of s a I Ha) as (z & nm & Hz & F). destruct (si_con cfg s I a z Hz) as (K & _).
    destruct (seg_nb_spec cfg (st_mesh s) (st_con s a) c t k x (md_wf _ _ (si_mid _ _ I)) (reach_simple cfg _ (si_reach _ _ I)) K L)
      as (q & l & -> & K' & _). cbn. eexists. split; [reflexivity|]. now apply sinv_caches.
  - destruct V as (Ha & L & T). destruct (seg_of s a I Ha) as (z & nm & Hz & F). destruct (si_con cfg s I a z Hz) as (K & _).
    destruct (seg_bnd_spec cfg (st_mesh s) (st_con s a) t x (md_wf _ _ (si_mid _ _ I)) (reach_simple cfg _ (si_reach _ _ I)) K L T)
      as (q & -> & K'). cbn. eexists. split; [reflexivity|]. now apply sinv_caches.
Qed.

(** What one call does to the meshes, segments and counters. *)
Record later (s s' : sstate Pt) : Prop := mkLater {
  la_mesh : frame (st_mesh s) (st_mesh s');
  la_segs : grown (st_segs s) (st_segs s');
  la_count : forall a, counted (st_con s a) (st_con s' a)
}.

Lemma sstep_later (s s' : sstate Pt) o : sinv cfg s -> valid_sop cfg s o -> sstep cfg s o = Some s' -> later s s'.
Proof.
  assert (Q : forall (s s' : sstate Pt) a, st_mesh s' = st_mesh s -> st_segs s' = st_segs s -> (forall b, b <> a -> st_con s' b = st_con s b) ->
     counted (st_con s a) (st_con s' a) -> later s s').
  { intros s1 s2 a E1 E2 E3 C. constructor; rewrite ?E1, ?E2; [intros t x e; auto|apply grown_refl|].
    intros b. destruct (Nat.eq_dec b a) as [->|N]; auto. rewrite E3; auto. apply counted_refl. }
  assert (QC : forall (s : sstate Pt) a k, counted (st_con s a) k -> later s (set_con s a k)).
  { intros s1 a k C. apply (Q s1 _ a); auto; cbn; unfold upd_con; rewrite ?Nat.eqb_refl; auto. intros b N. destruct (Nat.eqb_spec a b); [congruence|auto]. }
  intros I V E. destruct o as [o|o|a o|a t h|a t h|a c bt ct b|a c t k x|a t x]; cbn [sstep valid_sop] in *.
  - destruct V as [CO VO]. destruct (creation_spec cfg (st_mesh s) o NH (si_reach cfg s I) CO VO) as (m' & t & h & Lg & E1 & E2 & R' & FR & _).
    rewrite E2 in E. cbn in E. inversion E; subst. constructor; cbn; auto; [apply grown_refl|intros a; apply counted_refl].
  - destruct V as (V & C1 & C2). destruct (manage_spec o (st_segs s) (si_g cfg s I) (si_named cfg s I) V C1 C2) as (g' & E' & G' & N' & W).
    assert (X : s' = mkS (st_mesh s) g' (st_con s) (st_map s) (st_all s)) by (destruct (sgstep o (st_segs s)); simpl in E'; inversion E'; inversion E; subst; auto).
    subst s'. constructor; cbn; auto; [intros t a e; auto|intros a; apply counted_refl].
  - destruct V as (Ha & CO & VO). destruct (seg_create_more s a o I Ha CO VO) as (s1 & m' & t & h & _ & _ & _ & E' & I' & M & S & O & _ & F & C).
    assert (s1 = s') by congruence. subst s1. constructor; rewrite ?M, ?S; auto; [apply grown_refl|].
    intros b. destruct (Nat.eq_dec b a) as [->|N]; auto. rewrite O; auto. apply counted_refl.
  - destruct V as (Ha & L). destruct (seg_add_more s a t h I Ha L) as (s1 & E' & I' & M & S & O & _ & C).
    assert (s1 = s') by congruence. subst s1. now apply (Q s s' a).
  - destruct V as (Ha & L). destruct (seg_erase_more s a t h I Ha L) as (s1 & E' & I' & M & S & O & _ & C).
    assert (s1 = s') by congruence. subst s1. now apply (Q s s' a).
  - unfold seg_cob in E. destruct (seg_q _ _) as [q|]; [|discriminate]. cbn in E. destruct (query_cob_in _ _ _ _ _ _); [|discriminate].
    cbn in E. inversion E; subst. apply QC. split; [apply le_n|intros _ t1 x1; apply iff_refl].
  - unfold seg_nb in E. destruct (seg_q _ _) as [q|]; [|discriminate]. cbn in E. destruct (query_nb_in _ _ _ _ _ _); [|discriminate].
    cbn in E. inversion E; subst. apply QC. split; [apply le_n|intros _ t1 x1; apply iff_refl].
  - unfold seg_bnd in E. destruct (seg_q _ _) as [q|]; [|discriminate]. cbn in E. destruct (query_bnd_in _ _ _ _ _); [|discriminate].
    cbn in E. inversion E; subst. apply QC. split; [apply le_n|intros _ t1 x1; apply iff_refl].
Qed.

Lemma sreach_inv (s : sstate Pt) : sreach cfg s -> sinv cfg s.
Proof.
  induction 1 as [m R|s o s' R IH V E]; [now apply sinv_new|].
  destruct (sstep_inv s o IH V) as (s1 & E1 & I1). congruence.
Qed.

End SegmentStep.
