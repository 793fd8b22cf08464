(** Proofs of C20, C21 and C46. *)
From Coq Require Import List Arith ZArith Bool Lia Permutation.
From Verif Require Import ModelTopo ModelMesh ModelErase ModelAccessor ModelQuery ModelView ModelSegmentation ModelSegment
  SpecMesh SpecErase SpecQuery SpecView SpecSegmentation SpecSegment
  MeshBase MeshInv MeshIds MeshReach MeshProofs MeshWf MeshErase MeshSimple QueryBase QueryBnd QueryProofs ViewBase
  SegmentationBase SegmentView SegmentBase SegmentInv SegmentStep SegmentDemo.
Import ModelSegmentation ListNotations.
Open Scope nat_scope.

Lemma member_recorded Pt cfg (s : sstate Pt) a z t h : sinv cfg s -> In (z, a) (g_ids (st_segs s)) -> in_segment s a t h ->
  exists i, id_at (st_mesh s) t h = Some i /\ recorded (st_map s) t i z.
Proof.
  intros I Hz H. destruct (si_con cfg s I a z Hz) as (K & _ & Mem).
  destruct (good_all_live _ _ (co_good _ _ _ K) t h H) as (e & D).
  assert (Hi : id_at (st_mesh s) t h = Some (e_id e)) by (apply id_at_deref; eauto).
  exists (e_id e). split; auto. now apply (Mem t h _ Hi).
Qed.

Lemma is_in_segment_eq Pt cfg (s : sstate Pt) a z t h i info : sinv cfg s -> In (z, a) (g_ids (st_segs s)) ->
  id_at (st_mesh s) t h = Some i -> nth_error (st_map s t) i = Some info ->
  is_in_segment s a t h = Some (existsb (Z.eqb z) info).
Proof.
  intros I Hz Hi E. apply id_at_deref in Hi as (e & D & <-). unfold is_in_segment. rewrite D. cbn [obind].
  destruct (gi_seg _ (si_g cfg s I) _ _ Hz) as (nm & ->). cbn [obind s_id]. now rewrite E.
Qed.

Lemma existsb_Z z info : existsb (Z.eqb z) info = true <-> In z info.
Proof.
  rewrite existsb_exists. split; [intros (x & Hx & E); apply Z.eqb_eq in E; now subst|]. intros H. exists z. split; auto. apply Z.eqb_refl.
Qed.

Lemma C20_always_defined_pf : forall Pt cfg (s : sstate Pt) o, cfg_cell cfg <> Hex -> sreach cfg s -> valid_sop cfg s o ->
  exists s', sstep cfg s o = Some s' /\ sreach cfg s'.
Proof.
  intros Pt cfg s o NH R V. destruct (sstep_inv cfg NH s o (sreach_inv cfg NH s R) V) as (s' & E & _).
  exists s'. split; auto. eapply sr_step; eauto.
Qed.

Lemma C20_membership_pf : forall Pt cfg (s : sstate Pt) a t h, cfg_cell cfg <> Hex -> sreach cfg s -> is_segment s a ->
  (forall r, is_in_segment s a t h = Some r -> (r = true <-> in_segment s a t h)) /\
  (forall b, is_segment s b -> in_segment s b t h -> is_in_segment s a t h <> None).
Proof.
  intros Pt cfg s a t h NH R Ha. pose proof (sreach_inv cfg NH s R) as I.
  destruct (seg_of cfg s a I Ha) as (z & nm & Hz & F). split.
  - intros r E. assert (E' := E). unfold is_in_segment in E'. destruct (deref (st_mesh s) t h) as [e|] eqn:D; [|discriminate]. cbn [obind] in E'.
    rewrite F in E'. cbn [obind] in E'. destruct (nth_error (st_map s t) (e_id e)) as [info|] eqn:N; [|discriminate].
    assert (Hi : id_at (st_mesh s) t h = Some (e_id e)) by (apply id_at_deref; eauto).
    rewrite (is_in_segment_eq Pt cfg s a z t h _ info I Hz Hi N) in E. inversion E. rewrite existsb_Z.
    destruct (si_con cfg s I a z Hz) as (_ & _ & Mem). unfold in_segment. rewrite (Mem t h _ Hi). unfold recorded. rewrite N.
    split; [eauto|]. intros (x & Ex & Hx). congruence.
  - intros b Hb H E. destruct (seg_of cfg s b I Hb) as (y & nm' & Hy & _).
    destruct (member_recorded Pt cfg s b y t h I Hy H) as (i & Hi & info & N & _).
    rewrite (is_in_segment_eq Pt cfg s a z t h i info I Hz Hi N) in E. discriminate.
Qed.

Lemma C20_closure_pf : forall Pt cfg (s : sstate Pt) a, cfg_cell cfg <> Hex -> sreach cfg s -> is_segment s a ->
  boundary_closed (st_mesh s) (k_view (st_con s a)) /\ good_view (st_mesh s) (k_view (st_con s a)) /\
  forall t, NoDup (k_view (st_con s a) t).
Proof.
  intros Pt cfg s a NH R Ha. pose proof (sreach_inv cfg NH s R) as I.
  destruct (seg_of cfg s a I Ha) as (z & nm & Hz & F). destruct (si_con cfg s I a z Hz) as ([G C Q] & _).
  split; auto. split; auto. intros t. eapply increasing_nodup, G.
Qed.

Lemma C20_segment_ids_pf : forall Pt cfg (s : sstate Pt) t h, cfg_cell cfg <> Hex -> sreach cfg s ->
  (forall l, segment_ids s t h = Some l -> NoDup l /\ forall z, In z l <-> exists a, segment_has_id s a z /\ in_segment s a t h) /\
  (forall a, is_segment s a -> in_segment s a t h -> segment_ids s t h <> None).
Proof.
  intros Pt cfg s t h NH R. pose proof (sreach_inv cfg NH s R) as I. split.
  - intros l E. unfold segment_ids in E. destruct (deref (st_mesh s) t h) as [e|] eqn:D; [|discriminate]. cbn [obind] in E.
    assert (Hi : id_at (st_mesh s) t h = Some (e_id e)) by (apply id_at_deref; eauto).
    split; [eapply (md_infos cfg s (si_mid cfg s I)); eauto|]. intros z.
    assert (RZ : In z l <-> recorded (st_map s) t (e_id e) z).
    { unfold recorded. rewrite E. split; [eauto|]. intros (x & Ex & Hx). congruence. }
    rewrite RZ. split.
    + intros Rz. destruct (si_owned cfg s I t _ z Rz) as ((a & Ha) & _). exists a.
      destruct (si_con cfg s I a z Ha) as (_ & _ & Mem). split.
      * split; [apply in_range; eauto|]. apply id_in_ids; auto. apply I.
      * now apply (Mem t h _ Hi).
    + intros (a & (Ha & Hz) & H). apply (id_in_ids _ _ _ (si_g cfg s I)) in Hz.
      destruct (si_con cfg s I a z Hz) as (_ & _ & Mem). now apply (Mem t h _ Hi).
  - intros a Ha H E. destruct (seg_of cfg s a I Ha) as (z & nm & Hz & _).
    destruct (member_recorded Pt cfg s a z t h I Hz H) as (i & Hi & info & N & _).
    apply id_at_deref in Hi as (e & D & <-). unfold segment_ids in E. rewrite D in E. cbn [obind] in E. congruence.
Qed.

Lemma C20_all_elements_pf : forall Pt cfg (s : sstate Pt) t h, cfg_cell cfg <> Hex -> sreach cfg s ->
  (In h (st_all s t) <-> exists a, is_segment s a /\ in_segment s a t h) /\ NoDup (st_all s t).
Proof.
  intros Pt cfg s t h NH R. pose proof (sreach_inv cfg NH s R) as I. pose proof (si_mid cfg s I) as M. split.
  - split.
    + intros H. destruct (good_all_live _ _ (md_good cfg s M) t h H) as (e & D).
      assert (Hi : id_at (st_mesh s) t h = Some (e_id e)) by (apply id_at_deref; eauto).
      destruct (proj1 (md_all cfg s M t h _ Hi) H) as (z & Rz). destruct (si_owned cfg s I t _ z Rz) as ((a & Ha) & _). exists a.
      destruct (si_con cfg s I a z Ha) as (_ & _ & Mem). split; [apply in_range; eauto|]. now apply (Mem t h _ Hi).
    + intros (a & Ha & H). destruct (seg_of cfg s a I Ha) as (z & nm & Hz & _).
      destruct (member_recorded Pt cfg s a z t h I Hz H) as (i & Hi & Rz). apply (md_all cfg s M t h i Hi). eauto.
  - eapply increasing_nodup, (md_good cfg s M).
Qed.

Lemma C20_add_pf : forall Pt cfg (s : sstate Pt) a t h, cfg_cell cfg <> Hex -> sreach cfg s -> is_segment s a -> is_live (st_mesh s) t h ->
  exists s', seg_add a t h s = Some s' /\ st_mesh s' = st_mesh s /\ st_segs s' = st_segs s /\ other_segments_same s s' a /\
    forall bt b, in_segment s' a bt b <-> in_segment s a bt b \/ part_of (st_mesh s) bt b t h.
Proof.
  intros Pt cfg s a t h NH R Ha L. destruct (seg_add_full cfg NH s a t h (sreach_inv cfg NH s R) Ha L) as (s' & E & _ & H1 & H2 & H3 & H4).
  exists s'. auto 10.
Qed.

Lemma C20_create_pf : forall Pt cfg (s : sstate Pt) a t vs, cfg_cell cfg <> Hex -> sreach cfg s -> is_segment s a ->
  valid_op cfg (st_mesh s) (OElement t vs) ->
  exists s' m' h, make_element cfg t (st_mesh s) vs = Some (m', h) /\ seg_create cfg a (OElement t vs) s = Some s' /\
    st_mesh s' = m' /\ st_segs s' = st_segs s /\ other_segments_same s s' a /\
    forall bt b, in_segment s' a bt b <-> in_segment s a bt b \/ part_of m' bt b t h.
Proof.
  intros Pt cfg s a t vs NH R Ha V. 
  destruct (seg_create_full cfg NH s a (OElement t vs) (sreach_inv cfg NH s R) Ha Logic.I V) as (s' & m' & t' & h & M & _ & _ & E & _ & H1 & H2 & H3 & H4).
  cbn [made] in M. destruct (make_element cfg t (st_mesh s) vs) as [[m1 h1]|]; [|discriminate]. cbn in M. inversion M; subst m1 t' h1.
  exists s', m', h. auto 10.
Qed.

Lemma C20_never_added_refuted_pf : exists cfg (s : sstate unit) a t h, cfg_cell cfg <> Hex /\ sreach cfg s /\ is_segment s a /\ is_live (st_mesh s) t h /\
  is_in_segment s a t h = None /\ segment_ids s t h = None.
Proof.
  exists (full_config Triangle), (sstate_of (full_config Triangle) [SMesh (OVertex tt); SManage SgMake]), 0, Vertex, 0.
  split; [discriminate|]. split; [apply sdemo_ok; vm_compute; reflexivity|]. split; [now left|]. split; [apply MeshDemo.liveb_sound; vm_compute; reflexivity|].
  split; vm_compute; reflexivity.
Qed.

Lemma C20_clear_refuted_pf : forall Pt cfg (s : sstate Pt) a t h, cfg_cell cfg <> Hex -> sreach cfg s -> is_segment s a -> in_segment s a t h ->
  let s' := seg_clear a s in
  ~ in_segment s' a t h /\ is_in_segment s' a t h = Some true /\ segment_ids s' t h = segment_ids s t h.
Proof.
  intros Pt cfg s a t h NH R Ha H s'. split; [|split; auto].
  - unfold in_segment, s'. cbn. unfold upd_con. rewrite Nat.eqb_refl. easy.
  - change (is_in_segment s' a t h) with (is_in_segment s a t h).
    destruct (C20_membership_pf Pt cfg s a t h NH R Ha) as [A B]. specialize (B a Ha H).
    destruct (is_in_segment s a t h) as [r|]; [|congruence]. f_equal. now apply (A r).
Qed.

Lemma C20_hexahedron_refuted_pf : exists (s : sstate unit), sreach (full_config Hex) s /\
  (exists h, in_segment s 0 Line h /\ is_in_segment s 0 Line h = None) /\
  (exists q b, in_segment s 1 Quad q /\ bounded_by (st_mesh s) Quad q Line b /\ ~ in_segment s 1 Line b).
Proof.
  set (ops := map (fun o => SMesh o) (repeat (OVertex tt) 8) ++ [SManage SgMake; SCreate 0 (OElement Hex [0;1;2;3;4;5;6;7]); SManage SgMake; SAdd 1 Hex 0]).
  assert (R : sreach (full_config Hex) (sstate_of (full_config Hex) ops)) by (apply sdemo_ok; vm_compute; reflexivity).
  assert (V0 : In 12 (k_view (st_con (sstate_of (full_config Hex) ops) 0) Line)) by (vm_compute; tauto).
  assert (V1 : is_in_segment (sstate_of (full_config Hex) ops) 0 Line 12 = None) by (vm_compute; reflexivity).
  assert (V2 : existsb (Nat.eqb 12) (k_view (st_con (sstate_of (full_config Hex) ops) 1) Line) = false) by (vm_compute; reflexivity).
  assert (V3 : exists q, existsb (Nat.eqb q) (k_view (st_con (sstate_of (full_config Hex) ops) 1) Quad) = true /\
     option_map (fun e => existsb (Nat.eqb 12) (boundary_of e Line)) (deref (st_mesh (sstate_of (full_config Hex) ops)) Quad q) = Some true)
    by (exists 2; split; vm_compute; reflexivity).
  revert R V0 V1 V2 V3. generalize (sstate_of (full_config Hex) ops). clear. intros s R V0 V1 V2 (q & V3 & V4).
  exists s. split; auto. split; [exists 12; auto|]. exists q, 12. split; [now apply existsb_nat|]. split.
  - destruct (deref (st_mesh s) Quad q) as [e|] eqn:D; [|discriminate]. exists e. split; auto. inversion V4 as [V5]. now apply existsb_nat.
  - intros H. assert (existsb (Nat.eqb 12) (k_view (st_con s 1) Line) = true); [|congruence].
    apply existsb_exists. exists 12. split; auto.
Qed.

Lemma C21_erase_partial_pf : forall Pt cfg (s : sstate Pt) a t h, cfg_cell cfg <> Hex -> sreach cfg s -> is_segment s a -> in_segment s a t h ->
  exists s', seg_erase a t h s = Some s' /\ st_mesh s' = st_mesh s /\ st_segs s' = st_segs s /\ other_segments_same s s' a /\
    (forall t' x, in_segment s' a t' x <-> in_segment s a t' x /\ ~ bounded_by (st_mesh s) t' x t h) /\
    boundary_closed (st_mesh s') (k_view (st_con s' a)).
Proof.
  intros Pt cfg s a t h NH R Ha L. assert (I := sreach_inv cfg NH s R).
  destruct (seg_erase_full cfg NH s a t h I Ha L) as (s' & E & I' & H1 & H2 & H3 & H4).
  exists s'. split; auto. split; auto. split; auto. split; auto. split; auto.
  assert (R' : sreach cfg s') by (apply (sr_step cfg s (SErase a t h)); auto; split; auto).
  apply (C20_closure_pf Pt cfg s' a NH R'). unfold is_segment. now rewrite H2.
Qed.

Lemma C21_element_stays_refuted_pf : forall Pt cfg (s : sstate Pt) a t h, cfg_cell cfg <> Hex -> sreach cfg s -> is_segment s a -> in_segment s a t h ->
  exists s', seg_erase a t h s = Some s' /\ in_segment s' a t h /\ is_in_segment s' a t h = Some true.
Proof.
  intros Pt cfg s a t h NH R Ha L. assert (I := sreach_inv cfg NH s R).
  destruct (seg_erase_full cfg NH s a t h I Ha L) as (s' & E & I' & H1 & H2 & H3 & H4).
  exists s'. split; auto.
  assert (H : in_segment s' a t h).
  { apply H4. split; auto. intros B. apply (bounded_dim cfg) in B; [lia|]. apply (md_wf cfg s), I. }
  split; auto.
  assert (R' : sreach cfg s') by (apply (sr_step cfg s (SErase a t h)); auto; split; auto).
  assert (Ha' : is_segment s' a) by (unfold is_segment; now rewrite H2).
  destruct (C20_membership_pf Pt cfg s' a t h NH R' Ha') as [A B]. specialize (B a Ha' H).
  destruct (is_in_segment s' a t h) as [r|]; [|congruence]. f_equal. now apply (A r).
Qed.

Lemma C46_coboundary_pf : forall Pt cfg (s : sstate Pt) a const bt ct b, cfg_cell cfg <> Hex -> sreach cfg s -> is_segment s a -> in_segment s a bt b ->
  exists k l, seg_cob const bt ct (st_mesh s) (st_con s a) b = Some (k, l) /\ k_view k = k_view (st_con s a) /\
    lists_exactly l (fun x => in_segment s a ct x /\ bounded_by (st_mesh s) ct x bt b).
Proof.
  intros Pt cfg s a const bt ct b NH R Ha L. assert (I := sreach_inv cfg NH s R).
  destruct (seg_of cfg s a I Ha) as (z & nm & Hz & F). destruct (si_con cfg s I a z Hz) as (K & _).
  destruct (seg_cob_spec cfg (st_mesh s) (st_con s a) const bt ct b (md_wf _ _ (si_mid _ _ I)) (reach_simple cfg _ (si_reach _ _ I)) K L)
      as (q & l & E & K' & X). exists (with_caches (st_con s a) q), l. auto.
Qed.

Lemma C46_neighbors_pf : forall Pt cfg (s : sstate Pt) a const t c x, cfg_cell cfg <> Hex -> sreach cfg s -> is_segment s a -> in_segment s a t x ->
  exists k l, seg_nb const t c (st_mesh s) (st_con s a) x = Some (k, l) /\ k_view k = k_view (st_con s a) /\
    lists_exactly l (fun y => in_segment s a t y /\ share (st_mesh s) t c x y).
Proof.
  intros Pt cfg s a const t c x NH R Ha L. assert (I := sreach_inv cfg NH s R).
  destruct (seg_of cfg s a I Ha) as (z & nm & Hz & F). destruct (si_con cfg s I a z Hz) as (K & _).
  destruct (seg_nb_spec cfg (st_mesh s) (st_con s a) const t c x (md_wf _ _ (si_mid _ _ I)) (reach_simple cfg _ (si_reach _ _ I)) K L)
      as (q & l & E & K' & X). exists (with_caches (st_con s a) q), l. auto.
Qed.

Lemma one_of_iff Pt cfg (s : sstate Pt) a f : good_view (st_mesh s) (k_view (st_con s a)) ->
  (on_one_cell cfg (vmesh (st_mesh s) (k_view (st_con s a)) (k_cc (st_con s a))) f <-> on_one_cell_of cfg s a f).
Proof.
  intros G. unfold on_one_cell, on_one_cell_of, in_segment. split; intros (c & H); exists c; intros x; rewrite <- H; [symmetry|]; now apply vmesh_bounded.
Qed.

Lemma C46_boundary_pf : forall Pt cfg (s : sstate Pt) a t x, cfg_cell cfg <> Hex -> sreach cfg s -> is_segment s a -> in_segment s a t x ->
  t = facet_tag (cfg_cell cfg) \/ In t (bnd_types cfg) -> (forall f n, cell_count_of cfg s a f n -> n <= 2) ->
  exists k r, seg_bnd cfg t (st_mesh s) (st_con s a) x = Some (k, r) /\ k_view k = k_view (st_con s a) /\
    (r = true <-> on_boundary_of cfg s a t x).
Proof.
  intros Pt cfg s a t x NH R Ha L T H2. assert (I := sreach_inv cfg NH s R).
  destruct (seg_of cfg s a I Ha) as (z & nm & Hz & F). destruct (si_con cfg s I a z Hz) as (K & _).
  pose proof (md_wf _ _ (si_mid _ _ I)) as W.
  destruct (seg_bnd_spec cfg (st_mesh s) (st_con s a) t x W (reach_simple cfg _ (si_reach _ _ I)) K L T) as (q & E & K').
  destruct K as [G C Q]. set (V := vmesh (st_mesh s) (k_view (st_con s a)) (k_cc (st_con s a))) in *.
  assert (WV : wf cfg V) by (apply vmesh_wf; auto).
  exists (with_caches (st_con s a) q), (flag cfg V t x). split; auto. split; auto.
  assert (CF : forall f, coflag cfg V f = true <-> on_one_cell_of cfg s a f).
  { intros f. rewrite <- (one_of_iff Pt cfg s a f G). fold V. rewrite (one_cobs cfg V f WV).
    assert (LE : length (cobs V (facet_tag (cfg_cell cfg)) (cfg_cell cfg) f) <= 2).
    { apply (H2 f). exists (cobs V (facet_tag (cfg_cell cfg)) (cfg_cell cfg) f). split; auto.
      eapply lists_exactly_iff; [|apply (cobs_exact cfg); auto]. intros y. now apply vmesh_bounded. }
    unfold coflag. set (n := length _) in *. destruct n as [|[|[|n]]]; cbn; try lia; split; try discriminate; auto. }
  unfold on_boundary_of. destruct (tag_eqb t (facet_tag (cfg_cell cfg))) eqn:Z.
  - unfold flag. rewrite Z. apply CF.
  - assert (N : t <> facet_tag (cfg_cell cfg)) by (apply tag_eqb_neq; auto). split.
    + intros H. apply (flag_true cfg V t x WV H) in N as (f & Cf & B). apply vmesh_bounded in B as [B1 B2]; auto.
      exists f. split; auto. split; auto. now apply CF.
    + intros (f & Hf & O & B). apply (flag_true' cfg V t x f WV N); [now apply CF|]. apply vmesh_bounded; auto.
Qed.

Lemma C46_clear_refuted_pf : exists cfg (s s' : sstate unit), sreach cfg s /\
  srun cfg [SAdd 0 Triangle 0; SCob 0 true Line Triangle 0; SAdd 0 Triangle 1] (seg_clear 0 s) = Some s' /\
  in_segment s' 0 Triangle 1 /\ bounded_by (st_mesh s') Triangle 1 Line 0 /\
  option_map snd (seg_cob true Line Triangle (st_mesh s') (st_con s' 0) 0) = Some [0].
Proof.
  set (cfg := full_config Triangle).
  set (ops := map (fun o => SMesh o) [OVertex tt; OVertex tt; OVertex tt; OVertex tt] ++
    [SManage SgMake; SCreate 0 (OElement Triangle [0;1;2]); SCreate 0 (OElement Triangle [0;1;3])]).
  set (s := sstate_of cfg ops).
  assert (R : sreach cfg s) by (apply sdemo_ok; vm_compute; reflexivity).
  assert (V : match srun cfg [SAdd 0 Triangle 0; SCob 0 true Line Triangle 0; SAdd 0 Triangle 1] (seg_clear 0 s) with
    | Some s' => existsb (Nat.eqb 1) (k_view (st_con s' 0) Triangle) = true /\
        option_map (fun e => existsb (Nat.eqb 0) (boundary_of e Line)) (deref (st_mesh s') Triangle 1) = Some true /\
        option_map snd (seg_cob true Line Triangle (st_mesh s') (st_con s' 0) 0) = Some [0]
    | None => False end) by (vm_compute; repeat split).
  clearbody s. exists cfg, s.
  destruct (srun cfg _ (seg_clear 0 s)) as [s'|]; [|easy]. destruct V as (V1 & V2 & V3). exists s'. split; auto. split; auto.
  split; [now apply existsb_nat|]. split; auto.
  destruct (deref (st_mesh s') Triangle 1) as [e|] eqn:D; [|discriminate]. exists e. split; auto. inversion V2 as [V5]. now apply existsb_nat.
Qed.
