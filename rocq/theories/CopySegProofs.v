(** Proofs of C24. *)
From Coq Require Import List Arith ZArith Bool Lia.
From Verif Require Import ModelTopo ModelMesh ModelErase ModelQuery ModelView ModelSegmentation ModelSegment ModelCopy ModelCopySeg
  SpecMesh SpecErase SpecQuery SpecView SpecSegmentation SpecSegment SpecCopy SpecCopySeg
  MeshBase MeshInv MeshReach MeshWf MeshErase MeshSimple SegmentationBase ViewBase SegmentView SegmentBase SegmentInv SegmentStep SegmentProofs
  CopyBase CopySegBase SegmentDemo MeshDemo.
Import ModelSegmentation ListNotations.
Open Scope nat_scope.

Lemma Forall2_right {A B} (Q Q' : A -> B -> Prop) l r : (forall x y, In y r -> Q x y -> Q' x y) -> Forall2 Q l r -> Forall2 Q' l r.
Proof. intros H F. induction F; constructor; [apply H; simpl; auto|]. apply IHF. intros. apply H; simpl; auto. Qed.

Section Loop.
Context {Pt : Type}.
Variables cfgs cfg : config.
Hypothesis NHs : cfg_cell cfgs <> Hex.
Hypothesis EC : cfg_cell cfgs = cfg_cell cfg.
Hypothesis TV : cfg_cell cfg <> Vertex.
Variable src : sstate Pt.
Hypothesis RS : sreach cfgs src.
Variable P : addr -> bool.
Notation t := (cfg_cell cfg).
Notation m := (st_mesh src).

Lemma NHd : cfg_cell cfg <> Hex. Proof. now rewrite <- EC. Qed.
Lemma ERS : ereach cfgs m. Proof. apply reach_ereach, (si_reach cfgs), sreach_inv; auto. Qed.
Lemma WS : exists c, wf c m. Proof. exists cfgs. apply ereach_wf, ERS. Qed.
Lemma PS : pointed m. Proof. apply (ereach_pointed cfgs), ERS. Qed.
Lemma SS : simple m. Proof. apply (ereach_simple cfgs), ERS. Qed.

Lemma cinv_swap (Q Q' : @mesh Pt -> Prop) d vm cs : cinv cfg m Q t d vm cs -> Q' d -> cinv cfg m Q' t d vm cs.
Proof. intros [[A B C D] E F] H. constructor; auto. constructor; auto. Qed.

Lemma reach_vstep (d d' : @mesh Pt) o : reach cfg d -> valid_op cfg d o -> o <> OClear -> step cfg d o = Some d' -> reach cfg d'.
Proof. intros. econstructor; eauto. Qed.

Lemma sreach_vstep (s : sstate Pt) (d d' : @mesh Pt) o : sreach cfg (with_mesh s d) -> valid_op cfg d o -> o <> OClear ->
  step cfg d o = Some d' -> sreach cfg (with_mesh s d').
Proof.
  intros R V N E. eapply (sr_step cfg _ (SMesh o)); [exact R|..]; cbn [valid_sop sstep with_mesh st_mesh].
  - split; auto. destruct o; cbn in *; auto; contradiction.
  - rewrite E. reflexivity.
Qed.

(** The state of the loop after the cells [cs]. *)
Record linv (s : sstate Pt) (vm : vmap) (cs : list addr) : Prop := mkL {
  l_reach : sreach cfg s;
  l_names : numbered (st_segs s);
  l_copy : cinv cfg m (reach cfg) t (st_mesh s) vm cs;
  l_same : Forall2 (same_segments src s t) cs (range (st_mesh s) t);
  l_used : forall z, has_id (st_segs s) z -> exists c, In c cs /\ in_segment_id src z t c
}.

Lemma ids_exact c zs : segment_ids src t c = Some zs -> forall z, In z zs <-> in_segment_id src z t c.
Proof. intros E z. destruct (C20_segment_ids_pf Pt cfgs src t c NHs RS) as [H _]. now apply H. Qed.

Lemma range_alive c : In c (range m t) -> is_live m t c.
Proof. intros H. apply live_is_live. exact H. Qed.

Lemma loop_step s vm cs c zs : linv s vm cs -> P c = true -> In c (range m t) -> segment_ids src t c = Some zs ->
  exists s' vm', copy_cell_seg cfg src P (s, vm) c = Done (s', vm') /\ linv s' vm' (cs ++ [c]).
Proof.
  intros [R DN C SM US] HP Hc EZ. unfold copy_cell_seg. rewrite HP. cbn [fst snd].
  assert (Es : with_mesh s (st_mesh s) = s) by (destruct s; reflexivity).
  assert (C1 : cinv cfg m (fun d => sreach cfg (with_mesh s d)) t (st_mesh s) vm cs).
  { eapply cinv_swap; eauto. cbn. now rewrite Es. }
  destruct (copy_element_spec cfg m WS PS SS _ (fun d o d' => sreach_vstep s d d' o) t eq_refl TV _ vm cs c C1 (range_alive c Hc))
    as (d' & vm' & a & E & C2 & RG & _). rewrite E. cbn [of_option rbind fst snd]. rewrite EZ. cbn [of_option rbind].
  assert (R2 : sreach cfg (with_mesh s d')) by (destruct C2 as [[] _ _]; auto).
  destruct (new_cell_spec cfg NHd s d' t a zs R DN R2 RG) as (s' & E' & R' & D' & M' & OLD & NEW & HI).
  rewrite E'. cbn [rbind]. exists s', vm'. split; auto.
  assert (RD : reach cfg (st_mesh s')) by apply (si_reach cfg), (sreach_inv cfg NHd), R'.
  constructor; auto.
  - rewrite M'. eapply cinv_swap; eauto. now rewrite <- M'.
  - rewrite M', RG. apply Forall2_app; [|constructor; [|constructor]].
    + eapply Forall2_right; [|exact SM]. intros x y Hy H z. rewrite (OLD z y) by auto. apply H.
    + intros z. rewrite NEW. symmetry. now apply ids_exact.
  - intros z H. apply HI in H as [H|H].
    + apply US in H as (c' & ? & ?). exists c'. rewrite in_app_iff. auto.
    + exists c. rewrite in_app_iff. split; [right; now left|]. apply (ids_exact c zs); auto.
Qed.

Lemma loop_all l : forall s vm cs, linv s vm cs -> incl l (range m t) ->
  (forall c, In c l -> P c = true -> segment_ids src t c <> None) ->
  exists s' vm', rfold (copy_cell_seg cfg src P) l (s, vm) = Done (s', vm') /\ linv s' vm' (cs ++ filter P l).
Proof.
  induction l as [|c l IH]; intros s vm cs L HI HZ; cbn [rfold filter].
  - exists s, vm. rewrite app_nil_r. auto.
  - assert (HI' : incl l (range m t)) by (intros x Hx; apply HI; now right).
    assert (HZ' : forall c, In c l -> P c = true -> segment_ids src t c <> None) by (intros x Hx; apply HZ; now right).
    destruct (P c) eqn:EP.
    + destruct (segment_ids src t c) as [zs|] eqn:EZ; [|destruct (HZ c (or_introl eq_refl) EP EZ)].
      destruct (loop_step s vm cs c zs L EP (HI c (or_introl eq_refl)) EZ) as (s1 & vm1 & -> & L1). cbn [rbind].
      destruct (IH s1 vm1 (cs ++ [c]) L1 HI' HZ') as (s2 & vm2 & E2 & L2). exists s2, vm2. split; auto. rewrite <- app_assoc in L2. exact L2.
    + unfold copy_cell_seg at 1. rewrite EP. cbn [rbind]. apply IH; auto.
Qed.

Lemma linv_start dm : reach cfg dm -> linv (clear_segmentation (with_mesh (new_sstate dm) (clear_mesh dm))) [] [].
Proof.
  intros R. assert (RC : reach cfg (clear_mesh dm)) by (eapply (reach_step cfg dm OClear); eauto; exact I).
  constructor.
  - apply (sr_new cfg (clear_mesh dm) RC).
  - apply decnames_new.
  - apply cinv_clear. exact RC.
  - constructor.
  - intros z (a & [] & _).
Qed.

Lemma loop_undefined l : forall s vm cs, linv s vm cs -> incl l (range m t) ->
  (exists c, In c l /\ P c = true /\ segment_ids src t c = None) -> rfold (copy_cell_seg cfg src P) l (s, vm) = Undefined.
Proof.
  induction l as [|c l IH]; intros s vm cs L HI (x & Hx & HP & HZ); [destruct Hx|]. cbn [rfold].
  assert (HI' : incl l (range m t)) by (intros y Hy; apply HI; now right).
  destruct (P c) eqn:EP.
  - destruct (segment_ids src t c) as [zs|] eqn:EZ.
    + destruct (loop_step s vm cs c zs L EP (HI c (or_introl eq_refl)) EZ) as (s1 & vm1 & -> & L1). cbn [rbind].
      apply (IH _ _ _ L1 HI'). exists x. split; auto. destruct Hx as [->|Hx]; auto. congruence.
    + destruct L as [R DN C _ _]. unfold copy_cell_seg at 1. rewrite EP. cbn [fst snd].
      destruct (copy_element_spec cfg m WS PS SS _ (fun d o d' => reach_vstep d d' o) t eq_refl TV _ vm cs c C (range_alive c (HI c (or_introl eq_refl))))
        as (d' & vm' & a & -> & _). cbn [of_option rbind fst snd]. rewrite EZ. reflexivity.
  - unfold copy_cell_seg at 1. rewrite EP. cbn [rbind]. apply (IH _ _ _ L HI'). exists x. split; auto.
    destruct Hx as [->|Hx]; auto. congruence.
Qed.

(** With the names of earlier segments left behind. *)
Lemma loop_thrown g l : forall s vm cs, st_segs s = clear_segs g ->
  cinv cfg m (reach cfg) t (st_mesh s) vm cs -> incl l (range m t) ->
  (forall c z, In c l -> P c = true -> in_segment_id src z t c -> find_name (decimal z) (g_names g) <> None) ->
  (forall c, In c l -> P c = true -> segment_ids src t c <> None) ->
  (exists c z, In c l /\ P c = true /\ in_segment_id src z t c) ->
  rfold (copy_cell_seg cfg src P) l (s, vm) = Thrown.
Proof.
  induction l as [|c l IH]; intros s vm cs EG C HI HN HZ (x & zx & Hx & HP & HS); [destruct Hx|]. cbn [rfold].
  assert (HI' : incl l (range m t)) by (intros y Hy; apply HI; now right).
  assert (HN' : forall c z, In c l -> P c = true -> in_segment_id src z t c -> find_name (decimal z) (g_names g) <> None)
    by (intros y z Hy; apply HN; now right).
  assert (HZ' : forall c, In c l -> P c = true -> segment_ids src t c <> None) by (intros y Hy; apply HZ; now right).
  unfold copy_cell_seg at 1. destruct (P c) eqn:EP; cbn [fst snd].
  - destruct (copy_element_spec cfg m WS PS SS _ (fun d o d' => reach_vstep d d' o) t eq_refl TV _ vm cs c C (range_alive c (HI c (or_introl eq_refl))))
        as (d' & vm' & a & -> & C' & _). cbn [of_option rbind fst snd].
    destruct (segment_ids src t c) as [zs|] eqn:EZ; [|destruct (HZ c (or_introl eq_refl) EP EZ)]. cbn [of_option rbind].
    destruct zs as [|z zs].
    + unfold add_all. cbn [rfold rbind]. eapply IH; eauto; cbn [with_mesh st_segs st_mesh]; auto. exists x, zx.
      destruct Hx as [->|Hx]; auto. apply (ids_exact x [] EZ) in HS. destruct HS.
    + unfold add_all. cbn [rfold]. unfold add_by_id at 1. cbn [with_mesh st_segs]. rewrite EG. unfold get_make_id. cbn [clear_segs g_ids g_names find_id].
      destruct (find_name (decimal z) (g_names g)) eqn:F; [reflexivity|].
      destruct (HN c z (or_introl eq_refl) EP); auto. apply (ids_exact c (z :: zs) EZ). now left.
  - cbn [rbind]. eapply IH; eauto. exists x, zx. destruct Hx as [->|Hx]; auto. congruence.
Qed.

End Loop.

Lemma C24_copy_partial_pf : forall Pt cfgs cfgd (src : sstate Pt) (dm : @mesh Pt) (accept : addr -> bool),
  cfg_cell cfgs = cfg_cell cfgd -> cfg_cell cfgs <> Hex -> cfg_cell cfgs <> Vertex ->
  let t := cfg_cell cfgs in let cs := filter accept (range (st_mesh src) t) in
  sreach cfgs src -> reach cfgd dm -> (forall c, In c cs -> segment_ids src t c <> None) ->
  exists dst phi, copy_seg cfgd src (new_sstate dm) accept = Done dst /\ sreach cfgd dst /\
    is_copy (st_mesh src) (st_mesh dst) t cs phi /\
    Forall2 (same_segments src dst t) cs (range (st_mesh dst) t) /\
    (forall z, has_id (st_segs dst) z <-> exists c, In c cs /\ in_segment_id src z t c).
Proof.
  intros Pt cfgs cfgd src dm P EC NH TV t cs RS RD HZ. subst t. rewrite EC in TV.
  assert (L0 := linv_start cfgd src dm RD). unfold copy_seg.
  destruct (loop_all cfgs cfgd NH EC TV src RS P (range (st_mesh src) (cfg_cell cfgd)) _ _ _ L0 (incl_refl _)) as (s' & vm' & E & L).
  { intros c Hc HP. rewrite <- EC. apply HZ. subst cs. rewrite EC. apply filter_In. auto. }
  cbn [app] in L. subst cs. rewrite EC in *.
  destruct (cinv_copy cfgd (st_mesh src) (reach cfgd) _ eq_refl TV _ _ _ (l_copy _ _ _ _ _ L)) as (phi & IC).
  exists s', phi. cbn [st_mesh new_sstate].
  split. { exact (f_equal (fun r => rbind r (fun x => Done (fst x))) E). }
  split; [apply L|]. split; [exact IC|]. split; [apply L|]. intros z. split; [apply L|].
  intros (c & Hc & HS). destruct (Forall2_in_l _ _ _ c (l_same _ _ _ _ _ L) Hc) as (c' & _ & S).
  destruct (proj1 (S z) HS) as (a & [SG ID] & _). exists a. auto.
Qed.

Lemma C24_unrecorded_refuted_pf : forall Pt cfgs cfgd (src : sstate Pt) (dm : @mesh Pt) (accept : addr -> bool) c,
  cfg_cell cfgs = cfg_cell cfgd -> cfg_cell cfgs <> Hex -> cfg_cell cfgs <> Vertex ->
  sreach cfgs src -> reach cfgd dm ->
  In c (range (st_mesh src) (cfg_cell cfgs)) -> accept c = true -> segment_ids src (cfg_cell cfgs) c = None ->
  copy_seg cfgd src (new_sstate dm) accept = Undefined.
Proof.
  intros Pt cfgs cfgd src dm P c EC NH TV RS RD Hc HP HZ. rewrite EC in *.
  assert (L0 := linv_start cfgd src dm RD). unfold copy_seg.
  assert (NH' : cfg_cell cfgs <> Hex) by now rewrite EC.
  refine (f_equal (fun r => rbind r (fun x => Done (fst x))) (loop_undefined cfgs cfgd NH' EC TV src RS P _ _ _ [] L0 (incl_refl _) _)). eauto.
Qed.

Lemma C24_twice_refuted_pf : forall Pt cfgs cfgd (src : sstate Pt) (dm : @mesh Pt) (accept : addr -> bool),
  cfg_cell cfgs = cfg_cell cfgd -> cfg_cell cfgs <> Hex -> cfg_cell cfgs <> Vertex ->
  let t := cfg_cell cfgs in let cs := filter accept (range (st_mesh src) t) in
  sreach cfgs src -> reach cfgd dm -> (forall c, In c cs -> segment_ids src t c <> None) ->
  (exists c z, In c cs /\ in_segment_id src z t c) ->
  exists dst, copy_seg cfgd src (new_sstate dm) accept = Done dst /\ copy_seg cfgd src dst accept = Thrown.
Proof.
  intros Pt cfgs cfgd src dm P EC NH TV t cs RS RD HZ HX. subst t. rewrite EC in TV.
  assert (L0 := linv_start cfgd src dm RD). subst cs. rewrite EC in *.
  assert (HZ' : forall c, In c (range (st_mesh src) (cfg_cell cfgd)) -> P c = true -> segment_ids src (cfg_cell cfgd) c <> None)
    by (intros c Hc HP; apply HZ, filter_In; auto).
  assert (NH' : cfg_cell cfgs <> Hex) by now rewrite EC.
  destruct (loop_all cfgs cfgd NH' EC TV src RS P (range (st_mesh src) (cfg_cell cfgd)) _ _ _ L0 (incl_refl _) HZ') as (s' & vm' & E & L).
  cbn [app] in L. exists s'. split. { exact (f_equal (fun r => rbind r (fun x => Done (fst x))) E). }
  unfold copy_seg.
  assert (RC : reach cfgd (clear_mesh (st_mesh s'))).
  { eapply (reach_step cfgd (st_mesh s') OClear); [|exact I|reflexivity]. apply (l_copy _ _ _ _ _ L). }
  refine (f_equal (fun r => rbind r (fun x => Done (fst x)))
    (loop_thrown cfgs cfgd NH' TV src RS P (st_segs s') (range (st_mesh src) (cfg_cell cfgd)) _ _ [] _ _ _ _ _ _)); auto.
  - apply cinv_clear. exact RC.
  - apply incl_refl.
  - intros c z Hc HP HS F0. pose proof (proj1 (l_names _ _ _ _ _ L z) F0) as F.
    assert (Hc' : In c (filter P (range (st_mesh src) (cfg_cell cfgd)))) by (apply filter_In; auto).
    destruct (Forall2_in_l _ _ _ c (l_same _ _ _ _ _ L) Hc') as (c' & _ & S). pose proof (proj1 (S z) HS) as HS'.
    apply (inid_iff cfgd) in HS'; [|exact NH|apply L]. destruct HS' as (a & Ha & _). eapply F; eauto.
  - destruct HX as (c & z & Hc & HS). apply filter_In in Hc as [Hc HP]. eauto.
Qed.

Lemma C24_clear_pf : forall Pt (s : sstate Pt),
  (forall a, ~ is_segment (clear_segmentation s) a) /\ (forall z, ~ has_id (st_segs (clear_segmentation s)) z) /\
  (forall t h, segment_ids (clear_segmentation s) t h = None) /\ st_mesh (clear_segmentation s) = st_mesh s.
Proof.
  intros Pt s. split; [intros a []|]. split; [intros z (a & [] & _)|]. split; [|reflexivity].
  intros t h. unfold segment_ids. cbn. destruct (deref (st_mesh s) t h) as [e|]; cbn; auto. now destruct (e_id e).
Qed.

Lemma C24_clear_all_elements_refuted_pf : forall Pt cfg (s : sstate Pt) a t h, cfg_cell cfg <> Hex -> sreach cfg s -> is_segment s a -> in_segment s a t h ->
  In h (st_all (clear_segmentation s) t).
Proof.
  intros Pt cfg s a t h NH R Ha H. change (In h (st_all s t)). apply (C20_all_elements_pf Pt cfg s t h NH R). eauto.
Qed.

Lemma C24_copy_segmentation_partial_pf : forall Pt cfgs cfgd (src : sstate Pt) (dm : @mesh Pt),
  cfg_cell cfgs <> Hex -> cfg_cell cfgd <> Hex -> sreach cfgs src -> reach cfgd dm -> same_structure (st_mesh src) dm ->
  (forall t x y, same_id (st_mesh src) dm t x y -> segment_ids src t x <> None) ->
  exists dst, copy_segmentation src (new_sstate dm) = Done dst /\ sreach cfgd dst /\ st_mesh dst = dm /\
    forall t x y, same_id (st_mesh src) dm t x y -> same_segments src dst t x y.
Proof.
  intros Pt cfgs cfgd src dm NHs NHd RS RD [ST1 ST2] HZ.
  pose proof (sreach_inv cfgs NHs src RS) as IS. pose proof (reach_wf cfgs _ (si_reach cfgs src IS)) as WS.
  assert (UN : forall t x x' y, same_id (st_mesh src) dm t x y -> same_id (st_mesh src) dm t x' y -> x = x').
  { intros t x x' y (i & A & B) (j & C & D). rewrite B in D. inversion D; subst. eapply (id_at_inj cfgs); eauto. }
  assert (SND : forall t x zs, segment_ids src t x = Some zs -> forall z, In z zs <-> in_segment_id src z t x).
  { intros t x zs E z. destruct (C20_segment_ids_pf Pt cfgs src t x NHs RS) as [H _]. now apply H. }
  set (J := fun (s : sstate Pt) (seen : list (tag * addr)) =>
    sreach cfgd s /\ numbered (st_segs s) /\ st_mesh s = dm /\
    (forall z t x y, same_id (st_mesh src) dm t x y -> in_segment_id s z t y -> in_segment_id src z t x) /\
    (forall z t x y, In (t, y) seen -> same_id (st_mesh src) dm t x y -> in_segment_id src z t x -> in_segment_id s z t y)).
  assert (G : forall l s seen, J s seen -> (forall t y, In (t, y) l -> is_live dm t y) ->
     exists s', rfold (copy_membership src) l s = Done s' /\ J s' (seen ++ l)).
  { induction l as [|[t y] l IH]; intros s seen HJ HL; cbn [rfold].
    - exists s. rewrite app_nil_r. auto.
    - destruct HJ as (R & DN & M & SO & CO). assert (Ly : is_live dm t y) by (apply HL; now left).
      destruct (ST1 t y Ly) as (x & SI). destruct SI as (i & Ix & Iy) eqn:ESI. clear ESI.
      assert (SI' : same_id (st_mesh src) dm t x y) by (exists i; auto).
      unfold copy_membership at 1. rewrite M. apply id_at_deref in Iy as (e & D & Ei). rewrite D. cbn [of_option rbind].
      assert (FE : find_element (st_mesh src) t (e_id e) = Some x).
      { unfold find_element. apply id_at_deref in Ix as (e0 & D0 & E0). apply deref_In in D0 as (n & Hn & <- & <-).
        destruct (find (fun n => e_id (n_el n) =? e_id e) (m_nodes (st_mesh src) t)) as [n'|] eqn:F.
        - apply find_some in F as [Hn' F]. apply Nat.eqb_eq in F. cbn. f_equal.
          apply (id_at_inj cfgs (st_mesh src) t (n_addr n') (n_addr n) (e_id e)); auto; apply id_at_deref.
          + exists (n_el n'). split; auto. apply (wf_In_deref cfgs); auto.
          + exists (n_el n). split; [apply (wf_In_deref cfgs); auto|congruence].
        - exfalso. apply (find_none _ _ F) in Hn. apply Nat.eqb_neq in Hn. congruence. }
      rewrite FE. cbn [of_option rbind]. destruct (segment_ids src t x) as [zs|] eqn:EZ; [|destruct (HZ t x y SI' EZ)].
      cbn [of_option rbind]. destruct (add_all_spec cfgd NHd t y zs s R DN) as (s1 & -> & R1 & D1 & M1 & IN1 & _); [now rewrite M|].
      cbn [rbind]. destruct (IH s1 (seen ++ [(t, y)])) as (s2 & E2 & J2).
      + unfold J. split; auto. split; auto. split; [congruence|]. split.
        * intros z t' x' y' SI2 H. apply IN1 in H as [H|[Hz PO]]; [eapply SO; eauto|]. rewrite M in PO.
          apply (SND t x zs EZ) in Hz. destruct PO as [[-> ->]|B].
          -- now rewrite (UN t x' x y SI2 SI').
          -- destruct (ST2 t y t' y' x B SI') as (a' & B' & SI3). rewrite (UN t' x' a' y' SI2 SI3).
             destruct Hz as (a & SGI & Ia). exists a. split; auto.
             destruct (C20_closure_pf Pt cfgs src a NHs RS (proj1 SGI)) as (CL & _). eapply CL; eauto.
        * intros z t' x' y' Hs SI2 H. apply IN1. apply in_app_iff in Hs as [Hs|[Hs|[]]]; [left; eapply CO; eauto|].
          inversion Hs; subst. right. split; [|left; auto]. apply (SND t' x zs EZ). now rewrite <- (UN t' x' x y' SI2 SI').
      + intros t' y' H. apply HL. now right.
      + exists s2. split; auto. rewrite <- app_assoc in J2. exact J2. }
  destruct (G (flat_map (fun t => map (pair t) (range dm t)) all_tags) (new_sstate dm) []) as (dst & E & R & _ & M & SO & CO).
  - unfold J. split; [now constructor|]. split; [apply decnames_new|]. split; auto. split.
    + intros z t x y _ (a & [[] _] & _).
    + intros z t x y [].
  - intros t y H. apply in_flat_map in H as (t' & _ & H). apply in_map_iff in H as (y' & E & H). inversion E; subst.
    apply live_is_live. exact H.
  - exists dst. split; [exact E|]. split; auto. split; auto. intros t x y SI z. split; [|eauto].
    intros H. eapply CO; eauto. destruct SI as (i & _ & Iy). cbn [app]. apply in_flat_map. exists t. split; [destruct t; simpl; auto 10|].
    apply in_map. apply id_at_deref in Iy as (e & D & _). assert (Ly : is_live dm t y) by (exists e; auto). apply live_is_live in Ly. exact Ly.
Qed.

Lemma srun_mesh_reach {Pt} cfg (s : sstate Pt) : cfg_cell cfg <> Hex -> sreach cfg s -> reach cfg (st_mesh s).
Proof. intros NH R. apply (si_reach cfg), (sreach_inv cfg NH), R. Qed.

Lemma same_structure_refl Pt cfg (m : @mesh Pt) : reach cfg m -> same_structure m m.
Proof.
  intros R. pose proof (reach_wf cfg m R) as W. split.
  - intros t y (e & D). exists y, (e_id e). split; apply id_at_deref; eauto.
  - intros t y bt b x B (i & A1 & A2). rewrite (id_at_inj cfg m t x y i W A1 A2). exists b. split; auto.
    destruct (bounded_right_live cfg m t y bt b W B) as (e & D). exists (e_id e). split; apply id_at_deref; eauto.
Qed.
