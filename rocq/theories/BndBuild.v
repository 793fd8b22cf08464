(** Lemmas for C75: the mesh that the reader of .bnd files builds. *)
From Coq Require Import List Arith ZArith Bool Lia Sorted.
From Verif Require Import ModelTopo ModelMesh ModelErase ModelQuery ModelView ModelSegmentation ModelSegment ModelCopy ModelCopySeg ModelBnd
  SpecMesh SpecErase SpecQuery SpecSegmentation SpecSegment SpecCopy SpecCopySeg SpecBnd MeshBase MeshInv MeshReach MeshWf MeshErase MeshSimple QueryBase SegmentationBase ViewBase ViewTrans SegmentView SegmentBase SegmentInv SegmentStep SegmentProofs
  CopyBase CopySegBase ExtractProofs.
Import ModelSegmentation ListNotations.
Open Scope nat_scope.

Lemma same_polygon_eq p : forall q, same_polygon p q = true <-> p = q.
Proof.
  induction p as [|x p IH]; intros [|y q]; cbn; try (split; [discriminate|congruence]); [tauto|].
  rewrite andb_true_iff, Z.eqb_eq, IH. split; [intros []|intros H; inversion H]; subst; auto.
Qed.
Lemma find_polygon_some p l a : find_polygon p l = Some a -> In (p, a) l.
Proof.
  unfold find_polygon. destruct (find _ l) as [[q x]|] eqn:E; [|discriminate]. cbn. intros H. inversion H; subst.
  apply find_some in E as [I E]. cbn in E. apply same_polygon_eq in E. now subst.
Qed.
Lemma find_polygon_none p l : find_polygon p l = None -> ~ In p (map fst l).
Proof.
  unfold find_polygon. destruct (find _ l) as [q|] eqn:E; [discriminate|]. intros _ H. apply in_map_iff in H as ([q x] & <- & H).
  apply (find_none _ _ E) in H. cbn in H. assert (X : same_polygon q q = true) by (now apply same_polygon_eq). congruence.
Qed.
Lemma find_vertex_some i l a : find_vertex i l = Some a -> In (i, a) l.
Proof.
  unfold find_vertex. destruct (find _ l) as [[q x]|] eqn:E; [|discriminate]. cbn. intros H. inversion H; subst.
  apply find_some in E as [I E]. cbn in E. apply Z.eqb_eq in E. now subst.
Qed.
Lemma find_vertex_none i l : find_vertex i l = None -> ~ In i (map fst l).
Proof.
  unfold find_vertex. destruct (find _ l) as [q|] eqn:E; [discriminate|]. intros _ H. apply in_map_iff in H as ([q x] & <- & H).
  apply (find_none _ _ E) in H. cbn in H. rewrite Z.eqb_refl in H. discriminate.
Qed.
Lemma fst_unique {A B} (l : list (A * B)) k a a' : NoDup (map fst l) -> In (k, a) l -> In (k, a') l -> a = a'.
Proof.
  induction l as [|[k0 a0] l IH]; [easy|]. cbn [map fst]. intros N H H'. inversion N; subst.
  destruct H as [H|H], H' as [H'|H']; try congruence; auto.
  - inversion H; subst. apply (in_map fst) in H'. contradiction.
  - inversion H'; subst. apply (in_map fst) in H. contradiction.
Qed.
Lemma snd_unique {A B} (l : list (A * B)) k k' a : NoDup (map snd l) -> In (k, a) l -> In (k', a) l -> k = k'.
Proof.
  induction l as [|[k0 a0] l IH]; [easy|]. cbn [map snd]. intros N H H'. inversion N; subst.
  destruct H as [H|H], H' as [H'|H']; try congruence; auto.
  - inversion H; subst. apply (in_map snd) in H'. contradiction.
  - inversion H'; subst. apply (in_map snd) in H. contradiction.
Qed.

Section Build.
Context {K : Type}.
Variable cfg : config.
Variable b : @bnd K.
Hypothesis TC : cfg_cell cfg = Triangle.
Notation pt := (list K).
Notation mesh := (@mesh pt).

Lemma NHb : cfg_cell cfg <> Hex. Proof. rewrite TC. discriminate. Qed.
Lemma TVb : cfg_cell cfg <> Vertex. Proof. rewrite TC. discriminate. Qed.

Definition known (i : Z) : Prop := exists p, at_index (b_points b) i = Some p.

Record vinv (m : mesh) (V : list (Z * addr)) : Prop := {
  v_fst : NoDup (map fst V);
  v_snd : NoDup (map snd V);
  v_live : forall v, is_live m Vertex v <-> In v (map snd V);
  v_point : forall i v, In (i, v) V -> exists p, at_index (b_points b) i = Some p /\ point_at m v = Some p
}.

Lemma corners_loop C is : forall s V vs, sreach cfg s -> vinv (st_mesh s) V -> Forall known is ->
  exists s' V' new, rfold (read_corner cfg b) is (mkRd s V C, vs) = Done (mkRd s' V' C, vs ++ new) /\
    sreach cfg s' /\ vinv (st_mesh s') V' /\ frame (st_mesh s) (st_mesh s') /\ (forall t a, t <> Vertex -> deref (st_mesh s') t a = deref (st_mesh s) t a) /\
    st_segs s' = st_segs s /\ st_con s' = st_con s /\ incl V V' /\ (forall i, In i (map fst V') <-> In i (map fst V) \/ In i is) /\
    Forall2 (fun i v => In (i, v) V') is new.
Proof.
  induction is as [|i is IH]; intros s V vs R VI KN.
  - exists s, V, []. rewrite app_nil_r. split; [reflexivity|]. split; auto. split; auto. split; [intros ? ? ? ?; auto|]. split; auto. split; auto. split; auto.
    split; [intros ? ?; auto|]. split; [|constructor]. cbn. tauto.
  - inversion KN as [|? ? (p & Hp) KN']; subst. cbn [rfold read_corner rd_vertices rd_st rd_cells]. destruct (find_vertex i V) as [v|] eqn:FV.
    + cbn [rbind]. apply find_vertex_some in FV.
      destruct (IH s V (vs ++ [v]) R VI KN') as (s' & V' & new & E & R' & VI' & FR & NV & SG & CN & IN & KS & F2).
      exists s', V', (v :: new). rewrite <- app_assoc in E. split; [exact E|]. split; auto. split; auto. split; auto. split; auto. split; auto. split; auto. split; auto.
      split; [|constructor; auto]. intros j. rewrite KS. cbn [In]. apply (in_map fst) in FV. cbn in FV. split; [tauto|]. intros [X|[<-|X]]; auto.
    + apply find_vertex_none in FV. rewrite Hp. cbn [of_option rbind].
      destruct (make_vertex_added cfg (st_mesh s) p) as (m1 & E1 & A1 & _). rewrite E1. cbn [of_option rbind fst snd].
      set (v := m_next (st_mesh s) Vertex) in *. set (s1 := with_mesh s m1).
      pose proof (si_reach cfg _ (sreach_inv cfg NHb s R)) as RM. pose proof (reach_inv cfg _ RM) as HI.
      pose proof (vertex_added_deref cfg _ _ _ _ _ HI A1) as DD.
      assert (R1 : sreach cfg s1). { eapply (sr_step cfg s (SMesh (OVertex p))); eauto; [split; exact Logic.I|]. cbn [sstep step]. rewrite E1. reflexivity. }
      assert (Nv : ~ is_live (st_mesh s) Vertex v). { intros L. apply range_deref in L. now apply (fresh_addr cfg _ _ Vertex HI) in L. }
      assert (FR1 : frame (st_mesh s) m1).
      { intros t a e D. rewrite DD. destruct (tag_eq_dec t Vertex) as [->|]; auto. destruct (Nat.eqb_spec a (m_next (st_mesh s) Vertex)) as [->|]; auto. exfalso. apply Nv. exists e; auto. }
      assert (VI1 : vinv m1 ((i, v) :: V)).
      { destruct VI as [VF VS VL VP]. constructor; cbn [map fst snd].
        - constructor; auto.
        - constructor; auto. intros X. apply VL in X. contradiction.
        - intros x. cbn [In]. rewrite <- VL. unfold is_live. rewrite DD. destruct (tag_eq_dec Vertex Vertex) as [_|[]]; auto.
          fold v. destruct (Nat.eqb_spec x v) as [->|N]; [split; eauto|]. split; auto. intros [X|X]; auto; congruence.
        - intros j x [X|X].
          + inversion X; subst j x. exists p. split; auto. unfold point_at. rewrite DD. destruct (tag_eq_dec Vertex Vertex) as [_|[]]; auto. fold v. rewrite Nat.eqb_refl. reflexivity.
          + destruct (VP j x X) as (q & Hq & Pq). exists q. split; auto. unfold point_at in *. destruct (deref (st_mesh s) Vertex x) as [e|] eqn:D; [|discriminate]. now rewrite (FR1 _ _ _ D). }
      destruct (IH s1 ((i, v) :: V) (vs ++ [v]) R1 VI1 KN') as (s' & V' & new & E & R' & VI' & FR & NV & SG & CN & IN & KS & F2).
      exists s', V', (v :: new). rewrite <- app_assoc in E. split; [exact E|]. split; auto. split; auto.
      split; [intros ? ? ? ?; apply FR; now apply FR1|]. split.
      { intros t a T. rewrite NV by auto. unfold s1. cbn [with_mesh st_mesh]. rewrite DD. destruct (tag_eq_dec t Vertex); [contradiction|auto]. }
      split; auto. split; auto. split; [intros x X; apply IN; now right|]. split; [|constructor; auto; apply IN; now left].
      intros j. rewrite KS. cbn [In map fst]. tauto.
Qed.

Record rinv (zs : list Z) (r : @reading K) (dn : list (Z * list Z)) : Prop := {
  ri_reach : sreach cfg (rd_st r);
  ri_num : numbered (st_segs (rd_st r));
  ri_ids : forall z, has_id (st_segs (rd_st r)) z <-> In z zs;
  ri_v : vinv (st_mesh (rd_st r)) (rd_vertices r);
  ri_used : forall i, In i (map fst (rd_vertices r)) <-> exists z p, In (z, p) dn /\ In i p;
  ri_cells : forall p a, In (p, a) (rd_cells r) -> exists vs, vertices_at (st_mesh (rd_st r)) Triangle a = Some vs /\ Forall2 (fun i v => In (i, v) (rd_vertices r)) p vs;
  ri_live : forall a, is_live (st_mesh (rd_st r)) Triangle a <-> In a (map snd (rd_cells r));
  ri_keys : NoDup (map fst (rd_cells r));
  ri_dn : forall p, In p (map fst (rd_cells r)) <-> exists z, In (z, p) dn;
  ri_in : forall z t x, in_segment_id (rd_st r) z t x <-> exists p a, In (z, p) dn /\ In (p, a) (rd_cells r) /\ part_of (st_mesh (rd_st r)) t x Triangle a;
  ri_rest : forall t x, t <> Vertex -> is_live (st_mesh (rd_st r)) t x -> exists p a, In (p, a) (rd_cells r) /\ part_of (st_mesh (rd_st r)) t x Triangle a
}.

Lemma live_range (m : mesh) t a : is_live m t a <-> In a (range m t).
Proof. symmetry. apply range_deref. Qed.
Lemma live_vertices (m : mesh) a k : vertices_at m Triangle a = Some k -> is_live m Triangle a.
Proof. unfold vertices_at. destruct (deref m Triangle a) as [e|] eqn:D; [|discriminate]. exists e; auto. Qed.
Lemma part_framed (m m' : mesh) t' x h a : frame m m' -> is_live m h a -> (part_of m' t' x h a <-> part_of m t' x h a).
Proof. intros F L. unfold part_of. now rewrite (frame_bounded m m' h a t' x F L). Qed.

Lemma read_polygon_spec zs r dn z a p q : rinv zs r dn -> In (z, a) (g_ids (st_segs (rd_st r))) -> sort_z q = p -> length p = 3 -> NoDup p -> Forall known p ->
  exists r', read_polygon cfg b a r q = Done r' /\ rinv zs r' (dn ++ [(z, p)]) /\ st_segs (rd_st r') = st_segs (rd_st r).
Proof.
  intros [RR RN RI RV RU RC RL RK RD RIN RE] ZA SP L3 ND KN. unfold read_polygon. rewrite SP, L3. cbn [nverts Nat.eqb]. rewrite TC.
  destruct r as [s V C]. cbn [rd_st rd_vertices rd_cells] in *.
  assert (Zin : In z zs) by (apply RI, has_id_iff; [apply (si_g cfg s (sreach_inv cfg NHb s RR))|eauto]).
  assert (Sa : is_segment s a) by (apply in_range; eauto).
  destruct (find_polygon p C) as [h|] eqn:FP.
  - apply find_polygon_some in FP. destruct (RC p h FP) as (vs & VH & F2). assert (Lh := live_vertices _ _ _ VH).
    destruct (C20_add_pf pt cfg s a Triangle h NHb RR Sa Lh) as (s' & E' & M & GS & O & IN). rewrite E'. cbn [of_option rbind].
    assert (R' : sreach cfg s') by (eapply (sr_step cfg s (SAdd a Triangle h)); eauto; cbn; auto).
    pose proof (by_id cfg NHb s s' a z (fun t' x => part_of (st_mesh s) t' x Triangle h) RR R' GS ZA O IN) as IN3.
    eexists. split; [reflexivity|]. split; [|exact GS]. constructor; cbn [rd_st rd_vertices rd_cells]; rewrite ?M, ?GS; auto.
    + intros i. rewrite RU. split; [intros (z' & p' & X & Y); exists z', p'; rewrite in_app_iff; auto|]. intros (z' & p' & X & Y).
      apply in_app_iff in X as [X|[X|[]]]; [eauto|]. inversion X; subst z' p'. apply (in_map fst) in FP. apply RD in FP as (z0 & Hz). eauto.
    + intros p'. rewrite RD. split; [intros (z' & X); exists z'; rewrite in_app_iff; auto|]. intros (z' & X).
      apply in_app_iff in X as [X|[X|[]]]; [eauto|]. inversion X; subst z' p'. apply (in_map fst) in FP. now apply RD in FP.
    + intros z' t x. rewrite IN3, RIN. split.
      * intros [(p' & a' & X1 & X2 & X3)|(-> & X)]; [exists p', a'; rewrite in_app_iff; auto|]. exists p, h. rewrite in_app_iff. split; [right; now left|auto].
      * intros (p' & a' & X1 & X2 & X3). apply in_app_iff in X1 as [X1|[X1|[]]]; [left; eauto|]. inversion X1; subst z' p'.
        rewrite <- (fst_unique _ _ _ _ RK FP X2) in X3. auto.
  - apply find_polygon_none in FP.
    destruct (corners_loop C p s V [] RR RV KN) as (s1 & V1 & new & E1 & R1 & VI1 & FR1 & NV1 & SG1 & CN1 & INC & KS & F2).
    rewrite E1. cbn [rbind app]. cbn [rd_st rd_vertices rd_cells].
    assert (Sa1 : is_segment s1 a) by (unfold is_segment; now rewrite SG1).
    assert (IS1 : forall z' t x, in_segment_id s1 z' t x <-> in_segment_id s z' t x) by (intros; unfold in_segment_id, segment_has_id, is_segment, in_segment; now rewrite SG1, CN1).
    assert (Ln : length new = 3) by (rewrite <- L3; clear - F2; induction F2; cbn; auto).
    assert (Nn : NoDup new).
    { clear - F2 ND VI1. induction F2 as [|i v is vs Hi F2 IH]; [constructor|]. inversion ND; subst. constructor; auto.
      intros X. assert (Y : exists j, In j is /\ In (j, v) V1). { clear - F2 X. induction F2; [destruct X|]. destruct X as [->|X]; [exists x; split; [now left|auto]|]. destruct (IHF2 X) as (j & ? & ?). exists j. split; [now right|auto]. }
      destruct Y as (j & Hj & HV). rewrite (snd_unique _ _ _ _ (v_snd _ _ VI1) Hi HV) in *. contradiction. }
    assert (VO : valid_op cfg (st_mesh s1) (OElement Triangle new)).
    { split; [split; [discriminate|left; auto]|]. split; auto. split; auto. apply Forall_forall. intros x Hx. apply (v_live _ _ VI1).
      clear - F2 Hx. induction F2; [destruct Hx|]. destruct Hx as [->|Hx]; auto. apply (in_map snd) in H. exact H. }
    destruct (C20_create_pf pt cfg s1 a Triangle new NHb R1 Sa1 VO) as (s2 & m' & h & ME & SC & M2 & GS & O & IN2).
    rewrite ME. cbn [of_option rbind]. rewrite SC. cbn [of_option rbind snd].
    assert (R2 : sreach cfg s2). { eapply (sr_step cfg s1 (SCreate a (OElement Triangle new))); eauto. split; auto. split; [exact Logic.I|auto]. }
    assert (ZA1 : In (z, a) (g_ids (st_segs s1))) by now rewrite SG1.
    pose proof (by_id cfg NHb s1 s2 a z (fun t' x => part_of m' t' x Triangle h) R1 R2 GS ZA1 O IN2) as IN3.
    pose proof (si_reach cfg _ (sreach_inv cfg NHb s1 R1)) as RM. pose proof (reach_inv cfg _ RM) as HI.
    pose proof (si_reach cfg _ (sreach_inv cfg NHb s2 R2)) as RM2. rewrite M2 in RM2.
    destruct (valid_element_spec cfg (st_mesh s1) Triangle new HI VO) as (m2 & a2 & fr & ME2 & HI2 & Q).
    rewrite ME in ME2. inversion ME2; subst m2 a2. clear ME2.
    assert (KF : keyed cfg Triangle = false) by (unfold keyed; rewrite TC; reflexivity).
    destruct (p_self _ _ _ _ _ _ _ _ Q KF) as [RA ->]. destruct (p_elem _ _ _ _ _ _ _ _ Q) as (e2 & D2 & _ & X). destruct (X eq_refl) as (EV & _). clear X.
    destruct (p_vert _ _ _ _ _ _ _ _ Q) as (PV & _). assert (FR : frame (st_mesh s1) m') by exact (p_frame _ _ _ _ _ _ _ _ Q).
    assert (Vh : vertices_at m' Triangle h = Some new) by (unfold vertices_at; rewrite D2; cbn; now rewrite EV).
    assert (DV : forall v, deref m' Vertex v = deref (st_mesh s1) Vertex v) by (intros; unfold deref; now rewrite PV).
    assert (LV : forall p' a', In (p', a') C -> is_live (st_mesh s) Triangle a') by (intros p' a' X; destruct (RC p' a' X) as (? & Y & _); now apply live_vertices in Y).
    assert (LV1 : forall p' a', In (p', a') C -> is_live (st_mesh s1) Triangle a') by (intros p' a' X; destruct (LV p' a' X) as (e & D); exists e; now apply FR1).
    assert (PF : forall t x p' a', In (p', a') C -> (part_of m' t x Triangle a' <-> part_of (st_mesh s) t x Triangle a')).
    { intros t x p' a' X. rewrite (part_framed (st_mesh s1) m' t x Triangle a' FR (LV1 _ _ X)). apply part_framed; auto. apply (LV _ _ X). }
    eexists. split; [reflexivity|]. split; [|cbn [rd_st]; congruence]. constructor; cbn [rd_st rd_vertices rd_cells]; rewrite ?M2, ?GS, ?SG1; auto.
    + destruct VI1 as [VF VS VL VP]. constructor; auto.
      * intros v. rewrite <- VL. unfold is_live. now rewrite DV.
      * intros i v X. destruct (VP i v X) as (q' & ? & ?). exists q'. split; auto. unfold point_at in *. now rewrite DV.
    + intros i. rewrite KS, RU. split.
      * intros [(z' & p' & X & Y)|X]; [exists z', p'; rewrite in_app_iff; auto|]. exists z, p. rewrite in_app_iff. split; [right; now left|auto].
      * intros (z' & p' & X & Y). apply in_app_iff in X as [X|[X|[]]]; [left; eauto|]. inversion X; subst z' p'. auto.
    + intros p' a' [X|X]; [inversion X; subst p' a'; eauto|]. destruct (RC p' a' X) as (vs & Y & F). exists vs. split.
      * unfold vertices_at in *. destruct (deref (st_mesh s) Triangle a') as [e|] eqn:D; [|discriminate]. now rewrite (FR _ _ _ (FR1 _ _ _ D)).
      * clear - F INC. induction F; constructor; auto.
    + intros a'. cbn [map snd In]. rewrite <- RL, !live_range, RA, in_app_iff. cbn [In].
      assert (Y : In a' (range (st_mesh s1) Triangle) <-> In a' (range (st_mesh s) Triangle)) by (rewrite <- !live_range; unfold is_live; now rewrite NV1 by discriminate).
      rewrite Y. tauto.
    + cbn [map fst]. constructor; auto.
    + intros p'. cbn [map fst In]. rewrite RD. split.
      * intros [<-|(z' & X)]; [exists z; rewrite in_app_iff; right; now left|exists z'; rewrite in_app_iff; auto].
      * intros (z' & X). apply in_app_iff in X as [X|[X|[]]]; [right; eauto|]. inversion X; auto.
    + intros z' t x. rewrite IN3, IS1, RIN. split.
      * intros [(p' & a' & X1 & X2 & X3)|(-> & X)].
        -- exists p', a'. rewrite in_app_iff. split; auto. split; [now right|]. eapply PF; eauto.
        -- exists p, h. rewrite in_app_iff. split; [right; now left|]. split; [now left|auto].
      * intros (p' & a' & X1 & X2 & X3). apply in_app_iff in X1. destruct X2 as [X2|X2].
        -- inversion X2; subst p' a'. destruct X1 as [X1|[X1|[]]]; [exfalso; apply FP, RD; eauto|]. inversion X1; subst. auto.
        -- destruct X1 as [X1|[X1|[]]].
           ++ left. exists p', a'. split; auto. split; auto. eapply PF; eauto.
           ++ inversion X1; subst. apply (in_map fst) in X2. contradiction.
    + intros t x T [e De]. destruct (deref (st_mesh s1) t x) as [e'|] eqn:D'.
      * assert (LX : is_live (st_mesh s) t x) by (exists e'; rewrite <- (NV1 t x T); auto). destruct (RE t x T LX) as (p' & a' & X & Y).
        exists p', a'. split; [now right|]. eapply PF; eauto.
      * exists p, h. split; [now left|]. destruct (p_log _ _ _ _ _ _ _ _ Q) as (L & _ & _ & _ & _ & NL & CH).
        apply (chain_part cfg m'); [apply (ereach_wf cfg m' (reach_ereach cfg m' RM2))|now apply (reach_transitive cfg); [|apply NHb]|]. apply CH. eapply NL; eauto.
Qed.
End Build.
