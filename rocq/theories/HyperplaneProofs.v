From Coq Require Import Reals List Arith ZArith Bool Lia Lra Permutation.
From Verif Require Import ModelTopo ModelMesh ModelErase ModelGeom ModelRefine ModelVolume ModelSegmentation ModelSegment ModelCopySeg ModelRefineMesh ModelRefineSeg ModelHyperplane
  SpecMesh SpecErase SpecCopy SpecRefine SpecGeom SpecTri SpecSegmentation SpecSegment SpecCopySeg SpecRefineMesh SpecHyperplane
  MeshBase MeshInv MeshReach MeshProofs MeshWf MeshErase MeshSimple CopyBase CopySegBase CopySegProofs SegmentInv SegmentProofs VectorProofs SpannedProofs InsideProofs CenterProofs UniqueProofs RefineGeom RefineTetBase RefineTetTree RefineTetCheck RefineTetLemmas RefineProofs RefineCut TriProofs RefineMeshBase RefineMeshLoop RefineMeshProofs RefineSegProofs HyperplaneLoop MeshDemo HyperplaneDemo.
Import ModelSegmentation ListNotations.
Open Scope nat_scope.

Lemma C34_edges_kept_iff_not_flagged_pf :
  forall V d (pos : V -> point) (vid : V -> nat) (vtx mid : nat -> V) (fl : nat -> bool),
  corner_ids_distinct vid 4 vtx -> vertices_distinct vtx mid fl ->
  exists cells, tet_children d pos vid vtx mid fl = Some cells /\
    forall k, k < 6 -> (fl k = false <-> exists c, In c cells /\ In (vtx (fst (tet_edge k))) c /\ In (vtx (snd (tet_edge k))) c).
Proof.
  intros V d pos vid vtx mid fl HD VD. destruct (tet_edges_gone d pos vid vtx mid fl HD) as (P & path & GP & E & H).
  exists (map (map (handle_no 4 vtx mid)) P). split; auto. intros k Hk. rewrite (H k Hk). destruct (tet_edge_lt k) as [L1 L2].
  assert (X : forall i, i < 4 -> handle_no 4 vtx mid i = vtx i) by (intros i Hi; unfold handle_no; now rewrite (proj2 (Nat.ltb_lt i 4) Hi)).
  split.
  - intros (c & Hc & A & B). exists (map (handle_no 4 vtx mid) c). split; [now apply in_map|]. rewrite <- (X _ L1), <- (X _ L2). split; now apply in_map.
  - intros (c' & Hc & A & B). apply in_map_iff in Hc as (c & <- & Hc). exists c. split; auto.
    assert (Y : forall i, i < 4 -> In (vtx i) (map (handle_no 4 vtx mid) c) -> In i c).
    { intros i Hi J. apply in_map_iff in J as (l & El & Hl). rewrite <- (X i Hi) in El.
      apply (handle_inj vtx mid fl) in El; [now subst|auto| |now left]. now apply (known_cells fl path P c GP Hc). }
    split; now apply Y.
Qed.

Lemma C34_mass_centres_cover_without_overlap_pf :
  forall V d (pos : V -> point) (vid : V -> nat) (vtx mid : nat -> V) (fl : nat -> bool) (r : nat -> R),
  corner_ids_distinct vid 4 vtx -> (forall i, i < 4 -> (0 < r i)%R) ->
  (forall k, k < 6 -> fl k = true ->
     let a := fst (tet_edge k) in let b := snd (tet_edge k) in mass_centre d (r a) (pos (vtx a)) (r b) (pos (vtx b)) (pos (mid k))) ->
  let tet := map (fun i => pos (vtx i)) [0; 1; 2; 3] in
  exists cells, tet_children d pos vid vtx mid fl = Some cells /\
    covers d tet (map (map pos) cells) /\
    (independent d tet -> no_overlap d (map (map pos) cells)).
Proof.
  intros V d pos vid vtx mid fl r HD HP HM tet.
  destruct (tet_children_known d pos vid vtx mid fl HD) as (P & path & GP & HS & E).
  exists (map (map (handle_no 4 vtx mid)) P). split; auto.
  assert (M : map (map pos) (map (map (handle_no 4 vtx mid)) P) = map (map (fun l => pos (handle_no 4 vtx mid l))) P).
  { rewrite map_map. apply map_ext. intros c. apply map_map. }
  rewrite M. destruct (known_geometry fl path P GP) as [GC GD].
  assert (HL : forall c l, In c P -> In l c -> okl fl l) by (intros c l Hc Hl; apply (known_cells fl path P c GP Hc); auto).
  split.
  - exact (lcover_covers 4 (wtr r) (okl fl) (wtr_pos r HP fl) (wtr_sum r HP fl) d (fun i => pos (vtx i)) (fun l => pos (handle_no 4 vtx mid l))
      (fun l i => handle_wtr r HP d pos vtx mid fl l i HM) P (lcover_scale r HP P GC) HL).
  - intros HI. apply (ldisjoint_no_overlap 4 (wtr r) (okl fl) (wtr_sum r HP fl) d (fun i => pos (vtx i)) (fun l => pos (handle_no 4 vtx mid l))
      (fun l i => handle_wtr r HP d pos vtx mid fl l i HM) P); auto.
    intros i j c1 c2 Hi Hj. destruct (GD i j c1 c2 Hi Hj); auto. right. now apply ldisjoint2_scale.
Qed.

Lemma C69_refine_partial_pf : forall d eps o n cfgs cfg (src out : @mesh point),
  reach cfgs src -> cfg_keep cfgs Line = true -> cfg_cell cfgs = Triangle \/ cfg_cell cfgs = Tet ->
  reach cfg out -> cfg_cell cfg = cfg_cell cfgs -> no_merge d eps o n src out ->
  exists out' fl phi mu, hyperplane_refine d eps o n cfg src (cfg_cell cfgs) out = Some out' /\ reach cfg out' /\
    (forall a p q, ends_at src a p q -> (fl a = true <-> line_crosses d eps o n p q)) /\
    is_refinement_at d (crossing_point d o n) src out out' (cfg_cell cfgs) fl phi mu.
Proof.
  intros d eps o n cfgs cfg src out Rs K T Ro C NM. set (t := cfg_cell cfgs) in *.
  assert (Tc : cell_type cfg t) by (unfold cell_type; auto).
  destruct (hyperplane_start d eps o n cfgs cfg src out (reach cfg) Rs (fun m H => H) (reach_vstep cfg) Ro NM) as (ls & m0 & flags & handles & E & M & R0 & FL & EI).
  unfold hyperplane_refine. rewrite E. cbn [obind]. rewrite M. cbn [obind fst snd].
  destruct (simple_refine_spec d cfgs cfg src out t _ _ Rs K T Tc (reach cfg) (fun m H => H) (reach_vstep cfg) _ m0 EI R0) as (m & vm & E2 & RI). rewrite E2. cbn [option_map fst].
  exists m, (flag_of src flags), (phi src vm), (mu src (handle_map (map fst ls) handles)). split; auto. split; [|split; auto].
  - apply (vi_q _ _ _ _ _ _ _ (ri_v _ _ _ _ _ _ _ _ _ _ _ _ RI)).
  - eapply (rinv_refinement d cfgs cfg src out t _ (crossing_point d o n)); eauto.
Qed.

Lemma part_vertex d t pos vid vtx mid fl cs ws u : t = Triangle \/ t = Tet -> corner_ids_distinct vid (nverts t) vtx ->
  children d t pos vid vtx mid fl = Some cs -> In ws cs -> In u ws ->
  (exists i, i < nverts t /\ u = vtx i) \/ (exists k, k < nedges t /\ fl k = true /\ u = mid k).
Proof.
  intros [-> | ->] CI E Hws Hu; cbn [children nverts nedges] in *.
  - destruct (C33_children_vertices_pf addr d pos vtx mid fl) as (cs' & E' & _ & H). rewrite E in E'. injection E' as <-. apply H. eauto.
  - destruct (C34_children_vertices_pf addr d pos vid vtx mid fl CI) as (cs' & E' & _ & H). rewrite E in E'. injection E' as <-. apply H. eauto.
Qed.
Lemma part_edge d t pos vid vtx mid fl cs ws k : t = Triangle \/ t = Tet -> corner_ids_distinct vid (nverts t) vtx ->
  (forall i j, i < nverts t -> j < nverts t -> vtx i = vtx j -> i = j) /\
  (forall i k, i < nverts t -> k < nedges t -> fl k = true -> vtx i <> mid k) /\
  (forall k l, k < nedges t -> l < nedges t -> fl k = true -> fl l = true -> mid k = mid l -> k = l) ->
  children d t pos vid vtx mid fl = Some cs -> In ws cs -> k < nedges t -> fl k = true ->
  In (vtx (fst (edge_ends t k))) ws -> In (vtx (snd (edge_ends t k))) ws -> False.
Proof.
  intros [-> | ->] CI VD E Hws Hk Fk A B; cbn [children nverts nedges edge_ends] in *.
  - destruct (C33_edges_split_iff_flagged_pf addr d pos vtx mid fl VD) as (cs' & E' & H). rewrite E in E'. injection E' as <-. specialize (H k Hk). cbn zeta in H. rewrite Fk in H.
    destruct H as (_ & _ & H). apply (H ws Hws). split; auto.
  - destruct (C34_edges_kept_iff_not_flagged_pf addr d pos vid vtx mid fl CI VD) as (cs' & E' & H). rewrite E in E'. injection E' as <-.
    assert (fl k = false); [|congruence]. apply H; eauto.
Qed.

Lemma crosses_sym d eps o n p q : line_crosses d eps o n p q -> line_crosses d eps o n q p.
Proof.
  unfold line_crosses. replace (dist_sq d q p) with (dist_sq d p q) by (unfold dist_sq; apply Rsum_map_ext; intros; ring). unfold crosses. tauto.
Qed.
Lemma crosses_off d eps o n p q : line_crosses d eps o n p q ->
  let a := dot d n (fun i => p i - o i)%R in let b := dot d n (fun i => q i - o i)%R in ((a < 0 /\ 0 < b) \/ (b < 0 /\ 0 < a))%R.
Proof.
  unfold line_crosses, crosses. pose proof (Rmax_r (eps * sqrt (dist_sq d p q)) (Rabs eps)) as H. pose proof (Rabs_pos eps) as H'. cbv zeta. intros [X|X]; lra.
Qed.
Lemma crossing_sym d o n p q x : crossing_point d o n p q x -> crossing_point d o n q p x.
Proof. intros (A & s & B & C). split; auto. exists (1 - s)%R. split; [lra|]. intros i Hi. rewrite C by auto. ring. Qed.

Lemma C69_nothing_crosses_pf : forall d eps o n cfgs cfg (src out out' : @mesh point) fl phi mu,
  reach cfgs src -> cfg_keep cfgs Line = true -> cfg_cell cfgs = Triangle \/ cfg_cell cfgs = Tet -> reach cfg out' ->
  (forall a p q, ends_at src a p q -> (fl a = true <-> line_crosses d eps o n p q)) ->
  is_refinement_at d (crossing_point d o n) src out out' (cfg_cell cfgs) fl phi mu ->
  forall c vs u v p q, In c (range out' (cfg_cell cfgs)) -> ~ In c (range out (cfg_cell cfgs)) -> vertices_at out' (cfg_cell cfgs) c = Some vs ->
    In u vs -> In v vs -> point_at out' u = Some p -> point_at out' v = Some q -> ~ line_crosses d eps o n p q.
Proof.
  intros d eps o n cfgs cfg src out out' fl phi mu Rs K T R' FL RF c vs u v p q Hc Nc Hv Hu Hv' Pu Pv LC. set (t := cfg_cell cfgs) in *.
  destruct (rf_cells _ _ _ _ _ _ _ _ _ RF) as (new & css & RN & MV & SP & _).
  assert (Hn : In c new) by (rewrite RN in Hc; apply in_app_iff in Hc as [?|?]; [contradiction|auto]).
  assert (HC : In vs (concat css)).
  { assert (X : In (Some vs) (map Some (concat css))) by (rewrite <- MV, <- Hv; now apply in_map). apply in_map_iff in X as (y & E & Hy). injection E as <-. auto. }
  apply in_concat in HC as (cs & Hcs & Hvs).
  assert (Ex : exists c0, is_split d src out' t fl phi mu c0 cs).
  { clear - SP Hcs. induction SP as [|x y l l' A F IH]; [destruct Hcs|]. destruct Hcs as [<-|H]; eauto. }
  destruct Ex as (c0 & e & D & S).
  specialize (S _ _ (reads_pos cfg out' R')).
  assert (RD := reads_pos cfg out' R'). assert (RS := reads_pos cfgs src Rs).
  pose proof (cell_points' d cfgs src out out' t fl _ phi mu Rs T RF c0 e D _ _ _ _ RS RD) as CP.
  pose proof (cell_news d cfgs src out out' t fl _ phi mu Rs K T RF c0 e D _ _ _ _ RS RD) as CN. cbv zeta in CN.
  pose proof (cell_ids d cfgs cfg src out out' t fl _ phi mu Rs K T R' RF c0 e D _ _ RD) as CI.
  pose proof (cell_distinct d cfgs src out out' t fl _ phi mu Rs K T RF c0 e D) as CD.
  assert (PO : forall w y, point_at out' w = Some y -> y = pos_in out' w).
  { intros w y Pw. unfold point_at in Pw. destruct (deref out' Vertex w) as [ew|] eqn:Dw; [|discriminate]. destruct (RD _ _ Dw) as [A _]. cbn in Pw. congruence. }
  apply PO in Pu, Pv. subst p q.
  assert (OFF : forall w y, line_crosses d eps o n (pos_in out' w) y -> (exists k, k < nedges t /\ fl (nth k (boundary_of e Line) 0) = true /\ w = mu (nth k (boundary_of e Line) 0)) -> False).
  { intros w y L (k & Hk & Fk & ->). apply crosses_off in L. cbv zeta in L. destruct (CN k Hk Fk) as [[X _]|[X _]]; rewrite X in L; lra. }
  destruct (part_vertex d t _ _ _ _ _ cs vs u T CI S Hvs Hu) as [(i & Hi & Eu)|M]; [|eapply OFF; eauto].
  destruct (part_vertex d t _ _ _ _ _ cs vs v T CI S Hvs Hv') as [(j & Hj & Ev)|M]; [|apply crosses_sym in LC; eapply OFF; eauto].
  subst u v.
  assert (NE : i <> j). { intros ->. apply crosses_off in LC. cbv zeta in LC. lra. }
  assert (KK : exists k, k < nedges t /\ (edge_ends t k = (i, j) \/ edge_ends t k = (j, i))).
  { clear - T Hi Hj NE. destruct T as [E|E]; rewrite E in *; cbn [nverts nedges edge_ends] in *.
    - destruct i as [|[|[|i]]]; try lia; destruct j as [|[|[|j]]]; try lia;
        first [exists 0; split; [lia|]; cbn; auto; fail|exists 1; split; [lia|]; cbn; auto; fail|exists 2; split; [lia|]; cbn; auto; fail].
    - destruct i as [|[|[|[|i]]]]; try lia; destruct j as [|[|[|[|j]]]]; try lia;
        first [exists 0; split; [lia|]; cbn; auto; fail|exists 1; split; [lia|]; cbn; auto; fail|exists 2; split; [lia|]; cbn; auto; fail|
               exists 3; split; [lia|]; cbn; auto; fail|exists 4; split; [lia|]; cbn; auto; fail|exists 5; split; [lia|]; cbn; auto; fail]. }
  destruct KK as (k & Hk & EK).
  destruct (fl (nth k (boundary_of e Line) 0)) eqn:Fk.
  - eapply (part_edge d t _ _ _ _ _ cs vs k T CI CD S Hvs Hk Fk); destruct EK as [-> | ->]; auto.
  - destruct (src_edges cfgs src t Rs K T c0 e D) as (_ & _ & F). destruct (F k Hk) as (f & Df & P).
    destruct (edge_points cfgs src Rs _ f Df) as (v & w & p & r & Evw & Pv & Pw & _).
    assert (En : ends_at src (nth k (boundary_of e Line) 0) p r) by (exists v, w; unfold vertices_at; rewrite Df; cbn [option_map]; rewrite Evw; auto).
    assert (PS : forall x y, point_at src x = Some y -> y = pos_in src x).
    { intros x y Px. unfold point_at in Px. destruct (deref src Vertex x) as [ex|] eqn:Dx; [|discriminate]. destruct (RS _ _ Dx) as [A _]. cbn in Px. congruence. }
    apply PS in Pv, Pw. subst p r. rewrite Evw in P.
    assert (X : line_crosses d eps o n (pos_in src v) (pos_in src w)).
    { rewrite (CP i Hi), (CP j Hj) in LC. apply Permutation_length_2_inv in P.
      destruct EK as [EK|EK]; rewrite EK in P; cbn [fst snd] in P; destruct P as [P|P]; injection P as P1 P2; rewrite P1, P2 in LC; auto using crosses_sym. }
    apply (FL _ _ _ En) in X. congruence.
Qed.

Lemma cell_edge_crosses d eps o n cfgs (src : @mesh point) t fl : reach cfgs src -> cfg_keep cfgs Line = true -> t = Triangle \/ t = Tet ->
  (forall a p q, ends_at src a p q -> (fl a = true <-> line_crosses d eps o n p q)) ->
  forall c e k ps ids, deref src t c = Some e -> k < nedges t -> reads src ps ids ->
  (fl (nth k (boundary_of e Line) 0) = true <-> line_crosses d eps o n (ps (nth (fst (edge_ends t k)) (e_verts e) 0)) (ps (nth (snd (edge_ends t k)) (e_verts e) 0))).
Proof.
  intros Rs K T FL c e k ps ids D Hk RS. destruct (src_edges cfgs src t Rs K T c e D) as (_ & _ & F). destruct (F k Hk) as (f & Df & P).
  destruct (edge_points cfgs src Rs _ f Df) as (v & w & p & r & Evw & Pv & Pw & _).
  assert (En : ends_at src (nth k (boundary_of e Line) 0) p r) by (exists v, w; unfold vertices_at; rewrite Df; cbn [option_map]; rewrite Evw; auto).
  assert (PS : forall x y, point_at src x = Some y -> y = ps x).
  { intros x y Px. unfold point_at in Px. destruct (deref src Vertex x) as [ex|] eqn:Dx; [|discriminate]. destruct (RS _ _ Dx) as [A _]. cbn in Px. congruence. }
  apply PS in Pv, Pw. subst p r. rewrite Evw in P. rewrite (FL _ _ _ En).
  apply Permutation_length_2_inv in P as [P|P]; injection P as -> ->; split; auto using crosses_sym.
Qed.

Lemma crossing_masses d o n p q x :
  let f y := dot d n (fun i => y i - o i)%R in (f p < 0 /\ 0 < f q \/ f q < 0 /\ 0 < f p)%R -> crossing_point d o n p q x -> mass_centre d (/ Rabs (f p)) p (/ Rabs (f q)) q x.
Proof.
  intros f S (Z & s & B & C).
  assert (L : ((1 - s) * f p + s * f q = 0)%R).
  { transitivity (dot d n (fun i => x i - o i)%R); [|exact Z]. unfold f. rewrite !dot_inner. rewrite <- inner_lin_r. apply CenterProofs.inner_ext; intros i Hi; [reflexivity|]. rewrite (C i Hi). ring. }
  intros i Hi. rewrite (C i Hi). clearbody f.
  assert (E : s = (f p / (f p - f q))%R).
  { apply Rmult_eq_reg_r with (f p - f q)%R; [|destruct S; lra]. transitivity (f p); [lra|field; destruct S; lra]. }
  rewrite E. destruct S as [[S1 S2]|[S1 S2]].
  - rewrite (Rabs_left (f p)), (Rabs_right (f q)) by lra. field. repeat split; lra.
  - rewrite (Rabs_left (f q)), (Rabs_right (f p)) by lra. field. repeat split; lra.
Qed.

Lemma C69_parts_cover_pf : forall d eps o n cfgs cfg (src out out' : @mesh point) fl phi mu,
  reach cfgs src -> cfg_keep cfgs Line = true -> cfg_cell cfgs = Triangle \/ cfg_cell cfgs = Tet -> reach cfg out' ->
  (forall a p q, ends_at src a p q -> (fl a = true <-> line_crosses d eps o n p q)) ->
  is_refinement_at d (crossing_point d o n) src out out' (cfg_cell cfgs) fl phi mu ->
  forall c vs cs ps ids pos ids', vertices_at src (cfg_cell cfgs) c = Some vs -> is_split d src out' (cfg_cell cfgs) fl phi mu c cs ->
    reads src ps ids -> reads out' pos ids' ->
    covers d (map ps vs) (map (map pos) cs) /\ (independent d (map ps vs) -> no_overlap d (map (map pos) cs)).
Proof.
  intros d eps o n cfgs cfg src out out' fl phi mu Rs K T R' FL RF c vs cs ps ids pos ids' HV (e & D & SP) RS RD. set (t := cfg_cell cfgs) in *.
  specialize (SP pos ids' RD). unfold vertices_at in HV. rewrite D in HV. cbn in HV. injection HV as <-.
  pose proof (cell_len cfgs src t Rs T c e D) as L.
  pose proof (cell_points' d cfgs src out out' t fl _ phi mu Rs T RF c e D ps ids pos ids' RS RD) as CP.
  pose proof (cell_news d cfgs src out out' t fl _ phi mu Rs K T RF c e D ps ids pos ids' RS RD) as CN. cbv zeta in CN.
  pose proof (cell_ids d cfgs cfg src out out' t fl _ phi mu Rs K T R' RF c e D pos ids' RD) as CI.
  pose proof (fun k Hk => cell_edge_crosses d eps o n cfgs src t fl Rs K T FL c e k ps ids D Hk RS) as CX.
  assert (CM : forall k, k < nedges t -> fl (nth k (boundary_of e Line) 0) = true ->
    crossing_point d o n (pos (phi (nth (fst (edge_ends t k)) (e_verts e) 0))) (pos (phi (nth (snd (edge_ends t k)) (e_verts e) 0))) (pos (mu (nth k (boundary_of e Line) 0)))).
  { intros k Hk Fk. destruct (CN k Hk Fk) as [X|X]; auto. now apply crossing_sym. }
  assert (EP : forall n, n = nverts t -> map ps (e_verts e) = map (fun i => pos (phi (nth i (e_verts e) 0))) (seq 0 n)).
  { intros m ->. rewrite <- L. clear - CP L. assert (X : map ps (e_verts e) = map (fun i => ps (nth i (e_verts e) 0)) (seq 0 (length (e_verts e)))).
    { clear. generalize (e_verts e). intros l. induction l as [|x l IH]; cbn [length seq map nth]; auto. f_equal. rewrite <- seq_shift, map_map. exact IH. }
    rewrite X. apply map_ext_in. intros i Hi. apply in_seq in Hi. symmetry. apply CP. lia. }
  destruct T as [E|E].
  - rewrite E in *. cbn [children nverts nedges edge_ends] in *.
    destruct (C33_children_cover_without_overlap_pf addr d pos (fun i => phi (nth i (e_verts e) 0)) (fun k => mu (nth k (boundary_of e Line) 0)) (fun k => fl (nth k (boundary_of e Line) 0))) as (cs' & E' & H).
    + intros k Hk Fk. destruct (CM k Hk Fk) as (_ & s & B & X). exists s. split; auto. intros i Hi. rewrite (X i Hi). ring.
    + rewrite SP in E'. injection E' as <-. rewrite (EP 3 eq_refl). exact H.
  - rewrite E in *. cbn [children nverts nedges edge_ends] in *.
    set (f := fun i => dot d n (fun j => pos (phi (nth i (e_verts e) 0%nat)) j - o j)%R).
    set (r := fun i => if Req_EM_T (f i) 0 then 1%R else (/ Rabs (f i))%R).
    destruct (C34_mass_centres_cover_without_overlap_pf addr d pos ids' (fun i => phi (nth i (e_verts e) 0)) (fun k => mu (nth k (boundary_of e Line) 0)) (fun k => fl (nth k (boundary_of e Line) 0)) r) as (cs' & E' & H); auto.
    + intros i _. unfold r. destruct (Req_EM_T (f i) 0); [lra|]. apply Rinv_0_lt_compat. now apply Rabs_pos_lt.
    + intros k Hk Fk a b. pose proof (proj1 (CX k Hk) Fk) as X. destruct (edge_ends_lt Tet (or_intror eq_refl) k Hk) as (L1 & L2 & _). cbn [edge_ends nverts] in L1, L2.
      rewrite <- (CP _ L1), <- (CP _ L2) in X. fold a b in X. apply crosses_off in X. cbv zeta in X.
      change (dot d n (fun i => pos (phi (nth a (e_verts e) 0%nat)) i - o i)%R) with (f a) in X. change (dot d n (fun i => pos (phi (nth b (e_verts e) 0%nat)) i - o i)%R) with (f b) in X.
      assert (Ra : r a = (/ Rabs (f a))%R) by (unfold r; destruct (Req_EM_T (f a) 0); [destruct X; lra|auto]).
      assert (Rb : r b = (/ Rabs (f b))%R) by (unfold r; destruct (Req_EM_T (f b) 0); [destruct X; lra|auto]).
      rewrite Ra, Rb. apply (crossing_masses d o n); auto. apply (CM k Hk Fk).
    + rewrite SP in E'. injection E' as <-. rewrite (EP 4 eq_refl). exact H.
Qed.

Lemma C69_conforming_pf : forall d o n cfgs cfg (src out out' : @mesh point) (fl : addr -> bool) phi mu,
  reach cfgs src -> cfg_keep cfgs Line = true -> cfg_cell cfgs = Triangle \/ cfg_cell cfgs = Tet -> reach cfg out' ->
  is_refinement_at d (crossing_point d o n) src out out' (cfg_cell cfgs) fl phi mu ->
  forall c1 vs1 cs1 c2 vs2 cs2 face f,
    vertices_at src (cfg_cell cfgs) c1 = Some vs1 -> is_split d src out' (cfg_cell cfgs) fl phi mu c1 cs1 ->
    vertices_at src (cfg_cell cfgs) c2 = Some vs2 -> is_split d src out' (cfg_cell cfgs) fl phi mu c2 cs2 ->
    NoDup face -> length face = dim (cfg_cell cfgs) -> incl face vs1 -> incl face vs2 ->
    NoDup f -> length f = dim (cfg_cell cfgs) -> (forall u, In u f -> on_face src fl phi mu face u) ->
    ((exists ws, In ws cs1 /\ incl f ws) <-> (exists ws, In ws cs2 /\ incl f ws)).
Proof. intros d o n cfgs cfg src out out' fl phi mu. apply conforming_at. Qed.

Lemma C69_segments_partial_pf : forall d eps o n cfgs cfg (src dst : sstate point),
  let t := cfg_cell cfgs in
  t = Triangle \/ t = Tet -> cfg_keep cfgs Line = true -> cfg_cell cfg = t ->
  sreach cfgs src -> sreach cfg dst -> numbered (st_segs dst) ->
  (forall c, In c (range (st_mesh src) t) -> segment_ids src t c <> None) ->
  no_merge d eps o n (st_mesh src) (st_mesh dst) ->
  exists dst' fl phi mu, hyperplane_refine_seg d eps o n cfg src t dst = Done dst' /\ sreach cfg dst' /\ numbered (st_segs dst') /\
    (forall a p q, ends_at (st_mesh src) a p q -> (fl a = true <-> line_crosses d eps o n p q)) /\
    is_refinement_at d (crossing_point d o n) (st_mesh src) (st_mesh dst) (st_mesh dst') t fl phi mu /\
    (exists parts, range (st_mesh dst') t = range (st_mesh dst) t ++ concat parts /\
      Forall2 (fun c ps => Forall (same_segments src dst' t c) ps /\
        exists cs, is_split d (st_mesh src) (st_mesh dst') t fl phi mu c cs /\ map (vertices_at (st_mesh dst') t) ps = map Some cs)
        (range (st_mesh src) t) parts) /\
    (forall z x, In x (range (st_mesh dst) t) -> (in_segment_id dst' z t x <-> in_segment_id dst z t x)) /\
    (forall z, has_id (st_segs dst) z -> has_id (st_segs dst') z) /\
    (forall z, has_id (st_segs dst') z -> has_id (st_segs dst) z \/ exists c, In c (range (st_mesh src) t) /\ in_segment_id src z t c).
Proof.
  intros d eps o n cfgs cfg src dst t T K C RS RD N HZ NM.
  assert (NHs : cfg_cell cfgs <> Hex) by (fold t; destruct T as [E|E]; rewrite E; discriminate).
  assert (NHd : cfg_cell cfg <> Hex) by (rewrite C; exact NHs).
  assert (Rs := Rsrc cfgs src NHs RS).
  assert (Q : qs cfg dst (st_mesh dst)) by (unfold qs; now rewrite with_same).
  destruct (hyperplane_start d eps o n cfgs cfg (st_mesh src) (st_mesh dst) (qs cfg dst) Rs (qs_reach cfg NHd dst) (qs_step cfg dst) Q NM) as (ls & m0 & flags & handles & E & M & Q0 & FL & EI).
  destruct (seg_cells_spec d cfgs cfg src dst _ _ _ m0 T K C RS N Q0 HZ EI) as (s & vm & ph & m & E2 & H1 & H2 & H3).
  exists s, (flag_of (st_mesh src) flags), ph, m. split; [|auto].
  unfold hyperplane_refine_seg. rewrite E. cbn [of_option rbind]. rewrite M. cbn [of_option rbind fst snd].
  exact (f_equal (fun r => rbind r (fun q => Done (fst q))) E2).
Qed.

Lemma C69_merged_refuted_pf : exists o n p0 p1 p2 cfg (src out' : @mesh point) c v w,
  reach cfg src /\ cfg_keep cfg Line = true /\ cfg_cell cfg = Triangle /\
  src = mesh_of cfg [OVertex p0; OVertex p1; OVertex p2; OElement Triangle [0; 1; 2]] /\ independent 2 [p0; p1; p2] /\
  hyperplane_refine 2 0 o n cfg src Triangle empty_mesh = Some out' /\
  In c (range out' Triangle) /\ vertices_at out' Triangle c = Some [v; w; v].
Proof.
  destruct hp_merged_points as (out' & H & I & V). exists (pt2 1 0), (pt2 1 0), hp_p0, hp_p1, hp_p2, hp_cfg, (hp_src hp_p0 hp_p1 hp_p2), out', 0, 0, 1.
  split; [apply hp_src_reach|]. split; [reflexivity|]. split; [reflexivity|]. split; [reflexivity|]. split; [apply hp_independent|]. auto.
Qed.
