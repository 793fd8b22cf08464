(** Lemmas for C67: the mesh that the reader builds. *)
From Coq Require Import Ascii String List Arith ZArith Bool Lia Permutation.
From Verif Require Import ModelTopo ModelMesh ModelErase ModelQuery ModelView ModelSegmentation ModelSegment ModelCopy ModelCopySeg ModelXml ModelVtk ModelNetgen
  SpecMesh SpecErase SpecQuery SpecSegmentation SpecSegment SpecCopy SpecCopySeg SpecVtk SpecNetgen
  MeshBase MeshInv MeshReach MeshWf MeshErase MeshSimple QueryBase SegmentationBase ViewBase SegmentView SegmentBase SegmentInv SegmentStep SegmentProofs
  ViewTrans CopyBase CopySegBase ExtractProofs VtkText VtkSim VtkBuild NetgenSim NetgenText.
Import ModelSegmentation ListNotations.
Open Scope nat_scope.

Section Build.
Context {K : Type}.
Variable F : format K.
Variable cfg : config.
Hypothesis NH : cfg_cell cfg <> Hex.
Hypothesis TV : cfg_cell cfg <> Vertex.
Notation pt := (list K).
Notation mesh := (@mesh pt).
Notation t := (cfg_cell cfg).

(** The vertices. *)
Lemma vertices_loop wps ps : Forall2 (point_text F) wps ps -> Forall (fun p => List.length p = f_dim F) ps ->
  forall j st (m : mesh) w rest, fed st (List.concat wps ++ w :: rest) ->
  exists st' m', ofold (fun m ip => option_map fst (make_vertex_with_id cfg m (fst ip) (snd ip))) (combine (seq j (List.length ps)) ps) m = Some m' /\
    rfold (read_vertex F cfg) (seq j (List.length ps)) (st, m) = Done (st', m') /\ fed st' (w :: rest) /\ (tight st -> tight st').
Proof.
  intros H. induction H as [|wp p wps ps Hp H IH]; intros D j st m w rest FD; cbn [List.length seq combine ofold rfold List.concat app fst snd].
  - exists st, m. auto.
  - inversion D as [|? ? Dp D']; subst. cbn [List.concat] in FD. rewrite <- app_assoc in FD.
    unfold read_vertex at 1. cbn [fst snd].
    assert (G : sm_good st = true). { destruct FD as [_ G]. apply G. destruct wp; [|discriminate]. destruct (List.concat wps); discriminate. }
    rewrite G. rewrite <- Dp. destruct (coords_spec F wp p _ Hp st FD) as (st1 & E1 & F1 & T1). rewrite E1. cbn [rbind fst snd].
    destruct (make_vertex_id_added cfg m j p) as (m1 & E2 & _). rewrite E2. cbn [option_map obind of_option rbind fst].
    destruct (IH D' (S j) st1 m1 w rest F1) as (st2 & m2 & E3 & E4 & F2 & T2). exists st2, m2. split; [exact E3|]. split; [exact E4|]. auto.
Qed.
Lemma vertices_dead n : forall j st (m : mesh), sm_good st = false ->
  rfold (read_vertex F cfg) (seq j n) (st, m) = Thrown \/ rfold (read_vertex F cfg) (seq j n) (st, m) = Done (st, m).
Proof. destruct n as [|n]; intros j st m G; cbn [seq rfold]; auto. left. unfold read_vertex. cbn [fst]. now rewrite G. Qed.
Lemma vertices_short wps ps : Forall2 (point_text F) wps ps -> Forall (fun p => List.length p = f_dim F) ps ->
  forall k j st (m : mesh), k <= List.length (List.concat wps) -> fed st (firstn k (List.concat wps)) -> tight st ->
  rfold (read_vertex F cfg) (seq j (List.length ps)) (st, m) = Thrown \/
  exists st' m', rfold (read_vertex F cfg) (seq j (List.length ps)) (st, m) = Done (st', m') /\ sm_good st' = false.
Proof.
  intros H. induction H as [|wp p wps ps Hp H IH]; intros D k j st m L FD T; cbn [List.length seq rfold List.concat] in *.
  - right. exists st, m. split; auto. apply tight_end; auto. destruct k; exact FD.
  - inversion D as [|? ? Dp D']; subst. unfold read_vertex at 1 3. cbn [fst snd].
    destruct (sm_good st) eqn:G; [|now left]. rewrite <- Dp. rewrite firstn_app in FD.
    destruct (Nat.lt_ge_cases k (List.length wp)) as [Lk|Lk].
    + replace (k - List.length wp) with 0 in FD by lia. cbn [firstn] in FD. rewrite app_nil_r in FD.
      destruct (coords_short F wp p Hp k st Lk FD T) as (q & st1 & E1 & G1). rewrite E1. cbn [rbind fst snd].
      destruct (make_vertex_id_added cfg m j q) as (m1 & E2 & _). rewrite E2. cbn [of_option rbind fst].
      destruct (vertices_dead (List.length ps) (S j) st1 m1 G1) as [E|E]; [left|right]; eauto.
    + rewrite firstn_all2 in FD by auto. destruct (coords_spec F wp p _ Hp st FD) as (st1 & E1 & F1 & T1). rewrite E1. cbn [rbind fst snd].
      destruct (make_vertex_id_added cfg m j p) as (m1 & E2 & _). rewrite E2. cbn [of_option rbind fst].
      rewrite app_length in L. destruct (IH D' (k - List.length wp) (S j) st1 m1) as [E|E]; auto; try lia.
Qed.

(** The corners of a cell. *)
Definition pos (k : Z) : nat := Z.to_nat (k - 1).
Lemma corners_spec n (m : mesh) ks : verts_ok n m -> Forall (fun k => 1 <= k <= Z.of_nat n)%Z ks ->
  forall st j o vs rest, fed st (map num ks ++ rest) ->
  exists st' o', rfold (read_corner m) (seq j (List.length ks)) (st, (o, vs)) = Done (st', (o', vs ++ map pos ks)) /\ fed st' rest /\ (tight st -> tight st').
Proof.
  intros V. induction ks as [|k ks IH]; intros H st j o vs rest FD; cbn [map List.length seq rfold] in *.
  - exists st, o. rewrite app_nil_r. auto.
  - inversion H as [|? ? Hk H']; subst. unfold read_corner at 1. rewrite (fed_good _ _ _ FD).
    destruct (fed_int st k _ FD) as (st1 & E1 & F1 & T1). rewrite E1. cbn [rbind fst snd obind].
    destruct (Z.leb_spec k 0); [lia|]. replace (Z.to_nat k - 1) with (pos k) by (unfold pos; lia).
    destruct (verts_lookup n m (pos k) V) as (-> & _); [unfold pos; lia|]. cbn [of_option rbind].
    destruct (IH H' st1 (S j) (Some k) (vs ++ [pos k]) rest F1) as (st2 & o2 & E2 & F2 & T2). exists st2, o2. rewrite E2, <- app_assoc. auto.
Qed.
Lemma corners_short n (m : mesh) ks : verts_ok n m -> Forall (fun k => 1 <= k <= Z.of_nat n)%Z ks ->
  forall q st j o vs, q < List.length ks -> fed st (firstn q (map num ks)) -> tight st ->
  rfold (read_corner m) (seq j (List.length ks)) (st, (o, vs)) = Thrown.
Proof.
  intros V. induction ks as [|k ks IH]; intros H q st j o vs L FD T; cbn [map List.length seq rfold] in *; [lia|].
  inversion H as [|? ? Hk H']; subst. unfold read_corner at 1. destruct q as [|q]; cbn [firstn] in FD.
  - now rewrite (tight_end st FD T).
  - rewrite (fed_good _ _ _ FD).
    destruct (fed_int st k _ FD) as (st1 & E1 & F1 & T1). rewrite E1. cbn [rbind fst snd obind].
    destruct (Z.leb_spec k 0); [lia|]. replace (Z.to_nat k - 1) with (pos k) by (unfold pos; lia).
    destruct (verts_lookup n m (pos k) V) as (-> & _); [unfold pos; lia|]. cbn [of_option rbind].
    apply (IH H' q); auto. lia.
Qed.
Lemma corners_bad n (m : mesh) ks : verts_ok n m -> Exists (fun k => ~ (1 <= k <= Z.of_nat n))%Z ks ->
  forall st j o vs rest, fed st (map num ks ++ rest) -> rfold (read_corner m) (seq j (List.length ks)) (st, (o, vs)) = Undefined.
Proof.
  intros V. induction ks as [|k ks IH]; intros H st j o vs rest FD; cbn [map List.length seq rfold app] in *; [inversion H|].
  unfold read_corner at 1. rewrite (fed_good _ _ _ FD). destruct (fed_int st k _ FD) as (st1 & E1 & F1 & T1). rewrite E1. cbn [rbind fst snd obind].
  destruct (Z.leb_spec k 0); [reflexivity|]. destruct (Z_le_gt_dec k (Z.of_nat n)) as [L|L].
  - replace (Z.to_nat k - 1) with (pos k) by (unfold pos; lia).
    destruct (verts_lookup n m (pos k) V) as (-> & _); [unfold pos; lia|]. cbn [of_option rbind].
    eapply IH; eauto. inversion H; subst; auto; lia.
  - replace (nth_error (range m Vertex) (Z.to_nat k - 1)) with (@None addr); [reflexivity|].
    symmetry. apply nth_error_None. destruct V as [-> _]. rewrite seq_length. lia.
Qed.

(** The mesh and the segments so far ([s]; [s'] is a reachable state that differs in
    the id generators only). *)
Definition cells_of (cs : list (Z * list Z)) : list (Z * list nat) := map (fun c => (fst c, map pos (snd c))) cs.
Definition next_id (n : nat) : nat := if Nat.even n then n else n - 1.
Record ninv (n : nat) (s s' : sstate pt) (dn : list (Z * list nat)) : Prop := {
  n_sim : same_state_but_ids t s s';
  n_reach : sreach cfg s';
  n_num : numbered (st_segs s');
  n_ids : forall z, has_id (st_segs s') z <-> In z (map fst dn);
  n_verts : verts_ok n (st_mesh s');
  n_gen : m_idgen (st_mesh s') t = List.length dn;
  n_gen' : m_idgen (st_mesh s) t = next_id (List.length dn);
  n_cells : Forall2 (fun a c => vertices_at (st_mesh s') t a = Some (snd c)) (range (st_mesh s') t) dn;
  n_cell_ids : map (id_at (st_mesh s') t) (range (st_mesh s') t) = map Some (seq 0 (List.length dn));
  n_rest : forall t' a, is_live (st_mesh s') t' a -> t' <> Vertex -> exists c, In c (range (st_mesh s') t) /\ part_of (st_mesh s') t' a t c;
  n_in : forall z t' x, in_segment_id s' z t' x <-> exists i a ks, nth_error dn i = Some (z, ks) /\ nth_error (range (st_mesh s') t) i = Some a /\ part_of (st_mesh s') t' x t a
}.

Lemma next_id_step n : set_max_id n (next_id n) = next_id (S n).
Proof.
  unfold next_id, set_max_id. rewrite Nat.even_succ, <- Nat.negb_even. destruct (Nat.even n) eqn:E; cbn [negb]; [rewrite Nat.ltb_irrefl; lia|].
  destruct n as [|n]; [discriminate E|]. destruct (Nat.ltb_spec (S n - 1) (S n)); lia.
Qed.

Lemma live_of_vertices (m : mesh) a k : vertices_at m t a = Some k -> is_live m t a.
Proof. unfold vertices_at. destruct (deref m t a) as [e|] eqn:D; [|discriminate]. exists e; auto. Qed.

Lemma add_cell n s s' dn z k : ninv n s s' dn -> List.length k = nverts t -> NoDup k -> Forall (fun v => v < n) k ->
  exists g a s1 s1', get_make_id z (st_segs s) = SRet g a /\ seg_create_with_id cfg a t k (List.length dn) (with_segs s g) = Some s1 /\
    ninv n s1 s1' (dn ++ [(z, k)]) /\ m_nodes (st_mesh s1') Vertex = m_nodes (st_mesh s') Vertex /\ m_idgen (st_mesh s1) Vertex = m_idgen (st_mesh s) Vertex.
Proof.
  intros [NS NR NN NI NV NG NG' NC NCI NRE NIN] Lk ND LT.
  destruct (make_id_spec cfg NH s' z NR NN) as (g & b & EG & RG & NGn & IB & ING & HG).
  exists g, b. rewrite (proj1 (proj2 NS)). rewrite EG.
  set (sg := with_segs s' g) in *. assert (Mg : st_mesh sg = st_mesh s') by reflexivity.
  assert (Sb : is_segment sg b) by (apply in_range; eauto).
  assert (VO : valid_op cfg (st_mesh s') (OElement t k)).
  { split; [split; auto|]. split; auto. split; auto. apply Forall_forall. intros x Hx. rewrite Forall_forall in LT.
    destruct (verts_lookup n _ x NV (LT x Hx)) as (_ & e & D & _). exists e; auto. }
  destruct (C20_create_pf pt cfg sg b t k NH RG Sb) as (s2 & m' & h & ME & SC & M2 & GS & O & IN2). { now rewrite Mg. }
  rewrite Mg in ME.
  assert (R2 : sreach cfg s2). { eapply (sr_step cfg sg (SCreate b (OElement t k))); eauto. split; auto. split; [exact Logic.I|]. now rewrite Mg. }
  pose proof (seg_create_sim2 cfg TV b k (List.length dn) (with_segs s g) sg (with_segs_sim2 cfg s s' g NS)) as P. rewrite Mg in P. specialize (P NG). rewrite SC in P.
  destruct (seg_create_with_id cfg b t k (List.length dn) (with_segs s g)) as [s1|] eqn:E1; [|destruct P]. cbn in P.
  exists s1, s2. split; auto. split; auto.
  pose proof (seg_create_idgen cfg TV _ _ _ _ _ E1) as GI. cbn [with_segs st_mesh] in GI. rewrite NG', next_id_step in GI.
  pose proof (make_auto_idgen cfg TV _ _ _ _ ME) as GA. rewrite NG in GA.
  pose proof (by_id cfg NH sg s2 b z (fun t' x => part_of m' t' x t h) RG R2 GS IB O IN2) as IN3.
  pose proof (si_reach cfg _ (sreach_inv cfg NH s' NR)) as RM.
  pose proof (si_reach cfg _ (sreach_inv cfg NH s2 R2)) as RM2. rewrite M2 in RM2.
  pose proof (reach_inv cfg _ RM) as HI.
  destruct (valid_element_spec cfg (st_mesh s') t k HI VO) as (m2 & a2 & fr & ME2 & HI2 & Q).
  rewrite ME in ME2. inversion ME2; subst m2 a2. clear ME2.
  assert (KF : keyed cfg t = false) by (unfold keyed; rewrite tag_eqb_refl; apply andb_false_r).
  destruct (p_self _ _ _ _ _ _ _ _ Q KF) as [RA ->]. destruct (p_elem _ _ _ _ _ _ _ _ Q) as (e2 & D2 & _ & X). destruct (X eq_refl) as (EV & _ & EI & _). clear X.
  destruct (p_vert _ _ _ _ _ _ _ _ Q) as (PV & _). assert (FR : frame (st_mesh s') m') by exact (p_frame _ _ _ _ _ _ _ _ Q).
  assert (Vh : vertices_at m' t h = Some k) by (unfold vertices_at; rewrite D2; cbn; now rewrite EV).
  assert (LR : List.length (range (st_mesh s') t) = List.length dn) by (clear - NC; induction NC; cbn; auto).
  split; [|split; [now rewrite M2, PV|now apply (seg_create_vertex_idgen cfg TV) in E1]].
  constructor; auto; rewrite ?GS, ?M2; auto.
  - intros z'. change (st_segs sg) with g. rewrite HG, NI, map_app, in_app_iff. cbn. split; [intros [Y| ->]; auto|intros [Y|[<-|[]]]; auto].
  - destruct NV as [V1 V2]. split; [unfold range in *; now rewrite PV|]. intros i0 Hi. unfold id_at, deref in *. rewrite PV. now apply V2.
  - rewrite app_length. exact GA.
  - rewrite app_length. cbn [List.length]. rewrite Nat.add_1_r. exact GI.
  - rewrite RA. apply Forall2_app; [|constructor; auto]. eapply Forall2_impl'; [|exact NC]. cbn. intros a c Y. unfold vertices_at in *.
    destruct (deref (st_mesh s') t a) as [e|] eqn:D; [|discriminate]. now rewrite (FR _ _ _ D).
  - rewrite RA, app_length, map_app. cbn [List.length map]. rewrite Nat.add_1_r, seq_S, map_app, Nat.add_0_l. cbn [map].
    rewrite <- NCI. f_equal.
    + apply map_ext_in. intros a Ha. apply range_deref in Ha as (e & D). unfold id_at. now rewrite D, (FR _ _ _ D).
    + unfold id_at. rewrite D2. cbn. now rewrite EI, NG.
  - intros t' a [e De] T. rewrite RA. destruct (deref (st_mesh s') t' a) as [e'|] eqn:D'.
    + destruct (NRE t' a (ex_intro _ e' D') T) as (c & Ic & Pc). exists c. split; [apply in_app_iff; auto|]. apply (part_frame (st_mesh s') m'); auto. apply range_deref. exact Ic.
    + exists h. split; [apply in_app_iff; right; now left|]. destruct (p_log _ _ _ _ _ _ _ _ Q) as (L & _ & _ & _ & _ & NL & CH).
      apply (chain_part cfg m'); [apply (ereach_wf cfg m' (reach_ereach cfg m' RM2))|now apply (reach_transitive cfg)|]. apply CH. eapply NL; eauto.
  - intros z' t' x. rewrite IN3, ING, NIN, RA. split.
    + intros [(i & a & ks & X1 & X2 & X3)|(-> & Y)].
      * exists i, a, ks. assert (i < List.length dn) by (apply nth_error_Some; congruence). rewrite !nth_error_app1 by lia. split; auto. split; auto.
        apply (part_frame (st_mesh s')); auto. apply range_deref. eapply nth_error_In; eauto.
      * exists (List.length dn), h, k. rewrite nth_error_app2, Nat.sub_diag by auto. split; auto. rewrite nth_error_app2 by lia. rewrite LR, Nat.sub_diag. auto.
    + intros (i & a & ks & X1 & X2 & X3). destruct (Nat.lt_ge_cases i (List.length dn)) as [L|L].
      * rewrite nth_error_app1 in X1 by auto. rewrite nth_error_app1 in X2 by lia. left. exists i, a, ks. split; auto. split; auto.
        apply (part_frame (st_mesh s') m'); auto. apply range_deref. eapply nth_error_In; eauto.
      * assert (i = List.length dn). { assert (Y : i < List.length (dn ++ [(z, k)])) by (apply nth_error_Some; congruence). rewrite app_length in Y. cbn in Y. lia. }
        subst i. rewrite nth_error_app2, Nat.sub_diag in X1 by auto. rewrite nth_error_app2, LR, Nat.sub_diag in X2 by lia. cbn in X1, X2. inversion X1; inversion X2; subst. auto.
Qed.

Lemma cell_numbers n c : cell_ok cfg n c -> List.length (map pos (snd c)) = nverts t /\ NoDup (map pos (snd c)) /\ Forall (fun v => v < n) (map pos (snd c)).
Proof.
  intros (L & ND & H). rewrite map_length. split; auto. rewrite Forall_forall in H. split.
  - clear L. induction (snd c) as [|k ks IH]; cbn [map]; [constructor|]. inversion ND; subst. constructor.
    + intros I. apply in_map_iff in I as (k' & E & I). unfold pos in E. pose proof (H k (or_introl eq_refl)). pose proof (H k' (or_intror I)). assert (k' = k) by lia. now subst.
    + apply IH; auto. intros; apply H; now right.
  - apply Forall_forall. intros x Hx. apply in_map_iff in Hx as (k & <- & Hk). specialize (H k Hk). unfold pos. lia.
Qed.

Lemma read_cell_spec n s s' dn c st rest : ninv n s s' dn -> cell_ok cfg n c -> fed st (cell_words c ++ rest) ->
  exists st1 s1 s1', read_cell cfg (st, s) (List.length dn) = Done (st1, s1) /\ ninv n s1 s1' (dn ++ [(fst c, map pos (snd c))]) /\
    m_nodes (st_mesh s1') Vertex = m_nodes (st_mesh s') Vertex /\ m_idgen (st_mesh s1) Vertex = m_idgen (st_mesh s) Vertex /\ fed st1 rest /\ (tight st -> tight st1).
Proof.
  intros N C FD. unfold cell_words in FD. cbn [app] in FD. unfold read_cell. rewrite (fed_good _ _ _ FD).
  destruct (fed_int st (fst c) _ FD) as (st1 & E1 & F1 & T1). rewrite E1. cbn [rbind fst snd].
  assert (V : verts_ok n (st_mesh s)).
  { destruct (n_verts _ _ _ _ N) as [V1 V2]. destruct (n_sim _ _ _ _ N) as (S & _). split; [rewrite (sim2_range cfg _ _ _ S); auto|].
    intros i Hi. unfold id_at. rewrite (sim2_deref cfg _ _ _ _ S). now apply V2. }
  destruct C as (C1 & C2 & C3). rewrite <- C1.
  destruct (corners_spec n (st_mesh s) (snd c) V C3 st1 0 None [] rest F1) as (st2 & o & E2 & F2 & T2). rewrite E2. cbn [rbind fst snd app of_option].
  destruct (cell_numbers n c (conj C1 (conj C2 C3))) as (X1 & X2 & X3).
  destruct (add_cell n s s' dn (fst c) (map pos (snd c)) N X1 X2 X3) as (g & a & s1 & s1' & EG & EC & N1 & V1 & I1). rewrite EG, EC. cbn [of_option rbind].
  exists st2, s1, s1'. auto 8.
Qed.

Lemma cells_loop n cs : forall s s' dn st rest, Forall (cell_ok cfg n) cs -> ninv n s s' dn -> fed st (List.concat (map cell_words cs) ++ rest) ->
  exists st1 s1 s1', rfold (read_cell cfg) (seq (List.length dn) (List.length cs)) (st, s) = Done (st1, s1) /\ ninv n s1 s1' (dn ++ cells_of cs) /\
    m_nodes (st_mesh s1') Vertex = m_nodes (st_mesh s') Vertex /\ m_idgen (st_mesh s1) Vertex = m_idgen (st_mesh s) Vertex /\ fed st1 rest /\ (tight st -> tight st1).
Proof.
  induction cs as [|c cs IH]; intros s s' dn st rest C N FD; cbn [List.length seq rfold map List.concat cells_of] in *.
  - exists st, s, s'. rewrite app_nil_r. auto 8.
  - inversion C; subst. rewrite <- app_assoc in FD.
    destruct (read_cell_spec n s s' dn c st _ N ltac:(assumption) FD) as (st1 & s1 & s1' & E1 & N1 & V1 & I1 & F1 & T1). rewrite E1. cbn [rbind].
    destruct (IH s1 s1' _ st1 rest ltac:(assumption) N1 F1) as (st2 & s2 & s2' & E2 & N2 & V2 & I2 & F2 & T2).
    rewrite app_length, Nat.add_1_r in E2. exists st2, s2, s2'. rewrite E2. rewrite <- app_assoc in N2. split; auto. split; auto. split; [congruence|]. split; [congruence|]. auto.
Qed.

Lemma cells_short n cs : forall k s s' dn st, Forall (cell_ok cfg n) cs -> ninv n s s' dn -> k < List.length (List.concat (map cell_words cs)) ->
  fed st (firstn k (List.concat (map cell_words cs))) -> tight st -> rfold (read_cell cfg) (seq (List.length dn) (List.length cs)) (st, s) = Thrown.
Proof.
  induction cs as [|c cs IH]; intros k s s' dn st C N L FD T; cbn [List.length seq rfold map List.concat] in *; [lia|].
  inversion C; subst. rewrite firstn_app in FD. destruct (Nat.lt_ge_cases k (List.length (cell_words c))) as [Lk|Lk].
  - replace (k - List.length (cell_words c)) with 0 in FD by lia. cbn [firstn] in FD. rewrite app_nil_r in FD. unfold read_cell.
    destruct k as [|k]; cbn [firstn cell_words] in FD; [now rewrite (tight_end st FD T)|].
    rewrite (fed_good _ _ _ FD). destruct (fed_int st (fst c) _ FD) as (st1 & E1 & F1 & T1). rewrite E1. cbn [rbind fst snd].
    assert (V : verts_ok n (st_mesh s)).
    { destruct (n_verts _ _ _ _ N) as [V1 V2]. destruct (n_sim _ _ _ _ N) as (S & _). split; [rewrite (sim2_range cfg _ _ _ S); auto|].
      intros i Hi. unfold id_at. rewrite (sim2_deref cfg _ _ _ _ S). now apply V2. }
    match goal with H : cell_ok _ _ c |- _ => destruct H as (C1 & C2 & C3) end. rewrite <- C1.
    cbn [cell_words List.length] in Lk. rewrite map_length in Lk. rewrite (corners_short n _ _ V C3 k); auto. lia.
  - rewrite firstn_all2 in FD by auto.
    destruct (read_cell_spec n s s' dn c st _ N ltac:(assumption) FD) as (st1 & s1 & s1' & E1 & N1 & V1 & I1 & F1 & T1). rewrite E1. cbn [rbind].
    rewrite app_length in L. specialize (IH (k - List.length (cell_words c)) s1 s1' _ st1 ltac:(assumption) N1 ltac:(lia) F1 (T1 T)).
    rewrite app_length, Nat.add_1_r in IH. exact IH.
Qed.

(** Before the first cell. *)
Lemma start_inv ps (m m' : mesh) : reach cfg m' -> same_but_generator m m' -> m_nodes m Vertex = vertex_nodes ps -> (forall t', t' <> Vertex -> m_nodes m t' = []) ->
  m_idgen m t = 0 -> ninv (List.length ps) (with_mesh (new_sstate empty_mesh) m) (new_sstate m') [].
Proof.
  intros R S N NO G. constructor; cbn [st_mesh with_mesh new_sstate st_segs]; auto.
  - destruct S as (S1 & S2 & S3 & S4 & S5). repeat split; cbn; auto.
  - constructor; auto.
  - apply numbered_new.
  - intros z. cbn. split; [|intros []]. intros (a & [] & _).
  - apply vertex_nodes_ok. rewrite <- N. symmetry. apply S.
  - rewrite <- (proj1 (proj2 (proj2 S)) t TV), G. reflexivity.
  - unfold range. rewrite <- (proj1 S t), NO by auto. constructor.
  - unfold range. rewrite <- (proj1 S t), NO by auto. reflexivity.
  - intros t' a [e D] T. unfold deref in D. rewrite <- (proj1 S t'), NO in D by auto. discriminate D.
  - intros z t' x. split; [|intros (i & a & ks & X & _); destruct i; discriminate X]. intros (a & [X _] & _). destruct X.
Qed.

End Build.
