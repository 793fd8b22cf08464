(** Lemmas for C62 and C63: the mesh that the reader builds. *)
From Coq Require Import List Arith ZArith Bool Lia.
From Verif Require Import ModelTopo ModelMesh ModelErase ModelQuery ModelView ModelSegmentation ModelSegment ModelCopy ModelCopySeg ModelXml ModelVtk
  SpecMesh SpecErase SpecQuery SpecSegmentation SpecSegment SpecCopy SpecCopySeg SpecVtk MeshBase MeshInv MeshReach MeshWf MeshErase MeshSimple QueryBase SegmentationBase ViewBase SegmentView SegmentBase SegmentInv SegmentStep SegmentProofs
  CopyBase CopySegBase ExtractProofs VtkSim.
Import ModelSegmentation ListNotations.
Open Scope nat_scope.

Section Build.
Context {K : Type}.
Variable cfg : config.
Hypothesis NH : cfg_cell cfg <> Hex.
Hypothesis TV : cfg_cell cfg <> Vertex.
Notation pt := (list K).
Notation mesh := (@mesh pt).
Notation t := (cfg_cell cfg).

(** The vertices: numbers, addresses and ids are the same. *)
Definition verts_ok (n : nat) (m : mesh) : Prop := range m Vertex = seq 0 n /\ forall i, i < n -> id_at m Vertex i = Some i.

Lemma verts_lookup n m g : verts_ok n m -> g < n -> nth_error (range m Vertex) g = Some g /\ exists e, deref m Vertex g = Some e /\ e_id e = g.
Proof.
  intros [R I] G. split.
  - rewrite R. rewrite (nth_error_nth' _ 0) by (now rewrite seq_length). now rewrite seq_nth.
  - specialize (I g G). unfold id_at in I. destruct (deref m Vertex g) as [e|]; [|discriminate]. cbn in I. inversion I. exists e. split; congruence.
Qed.

(** What the text says about the cells: the numbers of their vertices. *)
Definition cell_number (c : @local K) (i j : nat) : option nat :=
  obind (nth_error (l_vertices c) (reorder t j + i * nverts t)) (fun k => nth_error (l_global c) k).
Record job_ok (n : nat) (c : @local K) (ks : list (list nat)) : Prop := {
  jo_offsets : l_offsets c = map (fun k => k * nverts t) (seq 1 (length ks));
  jo_len : forall k, In k ks -> length k = nverts t;
  jo_nodup : forall k, In k ks -> NoDup k;
  jo_lt : forall k, In k ks -> Forall (fun g => g < n) k;
  jo_cells : forall i k, nth_error ks i = Some k -> Forall2 (fun j g => cell_number c i j = Some g) (seq 0 (nverts t)) k
}.

(** Segments with vertices only. *)
Lemma part_of_vertex (s : sstate pt) v t' x : sreach cfg s -> (part_of (st_mesh s) t' x Vertex v <-> t' = Vertex /\ x = v).
Proof.
  intros R. pose proof (reach_inv cfg _ (si_reach cfg _ (sreach_inv cfg NH s R))) as I. split; [|intros [-> ->]; now left].
  intros [H|(e & D & B)]; auto. exfalso. apply deref_In in D as (nd & Hn & _ & <-).
  destruct (i_vv _ _ _ I nd Hn) as [V E]. unfold has_boundary, boundary_of in B. rewrite V, E in B. destruct t'; exact B.
Qed.

Definition cv_step (c : @local K) (z : Z) (off : nat) (r : sstate pt * (list addr * list nat)) (j : nat) : result (sstate pt * (list addr * list nat)) :=
  let '(s, (vs, ids)) := r in
    rbind (of_option (obind (nth_error (l_vertices c) (reorder t j + off)) (fun i =>
                      obind (nth_error (l_global c) i) (fun g =>
                      obind (nth_error (range (st_mesh s) Vertex) g) (fun v =>
                      option_map (fun e => (v, e_id e)) (deref (st_mesh s) Vertex v)))))) (fun vi =>
    rbind (add_by_id Vertex (fst vi) s z) (fun s' => Done (s', (vs ++ [fst vi], ids ++ [snd vi])))).

Lemma cell_vertices_spec n (c : @local K) z i js : forall ks (s : sstate pt) vs ids, sreach cfg s -> numbered (st_segs s) -> has_id (st_segs s) z -> verts_ok n (st_mesh s) ->
  Forall2 (fun j g => cell_number c i j = Some g) js ks -> Forall (fun g => g < n) ks ->
  exists s', rfold (cv_step c z (i * nverts t)) js (s, (vs, ids)) = Done (s', (vs ++ ks, ids ++ ks)) /\
    sreach cfg s' /\ numbered (st_segs s') /\ st_mesh s' = st_mesh s /\
    (forall z' t' x, in_segment_id s' z' t' x <-> in_segment_id s z' t' x \/ (z' = z /\ t' = Vertex /\ In x ks)) /\
    (forall z', has_id (st_segs s') z' <-> has_id (st_segs s) z').
Proof.
  induction js as [|j js IH]; intros ks s vs ids R N H V F L; inversion F as [|? g ? ks' Fj F']; subst; cbn [rfold].
  - exists s. rewrite !app_nil_r. split; auto. split; auto. split; auto. split; auto. split; [|tauto]. intros. cbn. tauto.
  - inversion L as [|? ? Lg L']; subst. destruct (verts_lookup n _ g V Lg) as (RG & e & D & I).
    assert (Lv : is_live (st_mesh s) Vertex g) by (exists e; auto).
    destruct (add_by_id_spec cfg NH s Vertex g z R N Lv) as (s1 & E1 & R1 & N1 & M1 & IN1 & H1).
    unfold cell_number in Fj. unfold cv_step at 1. destruct (nth_error (l_vertices c) _) as [k|]; [|discriminate Fj]. cbn [obind] in *. rewrite Fj. cbn [obind].
    rewrite RG. cbn [obind]. rewrite D. cbn [option_map of_option rbind fst snd]. rewrite E1. cbn [rbind]. rewrite I.
    assert (HZ : forall z', has_id (st_segs s1) z' <-> has_id (st_segs s) z') by (intros z'; rewrite H1; split; [intros [X| ->]; auto|auto]).
    destruct (IH ks' s1 (vs ++ [g]) (ids ++ [g])) as (s2 & E2 & R2 & N2 & M2 & IN2 & H2); auto.
    { now apply HZ. } { now rewrite M1. }
    exists s2. split; [rewrite E2, <- !app_assoc; reflexivity|]. split; auto. split; auto. split; [congruence|]. split.
    + intros z' t' x. rewrite IN2, IN1, part_of_vertex by auto. cbn [In]. split.
      * intros [[X|(-> & -> & ->)]|(-> & -> & X)]; auto.
      * intros [X|(-> & -> & [<-|X])]; auto.
    + intros z'. rewrite H2. apply HZ.
Qed.

(** The mesh and the segments so far; [dn]: the cells that have been read, with
    the ids of the segments. *)
Record binv (n : nat) (zs : list Z) (s : sstate pt) (cells : list (list nat * addr)) (dn : list (Z * list nat)) : Prop := {
  bi_reach : sreach cfg s;
  bi_num : numbered (st_segs s);
  bi_ids : forall z, has_id (st_segs s) z <-> In z zs;
  bi_verts : verts_ok n (st_mesh s);
  bi_range : range (st_mesh s) t = rev (map snd cells);
  bi_cells : forall k a, In (k, a) cells -> vertices_at (st_mesh s) t a = Some k;
  bi_keys : NoDup (map fst cells);
  bi_dn : forall z k, In (z, k) dn -> In k (map fst cells);
  bi_all : forall k, In k (map fst cells) -> exists z, In (z, k) dn;
  bi_in : forall z t' x, in_segment_id s z t' x <-> exists k a, In (z, k) dn /\ In (k, a) cells /\ part_of (st_mesh s) t' x t a;
  bi_rest : forall t' a e, t' <> Vertex -> deref (st_mesh s) t' a = Some e -> exists k c, In (k, c) cells /\ incl (e_verts e) k
}.

Lemma find_cell_some k (cells : list (list nat * addr)) a : find_cell k cells = Some a -> In (k, a) cells.
Proof.
  unfold find_cell. destruct (find _ cells) as [[k' a']|] eqn:E; [|discriminate]. cbn. intros H. inversion H; subst.
  apply find_some in E as [I E]. apply key_equiv_eq in E. cbn in E. now subst.
Qed.
Lemma find_cell_none k (cells : list (list nat * addr)) : find_cell k cells = None -> ~ In k (map fst cells).
Proof.
  unfold find_cell. destruct (find _ cells) as [p|] eqn:E; [discriminate|]. intros _ H. apply in_map_iff in H as ((k' & a) & E' & H). cbn in E'. subst.
  apply (find_none _ _ E) in H. cbn in H. assert (X : key_equiv k k = true) by (apply key_equiv_eq; auto). congruence.
Qed.

Lemma part_frame (m m' : mesh) t' x h a : frame m m' -> is_live m h a -> (part_of m' t' x h a <-> part_of m t' x h a).
Proof. intros F L. unfold part_of. now rewrite (frame_bounded m m' h a t' x F L). Qed.

Lemma vertex_part (m : mesh) a k x : vertices_at m t a = Some k -> In x k -> part_of m Vertex x t a.
Proof.
  intros V H. unfold vertices_at in V. destruct (deref m t a) as [e|] eqn:D; [|discriminate]. cbn in V. inversion V; subst.
  right. exists e. split; auto.
Qed.

Lemma setup_cell_spec n zs (c : @local K) ks z i k s cells loc dn : job_ok n c ks -> nth_error ks i = Some k -> In z zs -> binv n zs s cells dn ->
  exists s' cells' a, setup_cell cfg c z (mkBu s cells loc) i = Done (mkBu s' cells' (loc ++ [a])) /\
    binv n zs s' cells' (dn ++ [(z, k)]) /\ In (k, a) cells' /\ incl cells cells' /\ m_nodes (st_mesh s') Vertex = m_nodes (st_mesh s) Vertex.
Proof.
  intros J Hk Hz B. assert (Ik : In k ks) by (eapply nth_error_In; eauto). assert (Li : i < length ks) by (apply nth_error_Some; congruence).
  pose proof (jo_len _ _ _ J k Ik) as Lk.
  unfold setup_cell.
  assert (OF : (match i with
                | 0 => option_map (pair 0) (nth_error (l_offsets c) 0)
                | S k => obind (nth_error (l_offsets c) k) (fun o => obind (nth_error (l_offsets c) (S k)) (fun o' => if o' <? o then None else Some (o, o' - o)))
                end) = Some (i * nverts t, nverts t)).
  { rewrite (jo_offsets _ _ _ J).
    assert (NE : forall p, p < length ks -> nth_error (map (fun k => k * nverts t) (seq 1 (length ks))) p = Some (S p * nverts t)).
    { intros p Hp. rewrite (map_nth_error _ p _ (d := S p)); auto. rewrite (nth_error_nth' _ 0) by (now rewrite seq_length). rewrite seq_nth; auto. }
    destruct i as [|p]; [rewrite NE by auto; cbn; now rewrite Nat.add_0_r|]. rewrite !NE by lia. cbn [obind].
    destruct (Nat.ltb_spec (S (S p) * nverts t) (S p * nverts t)); [cbn in *; lia|]. f_equal. f_equal. cbn. lia. }
  rewrite OF. cbn [of_option rbind fst snd]. clear OF.
  unfold cell_vertices. rewrite Nat.ltb_irrefl. cbn [bu_st bu_cells bu_local].
  change (fun r j => _) with (cv_step c z (i * nverts t)).
  destruct (cell_vertices_spec n c z i (seq 0 (nverts t)) k s [] []) as (s1 & E1 & R1 & N1 & M1 & IN1 & H1).
  { exact (bi_reach _ _ _ _ _ B). } { exact (bi_num _ _ _ _ _ B). } { now apply (bi_ids _ _ _ _ _ B). } { exact (bi_verts _ _ _ _ _ B). }
  { apply (jo_cells _ _ _ J); auto. } { apply (jo_lt _ _ _ J); auto. }
  rewrite E1. cbn [rbind app]. clear E1.
  destruct (find_cell k cells) as [h|] eqn:FC.
  - apply find_cell_some in FC. pose proof (bi_cells _ _ _ _ _ B k h FC) as Vh.
    assert (Lh : is_live (st_mesh s1) t h).
    { rewrite M1. unfold vertices_at in Vh. destruct (deref (st_mesh s) t h) as [e|] eqn:D; [|discriminate]. exists e; auto. }
    destruct (add_by_id_spec cfg NH s1 t h z R1 N1 Lh) as (s2 & E2 & R2 & N2 & M2 & IN2 & H2). rewrite E2. cbn [rbind].
    exists s2, cells, h. split; [reflexivity|]. rewrite M1 in *. split; [|split; auto; split; [intros ? ?; auto|now rewrite M2]].
    destruct B as [BR BN BI BV BG BC BK BD BA BIN BRE]. constructor; auto.
    + intros z'. rewrite H2, H1. split; [intros [X| ->]; auto; now apply BI|]. intros X. left. now apply BI.
    + now rewrite M2.
    + now rewrite M2.
    + intros. rewrite M2. now apply BC.
    + intros z' k' H. apply in_app_iff in H as [H|[H|[]]]; [eauto|]. inversion H; subst. apply (in_map fst) in FC. exact FC.
    + intros k' H. destruct (BA k' H) as (z' & H'). exists z'. apply in_app_iff. auto.
    + intros z' t' x. rewrite M2, IN2, IN1, BIN. split.
      * intros [[(k' & a & X1 & X2 & X3)|(-> & -> & X)]|(-> & X)].
        -- exists k', a. rewrite in_app_iff. auto.
        -- exists k, h. rewrite in_app_iff. split; [right; now left|]. split; auto. eapply vertex_part; eauto.
        -- exists k, h. rewrite in_app_iff. split; [right; now left|]. auto.
      * intros (k' & a & X1 & X2 & X3). apply in_app_iff in X1 as [X1|[X1|[]]]; [left; left; eauto|]. inversion X1; subst z' k'. right. split; auto.
        assert (a = h); [|now subst].
        clear - BK X2 FC. induction cells as [|[k0 a0] cells IH]; [easy|]. cbn [map fst] in BK. inversion BK; subst.
        destruct X2 as [X2|X2], FC as [FC|FC]; try congruence; auto.
        -- inversion X2; subst. apply (in_map fst) in FC. contradiction.
        -- inversion FC; subst. apply (in_map fst) in X2. contradiction.
    + intros t' a e T D. rewrite M2 in D. eauto.
  - apply find_cell_none in FC.
    destruct (make_id_spec cfg NH s1 z R1 N1) as (g & b & EG & RG & NG & IB & ING & HG). rewrite EG.
    set (s1g := with_segs s1 g) in *. assert (M1g : st_mesh s1g = st_mesh s) by (unfold s1g; cbn; auto).
    assert (Sb : is_segment s1g b) by (apply in_range; eauto).
    assert (VO : valid_op cfg (st_mesh s) (OElement t k)).
    { split; [split; auto|]. split; auto. split; [now apply (jo_nodup _ _ _ J)|]. apply Forall_forall. intros x Hx.
      pose proof (jo_lt _ _ _ J k Ik) as LT. rewrite Forall_forall in LT. destruct (verts_lookup n _ x (bi_verts _ _ _ _ _ B) (LT x Hx)) as (_ & e & D & _). exists e; auto. }
    destruct (C20_create_pf pt cfg s1g b t k NH RG Sb) as (s2 & m' & h & ME & SC & M2 & GS & O & IN2). { now rewrite M1g. }
    change (st_mesh s1) with (st_mesh s1g). rewrite ME. cbn [of_option rbind]. rewrite SC. cbn [of_option rbind snd].
    assert (R2 : sreach cfg s2). { eapply (sr_step cfg s1g (SCreate b (OElement t k))); eauto. split; auto. split; [exact Logic.I|]. now rewrite M1g. }
    pose proof (by_id cfg NH s1g s2 b z (fun t' x => part_of m' t' x t h) RG R2 GS IB O IN2) as IN3.
    rewrite M1g in ME.
    pose proof (reach_inv cfg _ (si_reach cfg _ (sreach_inv cfg NH s (bi_reach _ _ _ _ _ B)))) as HI.
    destruct (valid_element_spec cfg (st_mesh s) t k HI VO) as (m2 & a2 & fr & ME2 & HI2 & P).
    rewrite ME in ME2. inversion ME2; subst m2 a2. clear ME2.
    assert (KF : keyed cfg t = false) by (unfold keyed; rewrite tag_eqb_refl; apply andb_false_r).
    destruct (p_self _ _ _ _ _ _ _ _ P KF) as [RA ->]. destruct (p_elem _ _ _ _ _ _ _ _ P) as (e2 & D2 & _ & X). destruct (X eq_refl) as (EV & _). clear X.
    destruct (p_vert _ _ _ _ _ _ _ _ P) as (PV & _). assert (FR : frame (st_mesh s) m') by exact (p_frame _ _ _ _ _ _ _ _ P).
    assert (Vh : vertices_at m' t h = Some k) by (unfold vertices_at; rewrite D2; cbn; now rewrite EV).
    exists s2, ((k, h) :: cells), h. split; [reflexivity|]. split; [|split; [now left|split; [intros ? ?; now right|now rewrite M2, PV]]].
    destruct B as [BR BN BI BV BG BC BK BD BA BIN BRE]. constructor; auto; rewrite ?GS; auto.
    + intros z'. change (st_segs s1g) with g. rewrite HG, H1. split; [intros [Y| ->]; auto; now apply BI|]. intros Y. left. now apply BI.
    + rewrite M2. destruct BV as [V1 V2]. split; [unfold range in *; now rewrite PV|]. intros i0 Hi. unfold id_at, deref in *. rewrite PV. now apply V2.
    + rewrite M2. cbn [map snd rev]. rewrite RA, BG. reflexivity.
    + intros k' a' [Y|Y]; rewrite M2; [inversion Y; subst; auto|]. specialize (BC k' a' Y). unfold vertices_at in *.
      destruct (deref (st_mesh s) t a') as [e|] eqn:D; [|discriminate]. now rewrite (FR _ _ _ D).
    + cbn [map fst]. constructor; auto.
    + intros z' k' Y. cbn [map fst In]. apply in_app_iff in Y as [Y|[Y|[]]]; [right; eauto|]. inversion Y; auto.
    + intros k' [<-|Y]; [exists z; apply in_app_iff; right; now left|]. destruct (BA k' Y) as (z' & Y'). exists z'. apply in_app_iff. auto.
    + intros z' t' x. rewrite IN3, M2. rewrite ING, IN1, BIN. split.
      * intros [[(k' & a & X1 & X2 & X3)|(-> & -> & Y)]|(-> & Y)].
        -- exists k', a. rewrite in_app_iff. split; auto. split; [now right|]. apply (part_frame (st_mesh s)); auto.
           specialize (BC k' a X2). unfold vertices_at in BC. destruct (deref (st_mesh s) t a) as [e|] eqn:D; [|discriminate]. exists e; auto.
        -- exists k, h. rewrite in_app_iff. split; [right; now left|]. split; [now left|]. eapply vertex_part; eauto.
        -- exists k, h. rewrite in_app_iff. split; [right; now left|]. split; [now left|]. auto.
      * intros (k' & a & X1 & X2 & X3). destruct X2 as [X2|X2].
        -- inversion X2; subst k' a. apply in_app_iff in X1 as [X1|[X1|[]]]; [exfalso; apply FC; eauto|]. inversion X1; subst. auto.
        -- apply in_app_iff in X1 as [X1|[X1|[]]].
           ++ left. left. exists k', a. split; auto. split; auto. apply (part_frame (st_mesh s) m'); auto.
              specialize (BC k' a X2). unfold vertices_at in BC. destruct (deref (st_mesh s) t a) as [e|] eqn:D; [|discriminate]. exists e; auto.
           ++ inversion X1; subst. apply (in_map fst) in X2. contradiction.
    + intros t' a e T D. rewrite M2 in D. destruct (p_new _ _ _ _ _ _ _ _ P _ _ _ D) as [Y|(_ & [(-> & -> & _)|(_ & _ & _ & Y & _)])].
      * destruct (BRE t' a e T Y) as (k' & c' & I' & I2). exists k', c'. split; [now right|auto].
      * exists k, h. split; [now left|]. assert (e = e2) by congruence. rewrite H, EV. intros ? ?; auto.
      * exists k, h. split; [now left|]. auto.
Qed.

Lemma setup_cells_spec n zs (c : @local K) ks z s cells dn : job_ok n c ks -> In z zs -> binv n zs s cells dn -> forall loc0,
  exists s' cells' loc, setup_cells cfg c z (length ks) (mkBu s cells loc0) = Done (mkBu s' cells' loc) /\
    binv n zs s' cells' (dn ++ map (pair z) ks) /\ Forall2 (fun k a => In (k, a) cells') ks loc /\ incl cells cells' /\ m_nodes (st_mesh s') Vertex = m_nodes (st_mesh s) Vertex.
Proof.
  intros J Hz B loc0. unfold setup_cells. cbn [bu_st bu_cells].
  assert (G : forall p q, ks = p ++ q -> forall s cells loc, binv n zs s cells (dn ++ map (pair z) p) -> Forall2 (fun k a => In (k, a) cells) p loc ->
    exists s' cells' loc', rfold (setup_cell cfg c z) (seq (length p) (length q)) (mkBu s cells loc) = Done (mkBu s' cells' loc') /\
    binv n zs s' cells' (dn ++ map (pair z) ks) /\ Forall2 (fun k a => In (k, a) cells') ks loc' /\ incl cells cells' /\ m_nodes (st_mesh s') Vertex = m_nodes (st_mesh s) Vertex).
  { intros p q. revert p. induction q as [|k q IH]; intros p E s0 cells0 loc B0 F0; cbn [length seq rfold].
    - rewrite app_nil_r in E. subst p. exists s0, cells0, loc. split; auto. split; auto. split; auto. split; [intros ? ?; auto|auto].
    - assert (Nk : nth_error ks (length p) = Some k) by (rewrite E, nth_error_app2, Nat.sub_diag by auto; reflexivity).
      destruct (setup_cell_spec n zs c ks z (length p) k s0 cells0 loc _ J Nk Hz B0) as (s1 & cells1 & a & E1 & B1 & I1 & M1 & V1).
      rewrite E1. cbn [rbind].
      destruct (IH (p ++ [k])) with (s := s1) (cells := cells1) (loc := loc ++ [a]) as (s2 & cells2 & loc2 & E2 & B2 & F2 & M2 & V2).
      + now rewrite <- app_assoc.
      + rewrite map_app. cbn [map]. now rewrite app_assoc.
      + apply Forall2_app; [|constructor; auto]. eapply Forall2_impl'; [|exact F0]. intros; apply M1; auto.
      + exists s2, cells2, loc2. rewrite app_length in E2. cbn [length] in E2. rewrite Nat.add_1_r in E2. split; [exact E2|]. split; auto. split; auto. split; [intros ? ?; auto|congruence]. }
  destruct (G [] ks eq_refl s cells []) as (s' & cells' & loc & E & B' & F & I & V).
  - cbn. now rewrite app_nil_r.
  - constructor.
  - exists s', cells', loc. auto.
Qed.


(** The vertices. *)
Definition vertex_nodes (ps : list pt) : list (@node pt) := map (fun ip => mkN (fst ip) [] (mkE (fst ip) [] [] (Some (snd ip)))) (combine (seq 0 (length ps)) ps).

Lemma combine_seq_snoc {A} (ps : list A) p j : combine (seq j (length (ps ++ [p]))) (ps ++ [p]) = combine (seq j (length ps)) ps ++ [(j + length ps, p)].
Proof.
  revert j. induction ps as [|q ps IH]; intros j; cbn [length app seq combine]; [now rewrite Nat.add_0_r|]. rewrite IH. cbn [app]. now rewrite Nat.add_succ_comm.
Qed.
Lemma ofold_app {A S} (f : S -> A -> option S) l1 l2 s : ofold f (l1 ++ l2) s = obind (ofold f l1 s) (ofold f l2).
Proof. revert s. induction l1 as [|x l1 IH]; intros s; cbn [app ofold obind]; auto. destruct (f s x); cbn [obind]; auto. Qed.

(** What set_max_id makes of the generator. *)
Lemma setup_vertices_spec (ps : list pt) : exists m m' : mesh, setup_vertices cfg ps empty_mesh = Some m /\ reach cfg m' /\ same_but_generator m m' /\
  m_nodes m Vertex = vertex_nodes ps /\ (forall t', t' <> Vertex -> m_nodes m t' = []) /\ m_next m' Vertex = length ps /\ m_idgen m' Vertex = length ps /\
  m_idgen m Vertex = (if Nat.even (length ps) then length ps else length ps - 1).
Proof.
  unfold setup_vertices. induction ps as [|p ps (m & m' & E & R & S & N & NO & X & G & GM)] using rev_ind.
  - exists empty_mesh, empty_mesh. cbn. repeat split; auto. constructor.
  - rewrite combine_seq_snoc, ofold_app, E. cbn [obind ofold fst snd].
    destruct (make_vertex_id_added cfg m (0 + length ps) p) as (m1 & E1 & A1 & G1). rewrite E1. cbn [option_map obind fst].
    destruct (make_vertex_added cfg m' p) as (m1' & E1' & A1' & G1'). rewrite G in A1'.
    exists m1, m1'. split; [reflexivity|]. destruct S as (S1 & S2 & S3 & S4 & S5).
    destruct A1 as (B1 & B2 & B3 & B4 & B5), A1' as (B1' & B2' & B3' & B4' & B5').
    assert (X' : m_next m Vertex = length ps) by now rewrite S2.
    split; [|split; [|split; [|split; [|split; [|split]]]]].
    + apply (reach_step cfg m' (OVertex p)); auto; [exact Logic.I|]. cbn [step]. now rewrite E1'.
    + repeat split; rewrite ?B4, ?B4', ?S4, ?B5, ?B5', ?S5, ?X, ?X'; auto.
      * intros t'. destruct (tag_eq_dec t' Vertex) as [->|T]; [rewrite B1, B1', S1, X, X'; auto|]. destruct (B2 t' T) as (-> & _). destruct (B2' t' T) as (-> & _). apply S1.
      * intros t'. destruct (tag_eq_dec t' Vertex) as [->|T]; [rewrite B3, B3', X, X'; auto|]. destruct (B2 t' T) as (_ & -> & _). destruct (B2' t' T) as (_ & -> & _). apply S2.
      * intros t' T. destruct (B2 t' T) as (_ & _ & ->). destruct (B2' t' T) as (_ & _ & ->). now apply S3.
    + rewrite B1, N, X'. unfold vertex_nodes. rewrite combine_seq_snoc, map_app. reflexivity.
    + intros t' T. destruct (B2 t' T) as (-> & _). now apply NO.
    + rewrite B3', X, app_length. reflexivity.
    + rewrite G1', G, app_length. reflexivity.
    + rewrite G1, GM, app_length. cbn [length]. rewrite Nat.add_0_l, Nat.add_1_r. unfold set_max_id. rewrite Nat.even_succ. rewrite <- Nat.negb_even.
      destruct (Nat.even (length ps)) eqn:EV; cbn [negb].
      * rewrite Nat.ltb_irrefl. lia.
      * assert (0 < length ps) by (destruct (length ps); [discriminate EV|lia]). destruct (Nat.ltb_spec (length ps - 1) (length ps)); lia.
Qed.

Lemma vertex_nodes_ok (m : mesh) ps : m_nodes m Vertex = vertex_nodes ps -> verts_ok (length ps) m.
Proof.
  intros N. unfold verts_ok, range, id_at, deref, find_node. rewrite N. unfold vertex_nodes. split.
  - rewrite map_map. cbn. generalize 0. clear. induction ps as [|p ps IH]; intros j; cbn; auto. f_equal. apply IH.
  - intros i Hi. enough (G : forall j, i < j + length ps -> j <= i -> option_map e_id (option_map n_el (find (fun n => n_addr n =? i) (map (fun ip : nat * pt => mkN (fst ip) [] (mkE (fst ip) [] [] (Some (snd ip)))) (combine (seq j (length ps)) ps)))) = Some i) by (apply G; lia).
    clear Hi N. induction ps as [|p ps IH]; intros j H1 H2; cbn in *; [lia|]. destruct (Nat.eqb_spec j i) as [->|]; [reflexivity|]. apply IH; lia.
Qed.
Lemma vertex_nodes_point (m : mesh) ps i : m_nodes m Vertex = vertex_nodes ps -> point_at m i = nth_error ps i.
Proof.
  intros N. unfold point_at, deref, find_node. rewrite N. unfold vertex_nodes.
  enough (G : forall j, j <= i -> obind (option_map n_el (find (fun n => n_addr n =? i) (map (fun ip : nat * pt => mkN (fst ip) [] (mkE (fst ip) [] [] (Some (snd ip)))) (combine (seq j (length ps)) ps)))) e_pt = nth_error ps (i - j)) by (rewrite G by lia; now rewrite Nat.sub_0_r).
  clear N. induction ps as [|p ps IH]; intros j H2; cbn [length seq combine map find].
  - destruct (i - j); reflexivity.
  - cbn [fst snd n_addr]. destruct (Nat.eqb_spec j i) as [->|]; [now rewrite Nat.sub_diag|]. rewrite IH by lia. replace (i - j) with (S (i - S j)) by lia. reflexivity.
Qed.

(** The segments. *)
Lemma make_segments_spec l : forall s : sstate pt, sreach cfg s -> numbered (st_segs s) ->
  exists s', make_segments s l = Done s' /\ sreach cfg s' /\ numbered (st_segs s') /\ st_mesh s' = st_mesh s /\
    (forall z t' x, in_segment_id s' z t' x <-> in_segment_id s z t' x) /\ (forall z, has_id (st_segs s') z <-> has_id (st_segs s) z \/ In z (map fst l)).
Proof.
  unfold make_segments. induction l as [|[z k] l IH]; intros s R N; cbn [rfold map fst].
  - exists s. split; auto. split; auto. split; auto. split; auto. split; intros; cbn; tauto.
  - destruct (make_id_spec cfg NH s z R N) as (g & b & EG & RG & NG & IB & ING & HG). rewrite EG. cbn [rbind].
    destruct (IH (with_segs s g) RG NG) as (s' & E & R' & N' & M' & IN' & H'). exists s'. split; auto. split; auto. split; auto. split; [now rewrite M'|]. split.
    + intros. now rewrite IN', ING.
    + intros z'. rewrite H'. cbn [with_segs st_segs]. rewrite HG. cbn [In]. split; [intros [[H| ->]|H]; auto|intros [H|[<-|H]]; auto].
Qed.
Lemma make_segments_sim l (s s' : sstate pt) : same_state_but_generator s s' -> rP (@same_state_but_generator pt) (make_segments s l) (make_segments s' l).
Proof.
  intros S. unfold make_segments. apply rfold_sim; auto. clear. intros s s' [z k] S. cbn [fst]. rewrite <- (proj1 (proj2 S)). destruct (get_make_id z (st_segs s)); cbn; auto.
  now apply with_segs_sim.
Qed.

(** The data of one segment. *)
Definition deliver (reg : Z -> bool -> bool -> text -> target) (c : @local K) (z : Z) (loc : list addr) : option (list (@delivery K)) :=
  obind (omap (fun x => option_map (ModelVtk.mkD z false (fst x)) (scalar_values (l_global c) (snd x))) (l_pscal c)) (fun a =>
  obind (omap (fun x => option_map (ModelVtk.mkD z false (fst x)) (vector_values (reg z false true (fst x)) (l_global c) (snd x))) (l_pvec c)) (fun b1 =>
  obind (omap (fun x => option_map (ModelVtk.mkD z true (fst x)) (scalar_values loc (snd x))) (l_cscal c)) (fun c1 =>
  obind (omap (fun x => option_map (ModelVtk.mkD z true (fst x)) (vector_values (reg z true true (fst x)) loc (snd x))) (l_cvec c)) (fun d1 =>
  Some (a ++ b1 ++ c1 ++ d1))))).
Lemma setup_data_spec reg n (c : @local K) z s cells loc : verts_ok n (st_mesh s) -> Forall (fun g => g < n) (l_global c) ->
  setup_data reg c z (mkBu s cells loc) = deliver reg c z loc.
Proof.
  intros V L. unfold setup_data, deliver. cbn [bu_st bu_local].
  assert (E : omap (fun g => nth_error (range (st_mesh s) Vertex) g) (l_global c) = Some (l_global c)).
  { induction L as [|g l Hg L IH]; cbn [omap]; auto. destruct (verts_lookup n _ g V Hg) as (-> & _). cbn [obind]. rewrite IH. reflexivity. }
  rewrite E. reflexivity.
Qed.

(** All of it.  [jobs]: the ids of the segments and the cells, as numbers of vertices. *)
Lemma jobs_spec reg (r : @reader K) n zs (jobs : list (Z * list (list nat))) :
  (forall z ks, In (z, ks) jobs -> In z zs /\ job_ok n (r_local r z) ks /\ Forall (fun g => g < n) (l_global (r_local r z)) /\
     forall loc, length loc = length ks -> deliver reg (r_local r z) z loc <> None) ->
  forall s cells loc dn ds, binv n zs s cells dn ->
  exists s' cells' loc' new, rfold (fun bd zn => rbind (setup_cells cfg (r_local r (fst zn)) (fst zn) (snd zn) (fst bd)) (fun b =>
           rbind (of_option (setup_data reg (r_local r (fst zn)) (fst zn) b)) (fun d => Done (b, snd bd ++ d))))
      (map (fun j => (fst j, length (snd j))) jobs) (mkBu s cells loc, ds) = Done (mkBu s' cells' loc', ds ++ List.concat new) /\
    binv n zs s' cells' (dn ++ flat_map (fun j => map (pair (fst j)) (snd j)) jobs) /\ incl cells cells' /\ m_nodes (st_mesh s') Vertex = m_nodes (st_mesh s) Vertex /\
    Forall2 (fun j d => exists l, Forall2 (fun k a => In (k, a) cells') (snd j) l /\ deliver reg (r_local r (fst j)) (fst j) l = Some d) jobs new.
Proof.
  induction jobs as [|[z ks] jobs IH]; intros H s cells loc dn ds B; cbn [map flat_map rfold fst snd].
  - exists s, cells, loc, []. cbn. rewrite !app_nil_r. split; auto. split; auto. split; [intros ? ?; auto|]. split; auto.
  - destruct (H z ks (or_introl eq_refl)) as (Hz & J & LG & DL).
    destruct (setup_cells_spec n zs (r_local r z) ks z s cells dn J Hz B loc) as (s1 & cells1 & loc1 & E1 & B1 & F1 & I1 & V1). rewrite E1. cbn [rbind].
    rewrite (setup_data_spec reg n _ z s1 cells1 loc1 (bi_verts _ _ _ _ _ B1) LG).
    assert (Ll : length loc1 = length ks) by (clear - F1; induction F1; cbn; auto).
    destruct (deliver reg (r_local r z) z loc1) as [d|] eqn:D; [|destruct (DL loc1 Ll D)]. cbn [of_option rbind].
    destruct (IH (fun z' ks' X => H z' ks' (or_intror X)) s1 cells1 loc1 _ (ds ++ d) B1) as (s2 & cells2 & loc2 & new & E2 & B2 & I2 & V2 & F2).
    exists s2, cells2, loc2, (d :: new). cbn [List.concat]. rewrite app_assoc. split; [exact E2|]. split; [now rewrite app_assoc|]. split; [intros ? ?; auto|]. split; [congruence|].
    constructor; auto. cbn [fst snd]. exists loc1. split; auto. eapply Forall2_impl'; [|exact F1]. auto.
Qed.

Lemma numbered_new : numbered new_segmentation.
Proof. intros z. cbn. split; auto. Qed.

Lemma setup_spec reg (r : @reader K) (jobs : list (Z * list (list nat))) : let n := length (r_points r) in
  r_nums r = map (fun j => (fst j, length (snd j))) jobs ->
  (forall z ks, In (z, ks) jobs -> job_ok n (r_local r z) ks /\ Forall (fun g => g < n) (l_global (r_local r z)) /\
     forall loc, length loc = length ks -> deliver reg (r_local r z) z loc <> None) ->
  exists s s' cells new, setup cfg reg r (new_sstate empty_mesh) = Done (s, List.concat new) /\ same_state_but_generator s s' /\
    binv n (map fst jobs) s' cells (flat_map (fun j => map (pair (fst j)) (snd j)) jobs) /\ m_nodes (st_mesh s') Vertex = vertex_nodes (r_points r) /\
    Forall2 (fun j d => exists l, Forall2 (fun k a => In (k, a) cells) (snd j) l /\ deliver reg (r_local r (fst j)) (fst j) l = Some d) jobs new.
Proof.
  intros n EN H. unfold setup. cbn [new_sstate st_mesh].
  destruct (setup_vertices_spec (r_points r)) as (m & m' & E & R & S & N & NO & _). rewrite E. cbn [of_option rbind].
  change (with_mesh (new_sstate empty_mesh) m) with (new_sstate m).
  assert (S0 : same_state_but_generator (new_sstate m) (new_sstate m')) by (repeat split; cbn; auto; apply S).
  destruct (make_segments_spec (r_nums r) (new_sstate m') (sr_new cfg m' R) numbered_new) as (s1' & E1 & R1 & N1 & M1 & IN1 & H1).
  pose proof (make_segments_sim (r_nums r) _ _ S0) as P. rewrite E1 in P. destruct (make_segments (new_sstate m) (r_nums r)) as [s1| |]; cbn in P; try contradiction. cbn [rbind].
  cbn [new_sstate st_mesh st_segs] in *.
  assert (NV : m_nodes m' Vertex = vertex_nodes (r_points r)) by (rewrite <- N; symmetry; apply S).
  assert (B : binv n (map fst jobs) s1' [] []).
  { constructor; auto; cbn; try (rewrite ?M1; now intros); try easy.
    - intros z. rewrite H1, EN, map_map. cbn. split; [|auto]. intros [X|X]; auto. destruct X as (a & [] & _) || (exfalso; apply has_id_iff in X; destruct X as (a & [])).
    - rewrite M1. now apply vertex_nodes_ok.
    - rewrite M1. unfold range. rewrite <- (proj1 S t). rewrite NO; auto.
    - constructor.
    - intros z t' x. rewrite IN1. split; [|intros (k & a & [] & _)]. intros (a & [X _] & _). destruct X.
    - intros t' a e T D. rewrite M1 in D. unfold deref in D. rewrite <- (proj1 S t'), NO in D by auto. discriminate D. }
  destruct (jobs_spec reg r n (map fst jobs) jobs) with (s := s1') (cells := @nil (list nat * addr)) (loc := @nil addr) (dn := @nil (Z * list nat)) (ds := @nil (@delivery K)) as (s2' & cells & loc & new & E2 & B2 & _ & V2 & F2).
  { intros z ks X. split; [apply (in_map fst) in X; exact X|]. now apply H. } { exact B. }
  pose proof (jobs_sim cfg TV reg r (r_nums r) (mkBu s1 [] [], []) (mkBu s1' [] [], [])) as Q. rewrite EN in Q. rewrite E2 in Q. rewrite EN.
  match type of Q with _ -> rP _ ?x _ => destruct x as [[b d]| |] eqn:E3 end.
  2:{ exfalso. cbn in Q. apply Q. repeat split; cbn; auto; apply P. }
  2:{ exfalso. cbn in Q. apply Q. repeat split; cbn; auto; apply P. }
  destruct Q as [Q1 Q2]; [repeat split; cbn; auto; apply P|]. cbn [rbind fst snd app] in *. subst d.
  exists (bu_st b), s2', cells, new. split; auto. split; [apply Q1|]. split; auto. split; auto. rewrite V2, M1. exact NV.
Qed.

End Build.
