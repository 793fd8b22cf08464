From Coq Require Import Ascii String List Arith ZArith Bool Lia.
From Verif Require Import ModelTopo ModelMesh ModelErase ModelQuery ModelView ModelSegmentation ModelSegment ModelCopy ModelCopySeg ModelXml ModelVtk ModelNetgen
  SpecMesh SpecErase SpecQuery SpecSegmentation SpecSegment SpecCopy SpecCopySeg SpecVtk SpecNetgen MeshBase MeshInv MeshReach SegmentationBase SegmentInv SegmentStep
  VtkText VtkSim VtkBuild VtkDemo NetgenSim NetgenText NetgenBuild.
Import ModelSegmentation ListNotations.
Open Scope nat_scope.

Section Top.
Context {K : Type}.
Variable F : format K.
Variable cfg : config.
Hypothesis NH : cfg_cell cfg <> Hex.
Hypothesis TV : cfg_cell cfg <> Vertex.
Notation t := (cfg_cell cfg).

Lemma nth_error_eq {A} (l l' : list A) : (forall i, nth_error l i = nth_error l' i) -> l = l'.
Proof.
  revert l'. induction l as [|x l IH]; intros [|y l'] H; auto; [specialize (H 0); discriminate H|specialize (H 0); discriminate H|].
  pose proof (H 0) as H0. cbn in H0. inversion H0; subst. f_equal. apply IH. intros i. exact (H (S i)).
Qed.
Lemma fed_start s : fed (mkStream s true) (words_of s). Proof. split; auto. Qed.

(** The part of the reader before the cells. *)
Lemma before_cells file ps wv w rest : vertices_part F ps wv -> points_ok F ps -> words_of file = wv ++ w :: rest ->
  exists st m m', (forall s : sstate (list K), st_mesh s = empty_mesh -> read_netgen F cfg (Some file) s =
      rbind (next_int st) (fun r =>
        let cell_num := match fst r with Some z => z | None => 0%Z end in
        rbind (rfold (read_cell cfg) (seq 0 (Z.to_nat cell_num)) (snd r, with_mesh s m)) (fun y => Done (snd y)))) /\
    fed st (w :: rest) /\ (ends_in_word file -> tight st) /\ ninv cfg (List.length ps) (with_mesh (new_sstate empty_mesh) m) (new_sstate m') [] /\
    m_nodes m' Vertex = vertex_nodes ps /\ m_idgen m Vertex = next_id (List.length ps).
Proof.
  intros (wps & HW & ->) [PN PD] E. pose proof (fed_start file) as FS. rewrite E in FS. cbn [app] in FS.
  destruct (fed_int _ _ _ FS) as (st1 & E1 & F1 & T1).
  destruct (vertices_loop F cfg wps ps HW PD 0 st1 empty_mesh w rest F1) as (st2 & m & E2 & E3 & F2 & T2).
  destruct (setup_vertices_spec cfg ps) as (m0 & m' & S0 & R & S & N & NO & X & G & GM). unfold setup_vertices in S0. rewrite E2 in S0. inversion S0; subst m0.
  assert (GC : m_idgen m t = 0).
  { assert (Q : forall l (a b : @mesh (list K)), ofold (fun m ip => option_map fst (make_vertex_with_id cfg m (fst ip) (snd ip))) l a = Some b -> m_idgen b t = m_idgen a t).
    { induction l as [|ip l IH]; intros a b H; cbn [ofold] in H; [now inversion H|].
      destruct (make_vertex_id_added cfg a (fst ip) (snd ip)) as (m1 & Em & (_ & V2 & _) & _). rewrite Em in H. cbn [option_map obind fst] in H. rewrite (IH _ _ H). now apply V2. }
    rewrite (Q _ _ _ E2). reflexivity. }
  exists st2, m, m'. split; [|split; [auto|split; [|split; [now apply (start_inv cfg TV ps)|split]]]].
  - intros s Es. unfold read_netgen. rewrite E1. cbn [rbind fst snd]. destruct (Z.leb_spec (Z.of_nat (List.length ps)) 0).
    { destruct ps; [congruence|]. cbn in *. lia. }
    rewrite Nat2Z.id, Es, E3. cbn [rbind fst snd]. rewrite (fed_good _ _ _ F2). reflexivity.
  - intros EW. apply T2, T1. right. exact EW.
  - rewrite <- N. symmetry. apply S.
  - exact GM.
Qed.

Lemma finish ps cs (s s' : sstate (list K)) : ninv cfg (List.length ps) s s' (cells_of cs) -> Forall (cell_ok cfg (List.length ps)) cs -> m_nodes (st_mesh s') Vertex = vertex_nodes ps -> mesh_of_file cfg s ps cs.
Proof.
  intros [NS NR NN NI NV NG NG' NC NCI NRE NIN] CO N.
  assert (SM := NS). destruct SM as (SM & SS & SC & SP & SA).
  assert (RG : forall t', range (st_mesh s) t' = range (st_mesh s') t') by (intros; now apply (sim2_range cfg)).
  assert (DR : forall t' a, deref (st_mesh s) t' a = deref (st_mesh s') t' a) by (intros; now apply (sim2_deref cfg)).
  assert (VA : forall t' a, vertices_at (st_mesh s) t' a = vertices_at (st_mesh s') t' a) by (intros; unfold vertices_at; now rewrite DR).
  assert (IA : forall t' a, id_at (st_mesh s) t' a = id_at (st_mesh s') t' a) by (intros; unfold id_at; now rewrite DR).
  assert (PO : forall t' x h a, part_of (st_mesh s) t' x h a <-> part_of (st_mesh s') t' x h a).
  { intros. unfold part_of, bounded_by. split; (intros [Y|(e & D & B)]; [now left|right; exists e; split; auto]); [now rewrite <- DR|now rewrite DR]. }
  assert (IS : forall z t' x, in_segment_id s z t' x <-> in_segment_id s' z t' x).
  { intros. unfold in_segment_id, segment_has_id, is_segment, in_segment. rewrite SS, SC. tauto. }
  constructor.
  - rewrite RG, (proj1 NV). apply nth_error_eq. intros i. rewrite !nth_error_map.
    destruct (Nat.lt_ge_cases i (List.length ps)) as [L|L].
    + rewrite (nth_error_nth' _ 0) by (now rewrite seq_length). rewrite seq_nth by auto. cbn [option_map Nat.add].
      assert (PA : point_at (st_mesh s) i = point_at (st_mesh s') i) by (unfold point_at; now rewrite DR).
      rewrite PA, (vertex_nodes_point _ ps i N). destruct (nth_error ps i) eqn:E; auto. apply nth_error_None in E. lia.
    + rewrite (proj2 (nth_error_None _ _)) by (now rewrite seq_length). rewrite (proj2 (nth_error_None _ _)) by auto. reflexivity.
  - rewrite RG, (proj1 NV). apply map_ext_in. intros i Hi. apply in_seq in Hi. rewrite IA. apply (proj2 NV). lia.
  - rewrite !RG. unfold cells_of in NC. assert (Y : exists l, range (st_mesh s') t = l) by eauto. destruct Y as (l & Y). rewrite Y in *. clear - NC CO VA RG NV.
    revert l NC. induction CO as [|c cs Hc CO IH]; intros l NC; cbn [map] in NC; inversion NC as [|a ? ? ? Ha NC']; subst; constructor; auto.
    cbn [snd] in Ha. exists (map pos (snd c)). split; [now rewrite VA|]. destruct Hc as (_ & _ & Hk). clear - Hk NV RG.
    induction Hk as [|k ks Hk Hks IH]; cbn [map]; constructor; auto. apply (verts_lookup (List.length ps) _ (pos k) NV). unfold pos. lia.
  - rewrite RG. unfold cells_of in NCI. rewrite map_length in NCI. rewrite <- NCI. apply map_ext. auto.
  - intros t' a [e D] T. rewrite RG. destruct (NRE t' a) as (c & I & P); auto; [exists e; now rewrite <- DR|]. exists c. split; auto. now apply PO.
  - intros z t' x. rewrite IS, NIN, RG. unfold cells_of. split.
    + intros (i & a & ks & X1 & X2 & X3). rewrite nth_error_map in X1. destruct (nth_error cs i) as [[z' ks']|] eqn:EC; [|discriminate]. cbn in X1. inversion X1; subst.
      exists i, a, ks'. split; [exact EC|]. split; [exact X2|]. apply PO. exact X3.
    + intros (i & a & ks & X1 & X2 & X3). exists i, a, (map pos ks). rewrite nth_error_map, X1. split; [reflexivity|]. split; [exact X2|]. apply PO. exact X3.
  - intros z.
    specialize (NI z). unfold cells_of in NI. rewrite map_map in NI. cbn in NI. change (map (fun x => fst x) cs) with (map fst cs) in NI. rewrite <- NI. unfold segment_has_id, is_segment, has_id. now rewrite SS.
Qed.

Lemma read_spec file ps cs ws tail : file_words F ps cs ws -> words_of file = ws ++ tail -> points_ok F ps -> Forall (cell_ok cfg (List.length ps)) cs ->
  exists s s', read_netgen F cfg (Some file) (new_sstate empty_mesh) = Done s /\ mesh_of_file cfg s ps cs /\ sreach cfg s' /\ same_state_but_ids t s s' /\
    m_idgen (st_mesh s) Vertex = next_id (List.length ps) /\ m_idgen (st_mesh s) t = next_id (List.length cs).
Proof.
  intros (wv & VP & ->) E P C. unfold cells_part in E. rewrite <- app_assoc in E. cbn [app] in E.
  destruct (before_cells file ps wv _ _ VP P E) as (st & m & m' & R & FD & _ & N & NV & GV). rewrite R by reflexivity. clear R.
  destruct (fed_int _ _ _ FD) as (st1 & E1 & F1 & _). rewrite E1. cbn [rbind fst snd]. rewrite Nat2Z.id.
  destruct (cells_loop cfg NH TV (List.length ps) cs _ _ [] st1 tail C N F1) as (st2 & s & s' & E2 & N2 & V2 & I2 & _). cbn [List.length] in E2. rewrite E2. cbn [rbind snd app] in *.
  exists s, s'. split; auto. split; [apply (finish ps cs s s'); auto; now rewrite V2|]. split; [apply N2|]. split; [apply N2|].
  split; [rewrite I2; exact GV|]. rewrite (n_gen' _ _ _ _ _ N2). unfold cells_of. now rewrite map_length.
Qed.
End Top.

Lemma C67_read_pf : forall (K : Type) (F : format K) (cfg : config) file ps cs ws tail,
  cfg_cell cfg <> Hex -> cfg_cell cfg <> Vertex -> file_words F ps cs ws -> words_of file = ws ++ tail ->
  points_ok F ps -> Forall (cell_ok cfg (List.length ps)) cs ->
  exists s, read_netgen F cfg (Some file) (new_sstate empty_mesh) = Done s /\ mesh_of_file cfg s ps cs /\
    exists s', sreach cfg s' /\ same_state_but_ids (cfg_cell cfg) s s'.
Proof.
  intros K F cfg file ps cs ws tail NH TV FW E P C. destruct (read_spec F cfg NH TV file ps cs ws tail FW E P C) as (s & s' & R & M & SR & SS & _). exists s. split; auto. split; auto. exists s'. auto.
Qed.

Lemma C68_truncated_partial_pf : forall (K : Type) (F : format K) (cfg : config) file ps cs ws k,
  cfg_cell cfg <> Hex -> cfg_cell cfg <> Vertex -> file_words F ps cs ws -> 0 < k < List.length ws -> words_of file = firstn k ws -> ends_in_word file ->
  points_ok F ps -> Forall (cell_ok cfg (List.length ps)) cs -> read_netgen F cfg (Some file) (new_sstate empty_mesh) = Thrown.
Proof.
  intros K F cfg file ps cs ws k NH TV (wv & VP & ->) L E EW P C. rewrite firstn_app in E. rewrite app_length in L.
  destruct (Nat.lt_ge_cases (List.length wv) k) as [Lk|Lk].
  - rewrite firstn_all2 in E by lia. destruct (k - List.length wv) as [|q] eqn:Q; [lia|]. unfold cells_part in E, L. cbn [firstn List.length] in E, L.
    destruct (before_cells F cfg TV file ps wv _ _ VP P E) as (st & m & m' & R & FD & T & N & NV & _). rewrite R by reflexivity. clear R.
    destruct (fed_int _ _ _ FD) as (st1 & E1 & F1 & T1). rewrite E1. cbn [rbind fst snd]. rewrite Nat2Z.id.
    pose proof (cells_short cfg NH TV (List.length ps) cs q (with_mesh (new_sstate empty_mesh) m) (new_sstate m') [] st1 C N ltac:(lia) F1 (T1 (T EW))) as X.
    cbn [List.length] in X. rewrite X. reflexivity.
  - replace (k - List.length wv) with 0 in E by lia. cbn [firstn] in E. rewrite app_nil_r in E. destruct VP as (wps & HW & ->). destruct P as [PN PD].
    destruct k as [|k]; [lia|]. cbn [firstn List.length] in E, Lk.
    pose proof (fed_start file) as FS. rewrite E in FS. destruct (fed_int _ _ _ FS) as (st1 & E1 & F1 & T1).
    unfold read_netgen. rewrite E1. cbn [rbind fst snd]. destruct (Z.leb_spec (Z.of_nat (List.length ps)) 0). { destruct ps; [congruence|]. cbn in *. lia. }
    rewrite Nat2Z.id. destruct (vertices_short F cfg wps ps HW PD k 0 st1 (st_mesh (new_sstate empty_mesh))) as [X|(st2 & m & X & G)]; auto; [lia|apply T1; right; exact EW| |].
    + rewrite X. reflexivity.
    + rewrite X. cbn [rbind fst]. now rewrite G.
Qed.

Lemma C68_no_cells_refuted_pf : forall (K : Type) (F : format K) (cfg : config) file ps ws b,
  cfg_cell cfg <> Hex -> cfg_cell cfg <> Vertex -> vertices_part F ps ws -> points_ok F ps -> words_of file = ws -> ends_in_word file -> separator b = true ->
  exists s, read_netgen F cfg (Some (file ++ [b])) (new_sstate empty_mesh) = Done s /\ mesh_of_file cfg s ps [].
Proof.
  intros K F cfg file ps ws b NH TV VP P E EW B.
  assert (A0 : forall s w x, split_words w (s ++ b :: x) = split_words w s ++ words_of x).
  { intros s w x. revert w. induction s as [|c s IH]; intros w; cbn [app split_words].
    - rewrite B. destruct w; reflexivity.
    - destruct (separator c); [destruct w; [apply IH|cbn; now rewrite IH]|apply IH]. }
  assert (W2 : words_of (file ++ [b]) = ws) by (unfold words_of; rewrite A0; fold (words_of file); rewrite E; apply app_nil_r).
  destruct VP as (wps & HW & ->). destruct P as [PN PD].
  pose proof (fed_start (file ++ [b])) as FS. rewrite W2 in FS.
  assert (BL : forall st u v, sm_text st = u ++ [b] -> sm_good st = true -> words_of (sm_text st) = v -> forall w rs, v = w :: rs ->
     exists st' u', next_word st = (Some w, st') /\ sm_text st' = u' ++ [b] /\ sm_good st' = true /\ words_of (sm_text st') = rs).
  { intros st u v Et Gd Ew w rs ->. unfold next_word. rewrite Gd. pose proof (read_word_words (sm_text st)) as R. destruct (read_word (sm_text st)) as [[w' r]|] eqn:RW.
    - destruct R as [R (y & Ey)]. rewrite R in Ew. inversion Ew; subst w' rs.
      assert (NE : r <> []).
      { intros ->. rewrite app_nil_r in Ey. unfold read_word in RW. destruct (skip_blanks (sm_text st)) as [|c q] eqn:SB; [discriminate|].
        destruct (skip_app (sm_text st)) as (bb & Eb). rewrite SB in Eb. pose proof (take_app (c :: q)) as TA. apply some_inj in RW. symmetry in RW. rename RW into RW'. rewrite RW' in TA. cbn [fst snd] in TA. rewrite app_nil_r in TA.
        assert (LW : forall s z, take_word s = (z, []) -> s = z /\ Forall (fun c => blank c = false) z).
        { clear. induction s as [|c s IH]; intros z; cbn [take_word]; [intros [= <-]; split; auto|]. destruct (blank c) eqn:B; [discriminate|].
          destruct (take_word s) as [u r]. intros [= <- ->]. destruct (IH u eq_refl) as [-> H]. split; auto. }
        destruct (LW _ _ RW') as [_ FB]. rewrite <- TA in Eb. rewrite Et in Eb. destruct (@exists_last _ w) as (w0 & x & Ew0).
        { rewrite TA. discriminate. }
        rewrite Ew0 in Eb. rewrite app_assoc in Eb. apply app_inj_tail in Eb as [_ <-]. rewrite Ew0 in FB. apply Forall_app in FB as [_ FB]. inversion FB as [|? ? Fx _]; subst. rewrite sep_blank in B. congruence. }
      destruct (@exists_last _ r NE) as (r0 & x & Er). exists (mkStream r (match r with [] => false | _ => true end)), r0. cbn [sm_text sm_good].
      rewrite Et, Er, app_assoc in Ey. apply app_inj_tail in Ey as [_ <-]. split; [destruct r; auto; congruence|]. split; auto. split; auto. destruct r; congruence.
    - rewrite R in Ew. discriminate Ew. }
  assert (CO : forall wp p, point_text F wp p -> forall st u rs, sm_text st = u ++ [b] -> sm_good st = true -> words_of (sm_text st) = wp ++ rs ->
    exists st' u', read_coords F (List.length p) st = Done (p, st') /\ sm_text st' = u' ++ [b] /\ sm_good st' = true /\ words_of (sm_text st') = rs).
  { intros wp p H. induction H as [|w x wp p Hx H IH]; intros st u rs E1 E2 E3; cbn [List.length read_coords].
    - exists st, u. auto.
    - destruct (BL st u _ E1 E2 E3 w (wp ++ rs) eq_refl) as (st1 & u1 & N1 & A1 & A2 & A3). rewrite N1, Hx. cbn [of_option rbind fst snd].
      destruct (IH st1 u1 rs A1 A2 A3) as (st2 & u2 & N2 & B1 & B2 & B3). rewrite N2. cbn. exists st2, u2. auto. }
  assert (VL : forall wps ps, Forall2 (point_text F) wps ps -> Forall (fun p => List.length p = f_dim F) ps -> forall j st u (m : @mesh (list K)), sm_text st = u ++ [b] -> sm_good st = true -> words_of (sm_text st) = List.concat wps ->
    exists st' u' m', ofold (fun m ip => option_map fst (make_vertex_with_id cfg m (fst ip) (snd ip))) (combine (seq j (List.length ps)) ps) m = Some m' /\
    rfold (read_vertex F cfg) (seq j (List.length ps)) (st, m) = Done (st', m') /\ sm_text st' = u' ++ [b] /\ sm_good st' = true /\ words_of (sm_text st') = []).
  { clear - CO. intros wps ps H. induction H as [|wp p wps ps Hp H IH]; intros D j st u m E1 E2 E3; cbn [List.length seq combine ofold rfold List.concat fst snd] in *.
    - exists st, u, m. auto.
    - inversion D as [|? ? Dp D']; subst. unfold read_vertex at 1. cbn [fst snd]. rewrite E2, <- Dp.
      destruct (CO wp p Hp st u _ E1 E2 E3) as (st1 & u1 & N1 & A1 & A2 & A3). rewrite N1. cbn [rbind fst snd].
      destruct (make_vertex_id_added cfg m j p) as (m1 & M1 & _). rewrite M1. cbn [option_map obind of_option rbind fst].
      destruct (IH D' (S j) st1 u1 m1 A1 A2 A3) as (st2 & u2 & m2 & X). exists st2, u2, m2. exact X. }
  destruct (BL (mkStream (file ++ [b]) true) file _ eq_refl eq_refl W2 _ _ eq_refl) as (st1 & u1 & N1 & A1 & A2 & A3).
  destruct (VL wps ps HW PD 0 st1 u1 empty_mesh A1 A2 A3) as (st2 & u2 & m & E2 & E3 & B1 & B2 & B3).
  destruct (setup_vertices_spec cfg ps) as (m0 & m' & S0 & R & S & N & NO & X & G & GM). unfold setup_vertices in S0. rewrite E2 in S0. inversion S0; subst m0.
  assert (GC : m_idgen m (cfg_cell cfg) = 0).
  { assert (Q : forall l (a b : @mesh (list K)), ofold (fun m ip => option_map fst (make_vertex_with_id cfg m (fst ip) (snd ip))) l a = Some b -> m_idgen b (cfg_cell cfg) = m_idgen a (cfg_cell cfg)).
    { induction l as [|ip l IH]; intros a b0 H; cbn [ofold] in H; [now inversion H|].
      destruct (make_vertex_id_added cfg a (fst ip) (snd ip)) as (m1 & Em & (_ & V2 & _) & _). rewrite Em in H. cbn [option_map obind fst] in H. rewrite (IH _ _ H). now apply V2. }
    rewrite (Q _ _ _ E2). reflexivity. }
  exists (with_mesh (new_sstate empty_mesh) m). split.
  - unfold read_netgen. unfold next_int at 1. rewrite N1, int_of_num. cbn [of_option rbind fst snd]. destruct (Z.leb_spec (Z.of_nat (List.length ps)) 0). { destruct ps; [congruence|]. cbn in *. lia. }
    rewrite Nat2Z.id. change (st_mesh (new_sstate empty_mesh)) with (@empty_mesh (list K)). rewrite E3. cbn [rbind fst snd]. rewrite B2.
    assert (NW : exists st3, next_word st2 = (None, st3)).
    { unfold next_word. rewrite B2. pose proof (read_word_words (sm_text st2)) as RW. destruct (read_word (sm_text st2)) as [[w r]|]; [|eauto]. destruct RW as [RW _]. rewrite B3 in RW. discriminate RW. }
    destruct NW as (st3 & NW). unfold next_int. rewrite NW. reflexivity.
  - apply (finish cfg ps [] _ (new_sstate m')); [apply (start_inv cfg TV ps); auto|constructor|]. cbn. rewrite <- N. symmetry. apply S.
Qed.

Lemma C68_bad_number_refuted_pf : forall (K : Type) (F : format K) (cfg : config) file ps pre c post ws tail,
  cfg_cell cfg <> Hex -> cfg_cell cfg <> Vertex -> file_words F ps (pre ++ c :: post) ws -> words_of file = ws ++ tail ->
  points_ok F ps -> Forall (cell_ok cfg (List.length ps)) pre -> List.length (snd c) = nverts (cfg_cell cfg) -> Exists (fun k => ~ (1 <= k <= Z.of_nat (List.length ps))%Z) (snd c) ->
  read_netgen F cfg (Some file) (new_sstate empty_mesh) = Undefined.
Proof.
  intros K F cfg file ps pre c post ws tail NH TV (wv & VP & ->) E P C LC EX. unfold cells_part in E. rewrite <- app_assoc in E. cbn [app] in E.
  destruct (before_cells F cfg TV file ps wv _ _ VP P E) as (st & m & m' & R & FD & _ & N & _). rewrite R by reflexivity. clear R.
  destruct (fed_int _ _ _ FD) as (st1 & E1 & F1 & _). rewrite E1. cbn [rbind fst snd]. rewrite Nat2Z.id.
  rewrite app_length, seq_app. cbn [List.length seq]. rewrite Nat.add_0_l.
  rewrite map_app, concat_app, <- app_assoc in F1. cbn [map List.concat] in F1. rewrite <- app_assoc in F1.
  destruct (cells_loop cfg NH TV (List.length ps) pre _ _ [] st1 _ C N F1) as (st2 & s & s' & E2 & N2 & _ & _ & F2 & _). cbn [List.length] in E2.
  assert (RA : forall l1 l2 (x : stream * sstate (list K)), rfold (read_cell cfg) (l1 ++ l2) x = rbind (rfold (read_cell cfg) l1 x) (rfold (read_cell cfg) l2)).
  { clear. induction l1 as [|y l1 IH]; intros l2 x; cbn [app rfold rbind]; auto. destruct (read_cell cfg x y); cbn [rbind]; auto. }
  rewrite RA, E2. cbn [rbind rfold]. unfold read_cell at 1. unfold cell_words in F2. cbn [app] in F2. rewrite (fed_good _ _ _ F2).
  destruct (fed_int _ _ _ F2) as (st3 & E3 & F3 & _). rewrite E3. cbn [rbind fst snd].
  assert (V : verts_ok (List.length ps) (st_mesh s)).
  { destruct (n_verts _ _ _ _ _ N2) as [V1 V2]. destruct (n_sim _ _ _ _ _ N2) as (S & _). split; [rewrite (sim2_range cfg _ _ _ S); auto|].
    intros i Hi. unfold id_at. rewrite (sim2_deref cfg _ _ _ _ S). now apply V2. }
  rewrite <- LC. rewrite (corners_bad _ _ _ V EX st3 0 None [] _ F3). reflexivity.
Qed.

Lemma C67_next_id_refuted_pf : forall (K : Type) (F : format K) (cfg : config) file ps cs ws tail,
  cfg_cell cfg <> Hex -> cfg_cell cfg <> Vertex -> file_words F ps cs ws -> words_of file = ws ++ tail ->
  points_ok F ps -> Forall (cell_ok cfg (List.length ps)) cs ->
  exists s, read_netgen F cfg (Some file) (new_sstate empty_mesh) = Done s /\
    (Nat.odd (List.length ps) = true -> id_upper_bound (st_mesh s) Vertex = List.length ps - 1 /\
       forall p, exists m' v, make_vertex cfg (st_mesh s) p = Some (m', v) /\ id_at m' Vertex v = Some (List.length ps - 1)) /\
    (Nat.odd (List.length cs) = true -> id_upper_bound (st_mesh s) (cfg_cell cfg) = List.length cs - 1).
Proof.
  intros K F cfg file ps cs ws tail NH TV FW E P C. destruct (read_spec F cfg NH TV file ps cs ws tail FW E P C) as (s & s' & R & M & SR & SS & G1 & G2).
  exists s. split; auto. unfold id_upper_bound. rewrite G1, G2. unfold next_id. rewrite <- !Nat.negb_even. split.
  - intros O. unfold next_id in G1. destruct (Nat.even (List.length ps)); [discriminate|]. split; auto. intros p.
    destruct (make_vertex_added cfg (st_mesh s) p) as (m' & E1 & A & _). exists m', (m_next (st_mesh s) Vertex). split; auto.
    rewrite G1 in A.
    destruct A as (A & _). unfold id_at, deref, find_node. rewrite A.
    assert (FR : find (fun n => n_addr n =? m_next (st_mesh s) Vertex) (m_nodes (st_mesh s) Vertex) = None).
    { destruct SS as ((N & X & _) & _). rewrite N, X. pose proof (reach_inv cfg _ (si_reach cfg _ (sreach_inv cfg NH s' SR))) as HI.
      destruct (find _ _) as [n|] eqn:FN; auto. apply find_some in FN as [I Q]. apply Nat.eqb_eq in Q. exfalso. apply (fresh_addr cfg (st_mesh s') [] Vertex HI). unfold range. apply in_map_iff. exists n. auto. }
    assert (FA : forall (l1 l2 : list (@node (list K))) f, find f l1 = None -> find f (l1 ++ l2) = find f l2).
    { clear. induction l1 as [|y l1 IH]; intros l2 f H; cbn [app find] in *; auto. destruct (f y); [discriminate|auto]. }
    rewrite FA by exact FR. cbn. now rewrite Nat.eqb_refl.
  - intros O. destruct (Nat.even (List.length cs)); [discriminate|auto].
Qed.

Lemma C68_last_vertex_refuted_pf : exists (cfg : config) file s,
  read_netgen (nats false 2) cfg (Some file) (new_sstate empty_mesh) = Done s /\
  words_of file = map num [3; 1; 1; 2; 1; 1; 2; 1; 5; 1; 2]%Z /\ cfg_cell cfg = Triangle /\
  map (vertices_at (st_mesh s) Triangle) (range (st_mesh s) Triangle) = [Some [0; 1; 1]].
Proof.
  exists vtk_cfg, (txt "3 1 1 2 1 1 2 1 5 1 2 ").
  destruct (read_netgen (nats false 2) vtk_cfg (Some (txt "3 1 1 2 1 1 2 1 5 1 2 ")) (new_sstate empty_mesh)) as [s| |] eqn:E;
    [|exfalso; vm_compute in E; discriminate E|exfalso; vm_compute in E; discriminate E].
  exists s. split; auto. split; [reflexivity|]. split; [reflexivity|].
  assert (X : match read_netgen (nats false 2) vtk_cfg (Some (txt "3 1 1 2 1 1 2 1 5 1 2 ")) (new_sstate empty_mesh) with
    | Done s => map (vertices_at (st_mesh s) Triangle) (range (st_mesh s) Triangle) | _ => [] end = [Some [0; 1; 1]]) by (vm_compute; reflexivity).
  rewrite E in X. exact X.
Qed.

Lemma C67_append_refuted_pf : exists (cfg : config) file (m : @mesh (list nat)) s,
  reach cfg m /\ read_netgen (nats false 2) cfg (Some file) (new_sstate m) = Done s /\
  words_of file = map num [3; 1; 1; 2; 1; 1; 2; 1; 5; 1; 2; 3]%Z /\ cfg_cell cfg = Triangle /\
  map (vertices_at (st_mesh s) Triangle) (range (st_mesh s) Triangle) = [Some [0; 1; 2]] /\
  map (point_at (st_mesh s)) [0; 1; 2] = [Some [7; 7]; Some [8; 8]; Some [1; 1]].
Proof.
  set (fl := txt "3 1 1 2 1 1 2 1 5 1 2 3").
  destruct (step vtk_cfg (@empty_mesh (list nat)) (OVertex [7; 7])) as [m1|] eqn:E1; [|discriminate E1].
  destruct (step vtk_cfg m1 (OVertex [8; 8])) as [m2|] eqn:E2; [|cbn in E2; discriminate E2].
  assert (R : reach vtk_cfg m2).
  { eapply reach_step; [eapply reach_step; [constructor| |exact E1]| |exact E2]; exact Logic.I. }
  assert (X : match obind (step vtk_cfg (@empty_mesh (list nat)) (OVertex [7; 7])) (fun m => step vtk_cfg m (OVertex [8; 8])) with
    | Some m2 => match read_netgen (nats false 2) vtk_cfg (Some fl) (new_sstate m2) with
      | Done s => Some (map (vertices_at (st_mesh s) Triangle) (range (st_mesh s) Triangle), map (point_at (st_mesh s)) [0; 1; 2]) | _ => None end
    | None => None end = Some ([Some [0; 1; 2]], [Some [7; 7]; Some [8; 8]; Some [1; 1]])) by (vm_compute; reflexivity).
  rewrite E1 in X. cbn [obind] in X. rewrite E2 in X.
  destruct (read_netgen (nats false 2) vtk_cfg (Some fl) (new_sstate m2)) as [s| |] eqn:E; [|discriminate X|discriminate X].
  exists vtk_cfg, fl, m2, s. split; auto. split; auto. split; [reflexivity|]. split; [reflexivity|].
  split; congruence.
Qed.
