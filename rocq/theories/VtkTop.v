(** Lemmas for C61-C63: writing and reading as a whole. *)
From Coq Require Import Ascii String List Arith ZArith Bool Lia Sorted.
From Verif Require Import ModelTopo ModelMesh ModelErase ModelQuery ModelView ModelSegmentation ModelSegment ModelCopy ModelCopySeg ModelXml ModelVtk
  SpecMesh SpecErase SpecQuery SpecSegmentation SpecSegment SpecCopy SpecCopySeg SpecXml SpecVtk MeshBase MeshInv MeshReach MeshWf MeshErase MeshSimple QueryBase SegmentationBase
  CopyBase CopySegBase ViewBase SegmentView SegmentInv SegmentStep XmlProofs VtkText VtkPvd VtkSim VtkBuild VtkSource VtkLink.
Import ModelSegmentation ListNotations.
Open Scope nat_scope.

(** ** File names *)
Lemma extension_app name e : ~ In "."%char e -> extension (name ++ "."%char :: e) = e.
Proof.
  intros H. unfold extension. rewrite rfind_char_app by auto. replace (S (List.length name)) with (List.length (name ++ ["."%char])) by (rewrite app_length; cbn; lia).
  replace (name ++ "."%char :: e) with ((name ++ ["."%char]) ++ e) by now rewrite <- app_assoc. apply skipn_exact; reflexivity.
Qed.
Lemma rfind_char_suffix c s r : ~ In c r -> rfind_char c (s ++ r) = rfind_char c s.
Proof.
  intros H. induction s as [|x s IH]; cbn [app rfind_char]; [now apply rfind_char_none|]. now rewrite IH.
Qed.
Lemma path_suffix name r : ~ In "/"%char r -> ~ In "\"%char r -> path_length (name ++ r) = path_length name.
Proof. intros A B. unfold path_length. now rewrite !rfind_char_suffix. Qed.
Lemma rfind_char_lt c s i : rfind_char c s = Some i -> i < List.length s.
Proof.
  revert i. induction s as [|x s IH]; intros i; cbn [rfind_char List.length]; [discriminate|]. destruct (rfind_char c s) as [j|].
  - intros E. inversion E; subst. specialize (IH j eq_refl). lia.
  - destruct (Ascii.eqb x c); [|discriminate]. intros E. inversion E. lia.
Qed.
Lemma path_length_le name : path_length name <= List.length name.
Proof. unfold path_length. destruct (rfind_char "/" name) eqn:E; [apply rfind_char_lt in E; lia|]. destruct (rfind_char "\" name) eqn:E'; [apply rfind_char_lt in E'; lia|lia]. Qed.
Lemma path_files name r z : ~ In "/"%char r -> ~ In "\"%char r ->
  firstn (path_length (name ++ r)) (name ++ r) ++ segment_file (skipn (path_length name) name) z = segment_file name z.
Proof.
  intros A B. rewrite path_suffix by auto. rewrite firstn_app. pose proof (path_length_le name). replace (path_length name - List.length name) with 0 by lia. cbn [firstn]. rewrite app_nil_r.
  unfold segment_file. rewrite app_assoc. now rewrite firstn_skipn.
Qed.
Lemma segment_file_inj name z z' : segment_file name z = segment_file name z' -> z = z'.
Proof.
  intros E. unfold segment_file in E. apply app_inv_head in E. apply app_inv_head in E. apply app_inv_tail in E. rewrite <- (atoi_decimal z), <- (atoi_decimal z'). now rewrite E.
Qed.
Lemma main_file name z : name ++ txt "_main.pvd" <> segment_file name z.
Proof.
  intros E. apply (f_equal (@rev ascii)) in E. unfold segment_file in E. rewrite !rev_app_distr in E. cbn in E. discriminate E.
Qed.

(** ** Equivalent ways to say which cells go where *)
Section Ext.
Context {K : Type}.
Variables (F : format K) (rnd : K -> K) (m : @mesh (list K)) (t : tag) (mem mem' : Z -> addr -> Prop).
Hypothesis EQ : forall z c, mem z c <-> mem' z c.
Lemma used_ext z v : used_by m t mem z v <-> used_by m t mem' z v.
Proof. unfold used_by. now setoid_rewrite EQ. Qed.
Lemma writable_ext : writable F rnd m t mem -> writable F rnd m t mem'.
Proof.
  intros [A B C]. constructor; auto.
  - intros z v z' w p q U U'. apply (B z v z' w p q); now apply used_ext.
  - intros z c z' c' M M'. apply (C z c z' c'); now apply EQ.
Qed.
Lemma read_back_ext dst phi psi : read_back rnd m t mem dst phi psi -> read_back rnd m t mem' dst phi psi.
Proof.
  intros B. destruct B. constructor; intros; repeat setoid_rewrite <- used_ext; repeat setoid_rewrite <- EQ;
  repeat match goal with H : used_by _ _ mem' _ _ |- _ => apply used_ext in H | H : mem' _ _ |- _ => apply EQ in H end; eauto.
Qed.
Lemma delivers_ext z cell q (els els' : addr -> Prop) f d : (forall x, els x <-> els' x) -> delivers rnd z cell q els f d -> delivers rnd z cell q els' f d.
Proof. intros H (A & B & C & us & N & I & V). split; auto. split; auto. split; auto. exists us. split; auto. split; auto. intros x. rewrite I. apply H. Qed.
Lemma all_delivered_ext zs vq cq vq' cq' phi psi ds : (forall z, In z zs -> vq z = vq' z /\ cq z = cq' z) ->
  all_delivered rnd m t mem zs vq cq phi psi ds -> all_delivered rnd m t mem' zs vq' cq' phi psi ds.
Proof.
  intros H (A & B & C & D). split; [|split; [|split]].
  - intros z q Hz Hq. destruct (H z Hz) as [Ev _]. rewrite <- Ev in Hq. destruct (A z q Hz Hq) as (d & Hd & X). exists d. split; auto. eapply delivers_ext; [|exact X]. intros; apply used_ext.
  - intros z q Hz Hq. destruct (H z Hz) as [_ Ev]. rewrite <- Ev in Hq. destruct (B z q Hz Hq) as (d & Hd & X). exists d. split; auto. eapply delivers_ext; [|exact X]. intros; apply EQ.
  - intros d Hd. destruct (C d Hd) as (z & q & Hz & X). exists z, q. split; auto. destruct (H z Hz) as [<- <-].
    destruct X as [[Hq X]|[Hq X]]; [left|right]; (split; [auto|]); (eapply delivers_ext; [|exact X]); intros; [apply used_ext|apply EQ].
  - rewrite D. clear - H. induction zs as [|z zs IH]; cbn; auto. destruct (H z (or_introl eq_refl)) as [<- <-]. rewrite IH; auto. intros; apply H; now right.
Qed.
End Ext.

Section Top.
Context {K : Type}.
Variable F : format K.
Variable rnd : K -> K.
Hypothesis SF : sane_format F rnd.
Variable cfg : config.
Hypothesis NH : cfg_cell cfg <> Hex.
Hypothesis TV : cfg_cell cfg <> Vertex.
Notation pt := (list K).
Notation mesh := (@mesh pt).
Notation t := (cfg_cell cfg).

Lemma write_piece_total (m : mesh) cells us cs vq cq p : reach cfg m -> source_piece m t cells us cs vq cq p -> exists text, write_piece F t p = Some text.
Proof.
  intros R S. unfold write_piece, write_cells.
  destruct (omap_total (reordered t) (fun _ _ => True) (pc_cells p)) as (ys & E & _).
  { intros k Hk. pose proof (sp_cells _ _ _ _ _ _ _ _ S) as SC. assert (L : List.length k = nverts t).
    { clear - R TV SC Hk. induction SC as [|c k' cs ks (e & D & FK) SC IH]; [destruct Hk|]. destruct Hk as [->|Hk]; auto. destruct (cell_verts cfg m R t TV c e D) as (L & _). rewrite <- L. clear - FK. induction FK; cbn; auto. }
    destruct (reordered_spec t TV k L) as (ws & E & _). eauto. }
  rewrite E. cbn. eauto.
Qed.

(** The mesh alone. *)
Lemma mesh_top (m : mesh) vq cq name : reach cfg m -> Forall quantity_ok vq -> Forall quantity_ok cq ->
  writable F rnd m t (fun z c => z = 0%Z /\ is_live m t c) ->
  exists text, write_mesh F cfg m vq cq name = Some [(name ++ txt ".vtu", text)] /\
  forall fs reg, fs (name ++ txt ".vtu") = Some text -> (forall z b n, reg z b true n <> ForSegment) ->
  exists dst ds phi psi, read_vtk F cfg fs reg false (name ++ txt ".vtu") (new_sstate empty_mesh) = Done ((dst, ds), false) /\
    read_back rnd m t (fun z c => z = 0%Z /\ is_live m t c) dst phi psi /\
    all_delivered rnd m t (fun z c => z = 0%Z /\ is_live m t c) [0%Z] (fun _ => vq) (fun _ => cq) phi psi ds /\
    (forall z, has_id (st_segs dst) z <-> z = 0%Z) /\ exists T, sreach cfg T /\ same_state_but_generator dst T.
Proof.
  intros R Qv Qc WR.
  assert (L : Forall (is_live m t) (range m t)) by (apply Forall_forall; intros c Hc; now apply range_is_live).
  assert (ND : NoDup (range m t)) by apply (inv_winv cfg m [] (reach_inv cfg m R)).
  destruct (piece_of_spec cfg m R t TV (range m t) vq cq L ND) as (us & cs & p & EP & SP).
  destruct (write_piece_total m _ _ _ _ _ p R SP) as (text & ET). exists text.
  split; [unfold write_mesh; rewrite EP; cbn [obind]; rewrite ET; reflexivity|]. intros fs reg FS RG.
  set (j := mkJ 0 (range m t) us cs vq cq p). set (jobs := [j]).
  assert (EQ : forall z c, member jobs z c <-> z = 0%Z /\ is_live m t c).
  { intros z c. unfold member, jobs. split.
    - intros (i & [<-|[]] & <- & Hc). split; auto. now apply range_is_live.
    - intros [-> Hc]. exists j. split; [now left|]. split; auto. now apply range_is_live. }
  assert (JO : Forall (jok cfg m) jobs) by (constructor; [constructor; cbn; auto|constructor]).
  assert (WR' : writable F rnd m t (member jobs)) by (apply (writable_ext F rnd m t (fun z c => z = 0%Z /\ is_live m t c)); [intros; symmetry; apply EQ|exact WR]).
  destruct (chain_spec F rnd SF cfg m jobs JO WR' fs (fun _ => name ++ txt ".vtu") (fun _ => text)) with (todo := jobs) (done := @nil (@sjob K)) (W := @nil addr) (r := @pre_clear K false) as (W & r & EC & RS); auto.
  { intros i [<-|[]]. auto. } { repeat constructor. } { apply rstate_start. }
  unfold read_vtk, read_files. change (txt ".vtu") with ("."%char :: txt "vtu") at 1. rewrite extension_app by (cbn; intuition discriminate). rewrite text_eqb_refl.
  cbn [map ofold jobs j j_id fst snd] in EC. destruct (parse_segment F fs (name ++ txt ".vtu") 0 (pre_clear false)) as [r'|]; [|discriminate EC]. cbn [obind] in EC. apply some_inj in EC. subst r'.
  cbn [of_option rbind].
  destruct (setup_link F rnd cfg NH TV m R jobs JO WR' W r RS) with (reg := reg) as (dst & ds & psi & E & RB & AD & HI & T); auto.
  { repeat constructor. intros []. }
  rewrite E. cbn [rbind]. exists dst, ds, (phi W), psi. rewrite (rs_open _ _ _ _ _ _ RS). split; auto. split; [eapply read_back_ext; [apply EQ|exact RB]|].
  split; [|split; [|exact T]].
  - eapply all_delivered_ext; [apply EQ| |exact AD]. intros z [<-|[]]. split; reflexivity.
  - intros z. rewrite HI. cbn. intuition.
Qed.

(** With segments. *)
Lemma segments_top (s : sstate pt) vq cq svq scq name : sreach cfg s -> 1 < segment_count (st_segs s) -> free_of [""""%char; ">"%char] name ->
  (forall z, has_id (st_segs s) z -> Forall quantity_ok (vq ++ svq z) /\ Forall quantity_ok (cq ++ scq z)) ->
  writable F rnd (st_mesh s) t (fun z c => in_segment_id s z t c) ->
  exists files, write_segmentation F cfg s vq cq svq scq name = Some files /\ NoDup (map fst files) /\
  forall fs reg, has_files fs files -> (forall z b n, reg z b true n <> ForSegment) ->
  exists dst ds phi psi zs, read_vtk F cfg fs reg false (name ++ txt "_main.pvd") (new_sstate empty_mesh) = Done ((dst, ds), false) /\
    read_back rnd (st_mesh s) t (fun z c => in_segment_id s z t c) dst phi psi /\ (NoDup zs /\ forall z, In z zs <-> has_id (st_segs s) z) /\
    all_delivered rnd (st_mesh s) t (fun z c => in_segment_id s z t c) zs (fun z => vq ++ svq z) (fun z => cq ++ scq z) phi psi ds /\
    (forall z, has_id (st_segs dst) z <-> has_id (st_segs s) z) /\ exists T, sreach cfg T /\ same_state_but_generator dst T.
Proof.
  intros RS0 CNT NM Q WR. pose proof (sreach_inv cfg NH s RS0) as SI. pose proof (si_reach cfg s SI) as R. pose proof (si_g cfg s SI) as G.
  set (m := st_mesh s) in *. set (ids := g_ids (st_segs s)).
  assert (HID : forall z a, In (z, a) ids -> has_id (st_segs s) z) by (intros z a H; apply has_id_iff; eauto).
  assert (JE : forall za, In za ids -> exists j text, j_id j = fst za /\ j_cells j = k_view (st_con s (snd za)) t /\ j_vq j = vq ++ svq (fst za) /\ j_cq j = cq ++ scq (fst za) /\ jok cfg m j /\
    piece_of m t (k_view (st_con s (snd za)) t) (vq ++ svq (fst za)) (cq ++ scq (fst za)) = Some (j_piece j) /\ write_piece F t (j_piece j) = Some text).
  { intros [z a] H. cbn [fst snd]. destruct (si_con cfg s SI a z H) as (CO & _). pose proof (co_good _ _ _ CO t) as GV.
    destruct (piece_of_spec cfg m R t TV (k_view (st_con s a) t) (vq ++ svq z) (cq ++ scq z) (increasing_live _ _ _ GV) (increasing_nodup _ _ _ GV)) as (us & cs & p & EP & SP).
    destruct (write_piece_total m _ _ _ _ _ p R SP) as (text & ET). exists (mkJ z (k_view (st_con s a) t) us cs (vq ++ svq z) (cq ++ scq z) p), text. cbn. destruct (Q z (HID z a H)) as [Q1 Q2]. split; auto. split; auto. split; auto. split; auto. split; [constructor; auto|auto]. }
  assert (JL : exists jts, Forall2 (fun za jt => j_id (fst jt) = fst za /\ j_cells (fst jt) = k_view (st_con s (snd za)) t /\ j_vq (fst jt) = vq ++ svq (fst za) /\ j_cq (fst jt) = cq ++ scq (fst za) /\ jok cfg m (fst jt) /\
    piece_of m t (k_view (st_con s (snd za)) t) (vq ++ svq (fst za)) (cq ++ scq (fst za)) = Some (j_piece (fst jt)) /\ write_piece F t (j_piece (fst jt)) = Some (snd jt)) ids jts).
  { clear - JE. induction ids as [|za l IH]; [exists []; constructor|]. destruct (JE za (or_introl eq_refl)) as (j & text & H). destruct IH as (jts & FJ); [intros; apply JE; now right|].
    exists ((j, text) :: jts). constructor; auto. }
  destruct JL as (jts & FJ). set (jobs := map fst jts).
  assert (IDS : map j_id jobs = map fst ids) by (unfold jobs; clear - FJ; induction FJ as [|za jt l l' (E & _) FJ IH]; cbn; auto; now rewrite E, IH).
  assert (JO : Forall (jok cfg m) jobs) by (unfold jobs; clear - FJ; induction FJ as [|za jt l l' H FJ IH]; cbn; constructor; auto; apply H).
  assert (SORT : StronglySorted Z.lt (map fst ids)).
  { pose proof (gi_sorted _ G) as S. fold ids in S. clear - S. induction S as [|za l S IH H]; cbn; constructor; auto. apply Forall_map. eapply Forall_impl; [|exact H]. auto. }
  assert (SORTJ : StronglySorted (fun i j => (j_id i < j_id j)%Z) jobs).
  { rewrite <- IDS in SORT. clear - SORT. clearbody jobs. induction jobs as [|j l IH]; [constructor|]. cbn [map] in SORT. apply StronglySorted_inv in SORT as [S FS]. constructor; [now apply IH|]. rewrite Forall_map in FS. exact FS. }
  assert (NDI : NoDup (map fst ids)).
  { clear - SORT. induction SORT as [|z l S IH H]; constructor; auto. intros X. rewrite Forall_forall in H. specialize (H z X). lia. }
  assert (EQ : forall z c, member jobs z c <-> in_segment_id s z t c).
  { intros z c. unfold member, in_segment_id, segment_has_id, is_segment, in_segment. split.
    - intros (j & Hj & <- & Hc). apply in_map_iff in Hj as (jt & <- & Hj).
      assert (exists za, In za ids /\ j_id (fst jt) = fst za /\ j_cells (fst jt) = k_view (st_con s (snd za)) t) as ([z a] & Hz & E1 & E2).
      { clear - FJ Hj. induction FJ as [|za jt' l l' (E1 & E2 & _) FJ IH]; [destruct Hj|]. destruct Hj as [->|Hj]; [exists za; cbn; auto|]. destruct (IH Hj) as (za' & ? & ?). exists za'. cbn; auto. }
      cbn [fst snd] in *. exists a. rewrite E1. split; [split; [apply in_range; eauto|now apply id_in_ids]|]. now rewrite <- E2.
    - intros (a & [Ha Hz] & Hc). apply (id_in_ids _ _ _ G) in Hz.
      destruct (In_nth_error _ _ Hz) as (i & Hi). destruct (Forall2_nth _ _ _ _ _ FJ Hi) as ([j text] & Hj & E1 & E2 & _). cbn [fst snd] in *.
      exists j. split; [apply in_map_iff; exists (j, text); split; auto; eapply nth_error_In; eauto|]. split; auto. now rewrite E2. }
  assert (WR' : writable F rnd m t (member jobs)) by (apply (writable_ext F rnd m t (fun z c => in_segment_id s z t c)); [intros; symmetry; apply EQ|exact WR]).
  set (files := (name ++ txt "_main.pvd", write_collection (skipn (path_length name) name) (map fst ids)) :: map (fun jt => (segment_file name (j_id (fst jt)), snd jt)) jts).
  exists files. split; [|split].
  - unfold write_segmentation. destruct (Nat.leb_spec (segment_count (st_segs s)) 1); [lia|]. fold ids. fold m.
    match goal with |- option_map _ ?x = _ => assert (OM : x = Some (map (fun jt => (segment_file name (j_id (fst jt)), snd jt)) jts)) end.
    { clear - FJ. induction FJ as [|za jt l l' (E1 & E2 & E3 & E4 & _ & E5 & E6) FJ IH]; cbn [omap map]; auto. rewrite E5. cbn [obind]. rewrite E6. cbn [option_map obind]. rewrite IH. cbn [option_map obind]. now rewrite E1. }
    rewrite OM. reflexivity.
  - unfold files. cbn [map fst]. rewrite map_map. cbn [fst]. constructor.
    + intros H. apply in_map_iff in H as (jt & E & _). symmetry in E. now apply main_file in E.
    + replace (map (fun jt => segment_file name (j_id (fst jt))) jts) with (map (segment_file name) (map j_id jobs)) by (unfold jobs; now rewrite !map_map). rewrite IDS.
      clear - NDI. induction NDI as [|z l H ND IH]; cbn; constructor; auto. intros X. apply in_map_iff in X as (z' & E & X). apply segment_file_inj in E. now subst.
  - intros fs reg FS RG.
    assert (NDJ : NoDup (map j_id jobs)) by now rewrite IDS.
    set (body := fun j : @sjob K => match find (fun jt => Z.eqb (j_id (fst jt)) (j_id j)) jts with Some jt => snd jt | None => [] end).
    assert (BODY : forall jt, In jt jts -> body (fst jt) = snd jt).
    { intros jt H. unfold body. assert (N : NoDup (map (fun jt => j_id (fst jt)) jts)) by (unfold jobs in NDJ; now rewrite map_map in NDJ). clear - H N.
      induction jts as [|x l IH]; [destruct H|]. cbn in N. inversion N as [|? ? N1 N2]; subst. cbn [find]. destruct H as [->|H]; [now rewrite Z.eqb_refl|].
      destruct (Z.eqb_spec (j_id (fst x)) (j_id (fst jt))) as [E|]; [|now apply IH]. elim N1. rewrite E. now apply (in_map (fun jt => j_id (fst jt))). }
    destruct (chain_spec F rnd SF cfg m jobs JO WR' fs (fun j => segment_file name (j_id j)) body) with (todo := jobs) (done := @nil (@sjob K)) (W := @nil addr) (r := @pre_clear K false) as (W & r & EC & RS); auto.
    { intros j Hj. apply in_map_iff in Hj as (jt & <- & Hj). rewrite BODY by auto. split.
      - clear - FJ Hj. induction FJ as [|za jt' l l' H FJ IH]; [destruct Hj|]. destruct Hj as [->|Hj]; [apply H|auto].
      - apply FS. right. now apply (in_map (fun jt => (segment_file name (j_id (fst jt)), snd jt))). }
    { apply rstate_start. }
    unfold read_vtk, read_files. 
    assert (EX : extension (name ++ txt "_main.pvd") = txt "pvd").
    { replace (name ++ txt "_main.pvd") with ((name ++ txt "_main") ++ "."%char :: txt "pvd") by (rewrite <- app_assoc; reflexivity). apply extension_app. cbn. intuition discriminate. }
    rewrite EX. change (text_eqb (txt "pvd") (txt "vtu")) with false. rewrite text_eqb_refl. unfold process_pvd, open_file. cbn [pre_clear r_open].
    rewrite (FS (name ++ txt "_main.pvd") (write_collection (skipn (path_length name) name) (map fst ids)) (or_introl eq_refl)).
    assert (NS : free_of [""""%char; ">"%char] (skipn (path_length name) name)).
    { intros c Hc. apply NM. rewrite <- (firstn_skipn (path_length name) name). apply in_app_iff. auto. }
    destruct (pvd_written (skipn (path_length name) name) (map fst ids) (set_open true (@pre_clear K false)) NS) as (s' & EV). unfold pre_clear in *. rewrite EV. rewrite collection_files by auto.
    assert (CH : forall (r0 : @reader K), ofold (fun r zf => parse_segment F fs (firstn (path_length (name ++ txt "_main.pvd")) (name ++ txt "_main.pvd") ++ snd zf) (fst zf) r) (map (fun z => (z, segment_file (skipn (path_length name) name) z)) (map fst ids)) r0 =
      ofold (fun r zf => parse_segment F fs (snd zf) (fst zf) r) (map (fun j => (j_id j, segment_file name (j_id j))) jobs) r0).
    { rewrite <- IDS. clear. induction jobs as [|j l IH]; intros r0; cbn [map ofold fst snd]; auto. rewrite path_files by (cbn; intuition discriminate).
      destruct (parse_segment F fs (segment_file name (j_id j)) (j_id j) r0); cbn [obind]; auto. }
    rewrite CH. change (set_open false (set_open true (mkR false [] (fun _ => no_local) []))) with (mkR false [] (fun _ : Z => @no_local K) []). rewrite EC. cbn [of_option rbind].
    destruct (setup_link F rnd cfg NH TV m R jobs JO WR' W r RS NDJ reg RG) as (dst & ds & psi & E & RB & AD & HI & T).
    rewrite E. cbn [rbind]. exists dst, ds, (phi W), psi, (map j_id jobs). rewrite (rs_open _ _ _ _ _ _ RS). split; auto. split; [eapply read_back_ext; [apply EQ|exact RB]|].
    assert (ZS : forall z, In z (map j_id jobs) <-> has_id (st_segs s) z).
    { intros z. rewrite IDS, (has_id_iff (st_segs s) z G). rewrite in_map_iff. split; [intros ((y & a) & <- & H); exists a; exact H|intros (a & H); exists (z, a); split; [reflexivity|exact H]]. }
    split; [split; auto|]. split; [|split; [|exact T]].
    + eapply all_delivered_ext; [apply EQ| |exact AD]. intros z Hz. apply in_map_iff in Hz as (j & <- & Hj). unfold vq_of, cq_of. rewrite (job_of_in jobs NDJ j Hj).
      unfold jobs in Hj. apply in_map_iff in Hj as (jt & <- & Hj). clear - FJ Hj. induction FJ as [|za jt' l l' (E1 & _ & E3 & E4 & _) FJ IH]; [destruct Hj|]. destruct Hj as [->|Hj]; auto. rewrite E1. auto.
    + intros z. rewrite HI. apply ZS.
Qed.

End Top.
