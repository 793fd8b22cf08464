From Coq Require Import Reals List Arith ZArith Bool Lia.
From Verif Require Import ModelTopo ModelMesh ModelErase ModelGeom ModelSegmentation ModelSegment ModelCopy ModelCopySeg ModelLongest ModelRefineMesh ModelRefineSeg
  SpecMesh SpecErase SpecGeom SpecQuery SpecSegmentation SpecSegment SpecCopy SpecCopySeg SpecRefineMesh
  MeshBase MeshInv MeshReach MeshProofs MeshWf MeshErase MeshSimple SegmentInv SegmentProofs CopyBase CopySegBase CopySegProofs RefineMeshBase RefineMeshLoop RefineMeshProofs SegmentDemo RefineSegDemo.
Import ModelSegmentation ListNotations.
Open Scope nat_scope.

Section Loop.
Variable d : nat.
Variables cfgs cfg : config.
Variable t : tag.
Variable fl : flags.
Variables src dst : sstate point.
Notation msrc := (st_mesh src).
Notation out := (st_mesh dst).
Hypothesis NHs : cfg_cell cfgs <> Hex.
Hypothesis NHd : cfg_cell cfg <> Hex.
Hypothesis RS : sreach cfgs src.
Hypothesis Keep : cfg_keep cfgs Line = true.
Hypothesis T : t = Triangle \/ t = Tet.
Hypothesis Tc : cell_type cfg t.
Hypothesis RD : sreach cfg dst.
Hypothesis ND : numbered (st_segs dst).

Lemma Rsrc : reach cfgs msrc. Proof. apply (srun_mesh_reach cfgs); auto. Qed.

Definition qs (s : sstate point) (m : @mesh point) : Prop := sreach cfg (with_mesh s m).
Lemma qs_reach s m : qs s m -> reach cfg m.
Proof. intros H. apply (srun_mesh_reach cfg _ NHd) in H. exact H. Qed.
Lemma qs_step s m o m' : qs s m -> valid_op cfg m o -> o <> OClear -> step cfg m o = Some m' -> qs s m'.
Proof. apply (sreach_vstep cfg). Qed.
Lemma with_same (s : sstate point) : with_mesh s (st_mesh s) = s. Proof. now destruct s. Qed.

Lemma vinv_swap (Q Q' : @mesh point -> Prop) p m vm u : vinv cfg msrc Q p m vm u -> Q' m -> vinv cfg msrc Q' p m vm u.
Proof. intros [A B C D] H. constructor; auto. Qed.

Lemma range_nodes (m m' : @mesh point) t0 : m_nodes m' t0 = m_nodes m t0 -> range m' t0 = range m t0.
Proof. unfold range. now intros ->. Qed.

(** The parts of one cell. *)
Lemma parts_spec zs p vm used css : forall s, sreach cfg s -> numbered (st_segs s) -> vinv cfg msrc (reach cfg) p (st_mesh s) vm used ->
  Forall (fun vs => length vs = nverts t /\ NoDup vs /\ Forall (is_live (st_mesh s) Vertex) vs) css ->
  exists s' new, rfold (make_part cfg t zs) css s = Done s' /\ sreach cfg s' /\ numbered (st_segs s') /\
    vinv cfg msrc (reach cfg) p (st_mesh s') vm used /\ range (st_mesh s') t = range (st_mesh s) t ++ new /\
    map (vertices_at (st_mesh s') t) new = map Some css /\ frame (st_mesh s) (st_mesh s') /\ fromcells t (st_mesh s) (st_mesh s') new /\
    (forall z x, In x (range (st_mesh s) t) -> (in_segment_id s' z t x <-> in_segment_id s z t x)) /\
    (forall z x, In x new -> (in_segment_id s' z t x <-> In z zs)) /\
    (forall z, has_id (st_segs s') z <-> has_id (st_segs s) z \/ css <> [] /\ In z zs).
Proof.
  induction css as [|vs css IH]; intros s R N V FV; cbn [rfold].
  - exists s, []. rewrite app_nil_r. do 5 (split; [auto; fail|]). split; [auto|]. split; [intros ? ? ?; auto|]. split; [intros ? ? ?; auto|].
    split; [reflexivity|]. split; [intros z x []|]. intros z. split; auto. intros [H|[H _]]; auto. congruence.
  - inversion FV as [|x l (H1 & H2 & H3) H4 E0]; subst.
    assert (V1 : vinv cfg msrc (qs s) p (st_mesh s) vm used) by (eapply vinv_swap; eauto; unfold qs; now rewrite with_same).
    destruct (make_one_spec cfg msrc t T Tc (qs s) (qs_step s) p _ vm used vs V1 H1 H2 H3) as (m1 & a & E & V2 & R1 & A1 & F1 & _ & N1).
    unfold make_part at 1. rewrite E. cbn [of_option rbind fst snd].
    assert (Q1 : qs s m1) by apply (vi_q _ _ _ _ _ _ _ V2).
    destruct (new_cell_spec cfg NHd s m1 t a zs R N Q1 R1) as (s1 & -> & RS1 & NS1 & M1 & OLD & NEW & HI). cbn [rbind].
    assert (Rm : reach cfg (st_mesh s1)) by (apply (srun_mesh_reach cfg); auto).
    destruct (IH s1) as (s2 & new & E2 & R2 & NS2 & V3 & RG & A2 & F2 & FC2 & O2 & NW2 & HI2); auto.
    { rewrite M1. eapply vinv_swap; eauto. now rewrite <- M1. }
    { rewrite M1. eapply Forall_impl; [|exact H4]. intros x (X1 & X2 & X3). split; auto. split; auto. eapply Forall_impl; [|exact X3]. intros z (e & D). exists e. now apply F1. }
    rewrite M1 in *. exists s2, (a :: new). split; auto. split; auto. split; auto. split; auto. split; [rewrite RG, R1, <- app_assoc; reflexivity|].
    split; [cbn [map]; rewrite A2; f_equal; eapply vertices_at_frame; eauto|]. split; [now apply (frame_trans _ m1)|]. split; [|split; [|split]].
    + intros t' a' e T' D'. destruct (FC2 t' a' e T' D') as [D1|(c & ec & H & D & I)].
      * destruct (N1 t' a' e T' D1) as [D0|I]; auto. right. unfold vertices_at in A1. destruct (deref m1 t a) as [ea|] eqn:Ea; [|discriminate].
        exists a, ea. split; [now left|]. split; [now apply F2|]. cbn in A1. inversion A1; subst. auto.
      * right. exists c, ec. split; [now right|auto].
    + intros z x Hx. rewrite O2 by (rewrite R1; apply in_app_iff; auto). apply OLD. auto.
    + intros z x [<-|Hx]; [|now apply NW2]. rewrite O2 by (rewrite R1; apply in_app_iff; simpl; auto). apply NEW.
    + intros z. rewrite HI2. rewrite HI. split.
      * intros [[H|H]|[_ H]]; auto; right; split; auto; discriminate.
      * intros [H|[_ H]]; auto.
Qed.

Variable em : vmap.
Variable m0 : @mesh point.
Variable np : point -> point -> point -> Prop.
Hypothesis EI : einv cfg msrc out fl np m0 em (range msrc Line).
Hypothesis Q0 : qs dst m0.

(** The state of the loop after the cells [don]. *)
Record sinv (s : sstate point) (vm : vmap) (don : list addr) : Prop := mkSI {
  s_reach : sreach cfg s;
  s_names : numbered (st_segs s);
  s_v : vinv cfg msrc (reach cfg) (pre m0) (st_mesh s) vm (corners msrc t don);
  s_frame : frame m0 (st_mesh s);
  s_cells : exists blocks, range (st_mesh s) t = range out t ++ concat blocks /\
    Forall2 (fun c block => exists cs, split_of d msrc t fl em (st_mesh s) vm c cs /\ map (vertices_at (st_mesh s) t) block = map Some cs /\
       Forall (same_segments src s t c) block) don blocks /\
    fromcells t m0 (st_mesh s) (concat blocks);
  s_old : forall z x, In x (range out t) -> (in_segment_id s z t x <-> in_segment_id dst z t x);
  s_keep : forall z, has_id (st_segs dst) z -> has_id (st_segs s) z;
  s_ids : forall z, has_id (st_segs s) z -> has_id (st_segs dst) z \/ exists c, In c don /\ in_segment_id src z t c
}.

Lemma Forall2_blocks {A B} (Q Q' : A -> list B -> Prop) l r : (forall x y, incl y (concat r) -> Q x y -> Q' x y) -> Forall2 Q l r -> Forall2 Q' l r.
Proof.
  intros H F. induction F; constructor; [apply H; auto; intros z Hz; cbn; apply in_app_iff; auto|].
  apply IHF. intros a b Hb. apply H. intros z Hz. cbn. apply in_app_iff. auto.
Qed.

Lemma cell_step s vm don c zs : sinv s vm don -> is_live msrc t c -> segment_ids src t c = Some zs ->
  exists s' vm', refine_cell_seg d cfg src t fl em (s, vm) c = Done (s', vm') /\ sinv s' vm' (don ++ [c]).
Proof.
  intros [R N V FR (blocks & RC & SP & FC) OLD KP IDS] L EZ. unfold refine_cell_seg. rewrite EZ. cbn [of_option rbind fst snd].
  assert (V0 : vinv cfg msrc (qs s) (pre m0) (st_mesh s) vm (corners msrc t don)) by (eapply vinv_swap; eauto; unfold qs; now rewrite with_same).
  destruct (element_refinement_spec d cfgs cfg msrc out t fl np Rsrc Keep T Tc (qs s) (qs_reach s) (qs_step s) em m0 EI) with (m := st_mesh s) (vm := vm) (used := corners msrc t don) (c := c)
    as (m1 & vm1 & cs & e & E1 & D & V1 & F1 & N1 & MM1 & S1 & OK); auto.
  rewrite E1. cbn [of_option rbind fst snd].
  assert (Q1 : qs s m1) by apply (vi_q _ _ _ _ _ _ _ V1).
  destruct (parts_spec zs (pre m0) vm1 (corners msrc t don ++ e_verts e) cs (with_mesh s m1)) as (s2 & new2 & E2 & R2 & N2 & V2 & RG & A2 & F2 & FC2 & O2 & NW2 & HI2); auto.
  { eapply vinv_swap; eauto. eapply qs_reach; eauto. }
  cbn [with_mesh st_mesh st_segs] in *. rewrite E2. cbn [rbind].
  exists s2, vm1. split; [reflexivity|]. assert (F12 : frame (st_mesh s) (st_mesh s2)) by (apply (frame_trans _ m1); auto).
  assert (RM : range m1 t = range (st_mesh s) t) by (apply range_nodes, N1, TV; auto).
  assert (SAME : forall z x, In x (range (st_mesh s) t) -> (in_segment_id s2 z t x <-> in_segment_id s z t x)).
  { intros z x Hx. rewrite O2 by now rewrite RM. reflexivity. }
  constructor; auto.
  - now rewrite (corners_app msrc t don c e D).
  - now apply (frame_trans _ (st_mesh s)).
  - exists (blocks ++ [new2]). rewrite concat_app. cbn [concat]. rewrite app_nil_r. split; [rewrite RG, RM, RC, app_assoc; reflexivity|]. split.
    + apply Forall2_app_one.
      * eapply Forall2_blocks; [|exact SP]. intros x y Hy (cs' & X1 & X2 & X3). exists cs'. split; [eapply split_mono; eauto|].
        split; [eapply map_vertices_frame; eauto|]. rewrite Forall_forall in *. intros b Hb z. rewrite (X3 b Hb z).
        rewrite SAME; [reflexivity|]. rewrite RC. apply in_app_iff. right. now apply Hy.
      * exists cs. split; [eapply split_mono; [exact F2| |exact S1]; auto|]. split; auto. apply Forall_forall. intros b Hb z. rewrite NW2 by auto.
        symmetry. destruct (C20_segment_ids_pf point cfgs src t c NHs RS) as [H _]. now apply H.
    + apply (fromcells_trans t m0 (st_mesh s) (st_mesh s2)); auto. apply (fromcells_trans t (st_mesh s) m1 (st_mesh s2) [] new2); auto. now apply fromcells_nodes.
  - intros z x Hx. rewrite SAME; [now apply OLD|]. rewrite RC. apply in_app_iff. auto.
  - intros z H. apply HI2. left. now apply KP.
  - intros z H. apply HI2 in H as [H|[_ H]].
    + apply IDS in H as [H|(c' & H1 & H2)]; auto. right. exists c'. rewrite in_app_iff. auto.
    + right. exists c. rewrite in_app_iff. split; [right; now left|]. destruct (C20_segment_ids_pf point cfgs src t c NHs RS) as [H' _]. now apply (H' zs).
Qed.

Lemma cells_loop l : forall s vm don, sinv s vm don -> Forall (is_live msrc t) l -> (forall c, In c l -> segment_ids src t c <> None) ->
  exists s' vm', rfold (refine_cell_seg d cfg src t fl em) l (s, vm) = Done (s', vm') /\ sinv s' vm' (don ++ l).
Proof.
  induction l as [|c l IH]; intros s vm don I FL HZ; cbn [rfold].
  - exists s, vm. rewrite app_nil_r. auto.
  - inversion FL; subst. destruct (segment_ids src t c) as [zs|] eqn:EZ; [|destruct (HZ c (or_introl eq_refl) EZ)].
    destruct (cell_step s vm don c zs I H1 EZ) as (s1 & vm1 & -> & I1). cbn [rbind].
    destruct (IH s1 vm1 (don ++ [c]) I1 H2) as (s2 & vm2 & E2 & I2); [intros; apply HZ; now right|]. exists s2, vm2. split; auto.
    rewrite <- app_assoc in I2. exact I2.
Qed.

Lemma cells_undefined l : forall s vm don, sinv s vm don -> Forall (is_live msrc t) l -> (exists c, In c l /\ segment_ids src t c = None) ->
  rfold (refine_cell_seg d cfg src t fl em) l (s, vm) = Undefined.
Proof.
  induction l as [|c l IH]; intros s vm don I FL (x & Hx & EX); [destruct Hx|]. cbn [rfold]. inversion FL; subst.
  destruct (segment_ids src t c) as [zs|] eqn:EZ.
  - destruct (cell_step s vm don c zs I H1 EZ) as (s1 & vm1 & -> & I1). cbn [rbind]. apply (IH _ _ _ I1 H2).
    exists x. split; auto. destruct Hx as [->|Hx]; auto. congruence.
  - unfold refine_cell_seg. rewrite EZ. reflexivity.
Qed.

Lemma sinv_start : sinv (with_mesh dst m0) [] [].
Proof.
  pose proof EI as [HR _ _ FR OT]. assert (RM : range m0 t = range out t) by (apply range_nodes, OT, TV; auto).
  assert (HV : vinv cfg msrc (reach cfg) (pre m0) m0 [] (corners msrc t [])).
  { constructor; cbn; [exact HR|now apply reach_inv|exists []; rewrite app_nil_r; split; [reflexivity|constructor]|discriminate]. }
  constructor; cbn [with_mesh st_mesh st_segs]; auto.
  - intros ? ? ?; auto.
  - exists []. cbn. rewrite app_nil_r. split; auto. split; [constructor|]. intros ? ? ?; auto.
  - reflexivity.
Qed.

Lemma sinv_rinv s vm : sinv s vm (range msrc t) -> rinv d cfg msrc out t fl (reach cfg) em m0 (st_mesh s) vm (range msrc t).
Proof.
  intros [R N V FR (blocks & RC & SP & FC) OLD KP IDS]. constructor; auto.
  assert (X : forall l bs, Forall2 (fun c block => exists cs, split_of d msrc t fl em (st_mesh s) vm c cs /\ map (vertices_at (st_mesh s) t) block = map Some cs /\
       Forall (same_segments src s t c) block) l bs -> exists css, map (vertices_at (st_mesh s) t) (concat bs) = map Some (concat css) /\ Forall2 (split_of d msrc t fl em (st_mesh s) vm) l css).
  { clear. induction 1 as [|c b l bs (cs & A & B & _) F (css & C & D)]; [exists []; auto|]. exists (cs :: css). cbn [concat]. rewrite !map_app, B, C. auto. }
  destruct (X _ _ SP) as (css & A & B). exists (concat blocks), css. auto.
Qed.

End Loop.

Lemma seg_cells_spec : forall d cfgs cfg (src dst : sstate point) (fl : addr -> bool) np em m0,
  let t := cfg_cell cfgs in
  t = Triangle \/ t = Tet -> cfg_keep cfgs Line = true -> cfg_cell cfg = t ->
  sreach cfgs src -> numbered (st_segs dst) -> qs cfg dst m0 ->
  (forall c, In c (range (st_mesh src) t) -> segment_ids src t c <> None) ->
  einv cfg (st_mesh src) (st_mesh dst) fl np m0 em (range (st_mesh src) Line) ->
  exists dst' vm phi mu, rfold (refine_cell_seg d cfg src t fl em) (range (st_mesh src) t) (with_mesh dst m0, []) = Done (dst', vm) /\ sreach cfg dst' /\ numbered (st_segs dst') /\
    is_refinement_at d np (st_mesh src) (st_mesh dst) (st_mesh dst') t fl phi mu /\
    (exists parts, range (st_mesh dst') t = range (st_mesh dst) t ++ concat parts /\
      Forall2 (fun c ps => Forall (same_segments src dst' t c) ps /\
        exists cs, is_split d (st_mesh src) (st_mesh dst') t fl phi mu c cs /\ map (vertices_at (st_mesh dst') t) ps = map Some cs)
        (range (st_mesh src) t) parts) /\
    (forall z x, In x (range (st_mesh dst) t) -> (in_segment_id dst' z t x <-> in_segment_id dst z t x)) /\
    (forall z, has_id (st_segs dst) z -> has_id (st_segs dst') z) /\
    (forall z, has_id (st_segs dst') z -> has_id (st_segs dst) z \/ exists c, In c (range (st_mesh src) t) /\ in_segment_id src z t c).
Proof.
  intros d cfgs cfg src dst fl np em m0 t T K C RS N Q0 HZ EI.
  assert (NHs : cfg_cell cfgs <> Hex) by (fold t; destruct T as [E|E]; rewrite E; discriminate).
  assert (NHd : cfg_cell cfg <> Hex) by (rewrite C; exact NHs).
  assert (Tc : cell_type cfg t) by (unfold cell_type; auto).
  assert (Rs := Rsrc cfgs src NHs RS).
  assert (S0 := sinv_start d cfg t fl src dst T N em m0 np EI Q0).
  destruct (cells_loop d cfgs cfg t fl src dst NHs NHd RS K T Tc em m0 np EI (range (st_mesh src) t) _ _ _ S0) as (s & vm & E2 & SI); auto.
  { apply Forall_forall. intros a Ha. now apply range_deref. }
  cbn [app] in SI. exists s, vm, (phi (st_mesh src) vm), (mu (st_mesh src) em). split; auto.
  assert (RI := sinv_rinv d cfg t fl src dst em m0 s vm SI).
  pose proof SI as [R' N' V FR (blocks & RC & SP & FC) OLD KP IDS].
  split; auto. split; auto. split; [eapply (rinv_refinement d cfgs cfg (st_mesh src) (st_mesh dst) t fl np); eauto|]. split; auto.
  exists blocks. split; auto. eapply Forall2_impl'; [|exact SP]. intros c ps (cs & A & B & D). split; auto. exists cs. split; auto.
  eapply split_is_split; eauto.
Qed.

Lemma C40_refine_partial_pf : forall d cfgs cfg (src dst : sstate point) (fl : addr -> bool),
  let t := cfg_cell cfgs in
  t = Triangle \/ t = Tet -> cfg_keep cfgs Line = true -> cfg_cell cfg = t ->
  sreach cfgs src -> sreach cfg dst -> numbered (st_segs dst) ->
  (forall c, In c (range (st_mesh src) t) -> segment_ids src t c <> None) ->
  exists dst' phi mu, refine_seg d cfg src t fl dst = Done dst' /\ sreach cfg dst' /\ numbered (st_segs dst') /\
    is_refinement d (st_mesh src) (st_mesh dst) (st_mesh dst') t fl phi mu /\
    (exists parts, range (st_mesh dst') t = range (st_mesh dst) t ++ concat parts /\
      Forall2 (fun c ps => Forall (same_segments src dst' t c) ps /\
        exists cs, is_split d (st_mesh src) (st_mesh dst') t fl phi mu c cs /\ map (vertices_at (st_mesh dst') t) ps = map Some cs)
        (range (st_mesh src) t) parts) /\
    (forall z x, In x (range (st_mesh dst) t) -> (in_segment_id dst' z t x <-> in_segment_id dst z t x)) /\
    (forall z, has_id (st_segs dst) z -> has_id (st_segs dst') z) /\
    (forall z, has_id (st_segs dst') z -> has_id (st_segs dst) z \/ exists c, In c (range (st_mesh src) t) /\ in_segment_id src z t c).
Proof.
  intros d cfgs cfg src dst fl t T K C RS RD N HZ. 
  assert (NHs : cfg_cell cfgs <> Hex) by (fold t; destruct T as [E|E]; rewrite E; discriminate).
  assert (NHd : cfg_cell cfg <> Hex) by (rewrite C; exact NHs).
  assert (Tc : cell_type cfg t) by (unfold cell_type; auto).
  assert (Rs := Rsrc cfgs src NHs RS).
  assert (Q : qs cfg dst (st_mesh dst)) by (unfold qs; now rewrite with_same).
  unfold refine_seg. destruct (edge_vertices_spec cfgs cfg (st_mesh src) (st_mesh dst) fl middle_point Rs (qs cfg dst) (qs_reach cfg NHd dst) (qs_step cfg dst) Q np_middle)
    as (m0 & em & E & Q0 & EI). rewrite E. cbn [of_option rbind fst snd].
  destruct (seg_cells_spec d cfgs cfg src dst fl middle_point em m0 T K C RS N Q0 HZ EI) as (s & vm & ph & m & E2 & H).
  exists s, ph, m. split; [exact (f_equal (fun r => rbind r (fun q => Done (fst q))) E2)|exact H].
Qed.

Lemma C40_unrecorded_refuted_pf : forall d cfgs cfg (src dst : sstate point) (fl : addr -> bool) c,
  let t := cfg_cell cfgs in
  t = Triangle \/ t = Tet -> cfg_keep cfgs Line = true -> cfg_cell cfg = t ->
  sreach cfgs src -> sreach cfg dst -> numbered (st_segs dst) ->
  In c (range (st_mesh src) t) -> segment_ids src t c = None ->
  refine_seg d cfg src t fl dst = Undefined.
Proof.
  intros d cfgs cfg src dst fl c t T K C RS RD N Hc HZ. 
  assert (NHs : cfg_cell cfgs <> Hex) by (fold t; destruct T as [E|E]; rewrite E; discriminate).
  assert (NHd : cfg_cell cfg <> Hex) by (rewrite C; exact NHs).
  assert (Tc : cell_type cfg t) by (unfold cell_type; auto).
  assert (Rs := Rsrc cfgs src NHs RS).
  assert (Q : qs cfg dst (st_mesh dst)) by (unfold qs; now rewrite with_same).
  unfold refine_seg. destruct (edge_vertices_spec cfgs cfg (st_mesh src) (st_mesh dst) fl middle_point Rs (qs cfg dst) (qs_reach cfg NHd dst) (qs_step cfg dst) Q np_middle)
    as (m0 & em & E & Q0 & EI). rewrite E. cbn [of_option rbind fst snd].
  assert (S0 := sinv_start d cfg t fl src dst T N em m0 middle_point EI Q0).
  refine (f_equal (fun r => rbind r (fun q => Done (fst q))) (cells_undefined d cfgs cfg t fl src dst NHs NHd RS K T Tc em m0 middle_point EI (range (st_mesh src) t) _ _ _ S0 _ _)).
  - apply Forall_forall. intros a Ha. now apply range_deref.
  - eauto.
Qed.

Lemma C40_named_refuted_pf : exists cfg (src dst : sstate point) (fl : addr -> bool),
  sreach cfg src /\ sreach cfg dst /\ cfg_cell cfg = Triangle /\ cfg_keep cfg Line = true /\
  (forall c, In c (range (st_mesh src) Triangle) -> segment_ids src Triangle c <> None) /\
  refine_seg 2 cfg src Triangle fl dst = Thrown.
Proof.
  exists rs_cfg, rs_src, rs_named, rs_fl. split; [apply rs_src_reach|]. split; [apply rs_named_reach|]. split; [reflexivity|]. split; [reflexivity|]. split.
  - assert (E : range (st_mesh rs_src) Triangle = [0; 1]) by (cbv -[pt2]; reflexivity). rewrite E. clear E.
    assert (E0 : segment_ids rs_src Triangle 0 = Some []) by (cbv -[pt2]; reflexivity).
    assert (E1 : segment_ids rs_src Triangle 1 = Some [7; 3]%Z) by (cbv -[pt2]; reflexivity).
    revert E0 E1. generalize (segment_ids rs_src Triangle). intros f E0 E1 c [<-|[<-|[]]]; congruence.
  - cbv -[pt2 Rplus Rminus Rmult Rdiv Rinv IZR]. reflexivity.
Qed.
