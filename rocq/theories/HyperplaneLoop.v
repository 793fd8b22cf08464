(** The marking loop of hyperplane_refine as the first step of a refinement. *)
From Coq Require Import Reals List Arith Bool Lia Lra Permutation.
From Verif Require Import ModelTopo ModelMesh ModelErase ModelGeom ModelRefine ModelVolume ModelCopy ModelLongest ModelRefineMesh ModelHyperplane
  SpecMesh SpecErase SpecCopy SpecRefine SpecGeom SpecTri SpecRefineMesh SpecHyperplane
  MeshBase MeshInv MeshIds MeshReach MeshProofs MeshWf MeshErase MeshSimple CopyBase CenterProofs UniqueProofs RefineMeshBase RefineMeshLoop.
Import ListNotations.

Lemma vlookup_handles ids h i : vlookup i (handle_map ids h) = if existsb (Nat.eqb i) ids then h i else None.
Proof.
  unfold handle_map. induction ids as [|j ids IH]; cbn [flat_map existsb]; auto.
  destruct (h j) as [a|] eqn:E; cbn [app].
  - rewrite vlookup_cons, IH. destruct (Nat.eqb_spec i j) as [->|]; auto.
  - rewrite IH. destruct (Nat.eqb_spec i j) as [->|]; cbn [orb]; auto. rewrite E. now destruct (existsb _ ids).
Qed.

Lemma unique_is_new d cfg (m : @mesh point) x :
  (forall v y, point_at m v = Some y -> is_live m Vertex v -> ~ too_near d x y) -> reach cfg m ->
  make_unique_vertex_default d cfg m x = make_vertex cfg m x.
Proof.
  intros H HR. unfold make_unique_vertex_default, make_unique_vertex. destruct Rlt_dec as [L|L]; auto.
  destruct (find_near d x (norm_2 d x / 10 ^ 6) (m_nodes m Vertex)) as [a|] eqn:F; auto.
  exfalso. apply find_near_some in F as (n & y & I & <- & E & B). pose proof (deref_in cfg m HR Vertex n I) as D.
  apply (H (n_addr n) y).
  - unfold point_at. now rewrite D.
  - eexists. exact D.
  - unfold too_near. rewrite <- norm_dist. rewrite dot_inner, <- norm_inner. exact B.
Qed.

Section Mark.
Variable d : nat.
Variable eps : R.
Variables o n : point.
Variables cfgs cfg : config.
Variables src out : @mesh point.
Variable fl : flags.
Hypothesis Rs : reach cfgs src.
Variable q : @mesh point -> Prop.
Hypothesis q_reach : forall m, q m -> reach cfg m.
Hypothesis Qstep : forall m o m', q m -> valid_op cfg m o -> o <> OClear -> step cfg m o = Some m' -> q m'.
Hypothesis Qout : q out.
Let np := crossing_point d o n.
Hypothesis FL : forall a p r, ends_at src a p r -> (fl a = true <-> line_crosses d eps o n p r).
Hypothesis NM : no_merge d eps o n src out.

Lemma line_data_ends a : is_live src Line a -> exists f v w p r, deref src Line a = Some f /\ e_verts f = [v; w] /\ point_at src v = Some p /\ point_at src w = Some r /\
  line_data src a = Some (e_id f, (p, r)) /\ ends_at src a p r.
Proof.
  intros (f & D). destruct (edge_points cfgs src Rs a f D) as (v & w & p & r & Ev & Pv & Pw & Ec). exists f, v, w, p, r.
  split; auto. split; auto. split; auto. split; auto. split.
  - unfold line_data. rewrite D. cbn [obind]. now rewrite Ec.
  - exists v, w. unfold vertices_at. rewrite D. cbn [option_map]. rewrite Ev. auto.
Qed.
Lemma ends_fun a p r p' r' : ends_at src a p r -> ends_at src a p' r' -> p = p' /\ r = r'.
Proof. intros (v & w & A & B & C) (v' & w' & A' & B' & C'). rewrite A in A'. injection A' as <- <-. split; congruence. Qed.

Lemma mark_spec : forall l don m em flags handles ls, NoDup (don ++ l) -> Forall (is_live src Line) l -> q m -> einv cfg src out fl np m em don ->
  (forall i, vlookup i em = handles i) -> omap (line_data src) l = Some ls ->
  exists m' em' flags' handles', mark_hyperplane d eps o n cfg ls m flags handles = Some (m', flags', handles') /\ q m' /\
    einv cfg src out fl np m' em' (don ++ l) /\ (forall i, vlookup i em' = handles' i).
Proof.
  induction l as [|a l IH]; intros don m em flags handles ls ND LV Q EI HH E; cbn [omap] in E.
  - injection E as <-. cbn [mark_hyperplane]. rewrite app_nil_r. exists m, em, flags, handles. auto.
  - inversion LV as [|? ? La LV']; subst. destruct (line_data_ends a La) as (f & v & w & p & r & D & Ev & Pv & Pw & Ed & En). rewrite Ed in E. cbn [obind] in E.
    destruct (omap (line_data src) l) as [ls'|] eqn:El; [|discriminate]. cbn [option_map] in E. injection E as <-.
    assert (EA : don ++ a :: l = (don ++ [a]) ++ l) by (rewrite <- app_assoc; reflexivity). rewrite EA in *.
    assert (NDa : NoDup (don ++ [a])) by (clear - ND; revert ND; generalize (don ++ [a]); induction l0; cbn; intros H; constructor; inversion H; subst; auto; intros X; apply H2, in_app_iff; auto).
    cbn [mark_hyperplane]. pose proof (FL a p r En) as Fa. unfold line_crosses in Fa. rewrite <- C45_marked_iff_crossing_pf in Fa.
    destruct (hyperplane_edge d eps o n p r) as [x|] eqn:H.
    + assert (Fa' : fl a = true) by (apply Fa; discriminate).
      destruct (C45_new_point_pf d eps o n p r x H) as [CP _].
      assert (LC : line_crosses d eps o n p r) by (now apply FL in En; apply En).
      rewrite (unique_is_new d cfg m x); auto.
      * destruct (einv_new cfgs cfg src out fl np Rs q q_reach Qstep m em don a f v w p r x) as (m' & y & E & Q' & EI'); auto.
        rewrite E. cbn [obind fst snd]. apply IH with (em := (e_id f, y) :: em); auto.
        intros i. rewrite vlookup_cons. unfold nupd. now rewrite HH.
      * intros u y Py Lu. destruct (NM a p r x En LC CP) as [N1 N2].
        destruct (ei_range _ _ _ _ _ _ _ _ EI) as (new & RN & F).
        assert (Hu : In u (range m Vertex)) by (apply range_deref; exact Lu). rewrite RN in Hu. apply in_app_iff in Hu as [Hu|Hu].
        -- apply (N1 u y). apply range_deref in Hu as (e & De). unfold point_at in *. rewrite De. now rewrite (ei_frame _ _ _ _ _ _ _ _ EI _ _ _ De) in Py.
        -- assert (Ex : exists b, In b (filter fl don) /\ middle src np m b u).
           { clear - F Hu. induction F as [|b z l0 l1 [_ M] F IH]; [destruct Hu|]. destruct Hu as [<-|Hu]; [exists b; split; [now left|auto]|].
             destruct (IH Hu) as (b' & ? & ?). exists b'. split; [now right|auto]. }
           destruct Ex as (b & Hb & v' & w' & p' & r' & mp & V' & P1 & P2 & P3 & P4). apply filter_In in Hb as [Hb Fb].
           assert (mp = y) by congruence. subst mp. assert (Eb : ends_at src b p' r') by (exists v', w'; auto).
           apply (N2 b p' r' y); auto.
           ++ now apply (FL b p' r' Eb).
           ++ intros ->. eapply NoDup_not_last; eauto.
    + assert (Fa' : fl a = false) by (destruct (fl a); auto; exfalso; now apply Fa).
      apply IH with (em := em); auto. now apply einv_skip.
Qed.
End Mark.

Lemma omap_lines cfgs (src : @mesh point) : reach cfgs src -> forall l, Forall (is_live src Line) l ->
  exists ls, omap (line_data src) l = Some ls /\ map (fun a => id_at src Line a) l = map Some (map fst ls) /\
    forall a p r, In a l -> ends_at src a p r -> exists i, id_at src Line a = Some i /\ In (i, (p, r)) ls.
Proof.
  intros Rs l. induction 1 as [|a l La F (ls & E & I & P)]; cbn [omap].
  - exists []. repeat split; auto. intros a p r [].
  - destruct (line_data_ends cfgs src Rs a La) as (f & v & w & p & r & D & Ev & Pv & Pw & Ed & En). rewrite Ed, E. cbn [obind option_map].
    exists ((e_id f, (p, r)) :: ls). split; auto. cbn [map fst]. split; [rewrite I; unfold id_at at 1; now rewrite D|].
    intros b p' r' [->|Hb] Eb.
    + destruct (ends_fun src b p r p' r' En Eb) as [<- <-]. exists (e_id f). split; [unfold id_at; now rewrite D|now left].
    + destruct (P b p' r' Hb Eb) as (i & A & B). exists i. split; auto. now right.
Qed.

Lemma ends_live (src : @mesh point) a p r : ends_at src a p r -> In a (range src Line).
Proof.
  intros (v & w & A & _). apply range_deref. unfold vertices_at in A. destruct (deref src Line a) as [e|]; [eauto|discriminate].
Qed.

Lemma hyperplane_start d eps o n cfgs cfg (src out : @mesh point) (q : @mesh point -> Prop) : reach cfgs src ->
  (forall m, q m -> reach cfg m) -> (forall m o m', q m -> valid_op cfg m o -> o <> OClear -> step cfg m o = Some m' -> q m') -> q out ->
  no_merge d eps o n src out ->
  exists ls m0 flags handles, lines_data src = Some ls /\ mark_hyperplane d eps o n cfg ls out (fun _ => false) (fun _ => None) = Some (m0, flags, handles) /\ q m0 /\
    (forall a p r, ends_at src a p r -> (flag_of src flags a = true <-> line_crosses d eps o n p r)) /\
    einv cfg src out (flag_of src flags) (crossing_point d o n) m0 (handle_map (map fst ls) handles) (range src Line).
Proof.
  intros Rs q_reach Qstep Qo NM.
  assert (LV : Forall (is_live src Line) (range src Line)) by (apply Forall_forall; intros a Ha; now apply range_deref).
  destruct (omap_lines cfgs src Rs _ LV) as (ls & E & I & P).
  assert (ND : NoDup (range src Line)) by (apply (i_addr _ _ _ (reach_inv cfgs src Rs) Line)).
  assert (NI : NoDup (map fst ls)).
  { assert (X : NoDup (map (fun a => id_at src Line a) (range src Line))).
    { clear - Rs ND. assert (W := reach_wf cfgs src Rs). assert (L : forall a, In a (range src Line) -> exists i, id_at src Line a = Some i).
      { intros a Ha. apply range_deref in Ha as (e & D). unfold id_at. rewrite D. cbn. eauto. }
      induction (range src Line) as [|a l IH]; cbn [map]; constructor.
      - intros H. apply in_map_iff in H as (b & Eb & Hb). inversion ND; subst. destruct (L a) as (i & Ei); [now left|]. apply H1. rewrite (id_at_inj cfgs src Line a b i W); congruence.
      - inversion ND; subst. apply IH; auto. intros b Hb. apply L. now right. }
    rewrite I in X. apply NoDup_map_inv in X. exact X. }
  destruct (C45_marking_loop_pf d eps o n cfg ls out (fun _ => false) (fun _ => None) (q_reach _ Qo) NI) as (m0 & flags & handles & M & _ & _ & OUT & INS).
  assert (FL : forall a p r, ends_at src a p r -> (flag_of src flags a = true <-> line_crosses d eps o n p r)).
  { intros a p r En. destruct (P a p r (ends_live _ _ _ _ En) En) as (i & Ia & Hi). unfold flag_of. unfold id_at in Ia. destruct (deref src Line a) as [e|]; [|discriminate].
    injection Ia as ->. exact (proj1 (INS i p r Hi)). }
  assert (HR := q_reach _ Qo).
  destruct (mark_spec d eps o n cfgs cfg src out (flag_of src flags) Rs q q_reach Qstep FL NM (range src Line) [] out [] (fun _ => false) (fun _ => None) ls) as (m' & em & flags' & handles' & M' & Q' & EI & HH); auto.
  { now apply einv_start. }
  rewrite M in M'. injection M' as <- <- <-. exists ls, m0, flags, handles. split; auto. split; auto. split; auto. split; auto.
  eapply einv_ext; [|exact EI]. intros i. rewrite vlookup_handles, HH.
  destruct (existsb (Nat.eqb i) (map fst ls)) eqn:X; auto. symmetry. apply OUT. intros H.
  assert (existsb (Nat.eqb i) (map fst ls) = true); [|congruence]. apply existsb_exists. exists i. split; auto. apply Nat.eqb_refl.
Qed.
