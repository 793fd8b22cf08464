(** The invariant of a mesh with a segmentation. *)
From Coq Require Import List Arith ZArith Bool Lia Permutation Sorted.
From Verif Require Import ModelTopo ModelMesh ModelErase ModelAccessor ModelQuery ModelView ModelSegmentation ModelSegment
  SpecMesh SpecErase SpecQuery SpecView SpecSegmentation SpecSegment
  MeshBase MeshInv MeshIds MeshReach MeshProofs MeshWf MeshErase MeshSimple AccessorProofs QueryBase QueryBnd QueryMono ViewBase ViewTrans
  SegmentationBase SegmentationProofs SegmentView SegmentBase.
Import ModelSegmentation ListNotations.
Open Scope nat_scope.

(** * Segment management without clear *)
Definition named (g : segs) : Prop := forall nm a, In (nm, a) (g_names g) -> exists sg, find_seg a (g_segs g) = Some sg.

Definition grown (g g' : segs) : Prop := g_next g <= g_next g' /\
  (forall z a, In (z, a) (g_ids g) -> In (z, a) (g_ids g')) /\
  (forall z a, In (z, a) (g_ids g') -> In (z, a) (g_ids g) \/ (g_next g <= a /\ forall b, ~ In (z, b) (g_ids g))).

Lemma grown_refl g : grown g g.
Proof. repeat split; auto. Qed.

Lemma grown_with z g g' : with_segment z g g' -> (forall a, ~ In (z, a) (g_ids g)) -> grown g g'.
Proof.
  intros (H & I & S & X) N. rewrite ?X, ?I. split; [rewrite X; lia|]. rewrite I. split.
  - intros z' a Ha. apply id_insert_In. now right.
  - intros z' a Ha. apply id_insert_In in Ha as [E|Ha]; auto. inversion E; subst. right. split; auto.
Qed.

Lemma named_with z g g' : with_segment z g g' -> named g ->
  (g_names g' = (decimal z, g_next g) :: g_names g \/ g_names g' = g_names g) -> named g'.
Proof.
  intros (H & I & S & X) N E nm a Ha. rewrite S. simpl. destruct (Nat.eqb_spec a (g_next g)); [eauto|].
  destruct E as [E|E]; rewrite E in Ha; [destruct Ha as [Ha|Ha]; [inversion Ha; congruence|]|]; eapply N; eauto.
Qed.

Lemma named_set_name a s g g' : ginv g -> In a (segment_range g) -> named g -> state_after (set_name a s g) = Some g' ->
  named g' /\ g_ids g' = g_ids g /\ g_next g' = g_next g.
Proof.
  intros G Ha N H. destruct (set_name_spec a s g G Ha) as [[_ E]|(F & old & z & Es & E)]; rewrite E in H; simpl in H; inversion H; subst; auto.
  split; auto. intros nm b Hb. cbn [g_names g_segs] in *. rewrite find_seg_rename.
  assert (exists sg, find_seg b (g_segs g) = Some sg) as (sg & X).
  { destruct Hb as [Hb|Hb]; [inversion Hb; subst; eauto|]. apply name_erase_In in Hb as [Hb _]. apply name_erase_In in Hb as [Hb _].
    eapply N; eauto. }
  rewrite X. destruct (Nat.eqb a b); simpl; eauto.
Qed.

Lemma manage_spec o g : ginv g -> named g -> valid_sgop g o -> o <> SgClear -> o <> SgInit ->
  exists g', state_after (sgstep o g) = Some g' /\ ginv g' /\ named g' /\ grown g g'.
Proof.
  intros G N V C1 C2.
  enough (exists g', state_after (sgstep o g) = Some g' /\ named g' /\ grown g g') as (g' & E & N' & W).
  { exists g'. split; auto. split; [eapply sgstep_inv; eauto|auto]. }
  destruct o as [|z|s|z s| |]; simpl in V; try congruence; cbn [sgstep].
  - destruct (make_segment_spec g G) as (Nz & g1 & W & G1 & [(_ & M & E)|(_ & M & E)]); rewrite E; simpl; exists g1; (split; [auto|]);
      (split; [eapply named_with; eauto|eapply grown_with; eauto]).
  - destruct (get_make_id_spec z g G) as [(a & _ & E)|(Nz & g1 & W & [(F & M & E)|(F & M & E)])]; rewrite E; simpl.
    + exists g. split; auto. split; auto. apply grown_refl.
    + exists g1. split; auto. split; [eapply named_with; eauto|eapply grown_with; eauto].
    + exists g1. split; auto. split; [eapply named_with; eauto|eapply grown_with; eauto].
  - unfold get_make_name. destruct (find_name s (g_names g)) as [a|] eqn:F.
    + apply find_name_In in F. destruct (N s a F) as (sg & ->). simpl. exists g. split; auto. split; auto. apply grown_refl.
    + destruct (make_segment_spec g G) as (Nz & g1 & W & G1 & [(_ & M & E)|(_ & M & E)]); rewrite E; simpl.
      * assert (N1 : named g1) by (eapply named_with; eauto).
        assert (Ha : In (g_next g) (segment_range g1)).
        { apply in_range. exists (g_high g + 1)%Z. destruct W as (_ & -> & _). apply id_insert_In. now left. }
        destruct (set_name_inv (g_next g) s g1 G1 Ha) as (g2 & E2 & _).
        destruct (named_set_name _ _ _ _ G1 Ha N1 E2) as (N2 & I2 & X2).
        exists g2. split; [destruct (set_name (g_next g) s g1); simpl in *; auto|]. split; auto.
        destruct (grown_with _ _ _ W Nz) as (A & B & C). unfold grown. rewrite I2, X2. auto.
      * exists g1. split; auto. split; [eapply named_with; eauto|eapply grown_with; eauto].
  - unfold segment_present in V. unfold get_segment_id. destruct (find_id z (g_ids g)) as [a|] eqn:F; [|discriminate]. simpl.
    assert (Ha : In a (segment_range g)) by (apply in_range; exists z; now apply find_id_In).
    destruct (set_name_inv a s g G Ha) as (g2 & E2 & _).
    destruct (named_set_name _ _ _ _ G Ha N E2) as (N2 & I2 & X2).
    exists g2. split; [destruct (set_name a s g); simpl in *; auto|]. split; auto. unfold grown. rewrite I2, X2. auto.
Qed.

Section SegmentInv.
Context {Pt : Type}.
Notation mesh := (@mesh Pt).
Notation element := (@element Pt).
Notation node := (@node Pt).
Variable cfg : config.

(** * Creation *)
Lemma chain_part (m : mesh) : wf cfg m -> boundary_transitive m -> forall t a t' a', chain m t a t' a' -> part_of m t' a' t a.
Proof.
  intros W T t a t' a' C. induction C as [t a|t a e b t' a' D Hb C IH]; [now left|]. right.
  assert (B : bounded_by m t a (b_tag b) (b_addr b)).
  { exists e. split; auto. assert (D' := D). apply deref_In in D' as (n & Hn & _ & <-). destruct W as (_ & _ & R).
    destruct (r_bnd m R t n b Hn Hb) as (NV & _). unfold has_boundary, boundary_of.
    destruct (b_tag b) eqn:E; [congruence|..]; (apply in_map_iff; exists b; split; auto; apply filter_In; split; [auto|]; rewrite E; reflexivity). }
  destruct IH as [[-> ->]|IH]; auto. eapply T; eauto.
Qed.

Definition made (cfg : config) (m : mesh) (o : op Pt) : option (mesh * (tag * addr)) :=
  match o with
  | OVertex p => option_map (fun r => (fst r, (Vertex, snd r))) (make_vertex cfg m p)
  | OVertexId i p => option_map (fun r => (fst r, (Vertex, snd r))) (make_vertex_with_id cfg m i p)
  | OElement t vs => option_map (fun r => (fst r, (t, snd r))) (make_element cfg t m vs)
  | _ => None
  end.

Lemma creation_spec (m : mesh) o : cfg_cell cfg <> Hex -> reach cfg m -> creation o -> valid_op cfg m o ->
  exists m' t h L, made cfg m o = Some (m', (t, h)) /\ step cfg m o = Some m' /\ reach cfg m' /\
    (forall t a e, deref m t a = Some e -> deref m' t a = Some e) /\ is_live m' t h /\
    m_log m' = m_log m ++ L /\ L <> [] /\ forall t' a', In (t', a') L -> part_of m' t' a' t h.
Proof.
  intros NH R C V. assert (HI := reach_inv cfg m R).
  assert (Fin : forall m' t h L, made cfg m o = Some (m', (t, h)) -> step cfg m o = Some m' ->
     (forall t a e, deref m t a = Some e -> deref m' t a = Some e) -> is_live m' t h ->
    m_log m' = m_log m ++ L -> L <> [] -> (reach cfg m' -> forall t' a', In (t', a') L -> part_of m' t' a' t h) ->
    exists m' t h L, made cfg m o = Some (m', (t, h)) /\ step cfg m o = Some m' /\ reach cfg m' /\
    (forall t a e, deref m t a = Some e -> deref m' t a = Some e) /\ is_live m' t h /\
    m_log m' = m_log m ++ L /\ L <> [] /\ forall t' a', In (t', a') L -> part_of m' t' a' t h).
  { intros m' t h L E1 E2 D Lv EL EN HL. assert (R' : reach cfg m') by (econstructor; eauto). exists m', t, h, L. auto 10. }
  assert (Vert : forall m' i p, vertex_added m m' i p -> made cfg m o = Some (m', (Vertex, m_next m Vertex)) -> step cfg m o = Some m' ->
    exists m' t h L, made cfg m o = Some (m', (t, h)) /\ step cfg m o = Some m' /\ reach cfg m' /\
    (forall t a e, deref m t a = Some e -> deref m' t a = Some e) /\ is_live m' t h /\
    m_log m' = m_log m ++ L /\ L <> [] /\ forall t' a', In (t', a') L -> part_of m' t' a' t h).
  { intros m' i p A E1 E2. pose proof (vertex_added_deref cfg _ _ _ _ _ HI A) as D.
    apply (Fin m' Vertex (m_next m Vertex) [(Vertex, m_next m Vertex)]); auto.
    - intros t a e H. rewrite D. destruct (tag_eq_dec t Vertex) as [->|]; auto.
      destruct (Nat.eqb_spec a (m_next m Vertex)); auto. subst.
      exfalso. apply (fresh_addr cfg m [] Vertex HI). apply range_deref. eauto.
    - exists (mkE i [] [] (Some p)). rewrite D. destruct (tag_eq_dec Vertex Vertex); [|congruence]. now rewrite Nat.eqb_refl.
    - apply A.
    - discriminate.
    - intros _ t' a' [E|[]]. inversion E; subst. now left. }
  destruct o as [p|i p|t vs| |]; try easy; cbn [made step] in *.
  - destruct (make_vertex_added cfg m p) as (m' & E & A & _). apply (Vert m' (m_idgen m Vertex) p A); now rewrite E.
  - destruct (make_vertex_id_added cfg m i p) as (m' & E & A & _). apply (Vert m' i p A); now rewrite E.
  - destruct (valid_element_spec cfg m t vs HI V) as (m' & a & fr & E & I' & P).
    destruct (p_log _ _ _ _ _ _ _ _ P) as (L & EL & Ia & _ & _ & _ & CH).
    apply (Fin m' t a L); auto; rewrite ?E; auto.
    + apply (p_frame _ _ _ _ _ _ _ _ P).
    + destruct (p_elem _ _ _ _ _ _ _ _ P) as (e & De & _). exists e. auto.
    + intros ->. easy.
    + intros R' t' a' H. apply chain_part; auto.
      * apply (ereach_wf cfg m' (reach_ereach cfg m' R')).
      * now apply (reach_transitive cfg).
Qed.

(** * Views in a growing mesh *)
Definition frame (m m' : mesh) : Prop := forall t a e, deref m t a = Some e -> deref m' t a = Some e.

Lemma frame_id (m m' : mesh) t x i : frame m m' -> id_at m t x = Some i -> id_at m' t x = Some i.
Proof. intros F H. apply id_at_deref in H as (e & D & E). apply id_at_deref. exists e. auto. Qed.

Lemma frame_good (m m' : mesh) v : frame m m' -> good_view m v -> good_view m' v.
Proof.
  intros F G t. destruct (G t) as (ids & H & S). exists ids. split; auto.
  eapply Forall2_impl'; [|exact H]. intros. eapply frame_id; eauto.
Qed.

Lemma frame_bounded (m m' : mesh) t a bt b : frame m m' -> is_live m t a -> (bounded_by m' t a bt b <-> bounded_by m t a bt b).
Proof.
  intros F (e & D). unfold bounded_by. split.
  - intros (e' & D' & B). rewrite (F _ _ _ D) in D'. inversion D'; subst. eauto.
  - intros (e' & D' & B). exists e'. auto.
Qed.

Lemma frame_closed (m m' : mesh) v : frame m m' -> good_view m v -> boundary_closed m v -> boundary_closed m' v.
Proof.
  intros F G C t x bt b Hx B. apply (C t x); auto. apply (frame_bounded m m'); auto. now apply (good_all_live m v G).
Qed.

Lemma frame_nodes (m m' : mesh) (v : tag -> list addr) t : frame m m' -> good_view m v -> view_nodes m' t (v t) = view_nodes m t (v t).
Proof.
  intros F G. pose proof (good_all_live m v G) as L. specialize (L t). revert L. generalize (v t). unfold view_nodes.
  induction l as [|a l IH]; intros L; auto. cbn [flat_map]. rewrite IH by (intros; apply L; now right).
  destruct (L a (or_introl eq_refl)) as (e & D). now rewrite D, (F _ _ _ D).
Qed.

Lemma content_frame (m m' : mesh) k : frame m m' -> content_ok cfg m k -> content_ok cfg m' k.
Proof.
  intros F [G C Q]. constructor; [eapply frame_good; eauto|eapply frame_closed; eauto|].
  apply (qinv_same cfg (vq m k)); auto. intros t. cbn. symmetry. now apply frame_nodes.
Qed.

(** * Two set views with the same members are the same *)
Lemma sorted_eq (l1 l2 : list nat) : StronglySorted lt l1 -> StronglySorted lt l2 -> (forall x, In x l1 <-> In x l2) -> l1 = l2.
Proof.
  intros S1. revert l2. induction S1 as [|x l1 S1 IH F1]; intros l2 S2 H.
  - destruct l2 as [|y l2]; auto. destruct (proj2 (H y) (or_introl eq_refl)).
  - destruct S2 as [|y l2 S2 F2]; [destruct (proj1 (H x) (or_introl eq_refl))|]. rewrite Forall_forall in *.
    assert (x = y).
    { destruct (proj1 (H x) (or_introl eq_refl)) as [->|Hx]; auto. destruct (proj2 (H y) (or_introl eq_refl)) as [->|Hy]; auto.
      apply F2 in Hx. apply F1 in Hy. lia. }
    subst y. f_equal. apply IH; auto. intros z. split; intros Hz.
    + destruct (proj1 (H z) (or_intror Hz)) as [<-|]; auto. apply F1 in Hz. lia.
    + destruct (proj2 (H z) (or_intror Hz)) as [<-|]; auto. apply F2 in Hz. lia.
Qed.

Lemma increasing_eq (m : mesh) t v1 v2 : wf cfg m -> id_increasing m t v1 -> id_increasing m t v2 -> (forall x, In x v1 <-> In x v2) -> v1 = v2.
Proof.
  intros W (is1 & F1 & S1) (is2 & F2 & S2) H.
  assert (T : forall v ids, Forall2 (fun a i => id_at m t a = Some i) v ids -> forall i, In i ids <-> exists x, In x v /\ id_at m t x = Some i).
  { clear. intros v ids F. induction F as [|a i v ids Ha F IH]; intros j; simpl.
    - split; [easy|]. intros (x & [] & _).
    - rewrite IH. split.
      + intros [<-|(x & Hx & E)]; eauto.
      + intros (x & [<-|Hx] & E); [left; congruence|eauto]. }
  assert (is1 = is2).
  { apply sorted_eq; auto. intros i. rewrite (T _ _ F1), (T _ _ F2). split; intros (x & Hx & E); exists x; (split; [now apply H|auto]). }
  subst is2. clear -F1 F2 W. revert v2 F2. induction F1 as [|a i v1 ids Ha F IH]; intros v2 F2; inversion F2; subst; auto.
  f_equal; auto. eapply (id_at_inj cfg); eauto.
Qed.

(** A content whose view changed with the counter, or not at all. *)
Lemma content_change (m : mesh) k k' : wf cfg m -> content_ok cfg m k -> good_view m (k_view k') -> boundary_closed m (k_view k') ->
  k_cc k <= k_cc k' -> (k_cc k' = k_cc k -> forall t x, In x (k_view k' t) <-> In x (k_view k t)) ->
  k_cob k' = k_cob k -> k_nb k' = k_nb k -> k_bnd k' = k_bnd k -> content_ok cfg m k'.
Proof.
  intros W [G C Q] G' C' LE EQ E1 E2 E3. constructor; auto. unfold vq. rewrite E1, E2, E3.
  destruct (Nat.eq_dec (k_cc k') (k_cc k)) as [E|N].
  - apply (qinv_same cfg (vq m k)); auto. intros t. cbn. f_equal. apply (increasing_eq m t); auto. intros x. symmetry. now apply EQ.
  - apply (qinv_bump cfg (vq m k)); auto. cbn. lia.
Qed.

(** * The invariant *)
Definition member (s : sstate Pt) (a : nat) (z : Z) : Prop :=
  forall t x i, id_at (st_mesh s) t x = Some i -> (In x (k_view (st_con s a) t) <-> recorded (st_map s) t i z).

Record sinv (s : sstate Pt) : Prop := mkSI {
  si_reach : reach cfg (st_mesh s);
  si_g : ginv (st_segs s);
  si_named : named (st_segs s);
  si_mid : mid cfg s;
  si_con : forall a z, In (z, a) (g_ids (st_segs s)) ->
     content_ok cfg (st_mesh s) (st_con s a) /\ k_linked (st_con s a) = true /\ member s a z;
  si_fresh : forall a, g_next (st_segs s) <= a -> st_con s a = fresh_content;
  si_owned : forall t i z, recorded (st_map s) t i z ->
     (exists a, In (z, a) (g_ids (st_segs s))) /\ exists x, id_at (st_mesh s) t x = Some i
}.

Lemma reach_wf (m : mesh) : reach cfg m -> wf cfg m.
Proof. intros R. apply (ereach_wf cfg), reach_ereach, R. Qed.
Lemma reach_simple (m : mesh) : reach cfg m -> simple m.
Proof. intros R. apply (ereach_simple cfg), reach_ereach, R. Qed.

Lemma fresh_ok (m : mesh) : wf cfg m -> content_ok cfg m fresh_content.
Proof.
  intros W. constructor; cbn [fresh_content k_view].
  - apply empty_view_good.
  - intros t x bt b [].
  - constructor; cbn; intros; (split; [lia|discriminate]).
Qed.

Lemma sinv_new (m : mesh) : reach cfg m -> sinv (new_sstate m).
Proof.
  intros R. constructor; cbn [new_sstate st_mesh st_segs st_con st_map]; auto.
  - apply ginv_new.
  - intros nm a [].
  - constructor; cbn.
    + now apply reach_wf.
    + intros t i info H. destruct i; discriminate.
    + apply empty_view_good.
    + intros t x i _. split; [easy|]. intros (z & info & H & _). destruct i; discriminate.
  - intros a z [].
  - intros t i z (info & H & _). destruct i; discriminate.
Qed.

(** Ids of different segments differ. *)
Lemma ids_inj g z a b : ginv g -> In (z, a) (g_ids g) -> In (z, b) (g_ids g) -> a = b.
Proof. intros G H1 H2. eapply sorted_unique; eauto. apply G. Qed.
Lemma ids_fun g z z' a : ginv g -> In (z, a) (g_ids g) -> In (z', a) (g_ids g) -> z = z'.
Proof. intros G H1 H2. destruct (gi_seg _ G _ _ H1) as (s & E), (gi_seg _ G _ _ H2) as (s' & E'). congruence. Qed.

(** A state whose mesh grew. *)
Lemma sinv_grow (s : sstate Pt) m' : sinv s -> reach cfg m' -> frame (st_mesh s) m' ->
  sinv (mkS m' (st_segs s) (st_con s) (st_map s) (st_all s)).
Proof.
  intros [R G N M C F O] R' FR. pose proof (reach_wf _ R') as W'. destruct M as [W I AG AL].
  assert (Back : forall t x i z, id_at m' t x = Some i -> recorded (st_map s) t i z -> id_at (st_mesh s) t x = Some i).
  { intros t x i z Hx Rz. destruct (O t i z Rz) as (_ & y & Hy). replace x with y; auto.
    apply (id_at_inj cfg m' t y x i); auto. eapply frame_id; eauto. }
  assert (Fwd : forall (v : tag -> list addr) t x i, good_view (st_mesh s) v -> In x (v t) -> id_at m' t x = Some i -> id_at (st_mesh s) t x = Some i).
  { intros v t x i Gv Hx Hi. destruct (good_all_live _ v Gv t x Hx) as (e & D). apply id_at_deref in Hi as (e' & D' & E).
    rewrite (FR _ _ _ D) in D'. inversion D'; subst. apply id_at_deref. eauto. }
  constructor; cbn [st_mesh st_segs st_con st_map st_all]; auto.
  - constructor; cbn [st_mesh st_map st_all]; auto.
    + eapply frame_good; eauto.
    + intros t x i Hi. split.
      * intros Hx. apply (AL t x i); auto. eapply Fwd; eauto.
      * intros (z & Rz). apply (AL t x i); eauto.
  - intros a z Ha. destruct (C a z Ha) as (K & Lk & Mem). split; [eapply content_frame; eauto|]. split; auto.
    intros t x i Hi. cbn [st_mesh st_con st_map] in *. split.
    + intros Hx. apply (Mem t x i); auto. apply (Fwd (k_view (st_con s a)) t x i); auto. apply K.
    + intros Rz. apply (Mem t x i); eauto.
  - intros t i z Rz. destruct (O t i z Rz) as (A & x & Hx). split; auto. exists x. eapply frame_id; eauto.
Qed.

(** Adding an element that is live, with its boundary. *)
Lemma part_closed (m : mesh) v v' t h : boundary_transitive m -> boundary_closed m v ->
  (forall bt b, In b (v' bt) <-> In b (v bt) \/ part_of m bt b t h) -> boundary_closed m v'.
Proof.
  intros T C X t1 x bt b Hx B. apply X. apply X in Hx as [Hx|[[-> ->]|Hx]].
  - left. eapply C; eauto.
  - right. now right.
  - right. right. eapply T; eauto.
Qed.

(** Other segments and the bookkeeping after a change of segment [a]. *)
Lemma sinv_added (s s' : sstate Pt) a z L : sinv s -> mid cfg s' -> In (z, a) (g_ids (st_segs s)) ->
  st_mesh s' = st_mesh s -> st_segs s' = st_segs s -> (forall b, b <> a -> st_con s' b = st_con s b) ->
  (forall t i y, recorded (st_map s') t i y <->
     recorded (st_map s) t i y \/ (y = z /\ exists x, In (t, x) L /\ id_at (st_mesh s) t x = Some i)) ->
  content_ok cfg (st_mesh s) (st_con s' a) -> k_linked (st_con s' a) = true ->
  (forall t x, In x (k_view (st_con s' a) t) <-> In x (k_view (st_con s a) t) \/ In (t, x) L) ->
  sinv s'.
Proof.
  intros [R G N M C F O] M' Ha E1 E2 EO EM K LK EV. constructor; rewrite ?E1, ?E2; auto.
  - intros b y Hb. destruct (Nat.eq_dec b a) as [->|Nb].
    + assert (y = z) by (eapply ids_fun; eauto). subst y. split; auto. split; auto. unfold member. rewrite E1.
      destruct (C a z Ha) as (_ & _ & Mem). intros t x i Hi. rewrite EV, EM, (Mem t x i Hi). split.
      * intros [H|H]; auto. right. split; auto. eauto.
      * intros [H|(_ & x' & H & Hi')]; auto. right. replace x with x'; auto. eapply (id_at_inj cfg); eauto. apply M.
    + rewrite (EO b Nb). destruct (C b y Hb) as (K1 & L1 & Mem). split; auto. split; auto. unfold member. rewrite E1, (EO b Nb).
      intros t x i Hi. rewrite EM, (Mem t x i Hi). split; auto. intros [H|(-> & _)]; auto. exfalso. apply Nb. eapply ids_inj; eauto.
  - intros b Hb. rewrite EO; auto. intros ->. pose proof (gi_lt _ G _ _ Ha). lia.
  - intros t i y. rewrite EM. intros [H|(-> & x & _ & H)]; [auto|]. split; eauto.
Qed.

Lemma sinv_erased (s s' : sstate Pt) a z L : sinv s -> mid cfg s' -> In (z, a) (g_ids (st_segs s)) ->
  st_mesh s' = st_mesh s -> st_segs s' = st_segs s -> (forall b, b <> a -> st_con s' b = st_con s b) ->
  (forall t i y, recorded (st_map s') t i y <->
     recorded (st_map s) t i y /\ ~ (y = z /\ exists x, In (t, x) L /\ id_at (st_mesh s) t x = Some i)) ->
  content_ok cfg (st_mesh s) (st_con s' a) -> k_linked (st_con s' a) = true ->
  (forall t x, In x (k_view (st_con s' a) t) <-> In x (k_view (st_con s a) t) /\ ~ In (t, x) L) ->
  sinv s'.
Proof.
  intros [R G N M C F O] M' Ha E1 E2 EO EM K LK EV. constructor; rewrite ?E1, ?E2; auto.
  - intros b y Hb. destruct (Nat.eq_dec b a) as [->|Nb].
    + assert (y = z) by (eapply ids_fun; eauto). subst y. split; auto. split; auto. unfold member. rewrite E1.
      destruct (C a z Ha) as (_ & _ & Mem). intros t x i Hi. rewrite EV, EM, (Mem t x i Hi). split.
      * intros [H1 H2]. split; auto. intros (_ & x' & H & Hi'). apply H2. replace x with x'; auto. eapply (id_at_inj cfg); eauto. apply M.
      * intros [H1 H2]. split; auto. intros H. apply H2. split; auto. eauto.
    + rewrite (EO b Nb). destruct (C b y Hb) as (K1 & L1 & Mem). split; auto. split; auto. unfold member. rewrite E1, (EO b Nb).
      intros t x i Hi. rewrite EM, (Mem t x i Hi). split; [|tauto]. intros H. split; auto. intros (-> & _). apply Nb. eapply ids_inj; eauto.
  - intros b Hb. rewrite EO; auto. intros ->. pose proof (gi_lt _ G _ _ Ha). lia.
  - intros t i y. rewrite EM. intros [H _]. auto.
Qed.

End SegmentInv.
