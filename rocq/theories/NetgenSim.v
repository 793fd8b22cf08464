(** Lemmas for C67: creating cells with the ids 0, 1, 2, ... does the same as creating
    them with automatic ids, but for the id generators. *)
From Coq Require Import List Arith ZArith Bool Lia.
From Verif Require Import ModelTopo ModelMesh ModelErase ModelQuery ModelView ModelSegmentation ModelSegment ModelCopy ModelCopySeg ModelXml ModelVtk ModelNetgen
  SpecVtk SpecNetgen MeshBase VtkSim.
Import ModelSegmentation ListNotations.
Open Scope nat_scope.

Section Sim.
Context {K : Type}.
Variable cfg : config.
Notation pt := (list K).
Notation mesh := (@mesh pt).
Notation c := (cfg_cell cfg).
Notation sim := (@same_but_ids K c).
Notation simS := (@same_state_but_ids K c).
Hypothesis TV : c <> Vertex.

Definition osim2 {A} (o o' : option (mesh * A)) : Prop :=
  match o, o' with Some (m, x), Some (m', x') => sim m m' /\ x = x' | None, None => True | _, _ => False end.

Lemma sim2_refl (m : mesh) : sim m m. Proof. repeat split. Qed.
Lemma sim2_deref (m m' : mesh) t a : sim m m' -> deref m t a = deref m' t a.
Proof. intros (N & _). unfold deref. now rewrite N. Qed.
Lemma sim2_range (m m' : mesh) t : sim m m' -> range m t = range m' t.
Proof. intros (N & _). unfold range. now rewrite N. Qed.
Lemma sim2_key (m m' : mesh) vs : sim m m' -> key_of m vs = key_of m' vs.
Proof. intros S. unfold key_of. f_equal. apply omap_ext. intros a. now rewrite (sim2_deref m m'). Qed.
Lemma upd_pt2 {A} (f g : tag -> A) t x : (forall t', t' <> Vertex -> t' <> c -> f t' = g t') -> forall t', t' <> Vertex -> t' <> c -> upd f t x t' = upd g t x t'.
Proof. intros H t' T T'. unfold upd. destruct (tag_eqb t t'); auto. Qed.

Lemma push_sim2 t gen (m m' : mesh) e : t <> Vertex -> t <> c -> sim m m' -> osim2 (push cfg t gen m e) (push cfg t gen m' e).
Proof.
  intros T TC S. assert (S' := S). destruct S' as (N & X & G & C & L). unfold push. rewrite (sim2_key m m' _ S), N, X, (G t T TC), C, L.
  destruct (keyed cfg t).
  - destruct (key_of m' (e_verts e)) as [k|]; cbn; [|exact Logic.I]. destruct (find_key (m_nodes m' t) k) as [n|].
    + cbn. split; auto. repeat split; cbn; auto. now apply upd_pt2.
    + destruct gen; cbn; (split; [|reflexivity]); repeat split; cbn; auto; first [now apply upd_pt | now apply upd_pt2].
  - destruct gen; cbn; (split; [|reflexivity]); repeat split; cbn; auto; first [now apply upd_pt | now apply upd_pt2].
Qed.

Lemma log_sim2 (m m' : mesh) t a : sim m m' -> sim (log_insert t a m) (log_insert t a m').
Proof. intros (N & X & G & C & L). repeat split; cbn; auto. now rewrite L. Qed.
Lemma put_sim2 (m m' : mesh) t a e : sim m m' -> sim (put m t a e) (put m' t a e).
Proof. intros (N & X & G & C & L). repeat split; cbn; auto. intros t'. rewrite (N t). now apply upd_pt. Qed.

Lemma btab_dim t ent : In ent (btab cfg t) -> dim (fst ent) < dim t.
Proof.
  intros H. apply filter_In in H as [H _]. destruct t; cbn in H; repeat destruct H as [<-|H]; cbn; try lia; try contradiction.
Qed.

(** The boundary elements. *)
Lemma steps_sim2 d t a : (forall bt (m m' : mesh) e, bt <> Vertex -> bt <> c -> dim bt < dim t -> sim m m' -> osim2 (insert d cfg true bt m e) (insert d cfg true bt m' e)) ->
  dim t <= dim c -> forall l (m m' : mesh), (forall ent, In ent l -> fst ent <> Vertex /\ dim (fst ent) < dim t) -> sim m m' ->
  match ofold (boundary_step (insert d cfg true) t a) l m, ofold (boundary_step (insert d cfg true) t a) l m' with
  | Some x, Some y => sim x y | None, None => True | _, _ => False end.
Proof.
  intros IH DT.
  assert (B : forall (m m' : mesh) ent, fst ent <> Vertex -> dim (fst ent) < dim t -> sim m m' ->
    match boundary_step (insert d cfg true) t a m ent, boundary_step (insert d cfg true) t a m' ent with
    | Some x, Some y => sim x y | None, None => True | _, _ => False end).
  { intros m m' [bt idx] H HD S. cbn [fst] in *. unfold boundary_step.
    rewrite (sim2_deref m m' t a S). destruct (deref m' t a) as [host|]; cbn [obind]; auto.
    destruct (omap (nth_error (e_verts host)) idx) as [vs|]; cbn [obind]; auto.
    assert (BC : bt <> c) by (intros ->; lia).
    pose proof (IH bt m m' (mkE 0 vs [] None) H BC HD S) as P.
    destruct (insert d cfg true bt m _) as [[m1 [b f]]|], (insert d cfg true bt m' _) as [[m1' [b' f']]|]; cbn in P; try contradiction; cbn [obind]; auto.
    destruct P as [S1 E]. inversion E; subst b' f'. rewrite (sim2_deref m1 m1' bt b S1), (sim2_deref m1 m1' t a S1).
    destruct (deref m1' bt b) as [st|]; cbn [obind]; auto. destruct (deref m1' t a) as [h1|]; cbn [obind]; auto. now apply put_sim2. }
  induction l as [|ent l IL]; intros m m' H S; cbn [ofold]; auto.
  destruct (H ent (or_introl eq_refl)) as [H1 H2]. specialize (B m m' ent H1 H2 S).
  destruct (boundary_step (insert d cfg true) t a m ent), (boundary_step (insert d cfg true) t a m' ent); try contradiction; cbn [obind]; auto.
  apply IL; auto. intros; apply H; now right.
Qed.

Lemma insert_sim2 depth : forall gen t (m m' : mesh) e, t <> Vertex -> t <> c -> dim t <= dim c -> sim m m' -> osim2 (insert depth cfg gen t m e) (insert depth cfg gen t m' e).
Proof.
  induction depth as [|d IH]; intros gen t m m' e T TC DT S; cbn [insert]; pose proof (push_sim2 t gen m m' e T TC S) as P;
    destruct (push cfg t gen m e) as [[m1 [a fr]]|], (push cfg t gen m' e) as [[m1' [a' fr']]|]; cbn in P; try contradiction; cbn [obind]; auto;
    destruct P as [S1 E]; inversion E; subst a' fr'; (destruct fr; [|cbn; split; auto; now apply log_sim2]).
  - destruct (btab cfg t); cbn; auto. split; auto. now apply log_sim2.
  - pose proof (steps_sim2 d t a (fun bt m m' e H1 H2 H3 S => IH true bt m m' e H1 H2 ltac:(lia) S) DT (btab cfg t) m1 m1') as L.
    destruct (ofold _ _ m1), (ofold _ _ m1'); cbn; try (apply L; auto; intros; split; [eapply btab_not_vertex; eauto|eapply btab_dim; eauto]); auto.
    split; auto. apply log_sim2. apply L; auto. intros; split; [eapply btab_not_vertex; eauto|eapply btab_dim; eauto].
Qed.

(** A cell with the id [i], and a cell with the automatic id [i]. *)
Lemma make_cell_sim (m m' : mesh) vs i : sim m m' -> m_idgen m' c = i -> osim2 (make_element_with_id cfg c m vs i) (make_element cfg c m' vs).
Proof.
  intros S I. unfold make_element_with_id, make_element. destruct (length vs =? nverts c); cbn [osim2]; auto.
  assert (KF : keyed cfg c = false) by (unfold keyed; rewrite tag_eqb_refl; apply andb_false_r).
  destruct S as (N & X & G & C & L).
  set (m1 := mkM (upd (m_nodes m') c (m_nodes m' c ++ [mkN (m_next m' c) [] (mkE i vs [] None)])) (upd (m_next m') c (m_next m' c + 1)) (upd (m_idgen m) c (set_max_id i (m_idgen m c))) (m_cc m' + 1) (m_log m')).
  set (m1' := mkM (upd (m_nodes m') c (m_nodes m' c ++ [mkN (m_next m' c) [] (mkE i vs [] None)])) (upd (m_next m') c (m_next m' c + 1)) (upd (m_idgen m') c (i + 1)) (m_cc m' + 1) (m_log m')).
  set (a := m_next m' c).
  assert (P : exists mm, push cfg c false m (mkE i vs [] None) = Some (mm, (a, true)) /\ sim mm m1').
  { unfold push. rewrite KF. cbn [e_id set_id e_verts e_bnd e_pt]. rewrite X. eexists. split; [reflexivity|]. unfold m1'. repeat split; cbn; auto; try congruence.
    - intros t'. rewrite (N c). now apply upd_pt.
    - now apply upd_pt.
    - intros t' T1 T2. unfold upd. destruct (tag_eqb c t') eqn:E; auto. apply tag_eqb_eq in E. congruence. }
  assert (P' : push cfg c true m' (mkE 0 vs [] None) = Some (m1', (a, true))).
  { unfold push. rewrite KF. cbn. unfold set_id. cbn. rewrite I. reflexivity. }
  destruct P as (mm & P & S1). clear m1.
  assert (D : exists d, dim c = S d) by (destruct c; cbn; eauto; congruence). destruct D as (d & D). rewrite D. cbn [insert]. rewrite P, P'. cbn [obind].
  pose proof (steps_sim2 d c a (fun bt m m' e H1 H2 H3 S => insert_sim2 d true bt m m' e H1 H2 ltac:(lia) S) ltac:(lia) (btab cfg c) mm m1') as Q.
  destruct (ofold _ _ mm), (ofold _ _ m1'); cbn; try (apply Q; auto; intros; split; [eapply btab_not_vertex; eauto|eapply btab_dim; eauto]); auto.
  split; auto. apply log_sim2. apply Q; auto. intros; split; [eapply btab_not_vertex; eauto|eapply btab_dim; eauto].
Qed.

(** The generator itself. *)
Lemma insert_cell_idgen gen (m : mesh) e m1 h : insert (dim c) cfg gen c m e = Some (m1, h) -> m_idgen m1 c = if gen then m_idgen m c + 1 else set_max_id (e_id e) (m_idgen m c).
Proof.
  assert (KF : keyed cfg c = false) by (unfold keyed; rewrite tag_eqb_refl; apply andb_false_r).
  assert (G : forall d bt (m : mesh) e mm r, bt <> c -> dim bt <= dim c -> insert d cfg true bt m e = Some (mm, r) -> m_idgen mm c = m_idgen m c).
  { induction d as [|d IH]; intros bt m0 e0 mm r BC DT H; cbn [insert] in H.
    - destruct (push cfg bt true m0 e0) as [[m2 [a fr]]|] eqn:P; [|discriminate]. cbn [obind] in H.
      assert (E : m_idgen m2 c = m_idgen m0 c).
      { unfold push in P. assert (U : forall x, upd (m_idgen m0) bt x c = m_idgen m0 c) by (intros; unfold upd; destruct (tag_eqb bt c) eqn:Q; auto; apply tag_eqb_eq in Q; congruence).
        destruct (keyed cfg bt); [destruct (key_of m0 (e_verts e0)); [|discriminate]; cbn [obind] in P; destruct (find_key _ _)|]; cbn in P; inversion P; cbn; apply U. }
      destruct fr; [destruct (btab cfg bt); [|discriminate]|]; inversion H; subst; cbn; auto.
    - destruct (push cfg bt true m0 e0) as [[m2 [a fr]]|] eqn:P; [|discriminate]. cbn [obind] in H.
      assert (E : m_idgen m2 c = m_idgen m0 c).
      { unfold push in P. assert (U : forall x, upd (m_idgen m0) bt x c = m_idgen m0 c) by (intros; unfold upd; destruct (tag_eqb bt c) eqn:Q; auto; apply tag_eqb_eq in Q; congruence).
        destruct (keyed cfg bt); [destruct (key_of m0 (e_verts e0)); [|discriminate]; cbn [obind] in P; destruct (find_key _ _)|]; cbn in P; inversion P; cbn; apply U. }
      destruct fr; [|inversion H; subst; cbn; auto].
      destruct (ofold _ (btab cfg bt) m2) as [m3|] eqn:O; [|discriminate]. cbn [obind] in H. inversion H; subst. cbn. rewrite <- E. clear E P H.
      assert (BD : forall ent, In ent (btab cfg bt) -> dim (fst ent) < dim bt) by (intros; now apply btab_dim).
      revert m2 O. induction (btab cfg bt) as [|ent l IL]; intros m2 O; cbn [ofold] in O; [inversion O; auto|].
      destruct (boundary_step _ bt a m2 ent) as [m4|] eqn:B; [|discriminate]. cbn [obind] in O. rewrite (IL (fun e H => BD e (or_intror H)) m4 O).
      destruct ent as [b2 idx]. unfold boundary_step in B. destruct (deref m2 bt a) as [host|]; [|discriminate]. cbn [obind] in B.
      destruct (omap _ idx); [|discriminate]. cbn [obind] in B. destruct (insert d cfg true b2 m2 _) as [[m5 [x y]]|] eqn:I5; [|discriminate]. cbn [obind] in B.
      specialize (BD _ (or_introl eq_refl)). cbn [fst] in BD.
      apply IH in I5; [|intros ->; lia|lia]. destruct (deref m5 b2 x); [|discriminate]. cbn [obind] in B. destruct (deref m5 bt a); [|discriminate]. cbn [obind] in B. inversion B; subst. cbn. exact I5. }
  intros H.
  assert (D : exists d, dim c = S d) by (destruct c; cbn; eauto; congruence). destruct D as (d & D). rewrite D in H. cbn [insert] in H.
  destruct (push cfg c gen m _) as [[m2 [a fr']]|] eqn:P; [|discriminate]. cbn [obind] in H.
  assert (E : m_idgen m2 c = if gen then m_idgen m c + 1 else set_max_id (e_id e) (m_idgen m c)).
  { unfold push in P. rewrite KF in P. destruct gen; cbn in P; inversion P; cbn; unfold upd; now rewrite tag_eqb_refl. }
  destruct fr'; [|inversion H; subst; cbn; auto].
  destruct (ofold _ (btab cfg c) m2) as [m3|] eqn:O; [|discriminate]. cbn [obind] in H. inversion H; subst. cbn. rewrite <- E. clear E P H.
  assert (BD : forall ent, In ent (btab cfg c) -> dim (fst ent) < dim c) by (intros; now apply btab_dim).
  revert m2 O. induction (btab cfg c) as [|ent l IL]; intros m2 O; cbn [ofold] in O; [inversion O; auto|].
  destruct (boundary_step _ c a m2 ent) as [m4|] eqn:B; [|discriminate]. cbn [obind] in O. rewrite (IL (fun e H => BD e (or_intror H)) m4 O).
  destruct ent as [b2 idx]. unfold boundary_step in B. destruct (deref m2 c a) as [host|]; [|discriminate]. cbn [obind] in B.
  destruct (omap _ idx); [|discriminate]. cbn [obind] in B. destruct (insert d cfg true b2 m2 _) as [[m5 [x y]]|] eqn:I5; [|discriminate]. cbn [obind] in B.
  specialize (BD _ (or_introl eq_refl)). cbn [fst] in BD.
  apply G in I5; [|intros ->; lia|lia]. destruct (deref m5 b2 x); [|discriminate]. cbn [obind] in B. destruct (deref m5 c a); [|discriminate]. cbn [obind] in B. inversion B; subst. cbn. exact I5.
Qed.

Lemma make_cell_idgen (m : mesh) vs i m1 h : make_element_with_id cfg c m vs i = Some (m1, h) -> m_idgen m1 c = set_max_id i (m_idgen m c).
Proof.
  unfold make_element_with_id. destruct (length vs =? nverts c); [|discriminate]. destruct (insert _ _ _ _ _ _) as [[m2 r]|] eqn:E; [|discriminate]. cbn. intros H. inversion H; subst.
  now apply insert_cell_idgen in E.
Qed.
Lemma make_auto_idgen (m : mesh) vs m1 h : make_element cfg c m vs = Some (m1, h) -> m_idgen m1 c = m_idgen m c + 1.
Proof.
  unfold make_element. destruct (length vs =? nverts c); [|discriminate]. destruct (insert _ _ _ _ _ _) as [[m2 r]|] eqn:E; [|discriminate]. cbn. intros H. inversion H; subst.
  now apply insert_cell_idgen in E.
Qed.

(** Segments. *)
Definition oS2 (o o' : option (sstate pt)) : Prop := match o, o' with Some s, Some s' => simS s s' | None, None => True | _, _ => False end.

Lemma set_insert_sim2 (m m' : mesh) t h l : sim m m' -> set_insert m t h l = set_insert m' t h l.
Proof. intros S. induction l as [|x l IH]; cbn [set_insert]; rewrite ?(sim2_deref m m' t _ S), ?IH; auto. Qed.
Lemma view_insert_sim2 (m m' : mesh) t v h : sim m m' -> view_insert m t v h = view_insert m' t v h.
Proof. intros S. unfold view_insert. now rewrite (set_insert_sim2 m m'). Qed.
Lemma simple_add_sim2 a s s' th : simS s s' -> oS2 (simple_add a s th) (simple_add a s' th).
Proof.
  destruct th as [t h]. intros (S & G & C & M & A). unfold simple_add. rewrite <- G, <- C, <- M, <- A.
  destruct (find_seg a (g_segs (st_segs s))) as [sg|]; cbn [obind oS2]; auto.
  rewrite (sim2_deref _ _ t h S). destruct (deref (st_mesh s') t h) as [e|]; cbn [obind oS2]; auto.
  rewrite (view_insert_sim2 _ _ t _ h S). destruct (view_insert _ _ (k_view _) h) as [v|]; cbn [obind oS2]; auto.
  rewrite (view_insert_sim2 _ _ t (st_all s) h S). destruct (view_insert _ _ (st_all s) h) as [all|]; cbn [obind oS2]; auto.
  destruct (nth_error _ _) as [info|]; cbn [obind oS2]; auto. destruct (info_add _ info) as [info' new]. cbn. repeat split; cbn; auto; apply S.
Qed.
Lemma adds_sim2 a l : forall s s', simS s s' -> oS2 (ofold (simple_add a) l s) (ofold (simple_add a) l s').
Proof.
  induction l as [|th l IH]; intros s s' S; cbn [ofold]; auto. pose proof (simple_add_sim2 a s s' th S) as P.
  destruct (simple_add a s th), (simple_add a s' th); cbn in P; try contradiction; cbn [obind]; auto.
Qed.
Lemma seg_add_sim2 a t h s s' : simS s s' -> oS2 (seg_add a t h s) (seg_add a t h s').
Proof.
  intros S. unfold seg_add. pose proof (simple_add_sim2 a s s' (t, h) S) as P.
  destruct (simple_add a s (t, h)) as [s1|], (simple_add a s' (t, h)) as [s1'|]; cbn in P; try contradiction; cbn [obind]; auto.
  rewrite (sim2_deref _ _ t h (proj1 P)). destruct (deref (st_mesh s1') t h); cbn [obind]; [|exact Logic.I]. now apply adds_sim2.
Qed.
Lemma handle_inserts_sim2 (m m' : mesh) l : sim m m' -> forall k, handle_inserts m k l = handle_inserts m' k l.
Proof.
  intros S. unfold handle_inserts. induction l as [|th l IH]; intros k; cbn [ofold]; auto. rewrite (view_insert_sim2 m m' _ _ _ S).
  destruct (view_insert m' _ _ _); cbn [option_map obind]; auto.
Qed.
Lemma seg_create_sim2 a vs i s s' : simS s s' -> m_idgen (st_mesh s') c = i -> oS2 (seg_create_with_id cfg a c vs i s) (seg_create cfg a (OElement c vs) s').
Proof.
  intros (S & G & C & M & A) I. unfold seg_create_with_id, seg_create. rewrite <- C. destruct (k_linked (st_con s a)); cbn [oS2]; auto.
  pose proof (make_cell_sim _ _ vs i S I) as P.
  destruct (make_element_with_id cfg c (st_mesh s) vs i) as [[m1 h]|], (make_element cfg c (st_mesh s') vs) as [[m1' h']|]; cbn in P; try contradiction; cbn; auto.
  destruct P as [S1 ->]. destruct S as (N & X & Gn & Cc & L). destruct (S1) as (N1 & X1 & Gn1 & Cc1 & L1). rewrite L, L1.
  rewrite (handle_inserts_sim2 m1 m1' _ S1). destruct (handle_inserts m1' _ _) as [k|]; cbn [obind oS2]; auto.
  apply seg_add_sim2. repeat split; cbn; auto; apply S1.
Qed.
Lemma with_segs_sim2 (s s' : sstate pt) g : simS s s' -> simS (with_segs s g) (with_segs s' g).
Proof. intros (S & G & C & M & A). repeat split; cbn; auto; apply S. Qed.

Lemma seg_add_mesh a t h (s s' : sstate pt) : seg_add a t h s = Some s' -> st_mesh s' = st_mesh s.
Proof.
  assert (A : forall th (s s' : sstate pt), simple_add a s th = Some s' -> st_mesh s' = st_mesh s).
  { intros [t0 h0] x y H. unfold simple_add in H. destruct (find_seg a _); [|discriminate]. cbn [obind] in H. destruct (deref _ t0 h0); [|discriminate]. cbn [obind] in H.
    destruct (view_insert _ _ _ _); [|discriminate]. cbn [obind] in H. destruct (view_insert _ _ _ _); [|discriminate]. cbn [obind] in H.
    destruct (nth_error _ _); [|discriminate]. cbn [obind] in H. destruct (info_add _ _). now inversion H. }
  unfold seg_add. destruct (simple_add a s (t, h)) as [s1|] eqn:E; [|discriminate]. cbn [obind]. destruct (deref _ t h) as [e|]; [|discriminate]. cbn [obind].
  apply A in E. rewrite <- E. clear E. revert s1. induction (boundary_handles e) as [|th l IH]; intros s1 H; cbn [ofold] in H; [now inversion H|].
  destruct (simple_add a s1 th) as [s2|] eqn:E; [|discriminate]. cbn [obind] in H. rewrite (IH s2 H). eauto.
Qed.
Lemma seg_create_idgen a vs i (s s' : sstate pt) : seg_create_with_id cfg a c vs i s = Some s' -> m_idgen (st_mesh s') c = set_max_id i (m_idgen (st_mesh s) c).
Proof.
  unfold seg_create_with_id. destruct (k_linked (st_con s a)); [|discriminate]. destruct (make_element_with_id cfg c (st_mesh s) vs i) as [[m1 h]|] eqn:E; [|discriminate]. cbn [obind].
  destruct (handle_inserts _ _ _) as [k|]; [|discriminate]. cbn [obind]. intros H. rewrite (seg_add_mesh _ _ _ _ _ H). cbn. eapply make_cell_idgen; eauto.
Qed.

(** Cells leave the generator of the vertices alone. *)
Lemma insert_vertex_idgen d : forall gen bt (m : mesh) e mm r, bt <> Vertex -> insert d cfg gen bt m e = Some (mm, r) -> m_idgen mm Vertex = m_idgen m Vertex.
Proof.
  assert (PU : forall gen bt (m0 : mesh) e0 m2 r, bt <> Vertex -> push cfg bt gen m0 e0 = Some (m2, r) -> m_idgen m2 Vertex = m_idgen m0 Vertex).
  { intros gen bt m0 e0 m2 r BC P. unfold push in P.
    assert (U : forall x, upd (m_idgen m0) bt x Vertex = m_idgen m0 Vertex) by (intros; unfold upd; destruct (tag_eqb bt Vertex) eqn:Q; auto; apply tag_eqb_eq in Q; congruence).
    destruct (keyed cfg bt); [destruct (key_of m0 (e_verts e0)); [|discriminate]; cbn [obind] in P; destruct (find_key _ _)|]; destruct gen; cbn in P; inversion P; cbn; apply U. }
  induction d as [|d IH]; intros gen bt m0 e0 mm r BC H; cbn [insert] in H;
    (destruct (push cfg bt gen m0 e0) as [[m2 [a fr]]|] eqn:P; [|discriminate]); cbn [obind] in H; apply PU in P; auto; rewrite <- P; clear P.
  - destruct fr; [destruct (btab cfg bt); [|discriminate]|]; inversion H; subst; cbn; auto.
  - destruct fr; [|inversion H; subst; cbn; auto].
    destruct (ofold _ (btab cfg bt) m2) as [m3|] eqn:O; [|discriminate]. cbn [obind] in H. inversion H; subst. cbn. clear H.
    assert (BD : forall ent, In ent (btab cfg bt) -> fst ent <> Vertex) by (intros; eapply btab_not_vertex; eauto).
    revert m2 O. induction (btab cfg bt) as [|ent l IL]; intros m2 O; cbn [ofold] in O; [inversion O; auto|].
    destruct (boundary_step _ bt a m2 ent) as [m4|] eqn:B; [|discriminate]. cbn [obind] in O. rewrite (IL (fun e H => BD e (or_intror H)) m4 O).
    destruct ent as [b2 idx]. unfold boundary_step in B. destruct (deref m2 bt a) as [host|]; [|discriminate]. cbn [obind] in B.
    destruct (omap _ idx); [|discriminate]. cbn [obind] in B. destruct (insert d cfg true b2 m2 _) as [[m5 [x y]]|] eqn:I5; [|discriminate]. cbn [obind] in B.
    specialize (BD _ (or_introl eq_refl)). cbn [fst] in BD.
    apply IH in I5; [|exact BD]. destruct (deref m5 b2 x); [|discriminate]. cbn [obind] in B. destruct (deref m5 bt a); [|discriminate]. cbn [obind] in B. inversion B; subst. cbn. exact I5.
Qed.
Lemma seg_create_vertex_idgen a vs i (s s' : sstate pt) : seg_create_with_id cfg a c vs i s = Some s' -> m_idgen (st_mesh s') Vertex = m_idgen (st_mesh s) Vertex.
Proof.
  unfold seg_create_with_id. destruct (k_linked (st_con s a)); [|discriminate]. destruct (make_element_with_id cfg c (st_mesh s) vs i) as [[m1 h]|] eqn:E; [|discriminate]. cbn [obind].
  destruct (handle_inserts _ _ _) as [k|]; [|discriminate]. cbn [obind]. intros H. rewrite (seg_add_mesh _ _ _ _ _ H). cbn.
  unfold make_element_with_id in E. destruct (length vs =? nverts c); [|discriminate]. destruct (insert _ _ _ _ _ _) as [[m2 r]|] eqn:E2; [|discriminate]. cbn in E. inversion E; subst.
  eapply insert_vertex_idgen; eauto.
Qed.

End Sim.
