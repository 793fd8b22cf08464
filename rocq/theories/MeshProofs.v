(** Proofs of the mesh properties C01-C08. *)
From Coq Require Import List Arith Bool Lia Permutation Sorted.
From Verif Require Import ModelTopo ModelMesh ModelErase ModelKeyMap SpecMesh MeshBase MeshInv MeshIds MeshReach.
Import ListNotations.

Lemma C01_auto_ids_unique_pf : forall (Pt : Type) (cfg : config) (ops : list (op Pt)) (m : mesh),
  Forall no_explicit ops -> run cfg ops empty_mesh = Some m ->
  forall t, NoDup (ids_of m t) /\ forall i, In i (ids_of m t) -> i < id_upper_bound m t.
Proof.
  intros Pt cfg ops m HA HR t.
  destruct (run_winv cfg ops empty_mesh m HA (winv_empty cfg)) as (W & N & _); auto.
  { intros t'. constructor. }
  split; [apply N|]. intros i Hi. now apply W.
Qed.

Lemma C01_ids_never_reused_pf : forall (Pt : Type) (cfg : config) (ops1 ops2 ops3 : list (op Pt)) (m1 m2 m3 : mesh),
  Forall no_explicit (ops1 ++ ops2 ++ ops3) -> Forall no_clear (ops2 ++ ops3) ->
  run cfg ops1 empty_mesh = Some m1 -> run cfg ops2 m1 = Some m2 -> run cfg ops3 m2 = Some m3 ->
  forall t i, In i (ids_of m1 t) -> ~ In i (ids_of m2 t) -> ~ In i (ids_of m3 t).
Proof.
  intros Pt cfg ops1 ops2 ops3 m1 m2 m3 HA HC R1 R2 R3 t i H1 H2 H3.
  rewrite !Forall_app in HA. rewrite Forall_app in HC. destruct HA as (A1 & A2 & A3), HC as (C2 & C3).
  destruct (run_winv cfg ops1 empty_mesh m1 A1 (winv_empty cfg)) as (W1 & N1 & _); auto.
  { intros t'. constructor. }
  destruct (run_winv cfg ops2 m1 m2 A2 W1 N1 R2) as (W2 & N2 & G2).
  destruct (run_winv cfg ops3 m2 m3 A3 W2 N2 R3) as (W3 & N3 & G3).
  apply (g_ids _ _ (G3 C3)) in H3 as [H3|H3]; [tauto|].
  apply (w_idlt cfg m1 W1) in H1. pose proof (g_gen _ _ (G2 C2) t). lia.
Qed.

Lemma C01_new_vertex_id_fresh_pf : forall (Pt : Type) (cfg : config) (ops1 ops2 : list (op Pt)) (m1 m2 m3 : mesh) p a,
  Forall no_explicit (ops1 ++ ops2) -> Forall no_clear ops2 ->
  run cfg ops1 empty_mesh = Some m1 -> run cfg ops2 m1 = Some m2 -> make_vertex cfg m2 p = Some (m3, a) ->
  exists e, deref m3 Vertex a = Some e /\ ~ In (e_id e) (ids_of m1 Vertex) /\ ~ In (e_id e) (ids_of m2 Vertex)
            /\ e_pt e = Some p.
Proof.
  intros Pt cfg ops1 ops2 m1 m2 m3 p a HA HC R1 R2 R3.
  rewrite Forall_app in HA. destruct HA as (A1 & A2).
  destruct (run_winv cfg ops1 empty_mesh m1 A1 (winv_empty cfg)) as (W1 & N1 & _); auto.
  { intros t'. constructor. }
  destruct (run_winv cfg ops2 m1 m2 A2 W1 N1 R2) as (W2 & N2 & G2).
  destruct (make_vertex_added cfg m2 p) as (m' & E & (V1 & _) & _). rewrite R3 in E. inversion E; subst.
  exists (mkE (m_idgen m2 Vertex) [] [] (Some p)). split.
  - unfold deref. rewrite V1, find_node_app.
    destruct (find_node (m_nodes m2 Vertex) (m_next m2 Vertex)) as [n|] eqn:F.
    + apply find_node_In in F as [F1 F2]. apply (w_next cfg m2 W2) in F1. lia.
    + unfold find_node. simpl. now rewrite Nat.eqb_refl.
  - simpl. repeat split.
    + intros H. apply (w_idlt cfg m1 W1) in H. pose proof (g_gen _ _ (G2 HC) Vertex). lia.
    + intros H. apply (w_idlt cfg m2 W2) in H. lia.
Qed.

Lemma C02_explicit_id_collides_refuted_pf :
  forall (Pt : Type) (cfg : config) (ops : list (op Pt)) (m m1 m2 : mesh) p q a1 a2,
  Forall no_explicit ops -> run cfg ops empty_mesh = Some m ->
  make_vertex_with_id cfg m (id_upper_bound m Vertex) p = Some (m1, a1) ->
  make_vertex cfg m1 q = Some (m2, a2) ->
  a1 <> a2 /\ exists e1 e2, deref m2 Vertex a1 = Some e1 /\ deref m2 Vertex a2 = Some e2 /\ e_id e1 = e_id e2.
Proof.
  intros Pt cfg ops m m1 m2 p q a1 a2 HA HR H1 H2.
  destruct (run_winv cfg ops empty_mesh m HA (winv_empty cfg)) as (W & N & _); auto.
  { intros t'. constructor. }
  destruct (make_vertex_id_added cfg m (id_upper_bound m Vertex) p) as (m1' & E1 & (V1 & _ & V2 & _) & G1).
  rewrite H1 in E1. inversion E1; subst m1' a1. clear E1.
  destruct (make_vertex_added cfg m1 q) as (m2' & E2 & (V3 & _) & G2).
  rewrite H2 in E2. inversion E2; subst m2' a2. clear E2.
  unfold id_upper_bound, set_max_id in G1. rewrite Nat.ltb_irrefl in G1.
  split; [lia|].
  exists (mkE (m_idgen m Vertex) [] [] (Some p)), (mkE (m_idgen m1 Vertex) [] [] (Some q)).
  assert (F : forall l : list (@node Pt), (forall n, In n l -> n_addr n < m_next m Vertex) -> forall a, m_next m Vertex <= a -> find_node l a = None).
  { intros l Hl a Ha. destruct (find_node l a) as [n|] eqn:E; auto. apply find_node_In in E as [E <-]. apply Hl in E. lia. }
  assert (F0 := F (m_nodes m Vertex) (w_next cfg m W Vertex)).
  repeat split.
  - unfold deref. rewrite V3, V1, !find_node_app, F0 by lia. unfold find_node. simpl. now rewrite Nat.eqb_refl.
  - unfold deref. rewrite V3, V1, !find_node_app, F0 by lia. unfold find_node. simpl. rewrite Nat.eqb_refl.
    destruct (Nat.eqb_spec (m_next m Vertex) (m_next m1 Vertex)); [lia|]. reflexivity.
  - simpl. now rewrite G1.
Qed.

Lemma C02_explicit_ids_partial_pf : forall (Pt : Type) (cfg : config) (ops : list (op Pt)) (m m' : mesh) p a,
  explicit_ids_guarded cfg ops empty_mesh -> run cfg ops empty_mesh = Some m ->
  make_vertex cfg m p = Some (m', a) ->
  exists e, deref m' Vertex a = Some e /\ ~ In (e_id e) (ids_of m Vertex).
Proof.
  intros Pt cfg ops m m' p a HG HR HM.
  assert (W : winv cfg m).
  { clear HM. generalize (winv_empty (Pt:=Pt) cfg). revert HG HR. generalize (@empty_mesh Pt) as m0.
    induction ops as [|o ops IH]; intros m0 HG HR W0.
    - inversion HR; subst; auto.
    - unfold run in HR. cbn [ofold] in HR. apply obind_Some in HR as (m1 & H1 & H2).
      simpl in HG. destruct HG as [HG1 HG2]. rewrite H1 in HG2.
      eapply IH; eauto. eapply step_winv; eauto. intros i q ->. exact HG1. }
  destruct (make_vertex_added cfg m p) as (m1 & E & (V1 & _) & _). rewrite HM in E. inversion E; subst.
  exists (mkE (m_idgen m Vertex) [] [] (Some p)). split.
  - unfold deref. rewrite V1, find_node_app.
    destruct (find_node (m_nodes m Vertex) (m_next m Vertex)) as [n|] eqn:F.
    + apply find_node_In in F as [F1 F2]. apply (w_next cfg m W) in F1. lia.
    + unfold find_node. simpl. now rewrite Nat.eqb_refl.
  - simpl. intros H. apply (w_idlt cfg m W) in H. lia.
Qed.

Lemma C03_boundary_complete_pf : forall (Pt : Type) (cfg : config) (m : @mesh Pt), reach cfg m ->
  forall t a e, deref m t a = Some e ->
  forall bt, bt <> Vertex -> cfg_keep cfg bt = true -> (t, bt) <> (Hex, Line) ->
    length (boundary_of e bt) = length (ref_facets t bt) /\
    forall k idx, nth_error (ref_facets t bt) k = Some idx ->
      exists h f vs, nth_error (boundary_of e bt) k = Some h /\ deref m bt h = Some f /\
        selects (e_verts e) idx vs /\ same_vertices (e_verts f) vs.
Proof.
  intros Pt cfg m HR t a e HD bt Hbt HK Hne.
  pose proof (element_boundary cfg m t a e bt (reach_inv cfg m HR) HD HK) as F.
  rewrite entry_facets_ref in F by auto. rewrite boundary_of_nonvertex by auto.
  split; [rewrite map_length; eapply Forall2_len; eauto|].
  intros k idx Hk. destruct (Forall2_nth_l _ _ _ _ _ F Hk) as (b & Hb & (_ & f & vs & Df & Sv & Pf & _)).
  exists (b_addr b), f, vs. rewrite nth_error_map, Hb. repeat split; auto. now apply selects_omap.
Qed.

Lemma C03_vertices_stored_pf : forall (Pt : Type) (cfg : config) (m : @mesh Pt), reach cfg m ->
  forall t a e, t <> Vertex -> deref m t a = Some e ->
    length (e_verts e) = nverts t /\ NoDup (e_verts e) /\ Forall (is_live m Vertex) (e_verts e).
Proof.
  intros Pt cfg m HR t a e Ht HD. apply deref_In in HD as (n & Hn & _ & <-).
  destruct (i_verts cfg m [] (reach_inv cfg m HR) t n Ht Hn) as (A & B & C). repeat split; auto.
  apply Forall_forall. intros v Hv. unfold is_live. apply range_deref. auto.
Qed.

Lemma C04_no_duplicate_facets_pf : forall (Pt : Type) (cfg : config) (m : @mesh Pt), reach cfg m ->
  forall t, t <> Vertex -> t <> cfg_cell cfg ->
  forall a1 a2 e1 e2, deref m t a1 = Some e1 -> deref m t a2 = Some e2 ->
    same_vertices (e_verts e1) (e_verts e2) -> a1 = a2.
Proof.
  intros Pt cfg m HR t H1 H2 a1 a2 e1 e2 D1 D2 HP.
  eapply keyed_unique; eauto using reach_inv.
  unfold keyed. apply andb_true_iff. split; apply negb_true_iff, tag_eqb_neq; auto.
Qed.

Lemma C04_shared_facet_identical_pf : forall (Pt : Type) (cfg : config) (m : @mesh Pt), reach cfg m ->
  forall t1 a1 e1 t2 a2 e2 bt, deref m t1 a1 = Some e1 -> deref m t2 a2 = Some e2 ->
  bt <> Vertex -> bt <> cfg_cell cfg -> cfg_keep cfg bt = true -> (t1, bt) <> (Hex, Line) -> (t2, bt) <> (Hex, Line) ->
  forall k1 k2 i1 i2 v1 v2 h1 h2,
    nth_error (ref_facets t1 bt) k1 = Some i1 -> selects (e_verts e1) i1 v1 ->
    nth_error (ref_facets t2 bt) k2 = Some i2 -> selects (e_verts e2) i2 v2 ->
    same_vertices v1 v2 ->
    nth_error (boundary_of e1 bt) k1 = Some h1 -> nth_error (boundary_of e2 bt) k2 = Some h2 -> h1 = h2.
Proof.
  intros Pt cfg m HR t1 a1 e1 t2 a2 e2 bt D1 D2 Hb Hc HK N1 N2 k1 k2 i1 i2 v1 v2 h1 h2 R1 S1 R2 S2 HP B1 B2.
  destruct (C03_boundary_complete_pf Pt cfg m HR t1 a1 e1 D1 bt Hb HK N1) as [_ X1].
  destruct (C03_boundary_complete_pf Pt cfg m HR t2 a2 e2 D2 bt Hb HK N2) as [_ X2].
  destruct (X1 k1 i1 R1) as (h1' & f1 & w1 & Y1 & Z1 & T1 & U1).
  destruct (X2 k2 i2 R2) as (h2' & f2 & w2 & Y2 & Z2 & T2 & U2).
  rewrite B1 in Y1. inversion Y1; subst h1'. rewrite B2 in Y2. inversion Y2; subst h2'.
  apply selects_omap in S1, S2, T1, T2. rewrite T1 in S1. rewrite T2 in S2. inversion S1; inversion S2; subst.
  eapply C04_no_duplicate_facets_pf; eauto. unfold same_vertices in *. rewrite U1, HP. now symmetry.
Qed.

Lemma C05_local_vertex_pf : forall (Pt : Type) (cfg : config) (m : @mesh Pt), reach cfg m ->
  forall t a e bt, deref m t a = Some e -> bt <> Vertex -> cfg_keep cfg bt = true -> (t, bt) <> (Hex, Line) ->
  forall k idx h i j v, nth_error (ref_facets t bt) k = Some idx -> nth_error (boundary_of e bt) k = Some h ->
    nth_error idx i = Some j -> nth_error (e_verts e) j = Some v ->
    local_vertex m e bt h i = Some v.
Proof.
  intros Pt cfg m HR t a e bt HD Hb HK Hne k idx h i j v R B I V.
  rewrite <- entry_facets_ref in R by auto.
  eapply local_vertex_spec; eauto using reach_inv.
  - intros ->. destruct bt; destruct k; discriminate.
  - now rewrite I.
Qed.

Lemma C06_creation_defined_pf : forall (Pt : Type) (cfg : config) (m : @mesh Pt) o, reach cfg m -> valid_op cfg m o ->
  exists m', step cfg m o = Some m'.
Proof.
  intros Pt cfg m o HR HV. destruct (step_inv cfg m o (reach_inv cfg m HR) HV) as (m' & H & _). eauto.
Qed.

Lemma C06_insertion_frame_pf : forall (Pt : Type) (cfg : config) (m m' : @mesh Pt) o, reach cfg m -> valid_op cfg m o ->
  o <> OClear -> step cfg m o = Some m' ->
  (forall t a e, deref m t a = Some e -> deref m' t a = Some e) /\
  (forall t, exists is_new : addr -> bool,
     (forall a, In a (range m' t) -> (is_new a = true <-> ~ is_live m t a)) /\
     filter (fun a => negb (is_new a)) (range m' t) = range m t).
Proof.
  intros Pt cfg m m' o HR HV Hc HS. split.
  - pose proof (reach_inv cfg m HR) as HI. destruct o; cbn [step] in HS; try easy.
    + destruct (make_vertex_added cfg m p) as (m1 & E & A & _). rewrite E in HS. cbn in HS. inversion HS; subst.
      intros t a e H. rewrite (vertex_added_deref cfg m m' _ p [] HI A).
      destruct (tag_eq_dec t Vertex) as [->|]; auto. destruct (Nat.eqb_spec a (m_next m Vertex)); auto.
      subst. exfalso. eapply (fresh_addr cfg m [] Vertex HI). apply range_deref. eauto.
    + destruct (make_vertex_id_added cfg m i p) as (m1 & E & A & _). rewrite E in HS. cbn in HS. inversion HS; subst.
      intros t a e H. rewrite (vertex_added_deref cfg m m' _ p [] HI A).
      destruct (tag_eq_dec t Vertex) as [->|]; auto. destruct (Nat.eqb_spec a (m_next m Vertex)); auto.
      subst. exfalso. eapply (fresh_addr cfg m [] Vertex HI). apply range_deref. eauto.
    + destruct (valid_element_spec cfg m t vs HI HV) as (m1 & a & fr & E & _ & P).
      rewrite E in HS. cbn in HS. inversion HS; subst. apply (p_frame _ _ _ _ _ _ _ _ P).
  - intros t. exists (fun a => negb (a <? m_next m t)).
    pose proof (step_old_range cfg m m' o HR HV Hc HS t) as [H1 H2].
    assert (E : filter (fun a => negb (negb (a <? m_next m t))) (range m' t) = range m t).
    { rewrite <- H2. apply filter_ext. intros. apply negb_involutive. }
    split; [|exact E].
    intros a Ha. unfold is_live. rewrite <- range_deref. change (map n_addr (m_nodes m t)) with (range m t).
    rewrite <- H2, filter_In. rewrite negb_true_iff. split.
    + intros Hf [_ Hl]. congruence.
    + intros Hn. destruct (a <? m_next m t); auto. tauto.
Qed.

Lemma C06_only_own_boundary_appears_pf : forall (Pt : Type) (cfg : config) (m m' : @mesh Pt) t vs a,
  reach cfg m -> valid_op cfg m (OElement t vs) -> make_element cfg t m vs = Some (m', a) ->
  (exists e, deref m' t a = Some e /\ same_vertices (e_verts e) vs) /\
  (forall t' a' e', deref m' t' a' = Some e' -> ~ is_live m t' a' ->
     (t' = t /\ a' = a) \/ (dim t' < dim t /\ incl (e_verts e') vs)) /\
  (t = cfg_cell cfg -> range m' t = range m t ++ [a] /\ ~ is_live m t a).
Proof.
  intros Pt cfg m m' t vs a HR HV HM. pose proof (reach_inv cfg m HR) as HI.
  destruct (valid_element_spec cfg m t vs HI HV) as (m1 & a1 & fr & E & _ & P).
  rewrite HM in E. inversion E; subst m1 a1. split; [|split].
  - destruct (p_elem _ _ _ _ _ _ _ _ P) as (e & H1 & H2 & _). eauto.
  - intros t' a' e' H1 H2. destruct (p_new _ _ _ _ _ _ _ _ P _ _ _ H1) as [H|(H3 & [(H4 & H5 & H6)|(H4 & _ & _ & H5 & _)])]; auto.
    exfalso. apply H2. eexists; eauto.
  - intros Ht. assert (K : keyed cfg t = false).
    { unfold keyed. subst. rewrite tag_eqb_refl, andb_false_r. reflexivity. }
    destruct (p_self _ _ _ _ _ _ _ _ P K) as [H1 H2]. split; auto.
    destruct (p_elem _ _ _ _ _ _ _ _ P) as (e & H3 & H4 & H5). destruct (H5 H2) as (_ & -> & _).
    unfold is_live. rewrite <- range_deref. eapply fresh_addr; eauto.
Qed.

Lemma C07_keys_identify_vertex_sets_pf : forall (Pt : Type) (cfg : config) (m : @mesh Pt), reach cfg m ->
  forall vs1 vs2, Forall (is_live m Vertex) vs1 -> Forall (is_live m Vertex) vs2 ->
  exists k1 k2, key_of m vs1 = Some k1 /\ key_of m vs2 = Some k2 /\ (k1 = k2 <-> same_vertices vs1 vs2).
Proof.
  intros Pt cfg m HR vs1 vs2 H1 H2. rewrite Forall_forall in H1, H2.
  destruct (key_of_total m vs1) as [k1 K1]. { intros v Hv. apply range_deref. now apply H1. }
  destruct (key_of_total m vs2) as [k2 K2]. { intros v Hv. apply range_deref. now apply H2. }
  exists k1, k2. repeat split; auto.
  - intros ->. eapply key_perm; eauto using reach_inv.
  - intros HP. apply (perm_key m _ _ _ HP) in K1. congruence.
Qed.

Lemma C07_sorted_ids_equal_iff_pf : forall ids1 ids2 : list nat, isort ids1 = isort ids2 <-> Permutation ids1 ids2.
Proof. exact isort_eq_iff. Qed.

Lemma C07_key_order_pf : (forall a, key_less a a = false) /\
  (forall a b c, key_less a b = true -> key_less b c = true -> key_less a c = true) /\
  (forall a b, a = b \/ key_less a b = true \/ key_less b a = true) /\
  (forall a b, key_less a b = true -> key_less b a = false).
Proof.
  split; [exact key_less_irrefl|]. split; [exact key_less_trans|]. split.
  - intros a b. destruct (key_less a b) eqn:E1; auto. destruct (key_less b a) eqn:E2; auto.
    left. now apply key_less_total.
  - intros a b H. destruct (key_less b a) eqn:E; auto.
    pose proof (key_less_trans _ _ _ H E) as X. rewrite key_less_irrefl in X. discriminate.
Qed.

Section KM.
Context {V : Type}.
Definition klt2 (p q : list nat * V) : Prop := key_less (fst p) (fst q) = true.
Definition agrees (l : kmap V) (s : fmap V * nat) : Prop :=
  StronglySorted klt2 l /\ (forall k, km_find k l = fst s k) /\ length l = snd s.

Lemma km_find_place k v (l : kmap V) k' : km_find k l = None ->
  km_find k' (km_place k v l) = if list_eq_dec Nat.eq_dec k k' then Some v else km_find k' l.
Proof.
  unfold km_find. induction l as [|[k0 v0] l IH]; simpl; intros H.
  - destruct (list_eq_dec Nat.eq_dec k k') as [->|N].
    + rewrite (proj2 (key_equiv_eq k' k') eq_refl). reflexivity.
    + destruct (key_equiv k k') eqn:E; auto. apply key_equiv_eq in E. congruence.
  - destruct (key_equiv k0 k) eqn:E0; [discriminate|].
    destruct (key_less k k0); simpl.
    + destruct (list_eq_dec Nat.eq_dec k k') as [->|N].
      * rewrite (proj2 (key_equiv_eq k' k') eq_refl). reflexivity.
      * destruct (key_equiv k k') eqn:E; auto. apply key_equiv_eq in E. congruence.
    + destruct (key_equiv k0 k') eqn:E1.
      * apply key_equiv_eq in E1. subst. destruct (list_eq_dec Nat.eq_dec k k') as [->|]; auto.
        rewrite (proj2 (key_equiv_eq k' k') eq_refl) in E0. discriminate.
      * apply IH. exact H.
Qed.

Lemma km_place_length k v (l : kmap V) : length (km_place k v l) = S (length l).
Proof. induction l as [|p l IH]; simpl; auto. destruct (key_less k (fst p)); simpl; auto. Qed.

Lemma km_place_In k v (l : kmap V) x : In x (km_place k v l) -> x = (k, v) \/ In x l.
Proof.
  induction l as [|p l IH]; simpl.
  - intros [H|[]]; auto.
  - destruct (key_less k (fst p)); simpl; intuition.
Qed.

Lemma km_find_none k (l : kmap V) p : km_find k l = None -> In p l -> fst p <> k.
Proof.
  unfold km_find. intros H HI E. destruct (find _ l) eqn:F; [discriminate|].
  apply (find_none _ _ F) in HI. simpl in HI.
  assert (key_equiv (fst p) k = true) by now apply key_equiv_eq. congruence.
Qed.

Lemma km_place_sorted k v (l : kmap V) : km_find k l = None -> StronglySorted klt2 l -> StronglySorted klt2 (km_place k v l).
Proof.
  induction l as [|p l IH]; simpl; intros HN HS; [repeat constructor|].
  assert (Hp : fst p <> k) by (eapply km_find_none; [exact HN|now left]).
  assert (HN' : km_find k l = None).
  { unfold km_find in *. simpl in HN. destruct (key_equiv (fst p) k); [discriminate|exact HN]. }
  inversion HS; subst. destruct (key_less k (fst p)) eqn:E.
  - constructor; auto. constructor; auto. eapply Forall_impl; [|eassumption].
    unfold klt2. simpl. intros q Hq. eapply key_less_trans; eauto.
  - constructor; auto. apply Forall_forall. intros q Hq. apply km_place_In in Hq as [->|Hq].
    + unfold klt2. simpl. destruct (key_less (fst p) k) eqn:E2; auto. exfalso. apply Hp. now apply key_less_total.
    + rewrite Forall_forall in H2. auto.
Qed.

Lemma km_erase_incl k (l : kmap V) x : In x (km_erase k l) -> In x l.
Proof. induction l as [|p l IH]; simpl; auto. destruct (key_equiv (fst p) k); simpl; intuition. Qed.

Lemma km_erase_sorted k (l : kmap V) : StronglySorted klt2 l -> StronglySorted klt2 (km_erase k l).
Proof.
  induction 1 as [|p l HS IH HF]; simpl; [constructor|].
  destruct (key_equiv (fst p) k); auto. constructor; auto.
  rewrite Forall_forall in *. intros q Hq. apply HF. eapply km_erase_incl; eauto.
Qed.

Lemma km_find_erase k k' (l : kmap V) : StronglySorted klt2 l ->
  km_find k' (km_erase k l) = if list_eq_dec Nat.eq_dec k k' then None else km_find k' l.
Proof.
  unfold km_find. induction 1 as [|p l HS IH HF]; simpl.
  - now destruct (list_eq_dec Nat.eq_dec k k').
  - destruct (key_equiv (fst p) k) eqn:E.
    + apply key_equiv_eq in E. subst k.
      destruct (list_eq_dec Nat.eq_dec (fst p) k') as [N|N].
      * subst k'. destruct (find (fun p0 => key_equiv (fst p0) (fst p)) l) as [q|] eqn:F; auto.
        apply find_some in F as [F1 F2]. apply key_equiv_eq in F2.
        rewrite Forall_forall in HF. specialize (HF _ F1). unfold klt2 in HF.
        rewrite F2, key_less_irrefl in HF. discriminate.
      * destruct (key_equiv (fst p) k') eqn:E; auto. apply key_equiv_eq in E. congruence.
    + simpl. destruct (key_equiv (fst p) k') eqn:E1; auto.
      apply key_equiv_eq in E1. subst k'. destruct (list_eq_dec Nat.eq_dec k (fst p)) as [->|]; auto.
      rewrite (proj2 (key_equiv_eq (fst p) (fst p)) eq_refl) in E. discriminate.
Qed.

Lemma km_erase_length k (l : kmap V) : length (km_erase k l) =
  match km_find k l with Some _ => length l - 1 | None => length l end.
Proof.
  unfold km_find. induction l as [|p l IH]; simpl; auto.
  destruct (key_equiv (fst p) k) eqn:E; simpl; [lia|]. rewrite IH.
  destruct (find (fun p0 => key_equiv (fst p0) k) l) eqn:F; simpl; auto.
  destruct l; [discriminate|]. simpl. lia.
Qed.

Lemma km_step_agrees l s o : agrees l s ->
  agrees (fst (km_step l o)) (fst (fm_step s o)) /\ snd (km_step l o) = snd (fm_step s o).
Proof.
  destruct s as [f n]. intros (HS & HF & HL). simpl in HF, HL. destruct o; simpl.
  - unfold km_insert. rewrite <- HF. destruct (km_find k l) eqn:E; simpl; split; auto.
    + repeat split; auto.
    + repeat split; simpl.
      * now apply km_place_sorted.
      * intros k'. rewrite km_find_place by auto. unfold fm_set. now rewrite HF.
      * rewrite km_place_length. lia.
  - split; [repeat split; auto|]. now rewrite HF.
  - split; auto. repeat split; simpl.
    + now apply km_erase_sorted.
    + intros k'. rewrite km_find_erase by auto. unfold fm_set. now rewrite HF.
    + rewrite km_erase_length, <- HF, HL. reflexivity.
  - split; auto. repeat split; auto. constructor.
  - split; [repeat split; auto|]. now rewrite HL.
Qed.

Lemma km_run_agrees ops : forall l s, agrees l s -> km_run ops l = fm_run ops s.
Proof.
  induction ops as [|o ops IH]; intros l s HA; simpl; auto.
  destruct (km_step_agrees l s o HA) as [H1 H2].
  destruct (km_step l o) as [l' r], (fm_step s o) as [s' r']. simpl in *. subst r'. f_equal. auto.
Qed.
End KM.

Lemma C08_key_map_is_finite_map_pf : forall (V : Type) (ops : list (kop V)), km_run ops [] = fm_run ops (fm_empty, 0).
Proof.
  intros V ops. apply km_run_agrees. repeat split; auto. constructor.
Qed.
