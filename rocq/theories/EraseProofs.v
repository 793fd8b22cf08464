(** Proofs of C13. *)
From Coq Require Import List Arith Bool Lia Permutation Sorted.
From Verif Require Import ModelTopo ModelMesh ModelErase SpecMesh SpecErase MeshBase MeshInv MeshIds MeshWf MeshErase MeshSimple MeshDemo EraseDemo.
Import ListNotations.

Lemma live_describe {Pt} cfg (m : @mesh Pt) t a e bt b : ereach cfg m -> deref m t a = Some e ->
  has_boundary e bt b -> is_live m bt b.
Proof. intros H. apply (wf_no_dangling cfg m (ereach_wf cfg m H)). Qed.

Lemma C13_erase_exact_pf : forall Pt cfg (m : @mesh Pt) view, ereach cfg m ->
  valid_view m view -> reference_closed m view ->
  exists m', erase_elements m view = Some m' /\ ereach cfg m' /\
    forall t, Permutation (map (describe m') (elements_of m' t)) (map (describe m) (elements_except m t (view t))).
Proof.
  intros Pt cfg m view HR HV HC.
  destruct (erase_elements_spec cfg m view (ereach_wf cfg m HR) HV HC) as (m' & E & W & P & _).
  exists m'. split; auto. split; auto. eapply ereach_step with (o := OErase view); eauto. split; auto.
Qed.

Lemma C13_no_dangling_pf : forall Pt cfg (m : @mesh Pt), ereach cfg m ->
  no_dangling m /\ forall t, NoDup (ids_of m t).
Proof.
  intros Pt cfg m HR. pose proof (ereach_wf cfg m HR) as W. split; [eapply wf_no_dangling; eauto|].
  intros t. destruct W as (_ & N & _). specialize (N t). unfold ids_of. unfold ids, nid in N. exact N.
Qed.

Lemma C13_ids_not_reused_pf : forall Pt cfg (m m' : @mesh Pt) view, ereach cfg m ->
  valid_view m view -> reference_closed m view -> erase_elements m view = Some m' ->
  forall t, id_upper_bound m' t = id_upper_bound m t.
Proof.
  intros Pt cfg m m' view HR HV HC E t.
  destruct (erase_elements_spec cfg m view (ereach_wf cfg m HR) HV HC) as (m2 & E2 & _ & _ & _ & X & _).
  rewrite E in E2. inversion E2; subst. unfold id_upper_bound. now rewrite X.
Qed.

Lemma C13_always_defined_pf : forall Pt cfg (m : @mesh Pt) o, ereach cfg m -> valid_eop cfg m o ->
  exists m', step cfg m o = Some m' /\ ereach cfg m'.
Proof.
  intros Pt cfg m o HR HV. destruct (ereach_total cfg m o HR HV) as [m' E]. exists m'. split; auto.
  eapply ereach_step; eauto.
Qed.

Lemma erase_single {Pt} (m : @mesh Pt) t a e m1 : deref m t a = Some e -> erase_one t m (e_id e) = Some m1 ->
  erase_elements m (single t a) = Some (mkM (m_nodes m1) (m_next m1) (m_idgen m1) (m_cc m1 + 1) (m_log m1)).
Proof.
  intros HD HE. unfold erase_elements, erase_order.
  assert (N : forall t' (x : @mesh Pt), t' <> t -> erase_type t' (single t a t') x = Some x).
  { intros t' x T. unfold single. destruct (tag_eqb t' t) eqn:Q; [apply tag_eqb_eq in Q; congruence|]. reflexivity. }
  assert (S : erase_type t (single t a t) m = Some m1).
  { unfold single. rewrite tag_eqb_refl. unfold erase_type. cbn [omap]. rewrite HD. cbn [option_map obind omap ofold].
    now rewrite HE. }
  destruct t; cbn [ofold];
    repeat (first [rewrite S | rewrite N by discriminate]; cbn [obind]); reflexivity.
Qed.

Lemma single_valid {Pt} (m : @mesh Pt) t a : is_live m t a -> valid_view m (single t a).
Proof.
  intros H t'. unfold single. destruct (tag_eqb t' t) eqn:Q; [apply tag_eqb_eq in Q; subst|].
  - split; [repeat constructor; simpl; tauto|auto].
  - split; constructor.
Qed.
Lemma single_closed {Pt} (m : @mesh Pt) t a : unreferenced m t a -> reference_closed m (single t a).
Proof.
  intros H bt b t' x e Hb HD HB. unfold single in Hb. destruct (tag_eqb bt t) eqn:Q; [apply tag_eqb_eq in Q; subst|easy].
  destruct Hb as [<-|[]]. exfalso. eapply H; eauto.
Qed.

Lemma id_at_nodes {Pt} (m : @mesh Pt) t l : m_nodes m t = l -> forall a, id_at m t a = option_map (fun n => e_id (n_el n)) (find_node l a).
Proof. intros E a. unfold id_at, deref. rewrite E. destruct (find_node l a); reflexivity. Qed.

Lemma find_node_notin {Pt} (l : list (@node Pt)) a : ~ In a (map n_addr l) -> find_node l a = None.
Proof.
  unfold find_node. induction l as [|x l IH]; simpl; auto. intros H.
  destruct (Nat.eqb_spec (n_addr x) a) as [E|E]; [exfalso; apply H; auto|]. apply IH. tauto.
Qed.
Lemma find_node_app {Pt} (l1 l2 : list (@node Pt)) a :
  find_node (l1 ++ l2) a = match find_node l1 a with Some n => Some n | None => find_node l2 a end.
Proof. unfold find_node. induction l1 as [|x l IH]; simpl; auto. destruct (n_addr x =? a); auto. Qed.
Lemma find_node_swn {Pt} t o w (l : list (@node Pt)) a : find_node (map (swn t o w) l) a = option_map (swn t o w) (find_node l a).
Proof. unfold find_node. induction l as [|x l IH]; simpl; auto. destruct (n_addr x =? a); auto. Qed.

Lemma C13_handle_of_last_element_refuted_pf : forall Pt cfg (m : @mesh Pt) t a z rest, ereach cfg m ->
  is_live m t a -> unreferenced m t a -> range m t = rest ++ [z] ->
  exists m', erase_elements m (single t a) = Some m' /\
    ~ is_live m' t z /\
    (a <> z -> id_at m' t a = id_at m t z) /\
    (forall b, b <> a -> b <> z -> id_at m' t b = id_at m t b) /\
    (forall t' b, t' <> t -> id_at m' t' b = id_at m t' b).
Proof.
  intros Pt cfg m t a z rest HR HL HU Hz. pose proof (ereach_wf cfg m HR) as W. pose proof W as (W1 & W2 & W3).
  destruct HL as [e HD]. pose proof HD as HD'. apply deref_In in HD' as (te & Hte & <- & <-).
  destruct (erase_one_nodes cfg m t te W1 W2 Hte) as (m1 & back & L & HE & N1 & N2 & _ & (Hback & Hl & Hlast) & HL & Hsh & _).
  eexists. split; [eapply erase_single; eauto|].
  set (m' := mkM _ _ _ _ _).
  assert (M' : forall t' b, id_at m' t' b = id_at m1 t' b) by reflexivity.
  assert (O : forall t' b, t' <> t -> id_at m1 t' b = id_at m t' b).
  { intros t' b T. eapply id_at_swn. apply N2. auto. }
  assert (ND : NoDup (map n_addr (m_nodes m t))) by apply W1.
  assert (Hlive : forall b, ~ is_live m' t b <-> id_at m1 t b = None).
  { intros b. rewrite <- M'. unfold is_live, id_at. destruct (deref m' t b); simpl; split; intros; try congruence.
    - exfalso. apply H. eauto.
    - intros [? ?]. congruence. }
  rewrite Hlive. assert (Z : forall b, id_at m t b = option_map (fun n => e_id (n_el n)) (find_node (m_nodes m t) b)) by (apply id_at_nodes; auto).
  assert (Z1 : forall b, id_at m1 t b = option_map (fun n => e_id (n_el n)) (find_node L b)).
  { intros b. rewrite (id_at_nodes m1 t _ N1). rewrite find_node_swn. destruct (find_node L b); simpl; auto. now rewrite switch_id. }
  destruct (Nat.eq_dec (n_addr back) (n_addr te)) as [E|E].
  - assert (back = te).
    { pose proof (In_find_node _ _ ND Hback) as F1. pose proof (In_find_node _ _ ND Hte) as F2. rewrite E in F1. congruence. }
    subst back. clear Hsh E. specialize (Hlast eq_refl).
    assert (Hzt : z = n_addr te).
    { unfold range in Hz. rewrite Hl, map_app in Hz. simpl in Hz. now apply app_inj_tail in Hz as [_ ->]. }
    subst z. rewrite Hl, map_app in ND. simpl in ND. pose proof (NoDup_remove_2 _ _ _ ND) as ND2. rewrite app_nil_r in ND2.
    split; [rewrite Z1, Hlast, find_node_notin; auto|]. split; [congruence|]. split; [|auto].
    intros b Hb _. rewrite M', Z1, Z, Hlast.
    assert (Fb : find_node (m_nodes m t) b = find_node (removelast (m_nodes m t)) b); [|now rewrite Fb].
    rewrite Hl at 1. rewrite find_node_app.
    destruct (find_node (removelast (m_nodes m t)) b); auto. unfold find_node. simpl.
    destruct (Nat.eqb_spec (n_addr te) b); congruence.
  - destruct Hsh as (r1 & r2 & Hm & HLs); [congruence|].
    assert (Hzt : z = n_addr back).
    { unfold range in Hz. rewrite Hm in Hz. change (te :: r2 ++ [back]) with ((te :: r2) ++ [back]) in Hz.
      rewrite app_assoc, map_app in Hz. simpl in Hz. now apply app_inj_tail in Hz as [_ ->]. }
    subst z. rewrite Hm in ND. rewrite map_app in ND. simpl in ND. rewrite map_app in ND. simpl in ND.
    assert (ND1 : ~ In (n_addr te) (map n_addr r1)).
    { intros H. apply NoDup_remove_2 in ND. apply ND. apply in_or_app. now left. }
    assert (ND2 : ~ In (n_addr back) (map n_addr r1 ++ n_addr te :: map n_addr r2)).
    { change (n_addr te :: map n_addr r2 ++ [n_addr back]) with ((n_addr te :: map n_addr r2) ++ [n_addr back]) in ND.
      rewrite app_assoc in ND. apply NoDup_remove_2 in ND. now rewrite app_nil_r in ND. }
    split; [|split; [|split]].
    + rewrite Z1, find_node_notin; auto. rewrite HLs, map_app. exact ND2.
    + intros _. rewrite M', Z1, Z, HLs, Hm, !find_node_app.
      rewrite (find_node_notin r1) by auto. rewrite (find_node_notin r1 (n_addr back)).
      2:{ intros H. apply ND2. apply in_or_app. now left. }
      unfold find_node at 1. simpl. rewrite Nat.eqb_refl. simpl.
      unfold find_node. simpl. destruct (Nat.eqb_spec (n_addr te) (n_addr back)); [congruence|].
      fold (@find_node Pt). change (find (fun n0 => n_addr n0 =? n_addr back) (r2 ++ [back])) with (find_node (r2 ++ [back]) (n_addr back)).
      rewrite find_node_app, find_node_notin.
      2:{ intros H. apply ND2. apply in_or_app. right. now right. }
      unfold find_node. simpl. rewrite Nat.eqb_refl. reflexivity.
    + intros b H1 H2. rewrite M', Z1, Z, HLs, Hm, !find_node_app. destruct (find_node r1 b); auto.
      unfold find_node. simpl. destruct (Nat.eqb_spec (n_addr te) b); [congruence|].
      change (find (fun n0 => n_addr n0 =? b) (r2 ++ [back])) with (find_node (r2 ++ [back]) b).
      rewrite find_node_app. unfold find_node. simpl. destruct (Nat.eqb_spec (n_addr back) b); [congruence|].
      destruct (find _ r2); auto.
    + auto.
Qed.

Lemma C13_creation_after_erase_refuted_pf : exists (m m1 m2 : @mesh unit) a b e e2,
  ereach (full_config Triangle) m /\ reach (full_config Triangle) (mesh_of (full_config Triangle) (removelast erase_demo)) /\
  step (full_config Triangle) (mesh_of (full_config Triangle) (removelast erase_demo)) (last erase_demo OClear) = Some m /\
  make_element (full_config Triangle) Line m [0; 1] = Some (m1, a) /\
  deref m1 Line a = Some e /\ e_verts e = [2; 3] /\
  make_element (full_config Triangle) Line m [2; 3] = Some (m2, b) /\ a <> b /\
  deref m2 Line b = Some e2 /\ e_verts e2 = [2; 3].
Proof.
  destruct (demo_eok (full_config Triangle) erase_demo) as [R1 R2]; [vm_compute; reflexivity|].
  destruct (demo_ok (full_config Triangle) (removelast erase_demo)) as [Q1 Q2]; [vm_compute; reflexivity|].
  exists (mesh_of (full_config Triangle) erase_demo).
  eexists _, _, _, _, _, _. split; [exact R2|]. split; [exact Q2|].
  split; [vm_compute; reflexivity|]. split; [vm_compute; reflexivity|]. split; [vm_compute; reflexivity|].
  split; [reflexivity|]. split; [vm_compute; reflexivity|]. split; [discriminate|].
  split; [vm_compute; reflexivity|reflexivity].
Qed.
