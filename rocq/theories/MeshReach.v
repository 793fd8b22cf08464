(** The full invariant holds in every mesh reached by correct use. *)
From Coq Require Import List Arith Bool Lia Permutation Sorted.
From Verif Require Import ModelTopo ModelMesh ModelErase SpecMesh MeshBase MeshInv MeshIds.
Import ListNotations.

Section Reach.
Context {Pt : Type}.
Notation mesh := (@mesh Pt).
Notation element := (@element Pt).
Notation node := (@node Pt).
Variable cfg : config.

Lemma inv_empty : inv cfg (@empty_mesh Pt) [].
Proof. constructor; simpl; intros; try constructor; easy. Qed.

Lemma inv_clear (m : mesh) : inv cfg (clear_mesh m) [].
Proof. constructor; simpl; intros; try constructor; easy. Qed.

Lemma inv_nodup (m : mesh) P : inv cfg m P -> nodup_ids m.
Proof.
  intros HI t. unfold ids.
  assert (ND : NoDup (m_nodes m t)) by (apply (NoDup_map_inv n_addr), HI).
  assert (HIn : incl (m_nodes m t) (m_nodes m t)) by apply incl_refl.
  revert ND HIn. generalize (m_nodes m t) at 1 2 4 as l.
  induction l as [|x l IH]; intros ND HIn; simpl; constructor.
  - intros H. apply in_map_iff in H as (y & E & Hy). inversion ND; subst.
    apply H1. rewrite (i_id cfg m P HI t x y); auto; apply HIn; simpl; auto.
  - inversion ND; subst. apply IH; auto. intros z Hz. apply HIn. now right.
Qed.

Lemma inv_winv (m : mesh) P : inv cfg m P -> winv cfg m.
Proof.
  intros HI. constructor; try apply HI.
  intros t i H. apply in_map_iff in H as (n & <- & Hn). now apply (i_idlt cfg m P HI).
Qed.

(** What creating a vertex does. *)
Definition vertex_added (m m' : mesh) (i : nat) (p : Pt) : Prop :=
  m_nodes m' Vertex = m_nodes m Vertex ++ [mkN (m_next m Vertex) [] (mkE i [] [] (Some p))] /\
  (forall t, t <> Vertex -> m_nodes m' t = m_nodes m t /\ m_next m' t = m_next m t /\ m_idgen m' t = m_idgen m t) /\
  m_next m' Vertex = m_next m Vertex + 1 /\
  m_cc m' = m_cc m + 1 /\ m_log m' = m_log m ++ [(Vertex, m_next m Vertex)].

Lemma make_vertex_added (m : mesh) p :
  exists m', make_vertex cfg m p = Some (m', m_next m Vertex) /\ vertex_added m m' (m_idgen m Vertex) p /\
    m_idgen m' Vertex = m_idgen m Vertex + 1.
Proof.
  unfold make_vertex. simpl.
  eexists. split; [reflexivity|]. split.
  - split; [reflexivity|]. split; [|repeat split; reflexivity].
    intros t T. simpl. rewrite !upd_other; auto.
  - reflexivity.
Qed.

Lemma make_vertex_id_added (m : mesh) i p :
  exists m', make_vertex_with_id cfg m i p = Some (m', m_next m Vertex) /\ vertex_added m m' i p /\
    m_idgen m' Vertex = set_max_id i (m_idgen m Vertex).
Proof.
  unfold make_vertex_with_id. simpl.
  eexists. split; [reflexivity|]. split.
  - split; [reflexivity|]. split; [|repeat split; reflexivity].
    intros t T. simpl. rewrite !upd_other; auto.
  - reflexivity.
Qed.

Lemma vertex_added_deref (m m' : mesh) i p P : inv cfg m P -> vertex_added m m' i p -> forall t a,
  deref m' t a = if tag_eq_dec t Vertex then
                   if a =? m_next m Vertex then Some (mkE i [] [] (Some p)) else deref m t a
                 else deref m t a.
Proof.
  intros HI (H1 & H2 & _) t a. unfold deref. destruct (tag_eq_dec t Vertex) as [->|T].
  - rewrite H1, find_node_app. unfold find_node at 2. simpl. rewrite Nat.eqb_sym.
    destruct (Nat.eqb_spec a (m_next m Vertex)) as [->|].
    + destruct (find_node (m_nodes m Vertex) (m_next m Vertex)) eqn:E; auto.
      exfalso. apply (fresh_addr cfg m P Vertex HI). apply find_node_In in E as [? <-]. now apply in_map.
    + now destruct (find_node (m_nodes m Vertex) a).
  - now rewrite (proj1 (H2 t T)).
Qed.

Lemma NoDup_app_last {A} (l : list A) x : NoDup l -> ~ In x l -> NoDup (l ++ [x]).
Proof.
  intros H1 H2. eapply Permutation_NoDup; [apply Permutation_cons_append|]. now constructor.
Qed.

Lemma inv_vertex (m m' : mesh) i p : inv cfg m [] -> vertex_added m m' i p ->
  i < m_idgen m' Vertex -> m_idgen m Vertex <= m_idgen m' Vertex ->
  ~ In i (ids m Vertex) -> inv cfg m' [].
Proof.
  intros HI HV Hi Hg Hnew. pose proof (vertex_added_deref _ _ _ _ _ HI HV) as D.
  destruct HV as (H1 & H2 & H3 & _).
  set (nn := mkN (m_next m Vertex) [] (mkE i [] [] (Some p))) in *.
  assert (HIn : forall t x, In x (m_nodes m' t) -> In x (m_nodes m t) \/ (t = Vertex /\ x = nn)).
  { intros t x. destruct (tag_eq_dec t Vertex) as [->|T].
    - rewrite H1. intros H. apply in_app_or in H as [?|[?|[]]]; auto.
    - rewrite (proj1 (H2 t T)). auto. }
  assert (HE : ext m m').
  { intros t a e H. exists e. split; auto. rewrite D. destruct (tag_eq_dec t Vertex) as [->|]; auto.
    destruct (Nat.eqb_spec a (m_next m Vertex)); auto. subst.
    exfalso. apply (fresh_addr cfg m [] Vertex HI). apply range_deref. eauto. }
  assert (HK : forall vs k, key_of m vs = Some k -> key_of m' vs = Some k).
  { intros vs k H. unfold key_of in *. destruct (omap _ vs) as [r|] eqn:E in H; [|easy].
    assert (E' : omap (fun a => option_map e_id (deref m' Vertex a)) vs = Some r).
    { apply omap_Forall2. apply omap_Forall2 in E.
      eapply Forall2_impl'; [|exact E]. intros x y Hxy. simpl in Hxy.
      destruct (deref m Vertex x) as [ex|] eqn:Ex; [|easy]. rewrite D. 
      destruct (tag_eq_dec Vertex Vertex); [|congruence].
      destruct (Nat.eqb_spec x (m_next m Vertex)) as [->|]; [|now rewrite Ex].
      exfalso. apply (fresh_addr cfg m [] Vertex HI). apply range_deref. eauto. }
    rewrite E'. auto. }
  constructor.
  - intros t. destruct (tag_eq_dec t Vertex) as [->|T]; [|rewrite (proj1 (H2 t T)); apply HI].
    rewrite H1, map_app. simpl. apply NoDup_app_last; [apply HI|]. eapply fresh_addr; eauto.
  - intros t x H. apply HIn in H as [H|[-> ->]]; [|simpl; lia].
    apply (i_next cfg m [] HI) in H. destruct (tag_eq_dec t Vertex) as [->|T]; [lia|].
    now rewrite (proj1 (proj2 (H2 t T))).
  - intros t x H. apply HIn in H as [H|[-> ->]]; [|simpl; lia].
    apply (i_idlt cfg m [] HI) in H. destruct (tag_eq_dec t Vertex) as [->|T]; [lia|].
    now rewrite (proj2 (proj2 (H2 t T))).
  - intros t x y Hx Hy E. apply HIn in Hx as [Hx|[-> ->]], Hy as [Hy|[Ty ->]]; auto.
    + eapply (i_id cfg m [] HI); eauto.
    + subst. exfalso. apply Hnew. apply in_map_iff. exists x. auto.
    + exfalso. apply Hnew. apply in_map_iff. exists y. auto.
  - intros x H. apply HIn in H as [H|[_ ->]]; [now apply (i_vv cfg m [] HI)|]. auto.
  - intros t x T H. apply HIn in H as [H|[? _]]; [|congruence].
    destruct (i_verts cfg m [] HI t x T H) as (A & B & C). repeat split; auto.
    intros v Hv. rewrite H1, map_app. apply in_or_app. auto.
  - intros t x K H. apply HIn in H as [H|[-> _]]; [|unfold keyed in K; simpl in K; discriminate].
    apply HK. now apply (i_key cfg m [] HI t).
  - intros t K. destruct (tag_eq_dec t Vertex) as [->|T]; [unfold keyed in K; simpl in K; discriminate|].
    rewrite (proj1 (H2 t T)). now apply HI.
  - intros t x H. apply HIn in H as [H|[-> ->]].
    + destruct (i_bnd cfg m [] HI t x H) as (d & r & E & F & G). exists d, r. repeat split; auto.
      eapply Forall2_impl'; [|exact F]. intros. eapply good_entry_ext; eauto.
    + exists [], []. repeat split; auto. constructor.
Qed.

Lemma in_config_allowed t : in_config cfg t <-> allowed cfg t.
Proof. unfold in_config, allowed. tauto. Qed.

Lemma valid_element_spec (m : mesh) t vs : inv cfg m [] -> valid_op cfg m (OElement t vs) ->
  exists m' a fresh, make_element cfg t m vs = Some (m', a) /\ inv cfg m' [] /\
     post cfg t vs (m_idgen m t) m m' a fresh.
Proof.
  intros HI (HA & HL & HND & HV).
  destruct (insert_spec cfg (dim t) true t m [] (mkE 0 vs [] None)) as (m' & a & fresh & E & I' & HP);
    simpl; auto.
  - intros ? ? [].
  - now left.
  - intros v Hv. rewrite Forall_forall in HV. apply range_deref. now apply HV.
  - exists m', a, fresh. split; auto. unfold make_element. rewrite HL, Nat.eqb_refl, E. reflexivity.
Qed.

Lemma step_inv (m : mesh) o : inv cfg m [] -> valid_op cfg m o ->
  exists m', step cfg m o = Some m' /\ inv cfg m' [].
Proof.
  intros HI HV. destruct o; cbn [step]; simpl in HV.
  - destruct (make_vertex_added m p) as (m' & E & A & G). rewrite E. cbn. eexists; split; [reflexivity|].
    eapply inv_vertex; eauto; try lia.
    intros H. apply (w_idlt cfg m (inv_winv _ _ HI)) in H. lia.
  - destruct (make_vertex_id_added m i p) as (m' & E & A & G). rewrite E. cbn. eexists; split; [reflexivity|].
    destruct HV as [V1 V2]. unfold id_upper_bound in V2.
    unfold set_max_id in G. destruct (Nat.ltb_spec (m_idgen m Vertex) i);
    eapply inv_vertex; eauto; lia.
  - destruct (valid_element_spec m t vs HI HV) as (m' & a & fr & E & I' & _).
    rewrite E. cbn. eauto.
  - easy.
  - eexists; split; [reflexivity|]. apply inv_clear.
Qed.

Lemma reach_inv (m : mesh) : reach cfg m -> inv cfg m [].
Proof.
  induction 1 as [|m o m' HR IH HV HS].
  - apply inv_empty.
  - destruct (step_inv m o IH HV) as (m1 & E & I1). congruence.
Qed.

(** ** The boundary of stored elements *)

Lemma Forall2_filter {A B} (R : A -> B -> Prop) f g l r :
  (forall x y, R x y -> f x = g y) -> Forall2 R l r -> Forall2 R (filter f l) (filter g r).
Proof.
  intros H. induction 1 as [|x y l r Hxy HF IH]; simpl; auto.
  rewrite (H _ _ Hxy). destruct (g y); auto.
Qed.

Definition entry_facets (t bt : tag) : list (list nat) :=
  map snd (filter (fun e => tag_eqb (fst e) bt) (btable t)).

Lemma entry_facets_ref t bt : (t, bt) <> (Hex, Line) -> entry_facets t bt = ref_facets t bt.
Proof. destruct t, bt; intros H; try reflexivity. congruence. Qed.

Lemma btab_filter t bt : cfg_keep cfg bt = true ->
  filter (fun e => tag_eqb (fst e) bt) (btab cfg t) = map (pair bt) (entry_facets t bt).
Proof.
  intros K. unfold btab, entry_facets. induction (btable t) as [|[b idx] l IH]; simpl; auto.
  destruct (tag_eqb b bt) eqn:E.
  - apply tag_eqb_eq in E. subst. simpl. rewrite K. simpl. rewrite tag_eqb_refl. simpl. now rewrite IH.
  - destruct (cfg_keep cfg b); simpl; rewrite ?E; auto.
Qed.

Lemma Forall2_map_r {A B C} (R : A -> B -> Prop) (f : C -> B) l r :
  Forall2 R l (map f r) <-> Forall2 (fun x y => R x (f y)) l r.
Proof.
  revert r. induction l as [|x l IH]; intros [|y r]; simpl; split; intros H; inversion H; subst; constructor; auto; now apply IH.
Qed.

Lemma element_boundary (m : mesh) t a e bt : inv cfg m [] -> deref m t a = Some e -> cfg_keep cfg bt = true ->
  Forall2 (fun b idx => good_entry m e b (bt, idx))
    (filter (fun b => tag_eqb (b_tag b) bt) (e_bnd e)) (entry_facets t bt).
Proof.
  intros HI HD HK. apply deref_In in HD as (n & Hn & <- & <-).
  destruct (i_bnd cfg m [] HI t n Hn) as (d & r & E & F & G).
  rewrite (G (fun x => x)), app_nil_r in E. subst d.
  apply (Forall2_filter _ (fun b => tag_eqb (b_tag b) bt) (fun e => tag_eqb (fst e) bt)) in F.
  - rewrite btab_filter in F by auto. apply (Forall2_map_r (good_entry m (n_el n)) (pair bt)). exact F.
  - intros b ent [-> _]. reflexivity.
Qed.

Lemma boundary_of_nonvertex (e : element) bt : bt <> Vertex ->
  boundary_of e bt = map b_addr (filter (fun b => tag_eqb (b_tag b) bt) (e_bnd e)).
Proof. destruct bt; try reflexivity. congruence. Qed.

Lemma Forall2_nth {A B} (R : A -> B -> Prop) l r k x y :
  Forall2 R l r -> nth_error l k = Some x -> nth_error r k = Some y -> R x y.
Proof.
  intros H. revert k. induction H; intros [|k]; simpl; try discriminate; eauto.
  intros A1 A2. inversion A1; inversion A2; subst; auto.
Qed.

Lemma Forall2_nth_l {A B} (R : A -> B -> Prop) l r k y :
  Forall2 R l r -> nth_error r k = Some y -> exists x, nth_error l k = Some x /\ R x y.
Proof.
  intros H. revert k. induction H; intros [|k]; simpl; try discriminate; eauto.
  intros A1. inversion A1; subst; eauto.
Qed.

(** Different positions of one type have different vertex sets. *)
Definition lists_distinct (l : list (list nat)) : bool :=
  (fix go l := match l with [] => true
     | x :: l' => forallb (fun y => negb (key_equiv (isort x) (isort y))) l' && go l' end) l.
Lemma lists_distinct_sound l : lists_distinct l = true ->
  forall i j x y, nth_error l i = Some x -> nth_error l j = Some y -> Permutation x y -> i = j.
Proof.
  induction l as [|z l IH]; intros H i j x y Hi Hj HP; [destruct i; discriminate|].
  simpl in H. apply andb_prop in H as [H1 H2]. rewrite forallb_forall in H1.
  destruct i, j; simpl in *; auto.
  - inversion Hi; subst. apply nth_error_In in Hj. specialize (H1 _ Hj).
    apply isort_eq_iff in HP. apply negb_true_iff in H1.
    assert (key_equiv (isort x) (isort y) = true) by now apply key_equiv_eq. congruence.
  - inversion Hj; subst. apply nth_error_In in Hi. specialize (H1 _ Hi).
    apply Permutation_sym, isort_eq_iff in HP. apply negb_true_iff in H1.
    assert (key_equiv (isort y) (isort x) = true) by now apply key_equiv_eq. congruence.
  - f_equal. eapply IH; eauto.
Qed.

Lemma entry_facets_distinct t bt : lists_distinct (entry_facets t bt) = true.
Proof. destruct t, bt; vm_compute; reflexivity. Qed.

Lemma selects_omap {A} (l : list A) idx sub : selects l idx sub <-> omap (nth_error l) idx = Some sub.
Proof. symmetry. apply omap_Forall2. Qed.

Lemma nth_inj (vs : list addr) i j v : NoDup vs -> nth_error vs i = Some v -> nth_error vs j = Some v -> i = j.
Proof.
  intros H Hi Hj. apply (proj1 (NoDup_nth_error vs) H); [|congruence].
  apply nth_error_Some. congruence.
Qed.

Lemma selects_perm_inv (vs : list addr) idx1 idx2 s1 s2 : NoDup vs ->
  selects vs idx1 s1 -> selects vs idx2 s2 -> Permutation s1 s2 -> Permutation idx1 idx2.
Proof.
  intros ND H1 H2 HP.
  assert (M : forall idx s, selects vs idx s -> s = map (fun i => nth i vs 0) idx).
  { intros idx s H. induction H as [|i x idx s Hx HF IH]; simpl; auto. f_equal; auto.
    symmetry. now apply nth_error_nth. }
  assert (B : forall idx s, selects vs idx s -> forall i, In i idx -> i < length vs).
  { intros idx s H. induction H as [|i x idx s Hx HF IH]; simpl; [easy|].
    intros j [<-|Hj]; auto. apply nth_error_Some. congruence. }
  rewrite (M _ _ H1), (M _ _ H2) in HP.
  apply Permutation_map_inv in HP as (l3 & E & HP).
  assert (idx1 = l3).
  { pose proof (B _ _ H1) as B1.
    assert (B3 : forall i, In i l3 -> i < length vs).
    { intros i Hi. apply (B _ _ H2). eapply Permutation_in; [apply Permutation_sym; exact HP|auto]. }
    clear - E B1 B3 ND. revert l3 E B3. induction idx1 as [|i idx1 IH]; intros [|j l3] E B3; simpl in *; try discriminate; auto.
    injection E as E1 E2. f_equal; [|apply IH; auto].
    eapply NoDup_nth; eauto. }
  subst. now apply Permutation_sym.
Qed.

Lemma good_handles_distinct (m : mesh) t a e bt k1 k2 b1 b2 : inv cfg m [] -> deref m t a = Some e -> t <> Vertex ->
  cfg_keep cfg bt = true ->
  nth_error (filter (fun b => tag_eqb (b_tag b) bt) (e_bnd e)) k1 = Some b1 ->
  nth_error (filter (fun b => tag_eqb (b_tag b) bt) (e_bnd e)) k2 = Some b2 ->
  b_addr b1 = b_addr b2 -> k1 = k2.
Proof.
  intros HI HD Ht HK H1 H2 E.
  pose proof (element_boundary m t a e bt HI HD HK) as F.
  pose proof (Forall2_len _ _ _ F) as L.
  destruct (nth_error (entry_facets t bt) k1) as [i1|] eqn:E1.
  2:{ apply nth_error_None in E1. assert (k1 < length (filter (fun b => tag_eqb (b_tag b) bt) (e_bnd e))) by (apply nth_error_Some; congruence). lia. }
  destruct (nth_error (entry_facets t bt) k2) as [i2|] eqn:E2.
  2:{ apply nth_error_None in E2. assert (k2 < length (filter (fun b => tag_eqb (b_tag b) bt) (e_bnd e))) by (apply nth_error_Some; congruence). lia. }
  destruct (Forall2_nth _ _ _ _ _ _ F H1 E1) as (_ & f1 & v1 & D1 & S1 & P1 & _).
  destruct (Forall2_nth _ _ _ _ _ _ F H2 E2) as (_ & f2 & v2 & D2 & S2 & P2 & _).
  simpl in *. rewrite E in D1. rewrite D1 in D2. inversion D2; subst f2.
  eapply lists_distinct_sound; [apply entry_facets_distinct|exact E1|exact E2|].
  apply deref_In in HD as (n & Hn & _ & <-).
  destruct (i_verts cfg m [] HI t n Ht Hn) as (_ & ND & _).
  eapply selects_perm_inv; [exact ND| | |]; try (apply selects_omap; eassumption).
  rewrite <- P1. exact P2.
Qed.

Lemma find_filter {A} (f g : A -> bool) l : find (fun x => f x && g x) l = find g (filter f l).
Proof. induction l as [|x l IH]; simpl; auto. destruct (f x); simpl; auto. destruct (g x); auto. Qed.

Lemma find_nth_unique {A} (g : A -> bool) l k x :
  nth_error l k = Some x -> g x = true ->
  (forall j y, nth_error l j = Some y -> g y = true -> j = k) -> find g l = Some x.
Proof.
  revert k. induction l as [|z l IH]; intros [|k] H1 H2 H3; simpl in *; try discriminate.
  - inversion H1; subst. now rewrite H2.
  - destruct (g z) eqn:E.
    + specialize (H3 0 z eq_refl E). discriminate.
    + eapply IH; eauto. intros j y Hj Hy. specialize (H3 (S j) y Hj Hy). congruence.
Qed.

Lemma local_vertex_spec (m : mesh) t a e bt k h idx i v : inv cfg m [] -> deref m t a = Some e -> t <> Vertex ->
  bt <> Vertex -> cfg_keep cfg bt = true ->
  nth_error (boundary_of e bt) k = Some h -> nth_error (entry_facets t bt) k = Some idx ->
  obind (nth_error idx i) (nth_error (e_verts e)) = Some v ->
  local_vertex m e bt h i = Some v.
Proof.
  intros HI HD Ht Hbt HK Hh Hidx Hv.
  rewrite boundary_of_nonvertex in Hh by auto. rewrite nth_error_map in Hh.
  destruct (nth_error (filter _ (e_bnd e)) k) as [b|] eqn:Hb; [|discriminate].
  simpl in Hh. inversion Hh; subst h. clear Hh.
  pose proof (element_boundary m t a e bt HI HD HK) as F.
  destruct (Forall2_nth _ _ _ _ _ _ F Hb Hidx) as (Tb & f & vs & Df & Sv & Pf & Lo & Or). simpl in *.
  unfold local_vertex. rewrite Df. cbn [obind].
  unfold orientation_of. rewrite find_filter.
  rewrite (find_nth_unique _ _ k b); auto.
  - cbn [option_map obind].
    assert (Hvi : nth_error vs i = Some v).
    { rewrite (omap_nth _ _ _ i Sv). exact Hv. }
    destruct (Or i v Hvi) as (j & O1 & O2). rewrite O1. cbn. exact O2.
  - apply Nat.eqb_refl.
  - intros j y Hj Hy. apply Nat.eqb_eq in Hy.
    exact (good_handles_distinct m t a e bt j k y b HI HD Ht HK Hj Hb Hy).
Qed.

(** ** Ranges only grow by new elements *)

Definition old_range (m m' : mesh) : Prop :=
  forall t, m_next m t <= m_next m' t /\ filter (fun a => a <? m_next m t) (range m' t) = range m t.

Lemma filter_all {A} (f : A -> bool) l : (forall x, In x l -> f x = true) -> filter f l = l.
Proof.
  induction l as [|x l IH]; simpl; intros H; auto. rewrite H by auto. f_equal. auto.
Qed.

Lemma old_range_refl (m : mesh) : winv cfg m -> old_range m m.
Proof.
  intros HW t. split; auto. apply filter_all. intros a Ha. apply in_map_iff in Ha as (n & <- & Hn).
  apply Nat.ltb_lt. now apply HW.
Qed.

Lemma filter_filter_lt a b l : a <= b -> filter (fun x => x <? a) (filter (fun x => x <? b) l) = filter (fun x => x <? a) l.
Proof.
  intros H. induction l as [|x l IH]; simpl; auto.
  destruct (Nat.ltb_spec x b); simpl; rewrite IH; auto.
  destruct (Nat.ltb_spec x a); auto. lia.
Qed.

Lemma old_range_trans (m1 m2 m3 : mesh) : old_range m1 m2 -> old_range m2 m3 -> old_range m1 m3.
Proof.
  intros A B t. destruct (A t) as [A1 A2], (B t) as [B1 B2]. split; [lia|].
  rewrite <- A2, <- B2. symmetry. now apply filter_filter_lt.
Qed.

Lemma old_range_same (m m' : mesh) : winv cfg m -> (forall t, range m' t = range m t) ->
  (forall t, m_next m' t = m_next m t) -> old_range m m'.
Proof.
  intros HW HR HN t. rewrite HN, HR. apply (old_range_refl m HW).
Qed.

Lemma filter_insert_keyed (n : node) l b : b <= n_addr n ->
  filter (fun a => a <? b) (map n_addr (insert_keyed n l)) = filter (fun a => a <? b) (map n_addr l).
Proof.
  intros H. induction l as [|x l IH]; simpl.
  - destruct (Nat.ltb_spec (n_addr n) b); auto; lia.
  - destruct (key_less (n_key n) (n_key x)); simpl.
    + destruct (Nat.ltb_spec (n_addr n) b); auto; lia.
    + now rewrite IH.
Qed.

Lemma push_old_range t gen (m m1 : mesh) e a fresh : winv cfg m -> push cfg t gen m e = Some (m1, (a, fresh)) ->
  old_range m m1.
Proof.
  intros HW H. unfold push in H.
  assert (Q : forall l', filter (fun a => a <? m_next m t) (map n_addr l') = range m t ->
     forall g cc lg, old_range m (mkM (upd (m_nodes m) t l') (upd (m_next m) t (m_next m t + 1)) g cc lg)).
  { intros l' Hl g cc lg t'. unfold range. simpl. rewrite !upd_spec.
    destruct (tag_eq_dec t t') as [<-|]; [split; [lia|auto]|]. apply (old_range_refl m HW). }
  destruct (if gen then gen_id (m_idgen m t) else _) as [i g].
  destruct (keyed cfg t).
  - apply obind_Some in H as (k & Hk & H). destruct (find_key (m_nodes m t) k) as [n|].
    + inversion H; subst. apply old_range_same; auto.
    + inversion H; subst. apply Q. rewrite filter_insert_keyed by auto.
      apply (old_range_refl m HW).
  - inversion H; subst. apply Q. rewrite map_app, filter_app. simpl.
    rewrite Nat.ltb_irrefl, app_nil_r. apply (old_range_refl m HW).
Qed.

Lemma insert_old_range depth : forall gen t (m m' : mesh) e a fresh,
  winv cfg m -> id_lt gen m t (e_id e) -> insert depth cfg gen t m e = Some (m', (a, fresh)) ->
  old_range m m'.
Proof.
  induction depth as [|d IHd]; intros gen t m m' e a fresh HW Hid H; cbn [insert] in H;
    apply obind_Some in H as ((m1 & a1 & fr) & Hp & H);
    destruct (push_winv _ _ _ _ _ _ _ _ HW Hid Hp) as (W1 & _ & _);
    apply push_old_range in Hp; auto.
  - destruct fr; [destruct (btab cfg t); [|discriminate]|]; inversion H; subst; exact Hp.
  - destruct fr; [|inversion H; subst; exact Hp].
    apply obind_Some in H as (m2 & Hf & H). inversion H; subst.
    change (old_range m m2). eapply old_range_trans; [exact Hp|]. clear - W1 Hf IHd.
    revert m1 W1 Hf. induction (btab cfg t) as [|[bt idx] l IHl]; intros mc Wc Hl.
    + inversion Hl; subst. now apply old_range_refl.
    + cbn [ofold] in Hl. apply obind_Some in Hl as (ms & Hs & Hl).
      unfold boundary_step in Hs.
      apply obind_Some in Hs as (host & Hh & Hs).
      apply obind_Some in Hs as (vs & Hv & Hs).
      apply obind_Some in Hs as ((mi & h & fr) & Hi & Hs).
      apply obind_Some in Hs as (st & Hst & Hs).
      apply obind_Some in Hs as (host1 & Hh1 & Hs).
      pose proof Hi as Hi'. apply IHd in Hi'; [|auto|now left].
      apply insert_winv in Hi as (Wi & _ & _); [|auto|now left].
      inversion Hs; subst.
      match type of Hl with ofold _ _ (put _ _ _ ?el) = _ =>
        destruct (winv_put cfg mi t a el host1 Wi Hh1 eq_refl) as (Wp & _ & _) end.
      eapply old_range_trans; [exact Hi'|]. eapply old_range_trans; [|apply IHl; eauto].
      apply old_range_same; auto. intros t'. unfold range. simpl. rewrite upd_spec.
      destruct (tag_eq_dec t t') as [<-|]; auto. now rewrite set_el_addrs.
Qed.

Lemma step_old_range (m m' : mesh) o : reach cfg m -> valid_op cfg m o -> o <> OClear ->
  step cfg m o = Some m' -> old_range m m'.
Proof.
  intros HR HV Hc HS. pose proof (inv_winv _ _ (reach_inv m HR)) as HW.
  destruct o; cbn [step] in HS; simpl in HV; try easy.
  - unfold make_vertex in HS. destruct (insert 0 cfg true Vertex m _) as [[m1 [a1 f1]]|] eqn:E; [|discriminate].
    cbn in HS. inversion HS; subst. eapply insert_old_range; eauto. now left.
  - unfold make_vertex_with_id in HS. destruct (insert 0 cfg false Vertex m _) as [[m1 [a1 f1]]|] eqn:E; [|discriminate].
    cbn in HS. inversion HS; subst. eapply insert_old_range; eauto. right. apply HV.
  - unfold make_element in HS. destruct (length vs =? nverts t); [|discriminate].
    destruct (insert _ cfg true t m _) as [[m1 [a1 f1]]|] eqn:E; [|discriminate].
    cbn in HS. inversion HS; subst. eapply insert_old_range; eauto. now left.
Qed.

End Reach.
