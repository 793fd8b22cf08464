(** References inside a mesh: an invariant of every history of creation,
    deletion of reference-closed sets and clear. *)
From Coq Require Import List Arith Bool Lia Permutation Sorted.
From Verif Require Import ModelTopo ModelMesh ModelErase SpecMesh SpecErase MeshBase MeshInv MeshIds.
Import ListNotations.

Section Wf.
Context {Pt : Type}.
Notation mesh := (@mesh Pt).
Notation element := (@element Pt).
Notation node := (@node Pt).
Variable cfg : config.

Definition live (m : mesh) (t : tag) (a : addr) : Prop := In a (map n_addr (m_nodes m t)).

Lemma live_is_live (m : mesh) t a : live m t a <-> is_live m t a.
Proof. apply range_deref. Qed.

Record refs (m : mesh) : Prop := mkRefs {
  r_vv : forall n, In n (m_nodes m Vertex) -> e_verts (n_el n) = [] /\ e_bnd (n_el n) = [];
  r_len : forall t n, t <> Vertex -> In n (m_nodes m t) -> length (e_verts (n_el n)) = nverts t;
  r_verts : forall t n v, In n (m_nodes m t) -> In v (e_verts (n_el n)) -> live m Vertex v;
  r_bnd : forall t n b, In n (m_nodes m t) -> In b (e_bnd (n_el n)) ->
            b_tag b <> Vertex /\ dim (b_tag b) < dim t /\ live m (b_tag b) (b_addr b)
}.

Definition wf (m : mesh) : Prop := winv cfg m /\ nodup_ids m /\ refs m.

Lemma wf_addr (m : mesh) t : wf m -> NoDup (map n_addr (m_nodes m t)).
Proof. intros [H _]. apply H. Qed.

Lemma wf_In_deref (m : mesh) t n : wf m -> In n (m_nodes m t) -> deref m t (n_addr n) = Some (n_el n).
Proof. intros H Hn. unfold deref. rewrite In_find_node; auto. now apply wf_addr. Qed.

Lemma wf_live_id (m : mesh) t a : live m t a -> exists i, id_at m t a = Some i.
Proof. intros H. apply range_deref in H as [e H]. unfold id_at. rewrite H. simpl. eauto. Qed.

Lemma nodup_id_eq (m : mesh) t n1 n2 : nodup_ids m -> In n1 (m_nodes m t) -> In n2 (m_nodes m t) ->
  e_id (n_el n1) = e_id (n_el n2) -> n1 = n2.
Proof.
  intros HN H1 H2 E. specialize (HN t). unfold ids in HN.
  induction (m_nodes m t) as [|x l IH]; [easy|]. simpl in HN. inversion HN; subst.
  destruct H1 as [->|H1], H2 as [->|H2]; auto.
  - exfalso. apply H3. unfold nid at 1. rewrite E. now apply (in_map nid).
  - exfalso. apply H3. unfold nid at 1. rewrite <- E. now apply (in_map nid).
Qed.

Lemma id_at_inj (m : mesh) t a b i : wf m -> id_at m t a = Some i -> id_at m t b = Some i -> a = b.
Proof.
  intros HW Ha Hb. unfold id_at in *.
  destruct (deref m t a) as [ea|] eqn:Ea; [|easy]. destruct (deref m t b) as [eb|] eqn:Eb; [|easy].
  simpl in *. apply deref_In in Ea as (na & Ia & <- & <-). apply deref_In in Eb as (nb & Ib & <- & <-).
  f_equal. eapply (nodup_id_eq m t); eauto. apply HW. congruence.
Qed.

(** ** Creation *)
Lemma refs_same (m m' : mesh) : refs m -> (forall t, m_nodes m' t = m_nodes m t) -> refs m'.
Proof.
  intros [A L B C] N. constructor; intros *; unfold live; rewrite ?N; first [apply A | apply L | intros; eapply B; eauto | intros; eapply C; eauto].
Qed.

Lemma refs_add (m : mesh) t nodes' n g : refs m -> Permutation (n :: m_nodes m t) nodes' ->
  e_bnd (n_el n) = [] -> (t = Vertex -> e_verts (n_el n) = []) ->
  (t <> Vertex -> length (e_verts (n_el n)) = nverts t) ->
  (forall v, In v (e_verts (n_el n)) -> live m Vertex v) ->
  refs (add_node t nodes' g m) /\ (forall t' a, live m t' a -> live (add_node t nodes' g m) t' a) /\
  live (add_node t nodes' g m) t (n_addr n).
Proof.
  intros [A L B C] HP HB HT HL HV.
  assert (HIn : forall t' x, In x (m_nodes (add_node t nodes' g m) t') ->
            (t' = t /\ x = n) \/ In x (m_nodes m t')).
  { intros t' x. simpl. rewrite upd_spec. destruct (tag_eq_dec t t') as [<-|]; auto.
    intros H. apply (Permutation_in x (Permutation_sym HP)) in H as [->|H]; auto. }
  assert (HLv : forall t' a, live m t' a -> live (add_node t nodes' g m) t' a).
  { intros t' a. unfold live. simpl. rewrite upd_spec. destruct (tag_eq_dec t t') as [<-|]; auto.
    intros H. eapply Permutation_in; [apply Permutation_map, HP|]. now right. }
  split; [|split; auto].
  - constructor.
    + intros x Hx. apply HIn in Hx as [[<- ->]|Hx]; auto.
    + intros t' x T Hx. apply HIn in Hx as [[-> ->]|Hx]; auto.
    + intros t' x v Hx Hv. apply HLv. apply HIn in Hx as [[-> ->]|Hx]; eauto.
    + intros t' x b Hx Hb. apply HIn in Hx as [[-> ->]|Hx]; [rewrite HB in Hb; easy|].
      destruct (C _ _ _ Hx Hb) as (? & ? & ?). auto.
  - unfold live. simpl. rewrite upd_same. eapply Permutation_in; [apply Permutation_map, HP|]. now left.
Qed.

Lemma live_put (m : mesh) t a e t' a' : live (put m t a e) t' a' <-> live m t' a'.
Proof.
  unfold live. simpl. rewrite upd_spec. destruct (tag_eq_dec t t') as [<-|]; [|tauto].
  now rewrite set_el_addrs.
Qed.

Lemma refs_put_bnd (m : mesh) t a host b : refs m -> deref m t a = Some host -> t <> Vertex ->
  b_tag b <> Vertex -> dim (b_tag b) < dim t -> live m (b_tag b) (b_addr b) ->
  refs (put m t a (mkE (e_id host) (e_verts host) (e_bnd host ++ [b]) (e_pt host))).
Proof.
  intros [A L B C] HD T HB1 HB2 HB3.
  apply deref_In in HD as (n0 & Hn0 & Ha0 & He0).
  set (host' := mkE _ _ _ _).
  assert (HIn : forall t' x, In x (m_nodes (put m t a host') t') ->
     exists y, In y (m_nodes m t') /\ (x = y \/ (t' = t /\ n_el x = host'))).
  { intros t' x. simpl. rewrite upd_spec. destruct (tag_eq_dec t t') as [<-|]; [|eauto].
    intros H. apply in_set_el in H as (y & Hy & _ & _ & [[_ E]|[_ E]]); eauto. }
  constructor.
  - intros x. simpl. rewrite upd_other by auto. apply A.
  - intros t' x T' Hx. apply HIn in Hx as (y & Hy & [->|[-> ->]]); auto. simpl. subst host. auto.
  - intros t' x v Hx Hv. apply live_put. apply HIn in Hx as (y & Hy & [->|[-> E]]); eauto.
    rewrite E in Hv. simpl in Hv. subst host. eauto.
  - intros t' x b' Hx Hb. rewrite live_put. apply HIn in Hx as (y & Hy & [->|[-> E]]); eauto.
    rewrite E in Hb. simpl in Hb. subst host. apply in_app_or in Hb as [Hb|[<-|[]]]; eauto.
Qed.

Lemma wf_log (m : mesh) t a : refs m -> refs (log_insert t a m).
Proof. intros H. eapply refs_same; eauto. Qed.

Lemma insert_refs depth : forall gen t (m m' : mesh) e a fresh,
  refs m -> e_bnd e = [] -> (t = Vertex -> e_verts e = []) ->
  (t <> Vertex -> length (e_verts e) = nverts t) ->
  (forall v, In v (e_verts e) -> live m Vertex v) ->
  insert depth cfg gen t m e = Some (m', (a, fresh)) ->
  refs m' /\ (forall t' a', live m t' a' -> live m' t' a') /\ live m' t a.
Proof.
  induction depth as [|d IHd]; intros gen t m m' e a fresh HR HB HT HL HV H; cbn [insert] in H;
    apply obind_Some in H as ((m1 & a1 & fr) & Hp & H);
    (assert (P1 : refs m1 /\ (forall t' a', live m t' a' -> live m1 t' a') /\ live m1 t a1);
     [apply push_cases in Hp as [(-> & N & _ & _ & _ & n & Hn & <-)|(-> & -> & k & nodes' & g & -> & HP & _)];
      [split; [eapply refs_same; eauto|]; split; [intros t' a'; unfold live; now rewrite N|];
       unfold live; rewrite N; now apply in_map
      |destruct (refs_add m t nodes' _ g HR HP) as (Q1 & Q2 & Q3); auto]|]);
    destruct P1 as (R1 & L1 & A1).
  - destruct fr; [destruct (btab cfg t); [|discriminate]|]; inversion H; subst;
      (split; [now apply wf_log|split; auto]).
  - destruct fr; [|inversion H; subst; split; [now apply wf_log|split; auto]].
    apply obind_Some in H as (m2 & Hf & H). inversion H; subst.
    assert (Loop : forall l mc mr, (forall x, In x l -> In x (btab cfg t)) -> refs mc ->
       ofold (boundary_step (insert d cfg true) t a) l mc = Some mr ->
       refs mr /\ (forall t' a', live mc t' a' -> live mr t' a')).
    { induction l as [|[bt idx] l IHl]; intros mc mr Hin Rc Hl.
      - inversion Hl; subst. auto.
      - cbn [ofold] in Hl. apply obind_Some in Hl as (ms & Hs & Hl).
        unfold boundary_step in Hs.
        apply obind_Some in Hs as (host & Hh & Hs).
        apply obind_Some in Hs as (vs & Hv & Hs).
        apply obind_Some in Hs as ((mi & h & fr) & Hi & Hs).
        apply obind_Some in Hs as (st & Hst & Hs).
        apply obind_Some in Hs as (host1 & Hh1 & Hs).
        assert (Hb := Hin _ (or_introl eq_refl)). apply btab_In in Hb as [Hb _].
        apply btable_ok in Hb as (B1 & B2 & B3).
        assert (Tv : t <> Vertex) by (intros ->; simpl in *; lia).
        apply IHd in Hi as (Ri & Li & Ai); auto.
        + inversion Hs; subst.
          apply IHl in Hl as (Rr & Lr); auto.
          * split; auto. intros t' a' X. apply Lr, live_put, Li, X.
          * intros; apply Hin; now right.
          * apply refs_put_bnd; auto.
        + intros; congruence.
        + intros _. simpl. rewrite (omap_length _ _ _ Hv). apply B3.
        + simpl. intros v Hv'. apply deref_In in Hh as (nh & Hnh & _ & <-).
          apply omap_Forall2 in Hv.
          assert (exists i, nth_error (e_verts (n_el nh)) i = Some v) as [i Hi'].
          { clear - Hv Hv'. induction Hv; simpl in *; [easy|]. destruct Hv' as [->|?]; eauto. }
          eapply (r_verts mc Rc); eauto. eapply nth_error_In; eauto. }
    apply Loop in Hf as (R2 & L2); auto.
    split; [now apply wf_log|]. split; auto.
    intros t' a' X. apply (L2 t' a'). auto. apply (L2 t a A1).
Qed.

Lemma wf_empty : wf empty_mesh.
Proof. split; [apply winv_empty|]. split; [intros t; constructor|]. constructor; simpl; easy. Qed.

Lemma wf_clear (m : mesh) : wf (clear_mesh m).
Proof.
  split; [|split; [intros t; constructor|constructor; simpl; easy]].
  constructor; simpl; intros; try constructor; easy.
Qed.

Lemma step_wf (m m' : mesh) o : wf m -> valid_op cfg m o -> step cfg m o = Some m' -> wf m'.
Proof.
  intros HW HV H. destruct HW as (W & N & R). destruct o; cbn [step] in H; cbn [valid_op] in HV.
  - destruct (make_vertex cfg m p) as [[m1 a]|] eqn:E; [|discriminate]. simpl in H. inversion H; subst.
    unfold make_vertex in E. destruct (insert _ _ _ _ _ _) as [[m2 [a2 f2]]|] eqn:E2; [|discriminate].
    simpl in E. inversion E; subst.
    pose proof (insert_winv cfg _ _ _ _ _ _ _ _ W (or_introl eq_refl) E2) as (W' & N' & _).
    apply insert_refs in E2 as (R' & _); auto; try easy.
    split; auto. split; auto. apply N'; auto. now left.
  - destruct (make_vertex_with_id cfg m i p) as [[m1 a]|] eqn:E; [|discriminate]. simpl in H. inversion H; subst.
    unfold make_vertex_with_id in E. destruct (insert _ _ _ _ _ _) as [[m2 [a2 f2]]|] eqn:E2; [|discriminate].
    simpl in E. inversion E; subst. destruct HV as [V1 V2].
    assert (id_lt false m Vertex i) by (right; auto).
    pose proof (insert_winv cfg 0 false Vertex m m' (mkE i [] [] (Some p)) a f2 W H0 E2) as (W' & N' & _).
    apply insert_refs in E2 as (R' & _); auto; try easy.
    split; auto. split; auto. apply N'; auto. right. auto.
  - destruct (make_element cfg t m vs) as [[m1 a]|] eqn:E; [|discriminate]. simpl in H. inversion H; subst.
    unfold make_element in E. destruct (length vs =? nverts t); [|discriminate].
    destruct (insert _ _ _ _ _ _) as [[m2 [a2 f2]]|] eqn:E2; [|discriminate].
    simpl in E. inversion E; subst. destruct HV as (V1 & V2 & V3 & V4).
    pose proof (insert_winv cfg _ _ _ _ _ _ _ _ W (or_introl eq_refl) E2) as (W' & N' & _).
    apply insert_refs in E2 as (R' & _); auto; try easy.
    + split; auto. split; auto. apply N'; auto. now left.
    + intros ->. destruct V1. congruence.
    + simpl. rewrite Forall_forall in V4. intros v Hv. apply live_is_live; auto.
  - easy.
  - inversion H. apply wf_clear.
Qed.

(** ** Deletion of one element *)

Lemma rename_same a x : rename a a x = x.
Proof. unfold rename. destruct (Nat.eqb_spec x a); auto. Qed.
Lemma switch_same t a (e : element) : switch_in_element t a a e = e.
Proof.
  assert (V : forall l, map (rename a a) l = l) by (induction l; simpl; rewrite ?rename_same; congruence).
  assert (B : forall l, map (fun b => if tag_eqb (b_tag b) t
                            then mkB (b_tag b) (rename a a (b_addr b)) (b_orient b) else b) l = l).
  { induction l as [|[bt ba bo] l IH]; simpl; auto. rewrite rename_same, IH. now destruct (tag_eqb bt t). }
  destruct e as [i vs bs p], t; unfold switch_in_element; simpl; rewrite ?V, ?B; reflexivity.
Qed.

Definition swn (t : tag) (old new : addr) (n : node) : node :=
  mkN (n_addr n) (n_key n) (switch_in_element t old new (n_el n)).

Lemma map_swn_same t a (l : list node) : map (swn t a a) l = l.
Proof.
  induction l as [|[x k e] l IH]; simpl; auto. unfold swn at 1. simpl. now rewrite switch_same, IH.
Qed.

(** The exact effect on the slots. [L] are the remaining slots. *)
Lemma erase_one_nodes (m : mesh) t te : winv cfg m -> nodup_ids m -> In te (m_nodes m t) ->
  exists m' back L, erase_one t m (e_id (n_el te)) = Some m' /\
    m_nodes m' t = map (swn t (n_addr back) (n_addr te)) L /\
    (forall t', t' <> t -> m_nodes m' t' = map (swn t (n_addr back) (n_addr te)) (m_nodes m t')) /\
    Permutation (map n_el (m_nodes m t)) (n_el te :: map n_el L) /\
    (In back (m_nodes m t) /\ m_nodes m t = removelast (m_nodes m t) ++ [back] /\
     (back = te -> L = removelast (m_nodes m t))) /\
    (forall n, In n (m_nodes m t) -> n <> te ->
       exists n', In n' L /\ n_addr n' = rename (n_addr back) (n_addr te) (n_addr n) /\ n_el n' = n_el n) /\
    (back <> te -> exists r1 r2, m_nodes m t = r1 ++ te :: r2 ++ [back] /\
         L = r1 ++ mkN (n_addr te) (n_key te) (n_el back) :: r2) /\
    m_next m' = m_next m /\ m_idgen m' = m_idgen m /\ m_cc m' = m_cc m.
Proof.
  intros HW HN Hte.
  assert (HND : NoDup (map n_addr (m_nodes m t))) by apply HW.
  assert (Ff : find_id (m_nodes m t) (e_id (n_el te)) = Some te).
  { destruct (find_id (m_nodes m t) (e_id (n_el te))) as [x|] eqn:E.
    - apply find_id_In in E as [Hx E]. f_equal. eapply nodup_id_eq; eauto.
    - exfalso. eapply find_none in E; eauto. simpl in E. rewrite Nat.eqb_refl in E. discriminate. }
  unfold erase_one. rewrite Ff. cbn [obind].
  destruct (last_node (m_nodes m t)) as [back|] eqn:Hb.
  2:{ destruct (m_nodes m t); [easy|discriminate]. }
  cbn [obind]. apply last_node_spec in Hb as [Hne Hl].
  set (l := m_nodes m t) in *.
  assert (Hbin : In back l) by (rewrite Hl; apply in_or_app; right; now left).
  destruct (Nat.eqb_spec (n_addr back) (n_addr te)) as [E|E].
  - assert (back = te).
    { pose proof (In_find_node _ _ HND Hbin) as F1. pose proof (In_find_node _ _ HND Hte) as F2.
      rewrite E in F1. congruence. }
    subst back. eexists _, te, (removelast l). split; [reflexivity|]. simpl. rewrite upd_same.
    repeat split; auto.
    + now rewrite map_swn_same.
    + intros t' T. rewrite upd_other by auto. now rewrite map_swn_same.
    + rewrite Hl at 1. rewrite map_app. simpl. apply Permutation_sym, Permutation_cons_append.
    + intros n Hn Hne'. exists n. rewrite rename_same. repeat split; auto.
      rewrite Hl in Hn. apply in_app_or in Hn as [?|[?|[]]]; auto. congruence.
    + intros; congruence.
  - set (r := removelast l) in *.
    assert (Hnr : ~ In (n_addr back) (map n_addr r)).
    { rewrite Hl, map_app in HND. simpl in HND. apply NoDup_remove_2 in HND. now rewrite app_nil_r in HND. }
    assert (Htr : In te r).
    { rewrite Hl in Hte. apply in_app_or in Hte as [?|[?|[]]]; auto. subst. congruence. }
    apply in_split in Htr as (r1 & r2 & Hr).
    assert (Hl' : l = r1 ++ te :: r2 ++ [back]).
    { rewrite Hl, Hr, <- app_assoc. reflexivity. }
    assert (S1 : set_el (set_el l (n_addr te) (n_el back)) (n_addr back) (n_el te) =
                 (r1 ++ mkN (n_addr te) (n_key te) (n_el back) :: r2) ++ [mkN (n_addr back) (n_key back) (n_el te)]).
    { rewrite Hl, Hr in HND |- *.
      rewrite !map_app in HND. simpl in HND.
      assert (N1 : ~ In (n_addr te) (map n_addr r1)).
      { intros X. apply NoDup_app_l in HND. apply NoDup_remove_2 in HND. apply HND, in_or_app. auto. }
      assert (N2 : ~ In (n_addr te) (map n_addr r2)).
      { intros X. apply NoDup_app_l in HND. apply NoDup_remove_2 in HND. apply HND, in_or_app. auto. }
      rewrite Hr, map_app in Hnr. simpl in Hnr.
      assert (N3 : ~ In (n_addr back) (map n_addr r1)) by (intros X; apply Hnr, in_or_app; auto).
      assert (N4 : ~ In (n_addr back) (map n_addr r2)) by (intros X; apply Hnr, in_or_app; right; right; auto).
      rewrite !set_el_app, !set_el_cons, !set_el_nil, !Nat.eqb_refl.
      rewrite (set_el_absent r1), (set_el_absent r2) by auto.
      destruct (Nat.eqb_spec (n_addr back) (n_addr te)); [congruence|].
      rewrite (set_el_absent r1), (set_el_absent r2) by auto.
      simpl. rewrite Nat.eqb_refl.
      destruct (Nat.eqb_spec (n_addr te) (n_addr back)); [congruence|]. reflexivity. }
    eexists _, back, _. split; [reflexivity|]. simpl. rewrite !upd_same. fold l. rewrite S1.
    rewrite map_app. simpl. rewrite removelast_last.
    split; [reflexivity|]. split; [|split; [|split; [|split; [|split]]]]; auto.
    3:{ split; [auto|]. split; [auto|]. intros; subst; congruence. }
    + intros t' T. now rewrite !upd_other by auto.
    + rewrite Hl', !map_app. simpl. rewrite map_app. simpl.
      rewrite <- Permutation_middle. constructor. apply Permutation_app_head.
      apply Permutation_sym, Permutation_cons_append.
    + intros n Hn Hn2. unfold rename. destruct (Nat.eqb_spec (n_addr n) (n_addr back)) as [En|En].
      * assert (n = back).
        { pose proof (In_find_node _ _ HND Hbin) as F1. pose proof (In_find_node _ _ HND Hn) as F2.
          rewrite En in F2. congruence. }
        subst n. eexists. split; [apply in_or_app; right; left; reflexivity|]. simpl. auto.
      * exists n. repeat split; auto. rewrite Hl' in Hn. apply in_app_or in Hn as [Hn|[Hn|Hn]].
        -- apply in_or_app; auto.
        -- congruence.
        -- apply in_app_or in Hn as [Hn|[Hn|[]]]; [apply in_or_app; right; right; auto|congruence].
    + intros _. exists r1, r2. auto.
Qed.

(** References of an element. *)
Definition references (e : element) (bt : tag) (b : addr) : Prop :=
  (bt = Vertex /\ In b (e_verts e)) \/ (exists x, In x (e_bnd e) /\ b_tag x = bt /\ b_addr x = b).

Lemma has_boundary_references (m : mesh) t n bt b : refs m -> In n (m_nodes m t) ->
  has_boundary (n_el n) bt b <-> references (n_el n) bt b.
Proof.
  intros R Hn. unfold has_boundary, references. destruct (tag_eq_dec bt Vertex) as [->|T].
  - simpl. split; [auto|]. intros [[_ H]|(x & Hx & Ht & _)]; auto.
    exfalso. apply (r_bnd m R t n x Hn Hx). auto.
  - assert (E : boundary_of (n_el n) bt = map b_addr (filter (fun b => tag_eqb (b_tag b) bt) (e_bnd (n_el n))))
      by (destruct bt; auto; congruence).
    rewrite E. split.
    + intros H. apply in_map_iff in H as (x & <- & Hx). apply filter_In in Hx as [Hx Ht].
      apply tag_eqb_eq in Ht. right. eauto.
    + intros [[H _]|(x & Hx & <- & <-)]; [congruence|]. apply in_map. apply filter_In.
      split; auto. apply tag_eqb_refl.
Qed.

Lemma references_live (m : mesh) t n bt b : refs m -> In n (m_nodes m t) ->
  references (n_el n) bt b -> live m bt b /\ dim bt < dim t.
Proof.
  intros R Hn [[-> H]|(x & Hx & <- & <-)].
  - split; [eapply r_verts; eauto|]. destruct t; simpl; try lia.
    apply (r_vv m R) in Hn as [E _]. rewrite E in H. easy.
  - apply (r_bnd m R t n x Hn) in Hx as (? & ? & ?). auto.
Qed.

Lemma switch_describe (m m' : mesh) t old new (e : element) :
  (forall x, In x (e_bnd e) -> b_tag x <> Vertex) ->
  (forall b, references e t b -> id_at m' t (rename old new b) = id_at m t b) ->
  (forall t' b, t' <> t -> references e t' b -> id_at m' t' b = id_at m t' b) ->
  describe m' (switch_in_element t old new e) = describe m e.
Proof.
  intros HBt H1 H2.
  assert (V : t <> Vertex -> map (id_at m' Vertex) (e_verts e) = map (id_at m Vertex) (e_verts e)).
  { intros T. apply map_ext_in. intros b Hb. apply H2; auto. left. auto. }
  assert (B' : t <> Vertex -> map (fun b => (b_tag b, id_at m' (b_tag b) (b_addr b), b_orient b))
      (map (fun x => if tag_eqb (b_tag x) t then mkB (b_tag x) (rename old new (b_addr x)) (b_orient x) else x) (e_bnd e)) =
     map (fun b => (b_tag b, id_at m (b_tag b) (b_addr b), b_orient b)) (e_bnd e)).
  { intros T. rewrite map_map. apply map_ext_in. intros x Hx. destruct (tag_eqb (b_tag x) t) eqn:E; simpl.
    - apply tag_eqb_eq in E. rewrite E, H1; auto. right. exists x. auto.
    - apply tag_eqb_neq in E. rewrite H2; auto. right. exists x. auto. }
  destruct (tag_eq_dec t Vertex) as [->|T].
  - unfold switch_in_element, describe. simpl. rewrite map_map. f_equal.
    + apply map_ext_in. intros b Hb. apply H1. left. auto.
    + apply map_ext_in. intros x Hx. rewrite H2; auto. right. exists x. auto.
  - assert (E : switch_in_element t old new e = mkE (e_id e) (e_verts e) (map (fun x => if tag_eqb (b_tag x) t then mkB (b_tag x) (rename old new (b_addr x)) (b_orient x) else x) (e_bnd e)) (e_pt e))
      by (destruct t; auto; congruence).
    rewrite E. unfold describe. simpl. rewrite V, B' by auto. reflexivity.
Qed.

Lemma switch_references t old new (e : element) bt b :
  (forall x, In x (e_bnd e) -> b_tag x <> Vertex) ->
  references (switch_in_element t old new e) bt b ->
  exists b0, references e bt b0 /\ b = if tag_eq_dec t bt then rename old new b0 else b0.
Proof.
  intros HBt [[-> H]|(x & Hx & <- & <-)].
  - destruct (tag_eq_dec t Vertex) as [->|T].
    + simpl in H. apply in_map_iff in H as (b0 & <- & H). exists b0. split; auto. left; auto.
    + exists b. split; auto. left. split; auto. destruct t; auto; congruence.
  - destruct (tag_eq_dec t Vertex) as [->|T].
    + simpl in Hx. exists (b_addr x). split.
      * right. eauto.
      * destruct (tag_eq_dec Vertex (b_tag x)); auto. exfalso. eapply HBt; eauto.
    + assert (E : e_bnd (switch_in_element t old new e) = map (fun x => if tag_eqb (b_tag x) t then mkB (b_tag x) (rename old new (b_addr x)) (b_orient x) else x) (e_bnd e))
        by (destruct t; auto; congruence).
      rewrite E in Hx. apply in_map_iff in Hx as (y & <- & Hy). exists (b_addr y).
      destruct (tag_eqb (b_tag y) t) eqn:Ey; simpl.
      * apply tag_eqb_eq in Ey. split; [right; eauto|]. destruct (tag_eq_dec t (b_tag y)); congruence.
      * apply tag_eqb_neq in Ey. split; [right; eauto|]. destruct (tag_eq_dec t (b_tag y)); congruence.
Qed.

Definition described_of (m : mesh) (t : tag) : list described := map (describe m) (elements_of m t).

Lemma id_at_swn (m m' : mesh) t t' old new a : m_nodes m' t' = map (swn t old new) (m_nodes m t') ->
  id_at m' t' a = id_at m t' a.
Proof.
  intros E. unfold id_at, deref. rewrite E. clear E. induction (m_nodes m t') as [|x l IH]; simpl; auto.
  destruct (n_addr x =? a); simpl; auto. now rewrite switch_id.
Qed.

Lemma live_swn (m m' : mesh) t t' old new a : m_nodes m' t' = map (swn t old new) (m_nodes m t') ->
  live m' t' a <-> live m t' a.
Proof.
  intros E. unfold live. rewrite E, map_map. simpl. tauto.
Qed.

(** Deleting one element nothing refers to. *)
Lemma erase_one_spec (m : mesh) t te : wf m -> In te (m_nodes m t) ->
  (forall t' n, In n (m_nodes m t') -> ~ references (n_el n) t (n_addr te)) ->
  exists m', erase_one t m (e_id (n_el te)) = Some m' /\ wf m' /\
    (forall t', t' <> t -> described_of m' t' = described_of m t') /\
    Permutation (described_of m t) (describe m (n_el te) :: described_of m' t) /\
    (forall t' a, t' <> t -> id_at m' t' a = id_at m t' a) /\
    m_next m' = m_next m /\ m_idgen m' = m_idgen m /\ m_cc m' = m_cc m.
Proof.
  intros (HW & HN & HR) Hte Hun.
  destruct (erase_one_nodes m t te HW HN Hte) as (m' & back & L & HE & N1 & N2 & HP & (Hback & _) & HL & _ & X1 & X2 & X3).
  destruct (erase_one_winv cfg m m' t _ HW HE) as (W' & Nd' & _). specialize (Nd' HN).
  exists m'. split; auto.
  set (o := n_addr back) in *. set (w := n_addr te) in *.
  assert (Hsrc : forall n', In n' L -> exists n, In n (m_nodes m t) /\ n_el n' = n_el n).
  { intros n' Hn'. apply (in_map n_el) in Hn'.
    assert (In (n_el n') (map n_el (m_nodes m t))).
    { eapply Permutation_in; [apply Permutation_sym, HP|]. now right. }
    apply in_map_iff in H as (n & E & H). exists n. auto. }
  assert (Hother : forall t' a, t' <> t -> id_at m' t' a = id_at m t' a).
  { intros t' a T. eapply id_at_swn. apply N2; auto. }
  assert (Hself : forall a, live m t a -> a <> w -> live m' t (rename o w a) /\ id_at m' t (rename o w a) = id_at m t a).
  { intros a Ha Hw. apply in_map_iff in Ha as (n & <- & Hn).
    destruct (HL n Hn) as (n' & I' & A' & E'); [intros ->; apply Hw; reflexivity|].
    assert (In (swn t o w n') (m_nodes m' t)) by (rewrite N1; now apply in_map).
    split.
    - unfold live. rewrite <- A'. apply (in_map n_addr) in H. exact H.
    - unfold id_at. rewrite (wf_In_deref m t n); [|split; auto|auto]. 
      rewrite <- A'. change (n_addr n') with (n_addr (swn t o w n')).
      unfold deref. rewrite In_find_node; auto; [|apply W'].
      simpl. rewrite switch_id, E'. reflexivity. }
  assert (Hdesc : forall t' n, In n (m_nodes m t') -> describe m' (switch_in_element t o w (n_el n)) = describe m (n_el n)).
  { intros t' n Hn. apply switch_describe; auto.
    - intros x Hx. now apply (r_bnd m HR t' n x).
    - intros b Hb. apply Hself; [eapply references_live; eauto|].
      intros ->. eapply Hun; eauto. }
  assert (Href : refs m').
  { assert (Hin : forall t' x, In x (m_nodes m' t') ->
       exists n, In n (m_nodes m t') /\ n_el x = switch_in_element t o w (n_el n)).
    { intros t' x Hx. destruct (tag_eq_dec t' t) as [->|T].
      - rewrite N1 in Hx. apply in_map_iff in Hx as (y & <- & Hy).
        apply Hsrc in Hy as (n & Hn & E). exists n. simpl. rewrite E. auto.
      - rewrite N2 in Hx by auto. apply in_map_iff in Hx as (y & <- & Hy). exists y. auto. }
    assert (Hrl : forall t' x bt b, In x (m_nodes m' t') -> references (n_el x) bt b -> live m' bt b /\ dim bt < dim t').
    { intros t' x bt b Hx Hb. apply Hin in Hx as (n & Hn & E). rewrite E in Hb.
      apply switch_references in Hb as (b0 & Hb & ->); [|intros y Hy; now apply (r_bnd m HR t' n y)].
      destruct (references_live m t' n bt b0 HR Hn Hb) as [L1 D1]. split; auto.
      destruct (tag_eq_dec t bt) as [<-|T].
      - apply Hself; auto. intros ->. eapply Hun; eauto.
      - eapply live_swn; [apply N2; auto|auto]. }
    constructor.
    - intros x Hx. apply Hin in Hx as (n & Hn & ->). apply (r_vv m HR) in Hn as [E1 E2].
      destruct t; simpl; rewrite E1, E2; auto.
    - intros t' x T Hx. apply Hin in Hx as (n & Hn & ->). apply (r_len m HR) in Hn; auto.
      destruct t; simpl; rewrite ?map_length; auto.
    - intros t' x v Hx Hv. eapply Hrl; eauto. left. auto.
    - intros t' x b Hx Hb. split.
      + apply Hin in Hx as (n & Hn & E). rewrite E in Hb.
        assert (exists y, In y (e_bnd (n_el n)) /\ b_tag y = b_tag b) as (y & Hy & <-).
        { destruct (tag_eq_dec t Vertex) as [->|T]; [exists b; auto|].
          assert (E' : e_bnd (switch_in_element t o w (n_el n)) = map (fun x => if tag_eqb (b_tag x) t then mkB (b_tag x) (rename o w (b_addr x)) (b_orient x) else x) (e_bnd (n_el n)))
            by (destruct t; auto; congruence).
          rewrite E' in Hb. apply in_map_iff in Hb as (y & <- & Hy). exists y. split; auto.
          destruct (tag_eqb (b_tag y) t); auto. }
        now apply (r_bnd m HR t' n y).
      + assert (references (n_el x) (b_tag b) (b_addr b)) by (right; eauto).
        apply Hrl with (t' := t') in H; auto. tauto. }
  split; [split; auto|]. split; [|split; [|split; auto]].
  - intros t' T. unfold described_of, elements_of. rewrite N2 by auto. rewrite !map_map.
    apply map_ext_in. intros n Hn. simpl. now apply (Hdesc t').
  - unfold described_of, elements_of. rewrite N1.
    rewrite (Permutation_map (describe m) HP). simpl. constructor.
    rewrite !map_map. apply Permutation_refl'. apply map_ext_in. intros n' Hn'. simpl.
    destruct (Hsrc n' Hn') as (n & Hn & E). rewrite E. symmetry. now apply (Hdesc t).
Qed.
End Wf.
