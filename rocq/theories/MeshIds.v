(** Facts about ids, addresses and keys that hold for every history of
    operations, with no assumption on the arguments. *)
From Coq Require Import List Arith Bool Lia Permutation Sorted.
From Verif Require Import ModelTopo ModelMesh ModelErase SpecMesh MeshBase MeshInv.
Import ListNotations.

Section Ids.
Context {Pt : Type}.
Notation mesh := (@mesh Pt).
Notation element := (@element Pt).
Notation node := (@node Pt).
Variable cfg : config.

Definition nid (n : node) : nat := e_id (n_el n).
Definition ids (m : mesh) (t : tag) : list nat := map nid (m_nodes m t).

Record winv (m : mesh) : Prop := mkW {
  w_addr : forall t, NoDup (map n_addr (m_nodes m t));
  w_next : forall t n, In n (m_nodes m t) -> n_addr n < m_next m t;
  w_idlt : forall t i, In i (ids m t) -> i < m_idgen m t;
  w_sort : forall t, keyed cfg t = true -> StronglySorted klt (m_nodes m t)
}.

Definition nodup_ids (m : mesh) : Prop := forall t, NoDup (ids m t).

(** What one operation may do to the ids. *)
Record grows (m m' : mesh) : Prop := mkG {
  g_gen : forall t, m_idgen m t <= m_idgen m' t;
  g_ids : forall t i, In i (ids m' t) -> In i (ids m t) \/ m_idgen m t <= i;
  g_next : forall t, m_next m t <= m_next m' t;
  g_cc : m_cc m <= m_cc m'
}.

Lemma grows_refl m : grows m m.
Proof. constructor; auto. Qed.
Lemma grows_trans a b c : grows a b -> grows b c -> grows a c.
Proof.
  intros [A1 A2 A3 A4] [B1 B2 B3 B4]. constructor.
  - intros t. specialize (A1 t). specialize (B1 t). lia.
  - intros t i H. apply B2 in H as [H|H]; auto. specialize (A1 t). right; lia.
  - intros t. specialize (A3 t). specialize (B3 t). lia.
  - lia.
Qed.

Lemma winv_empty : winv empty_mesh.
Proof. constructor; simpl; intros; try constructor; easy. Qed.

Lemma winv_add (m : mesh) t nodes' n g :
  winv m -> Permutation (n :: m_nodes m t) nodes' -> n_addr n = m_next m t ->
  nid n < g -> m_idgen m t <= g ->
  (keyed cfg t = true -> StronglySorted klt nodes') ->
  winv (add_node t nodes' g m).
Proof.
  intros HW HP HA Hi Hg HS. constructor.
  - intros t'. simpl. rewrite upd_spec. destruct (tag_eq_dec t t') as [<-|]; [|apply HW].
    eapply Permutation_NoDup; [apply Permutation_map, HP|]. simpl. constructor; [|apply HW].
    rewrite HA. intros H. apply in_map_iff in H as (x & E & Hx). apply (w_next m HW) in Hx. lia.
  - intros t' x. simpl. rewrite !upd_spec. destruct (tag_eq_dec t t') as [<-|]; [|apply HW].
    intros H. apply (Permutation_in x (Permutation_sym HP)) in H as [<-|H]; [lia|].
    apply (w_next m HW) in H. lia.
  - intros t' i. unfold ids. simpl. rewrite !upd_spec. destruct (tag_eq_dec t t') as [<-|]; [|apply HW].
    intros H. apply (Permutation_in i (Permutation_sym (Permutation_map nid HP))) in H as [<-|H]; [auto|].
    apply (w_idlt m HW) in H. lia.
  - intros t' K. simpl. rewrite upd_spec. destruct (tag_eq_dec t t') as [<-|]; auto. now apply HW.
Qed.

Lemma ids_add (m : mesh) t nodes' n g t' :
  Permutation (n :: m_nodes m t) nodes' ->
  forall i, In i (ids (add_node t nodes' g m) t') -> In i (ids m t') \/ (t' = t /\ i = nid n).
Proof.
  intros HP i. unfold ids. simpl. rewrite upd_spec. destruct (tag_eq_dec t t') as [<-|]; auto.
  intros H. apply (Permutation_in i (Permutation_sym (Permutation_map nid HP))) in H as [<-|H]; auto.
Qed.

Lemma nodup_add (m : mesh) t nodes' n g :
  nodup_ids m -> Permutation (n :: m_nodes m t) nodes' -> ~ In (nid n) (ids m t) ->
  nodup_ids (add_node t nodes' g m).
Proof.
  intros HN HP Hnew t'. unfold ids. simpl. rewrite upd_spec.
  destruct (tag_eq_dec t t') as [<-|]; [|apply HN].
  eapply Permutation_NoDup; [apply Permutation_map, HP|]. simpl. constructor; [auto|apply HN].
Qed.

(** An explicit id is safe w.r.t. the generator unless it is the next id. *)
Definition id_lt (gen : bool) (m : mesh) (t : tag) (i : nat) : Prop :=
  gen = true \/ i <> m_idgen m t.
Definition id_free (gen : bool) (m : mesh) (t : tag) (i : nat) : Prop :=
  gen = true \/ (i <> m_idgen m t /\ ~ In i (ids m t)).

(** Effect of [push]: either nothing is stored, or one node is added. *)
Lemma push_cases t gen (m m1 : mesh) e a fresh : push cfg t gen m e = Some (m1, (a, fresh)) ->
  (fresh = false /\ (forall t', m_nodes m1 t' = m_nodes m t') /\ (forall t', m_next m1 t' = m_next m t') /\
   (forall t', m_idgen m t' <= m_idgen m1 t') /\ m_cc m <= m_cc m1 /\ 
   (exists n, In n (m_nodes m t) /\ n_addr n = a)) \/
  (fresh = true /\ a = m_next m t /\ exists k nodes' g,
     m1 = add_node t nodes' g m /\
     Permutation (mkN a k (set_id (new_id gen m t (e_id e)) e) :: m_nodes m t) nodes' /\
     m_idgen m t <= g /\
     (id_lt gen m t (e_id e) -> new_id gen m t (e_id e) < g) /\
     (keyed cfg t = true -> StronglySorted klt (m_nodes m t) -> StronglySorted klt nodes')).
Proof.
  unfold push. intros H.
  set (ig := if gen then gen_id (m_idgen m t) else (e_id e, set_max_id (e_id e) (m_idgen m t))) in H.
  assert (Hig : exists g, ig = (new_id gen m t (e_id e), g) /\ m_idgen m t <= g /\
      (id_lt gen m t (e_id e) -> new_id gen m t (e_id e) < g)).
  { unfold ig, new_id. destruct gen; simpl.
    - eexists. split; [reflexivity|]. split; [lia|]. intros; lia.
    - eexists. split; [reflexivity|]. unfold set_max_id.
      destruct (Nat.ltb_spec (m_idgen m t) (e_id e)).
      + split; [lia|]. intros; lia.
      + split; [lia|]. intros [?|?]; [discriminate|]. lia. }
  destruct Hig as (g & Eig & G1 & G2). rewrite Eig in H.
  destruct (keyed cfg t) eqn:HK.
  - apply obind_Some in H as (k & Hk & H).
    destruct (find_key (m_nodes m t) k) as [n|] eqn:Hf.
    + inversion H; subst. left. apply find_key_Some in Hf as [Hn Kn]. simpl.
      repeat split; auto; eauto; try lia.
      intros t'. rewrite upd_spec. destruct (tag_eq_dec t t') as [<-|]; auto.
      destruct gen; auto. unfold set_max_id. destruct (Nat.ltb_spec (m_idgen m t) (e_id e)); lia.
    + inversion H; subst. right. repeat split; auto.
      eexists k, _, g. split; [reflexivity|]. repeat split; auto.
      * apply insert_keyed_perm.
      * intros _ HS. apply insert_keyed_sorted; auto. simpl. apply find_key_None; auto.
  - inversion H; subst. right. repeat split; auto.
    eexists [], _, g. split; [reflexivity|]. repeat split; auto.
    + apply Permutation_cons_append.
    + discriminate.
Qed.

Lemma push_winv t gen (m m1 : mesh) e a fresh : winv m -> id_lt gen m t (e_id e) ->
  push cfg t gen m e = Some (m1, (a, fresh)) ->
  winv m1 /\ (id_free gen m t (e_id e) -> nodup_ids m -> nodup_ids m1) /\ (gen = true -> grows m m1).
Proof.
  intros HW Hid H.
  apply push_cases in H as [(-> & N & X & G & C & _)|(-> & -> & k & nodes' & g & -> & HP & Hg & Hi & HS)].
  - assert (I : forall t', ids m1 t' = ids m t') by (intros; unfold ids; now rewrite N).
    split; [constructor; intros *; rewrite ?N, ?X, ?I; try apply HW|split].
    + intros Hin. apply (w_idlt m HW) in Hin. specialize (G t0). lia.
    + intros _ HN t'. rewrite I. apply HN.
    + intros _. constructor; auto; intros *.
      * rewrite I. auto.
      * now rewrite X.
  - split; [|split].
    + eapply winv_add; eauto; simpl; auto.
      intros K. apply HS; auto. now apply HW.
    + intros Hf HN. eapply nodup_add; eauto. unfold nid. simpl. unfold new_id. destruct gen.
      * intros H. apply (w_idlt m HW) in H. lia.
      * destruct Hf as [?|[_ ?]]; [discriminate|auto].
    + intros ->. constructor.
      * intros t'. simpl. rewrite upd_spec. destruct (tag_eq_dec t t') as [<-|]; lia.
      * intros t' i Hin. eapply ids_add in Hin as [Hin|[-> ->]]; eauto. right. unfold nid. simpl. auto.
      * intros t'. simpl. rewrite upd_spec. destruct (tag_eq_dec t t') as [<-|]; lia.
      * simpl. lia.
Qed.

(** [put] with an element of the same id. *)
Lemma ids_put (m : mesh) t a e e0 t' : deref m t a = Some e0 -> e_id e = e_id e0 ->
  NoDup (map n_addr (m_nodes m t)) -> ids (put m t a e) t' = ids m t'.
Proof.
  intros HD HI ND. unfold ids. simpl. rewrite upd_spec. destruct (tag_eq_dec t t') as [<-|]; auto.
  unfold set_el. rewrite map_map. apply map_ext_in. intros n Hn. unfold nid.
  destruct (Nat.eqb_spec (n_addr n) a); auto. simpl.
  unfold deref in HD. subst a. rewrite In_find_node in HD by auto. simpl in HD. congruence.
Qed.

Lemma winv_put (m : mesh) t a e e0 : winv m -> deref m t a = Some e0 -> e_id e = e_id e0 ->
  winv (put m t a e) /\ (nodup_ids m -> nodup_ids (put m t a e)) /\ grows m (put m t a e).
Proof.
  intros HW HD HI.
  assert (I : forall t', ids (put m t a e) t' = ids m t').
  { intros. eapply ids_put; eauto. apply HW. }
  split; [|split; [intros HN t'; rewrite I; apply HN|]];
    constructor; intros *; rewrite ?I; simpl; try apply HW; auto.
  - rewrite upd_spec. destruct (tag_eq_dec t t0) as [<-|]; [|apply HW]. rewrite set_el_addrs. apply HW.
  - rewrite upd_spec. destruct (tag_eq_dec t t0) as [<-|]; [|apply HW].
    intros Hn. apply in_set_el in Hn as (y & Hy & -> & _). now apply HW.
  - intros K. rewrite upd_spec. destruct (tag_eq_dec t t0) as [<-|]; [|now apply HW].
    eapply ssorted_keys; [symmetry; apply set_el_keys|]. now apply HW.
Qed.

Lemma winv_log (m : mesh) t a : winv m -> winv (log_insert t a m).
Proof. intros [A B C D]. constructor; auto. Qed.
Lemma grows_log (m m' : mesh) t a : grows m m' -> grows m (log_insert t a m').
Proof. intros [A B C D]. constructor; auto. Qed.

Lemma insert_winv depth : forall gen t (m m' : mesh) e a fresh,
  winv m -> id_lt gen m t (e_id e) -> insert depth cfg gen t m e = Some (m', (a, fresh)) ->
  winv m' /\ (id_free gen m t (e_id e) -> nodup_ids m -> nodup_ids m') /\ (gen = true -> grows m m').
Proof.
  induction depth as [|d IHd]; intros gen t m m' e a fresh HW Hid H; cbn [insert] in H;
    apply obind_Some in H as ((m1 & a1 & fr) & Hp & H);
    destruct (push_winv _ _ _ _ _ _ _ HW Hid Hp) as (W1 & N1 & G1).
  - destruct fr; [destruct (btab cfg t); [|discriminate]|]; inversion H; subst;
      split; auto using winv_log, grows_log.
  - destruct fr; [|inversion H; subst; split; auto using winv_log, grows_log].
    apply obind_Some in H as (m2 & Hf & H). inversion H; subst.
    assert (Loop : forall l mc mr, winv mc -> ofold (boundary_step (insert d cfg true) t a) l mc = Some mr ->
       winv mr /\ (nodup_ids mc -> nodup_ids mr) /\ grows mc mr).
    { induction l as [|[bt idx] l IHl]; intros mc mr Wc Hl.
      - inversion Hl; subst. auto using grows_refl.
      - cbn [ofold] in Hl. apply obind_Some in Hl as (ms & Hs & Hl).
        unfold boundary_step in Hs.
        apply obind_Some in Hs as (host & Hh & Hs).
        apply obind_Some in Hs as (vs & Hv & Hs).
        apply obind_Some in Hs as ((mi & h & fr) & Hi & Hs).
        apply obind_Some in Hs as (st & Hst & Hs).
        apply obind_Some in Hs as (host1 & Hh1 & Hs).
        apply IHd in Hi as (Wi & Ni & Gi); auto; [|now left].
        inversion Hs; subst.
        match type of Hl with ofold _ _ (put _ _ _ ?el) = _ =>
          destruct (winv_put mi t a el host1 Wi Hh1 eq_refl) as (Wp & Np & Gp) end.
        apply IHl in Hl as (Wr & Nr & Gr); auto. split; auto. split.
        + intros HN. apply Nr, Np, Ni; auto. now left.
        + eapply grows_trans; [apply Gi; auto|]. eapply grows_trans; eauto. }
    apply Loop in Hf as (W2 & N2 & G2); auto.
    split; [now apply winv_log|]. split.
    + intros Q1 Q2 t'. apply (N2 (N1 Q1 Q2)).
    + intros E. apply grows_log. eapply grows_trans; eauto.
Qed.

(** ** Erasing *)

Lemma switch_id t old new (e : element) : e_id (switch_in_element t old new e) = e_id e.
Proof. destruct t; reflexivity. Qed.

Lemma ids_switch t old new (m : mesh) t' : ids (switch_handle t old new m) t' = ids m t'.
Proof.
  unfold ids. simpl. rewrite map_map. apply map_ext. intros n. unfold nid. simpl. apply switch_id.
Qed.

Lemma switch_addrs t old new (m : mesh) t' :
  map n_addr (m_nodes (switch_handle t old new m) t') = map n_addr (m_nodes m t').
Proof. simpl. rewrite map_map. reflexivity. Qed.
Lemma switch_keys t old new (m : mesh) t' :
  map n_key (m_nodes (switch_handle t old new m) t') = map n_key (m_nodes m t').
Proof. simpl. rewrite map_map. reflexivity. Qed.

Lemma last_node_spec (l : list node) n : last_node l = Some n <-> l <> [] /\ l = removelast l ++ [n].
Proof.
  destruct l as [|x l].
  - simpl. split; [discriminate|]. intros [H _]. congruence.
  - split.
    + intros H. split; [discriminate|]. simpl in H. inversion H.
      assert (E : last (x :: l) x = last l x).
      { destruct l; reflexivity. }
      rewrite <- E. apply app_removelast_last. discriminate.
    + intros [_ H]. simpl. f_equal.
      assert (E : last (x :: l) x = last l x) by (destruct l; reflexivity).
      rewrite <- E, H. now rewrite last_last.
Qed.

Lemma removelast_map {A B} (f : A -> B) l : removelast (map f l) = map f (removelast l).
Proof.
  induction l as [|x l IH]; auto. simpl. destruct l; auto. simpl in *. now rewrite IH.
Qed.

Lemma removelast_incl {A} (l : list A) : incl (removelast l) l.
Proof.
  induction l as [|x l IH]; [easy|]. simpl. destruct l as [|y l]; [easy|].
  intros z [->|Hz]; [now left|]. right. now apply IH.
Qed.

Lemma removelast_NoDup {A} (l : list A) : NoDup l -> NoDup (removelast l).
Proof.
  induction l as [|x l IH]; intros H; auto. simpl. destruct l as [|y l]; [constructor|].
  inversion H; subst. constructor; auto. intros Hin. apply H2. now apply removelast_incl.
Qed.

Lemma removelast_sorted {A} (R : A -> A -> Prop) l : StronglySorted R l -> StronglySorted R (removelast l).
Proof.
  induction 1 as [|x l HS IH HF]; [constructor|]. simpl. destruct l as [|y l]; [constructor|].
  constructor; auto. rewrite Forall_forall in *. intros z Hz. apply HF. now apply removelast_incl.
Qed.

Lemma find_id_In (l : list node) i n : find_id l i = Some n -> In n l /\ nid n = i.
Proof. intros H. apply find_some in H as [H1 H2]. apply Nat.eqb_eq in H2. auto. Qed.

Lemma NoDup_app_l {A} (l1 l2 : list A) : NoDup (l1 ++ l2) -> NoDup l1.
Proof.
  induction l1; simpl; intros H; constructor; inversion H; subst; auto.
  intros X. apply H2. apply in_or_app. auto.
Qed.

Lemma set_el_app (l1 l2 : list node) a e : set_el (l1 ++ l2) a e = set_el l1 a e ++ set_el l2 a e.
Proof. apply map_app. Qed.
Lemma set_el_cons (x : node) l a e : set_el (x :: l) a e =
  (if n_addr x =? a then mkN (n_addr x) (n_key x) e else x) :: set_el l a e.
Proof. reflexivity. Qed.
Lemma set_el_nil a (e : element) : set_el [] a e = [].
Proof. reflexivity. Qed.
Lemma set_el_absent (l : list node) a e : ~ In a (map n_addr l) -> set_el l a e = l.
Proof.
  induction l as [|y l IH]; simpl; auto. intros Hx.
  rewrite IH by tauto. destruct (Nat.eqb_spec (n_addr y) a); auto. tauto.
Qed.

(** After erasing one element the ids are those before without the erased one,
    with the last id moved to its place. *)
Lemma erase_one_ids (m m' : mesh) t i : winv m -> erase_one t m i = Some m' ->
  (forall t', t' <> t -> ids m' t' = ids m t') /\
  Permutation (ids m t) (i :: ids m' t) /\
  (forall t', incl (map n_addr (m_nodes m' t')) (map n_addr (m_nodes m t'))) /\
  (forall t', NoDup (map n_addr (m_nodes m' t'))) /\
  (forall t', StronglySorted klt (m_nodes m t') -> StronglySorted klt (m_nodes m' t')) /\
  m_next m' = m_next m /\ m_idgen m' = m_idgen m /\ m_cc m' = m_cc m.
Proof.
  intros HW H. unfold erase_one in H.
  apply obind_Some in H as (te & Hte & H). apply obind_Some in H as (back & Hb & H).
  apply find_id_In in Hte as [Hte <-]. apply last_node_spec in Hb as [Hne Hl].
  set (l := m_nodes m t) in *.
  assert (HND : NoDup (map n_addr l)) by apply HW.
  assert (Hbin : In back l) by (rewrite Hl; apply in_or_app; right; now left).
  inversion H as [Hm']. clear H. 
  destruct (Nat.eqb_spec (n_addr back) (n_addr te)) as [E|E].
  - assert (back = te).
    { pose proof (In_find_node _ _ HND Hbin) as F1. pose proof (In_find_node _ _ HND Hte) as F2.
      rewrite E in F1. congruence. }
    subst back. simpl. unfold ids. simpl. repeat split; auto.
    + intros t' T. rewrite upd_other; auto.
    + rewrite upd_same. fold l. rewrite Hl at 1. rewrite map_app. simpl.
      apply Permutation_sym, Permutation_cons_append.
    + intros t'. rewrite upd_spec. destruct (tag_eq_dec t t') as [<-|]; [|apply incl_refl].
      apply incl_map, removelast_incl.
    + intros t'. rewrite upd_spec. destruct (tag_eq_dec t t') as [<-|]; [|apply HW].
      rewrite <- removelast_map. now apply removelast_NoDup.
    + intros t'. rewrite upd_spec. destruct (tag_eq_dec t t') as [<-|]; auto.
      apply removelast_sorted.
  - set (m1 := switch_handle t (n_addr back) (n_addr te)
           (put (put m t (n_addr te) (n_el back)) t (n_addr back) (n_el te))).
    assert (A1 : forall t', map n_addr (m_nodes m1 t') = map n_addr (m_nodes m t')).
    { intros t'. unfold m1. rewrite switch_addrs. simpl. rewrite !upd_spec.
      destruct (tag_eq_dec t t') as [<-|]; auto. destruct (tag_eq_dec t t); [|congruence].
      now rewrite !set_el_addrs. }
    assert (K1 : forall t', map n_key (m_nodes m1 t') = map n_key (m_nodes m t')).
    { intros t'. unfold m1. rewrite switch_keys. simpl. rewrite !upd_spec.
      destruct (tag_eq_dec t t') as [<-|]; auto. destruct (tag_eq_dec t t); [|congruence].
      now rewrite !set_el_keys. }
    assert (I1 : forall t', t' <> t -> ids m1 t' = ids m t').
    { intros t' T. unfold m1. rewrite ids_switch. unfold ids. simpl. now rewrite !upd_other by auto. }
    assert (I2 : Permutation (ids m t) (nid te :: removelast (ids m1 t))).
    { unfold m1. rewrite ids_switch. unfold ids. simpl. rewrite !upd_same. fold l.
      set (r := removelast l) in *.
      assert (Hnr : ~ In (n_addr back) (map n_addr r)).
      { rewrite Hl, map_app in HND. simpl in HND. apply NoDup_remove_2 in HND. now rewrite app_nil_r in HND. }
      assert (Htr : In te r).
      { rewrite Hl in Hte. apply in_app_or in Hte as [?|[?|[]]]; auto. subst. congruence. }
      apply in_split in Htr as (r1 & r2 & Hr).
      assert (S1 : set_el (set_el l (n_addr te) (n_el back)) (n_addr back) (n_el te) =
                   (r1 ++ mkN (n_addr te) (n_key te) (n_el back) :: r2) ++ [mkN (n_addr back) (n_key back) (n_el te)]).
      { rewrite Hl, Hr in HND |- *. 
        rewrite !map_app in HND. simpl in HND.
        assert (N1 : ~ In (n_addr te) (map n_addr r1)).
        { intros X. apply NoDup_app_l in HND. apply NoDup_remove_2 in HND. apply HND, in_or_app. auto. }
        assert (N2 : ~ In (n_addr te) (map n_addr r2)).
        { intros X. apply NoDup_app_l in HND. apply NoDup_remove_2 in HND. apply HND, in_or_app. auto. }
        rewrite Hr, map_app in Hnr. simpl in Hnr.
        assert (N3 : ~ In (n_addr back) (map n_addr r1)) by (intros X; apply Hnr, in_or_app; auto).
        assert (N4 : ~ In (n_addr back) (map n_addr r2)) by (intros X; apply Hnr, in_or_app; right; right; auto).
        rewrite !set_el_app, !set_el_cons, !set_el_nil, !Nat.eqb_refl.
        rewrite (set_el_absent r1), (set_el_absent r2) by auto.
        destruct (Nat.eqb_spec (n_addr back) (n_addr te)); [congruence|].
        rewrite (set_el_absent r1), (set_el_absent r2) by auto.
        simpl. rewrite Nat.eqb_refl.
        destruct (Nat.eqb_spec (n_addr te) (n_addr back)); [congruence|]. reflexivity. }
      rewrite S1, map_app. simpl. rewrite removelast_last.
      rewrite Hl, Hr. rewrite !map_app. simpl. unfold nid at 5. simpl. fold (nid back).
      rewrite <- app_assoc. simpl.
      rewrite <- Permutation_middle. constructor.
      apply Permutation_app_head.
      apply Permutation_sym. apply Permutation_cons_append. }
    assert (X1 : m_next m1 = m_next m /\ m_idgen m1 = m_idgen m /\ m_cc m1 = m_cc m) by auto.
    fold m1. clearbody m1. clear Hm' m'. unfold ids. simpl. destruct X1 as (X1 & X2 & X3).
    repeat split; auto.
    + intros t' T. rewrite upd_other by auto. now apply I1.
    + rewrite upd_same. rewrite <- removelast_map. apply I2.
    + intros t'. rewrite upd_spec. destruct (tag_eq_dec t t') as [<-|]; [|rewrite A1; apply incl_refl].
      rewrite <- removelast_map. intros x Hx. apply removelast_incl in Hx. now rewrite A1 in Hx.
    + intros t'. rewrite upd_spec. destruct (tag_eq_dec t t') as [<-|]; [|rewrite A1; apply HW].
      rewrite <- removelast_map. apply removelast_NoDup. rewrite A1. apply HW.
    + intros t' HS. rewrite upd_spec. destruct (tag_eq_dec t t') as [<-|].
      * apply removelast_sorted. eapply ssorted_keys; [symmetry; apply K1|auto].
      * eapply ssorted_keys; [symmetry; apply K1|auto].
Qed.

Lemma erase_one_winv (m m' : mesh) t i : winv m -> erase_one t m i = Some m' ->
  winv m' /\ (nodup_ids m -> nodup_ids m') /\ grows m m'.
Proof.
  intros HW H. destruct (erase_one_ids _ _ _ _ HW H) as (I1 & I2 & A & ND & S & X & G & C).
  assert (I : forall t' x, In x (ids m' t') -> In x (ids m t')).
  { intros t' x Hx. destruct (tag_eq_dec t' t) as [->|T]; [|now rewrite <- I1].
    eapply Permutation_in; [apply Permutation_sym, I2|now right]. }
  split; [|split]; try constructor; auto.
  - intros t' n Hn. rewrite X. assert (In (n_addr n) (map n_addr (m_nodes m t'))).
    { apply A. now apply in_map. }
    apply in_map_iff in H0 as (y & <- & Hy). now apply HW.
  - intros t' x Hx. rewrite G. apply HW. auto.
  - intros t' K. apply S. now apply HW.
  - intros HN t'. destruct (tag_eq_dec t' t) as [->|T]; [|rewrite I1 by auto; apply HN].
    assert (NoDup (i :: ids m' t)) by (eapply Permutation_NoDup; [apply I2|apply HN]).
    inversion H0; auto.
  - intros t'. rewrite G. auto.
  - intros t'. rewrite X. auto.
  - lia.
Qed.

Lemma ofold_ind' {A S} (f : S -> A -> option S) (I : S -> Prop) (R : S -> S -> Prop) l :
  (forall s, R s s) -> (forall a b c, R a b -> R b c -> R a c) ->
  (forall s x s', In x l -> I s -> f s x = Some s' -> I s' /\ R s s') ->
  forall s s', I s -> ofold f l s = Some s' -> I s' /\ R s s'.
Proof.
  intros Rr Rt. induction l as [|x l IH]; intros Hst s s' Is H.
  - inversion H; subst; auto.
  - cbn [ofold] in H. apply obind_Some in H as (s1 & H1 & H2).
    destruct (Hst s x s1) as [I1 R1]; auto; [now left|].
    apply IH in H2 as [I2 R2]; auto.
    + split; eauto.
    + intros; eapply Hst; eauto. now right.
Qed.

(** The relation carried along a history. *)
Definition trans_ok (m m' : mesh) : Prop := (nodup_ids m -> nodup_ids m') /\ grows m m'.
Lemma trans_ok_refl m : trans_ok m m.
Proof. split; auto using grows_refl. Qed.
Lemma trans_ok_trans a b c : trans_ok a b -> trans_ok b c -> trans_ok a c.
Proof. intros [A1 A2] [B1 B2]. split; auto. eapply grows_trans; eauto. Qed.

Lemma erase_elements_winv (m m' : mesh) view : winv m -> erase_elements m view = Some m' ->
  winv m' /\ trans_ok m m'.
Proof.
  unfold erase_elements. intros HW H.
  destruct (ofold _ erase_order m) as [m1|] eqn:E; [|discriminate].
  simpl in H. inversion H; subst. clear H.
  apply (ofold_ind' _ winv trans_ok) in E as [W1 [N1 [G1 G2 G3 G4]]]; auto using trans_ok_refl.
  - destruct W1. split; [constructor; auto|]. split; [auto|constructor; auto; simpl; lia].
  - intros; eapply trans_ok_trans; eauto.
  - intros s t s' _ Ws Hs. unfold erase_type in Hs. apply obind_Some in Hs as (is & _ & Hs).
    eapply (ofold_ind' _ winv trans_ok); eauto using trans_ok_refl, trans_ok_trans.
    intros; eapply erase_one_winv; eauto.
Qed.

(** ** Histories *)

Lemma make_vertex_winv (m m' : mesh) p a : winv m -> make_vertex cfg m p = Some (m', a) ->
  winv m' /\ trans_ok m m'.
Proof.
  unfold make_vertex. intros HW H. destruct (insert 0 cfg true Vertex m _) as [[m1 [a1 f1]]|] eqn:E; [|discriminate].
  simpl in H. inversion H; subst. apply insert_winv in E as (W & N & G); auto; [|now left].
  split; [auto|]. split; auto. apply N. now left.
Qed.

Lemma make_element_winv (m m' : mesh) t vs a : winv m -> make_element cfg t m vs = Some (m', a) ->
  winv m' /\ trans_ok m m'.
Proof.
  unfold make_element. intros HW H. destruct (length vs =? nverts t); [|discriminate].
  destruct (insert _ cfg true t m _) as [[m1 [a1 f1]]|] eqn:E; [|discriminate].
  simpl in H. inversion H; subst. apply insert_winv in E as (W & N & G); auto; [|now left].
  split; [auto|]. split; auto. apply N. now left.
Qed.

Lemma make_vertex_id_winv (m m' : mesh) i p a : winv m -> i <> m_idgen m Vertex ->
  make_vertex_with_id cfg m i p = Some (m', a) ->
  winv m' /\ (~ In i (ids m Vertex) -> nodup_ids m -> nodup_ids m').
Proof.
  unfold make_vertex_with_id. intros HW H1 H.
  destruct (insert 0 cfg false Vertex m _) as [[m1 [a1 f1]]|] eqn:E; [|discriminate].
  simpl in H. inversion H; subst. apply insert_winv in E as (W & N & G); auto.
  - split; auto. intros. apply N; auto. now right.
  - now right.
Qed.

Lemma step_winv (m m' : mesh) o : winv m ->
  (forall i p, o = OVertexId i p -> i <> m_idgen m Vertex) -> step cfg m o = Some m' ->
  winv m' /\ (no_explicit o -> nodup_ids m -> nodup_ids m') /\ (no_explicit o -> no_clear o -> grows m m').
Proof.
  intros HW HA H. destruct o; cbn [step] in H.
  - destruct (make_vertex cfg m p) as [[m1 a]|] eqn:E; [|discriminate].
    cbn in H. inversion H; subst. apply make_vertex_winv in E as (? & ? & ?); [|auto]. auto.
  - destruct (make_vertex_with_id cfg m i p) as [[m1 a]|] eqn:E; [|discriminate].
    cbn in H. inversion H; subst. apply make_vertex_id_winv in E as (? & ?); auto.
    + split; [auto|]. split; easy.
    + eapply HA; eauto.
  - destruct (make_element cfg t m vs) as [[m1 a]|] eqn:E; [|discriminate].
    cbn in H. inversion H; subst. apply make_element_winv in E as (? & ? & ?); [|auto]. auto.
  - apply erase_elements_winv in H as (? & ? & ?); [|auto]. auto.
  - inversion H; subst. split; [|split; [|easy]].
    + constructor; simpl; intros; try constructor; easy.
    + intros _ _ t. constructor.
Qed.

Lemma run_winv ops : forall (m m' : mesh), Forall no_explicit ops -> winv m -> nodup_ids m -> run cfg ops m = Some m' ->
  winv m' /\ nodup_ids m' /\ (Forall no_clear ops -> grows m m').
Proof.
  induction ops as [|o ops IH]; intros m m' HA HW HN H.
  - inversion H; subst. auto using grows_refl.
  - unfold run in H. cbn [ofold] in H. apply obind_Some in H as (m1 & H1 & H2).
    inversion HA; subst. apply step_winv in H1 as (W1 & N1 & G1); auto.
    + apply IH in H2 as (W2 & N2 & G2); auto. split; auto. split; auto.
      intros HC. inversion HC; subst. eapply grows_trans; eauto.
    + intros i p ->. easy.
Qed.

End Ids.
