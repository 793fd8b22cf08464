(** The mesh invariant and its preservation by element creation. *)
From Coq Require Import List Arith Bool Lia Permutation Sorted.
From Verif Require Import ModelTopo ModelMesh MeshBase.
Import ListNotations.

Section Inv.
Context {Pt : Type}.
Notation mesh := (@mesh Pt).
Notation element := (@element Pt).
Notation node := (@node Pt).
Variable cfg : config.

Definition good_entry (m : mesh) (e : element) (b : bentry) (ent : tag * list nat) : Prop :=
  b_tag b = fst ent /\
  exists f vs, deref m (fst ent) (b_addr b) = Some f /\
    omap (nth_error (e_verts e)) (snd ent) = Some vs /\
    Permutation (e_verts f) vs /\ length (b_orient b) = length vs /\
    forall i v, nth_error vs i = Some v ->
      exists k, nth_error (b_orient b) i = Some (Some k) /\ nth_error (e_verts f) k = Some v.

Record inv (m : mesh) (P : list (tag * addr)) : Prop := mkInv {
  i_addr : forall t, NoDup (map n_addr (m_nodes m t));
  i_next : forall t n, In n (m_nodes m t) -> n_addr n < m_next m t;
  i_idlt : forall t n, In n (m_nodes m t) -> e_id (n_el n) < m_idgen m t;
  i_id   : forall t n1 n2, In n1 (m_nodes m t) -> In n2 (m_nodes m t) ->
             e_id (n_el n1) = e_id (n_el n2) -> n1 = n2;
  i_vv   : forall n, In n (m_nodes m Vertex) -> e_verts (n_el n) = [] /\ e_bnd (n_el n) = [];
  i_verts : forall t n, t <> Vertex -> In n (m_nodes m t) ->
             length (e_verts (n_el n)) = nverts t /\ NoDup (e_verts (n_el n)) /\
             forall v, In v (e_verts (n_el n)) -> In v (map n_addr (m_nodes m Vertex));
  i_key  : forall t n, keyed cfg t = true -> In n (m_nodes m t) ->
             key_of m (e_verts (n_el n)) = Some (n_key n);
  i_sort : forall t, keyed cfg t = true -> StronglySorted klt (m_nodes m t);
  i_bnd  : forall t n, In n (m_nodes m t) ->
             exists done rest, btab cfg t = done ++ rest /\
               Forall2 (good_entry m (n_el n)) (e_bnd (n_el n)) done /\
               (~ In (t, n_addr n) P -> rest = [])
}.

(** ** Reading the invariant through handles *)

Lemma deref_In (m : mesh) t a e : deref m t a = Some e ->
  exists n, In n (m_nodes m t) /\ n_addr n = a /\ n_el n = e.
Proof.
  unfold deref. intros H. destruct (find_node (m_nodes m t) a) as [n|] eqn:E; [|easy].
  apply find_node_In in E as [? ?]. simpl in H. inversion H. eauto.
Qed.

Lemma In_deref (m : mesh) P t n : inv m P -> In n (m_nodes m t) ->
  deref m t (n_addr n) = Some (n_el n).
Proof.
  intros HI Hn. unfold deref. rewrite In_find_node; auto. apply HI.
Qed.

Lemma range_deref (m : mesh) t a : In a (map n_addr (m_nodes m t)) <->
  exists e, deref m t a = Some e.
Proof.
  unfold deref. destruct (find_node (m_nodes m t) a) as [n|] eqn:E; simpl.
  - apply find_node_In in E as [? ?]. split; [eauto|].
    intros _. subst. now apply in_map.
  - split.
    + intros H. apply find_node_None in E. tauto.
    + intros [? ?]. discriminate.
Qed.

Lemma deref_nodes_eq (m1 m2 : mesh) t a : m_nodes m1 t = m_nodes m2 t -> deref m1 t a = deref m2 t a.
Proof. unfold deref. now intros ->. Qed.

Lemma key_of_vertices (m1 m2 : mesh) vs : m_nodes m1 Vertex = m_nodes m2 Vertex ->
  key_of m1 vs = key_of m2 vs.
Proof.
  intros H. unfold key_of. f_equal. apply omap_ext. intros.
  now rewrite (deref_nodes_eq m1 m2).
Qed.

Definition vid (m : mesh) (a : addr) : nat :=
  match deref m Vertex a with Some e => e_id e | None => 0 end.

Lemma key_of_vid (m : mesh) vs k : key_of m vs = Some k -> k = isort (map (vid m) vs).
Proof.
  unfold key_of. destruct (omap _ vs) as [r|] eqn:E; [|easy].
  simpl. intros H. inversion H; subst. f_equal.
  apply omap_Forall2 in E. clear H. induction E as [|x y ? ? Hxy]; simpl; auto. f_equal; auto.
  unfold vid. destruct (deref m Vertex x); simpl in *; congruence.
Qed.

Lemma key_of_live (m : mesh) vs k : key_of m vs = Some k ->
  forall v, In v vs -> In v (map n_addr (m_nodes m Vertex)).
Proof.
  unfold key_of. destruct (omap _ vs) as [r|] eqn:E; [|easy]. intros _.
  apply omap_Forall2 in E. induction E as [|x y ? ? Hxy]; simpl; [easy|].
  intros v [->|H1]; auto. apply range_deref.
  destruct (deref m Vertex v); simpl in *; [eauto|congruence].
Qed.

Lemma key_of_total (m : mesh) vs :
  (forall v, In v vs -> In v (map n_addr (m_nodes m Vertex))) -> exists k, key_of m vs = Some k.
Proof.
  intros H. unfold key_of.
  destruct (omap_total (fun a => option_map e_id (deref m Vertex a)) vs) as [r Hr].
  - intros v Hv. apply H, range_deref in Hv as [e He]. rewrite He. simpl. eauto.
  - rewrite Hr. simpl. eauto.
Qed.

Lemma vid_inj (m : mesh) P a b : inv m P ->
  In a (map n_addr (m_nodes m Vertex)) -> In b (map n_addr (m_nodes m Vertex)) ->
  vid m a = vid m b -> a = b.
Proof.
  intros HI Ha Hb. apply in_map_iff in Ha as (na & <- & Ha), Hb as (nb & <- & Hb).
  unfold vid. rewrite !(In_deref m P) by auto. intros E.
  now rewrite (i_id m P HI Vertex na nb).
Qed.

Lemma key_perm (m : mesh) P vs1 vs2 k : inv m P ->
  key_of m vs1 = Some k -> key_of m vs2 = Some k -> Permutation vs1 vs2.
Proof.
  intros HI H1 H2.
  pose proof (key_of_live _ _ _ H1) as L1. pose proof (key_of_live _ _ _ H2) as L2.
  apply key_of_vid in H1. apply key_of_vid in H2. rewrite H1 in H2.
  apply isort_eq_iff in H2.
  apply Permutation_map_inv in H2 as (l3 & E & HP).
  assert (vs1 = l3).
  { assert (L3 : forall v, In v l3 -> In v (map n_addr (m_nodes m Vertex))).
    { intros v Hv. apply L2. eapply Permutation_in; [apply Permutation_sym; eauto|auto]. }
    clear - E L1 L3 HI. revert l3 E L3.
    induction vs1 as [|x vs1 IH]; intros [|y l3] E L3; simpl in *; try discriminate; auto.
    injection E as E1 E2. f_equal.
    - eapply vid_inj; eauto.
    - apply IH; auto. }
  subst. now apply Permutation_sym.
Qed.

Lemma perm_key (m : mesh) vs1 vs2 k : Permutation vs1 vs2 ->
  key_of m vs1 = Some k -> key_of m vs2 = Some k.
Proof.
  intros HP H1. pose proof (key_of_live _ _ _ H1) as L1.
  destruct (key_of_total m vs2) as [k2 H2].
  { intros v Hv. apply L1. eapply Permutation_in; [apply Permutation_sym; eauto|auto]. }
  rewrite H2. f_equal. apply key_of_vid in H1. apply key_of_vid in H2. subst.
  apply isort_eq_iff. apply Permutation_map. now apply Permutation_sym.
Qed.

Lemma sorted_key_inj (l : list node) n1 n2 :
  StronglySorted klt l -> In n1 l -> In n2 l -> n_key n1 = n_key n2 -> n1 = n2.
Proof.
  induction 1 as [|x l HS IH HF]; simpl; [easy|].
  rewrite Forall_forall in HF.
  intros [->|H1] [->|H2] E; auto.
  - specialize (HF _ H2). unfold klt in HF. rewrite E, key_less_irrefl in HF. easy.
  - specialize (HF _ H1). unfold klt in HF. rewrite <- E, key_less_irrefl in HF. easy.
Qed.

(** In a key map no two elements have the same set of vertices. *)
Lemma keyed_unique (m : mesh) P t a1 a2 e1 e2 : inv m P -> keyed cfg t = true ->
  deref m t a1 = Some e1 -> deref m t a2 = Some e2 ->
  Permutation (e_verts e1) (e_verts e2) -> a1 = a2.
Proof.
  intros HI HK H1 H2 HP.
  apply deref_In in H1 as (n1 & I1 & <- & <-), H2 as (n2 & I2 & <- & <-).
  f_equal. eapply sorted_key_inj; [apply (i_sort m P HI t HK)| auto | auto |].
  pose proof (i_key m P HI t n1 HK I1) as K1. pose proof (i_key m P HI t n2 HK I2) as K2.
  apply (perm_key _ _ _ _ HP) in K1. congruence.
Qed.

(** ** Extension *)
Definition ext (m m' : mesh) : Prop :=
  forall t a e, deref m t a = Some e -> exists e', deref m' t a = Some e' /\ e_verts e' = e_verts e.

Lemma good_entry_ext m m' e e' b ent : ext m m' -> e_verts e' = e_verts e ->
  good_entry m e b ent -> good_entry m' e' b ent.
Proof.
  intros HE EV (H1 & f & vs & H2 & H3 & H4 & H5 & H6). split; auto.
  apply HE in H2 as (f' & H2 & E). exists f', vs. rewrite E, EV. auto.
Qed.

Lemma Forall2_impl' {A B} (R S : A -> B -> Prop) l r :
  (forall x y, R x y -> S x y) -> Forall2 R l r -> Forall2 S l r.
Proof. induction 2; constructor; auto. Qed.

(** ** Adding a node *)
Definition add_node (t : tag) (nodes' : list node) (g : nat) (m : mesh) : mesh :=
  mkM (upd (m_nodes m) t nodes') (upd (m_next m) t (m_next m t + 1)) (upd (m_idgen m) t g)
      (m_cc m + 1) (m_log m).

Lemma fresh_addr (m : mesh) P t : inv m P -> ~ In (m_next m t) (map n_addr (m_nodes m t)).
Proof.
  intros HI H. apply in_map_iff in H as (n & E & H). apply (i_next m P HI) in H. lia.
Qed.

Lemma find_node_perm (l1 l2 : list node) a : NoDup (map n_addr l1) -> Permutation l1 l2 ->
  find_node l1 a = find_node l2 a.
Proof.
  intros ND HP.
  assert (ND2 : NoDup (map n_addr l2)).
  { eapply Permutation_NoDup; [|exact ND]. now apply Permutation_map. }
  destruct (find_node l1 a) as [n|] eqn:E.
  - apply find_node_In in E as [HI <-]. symmetry. apply In_find_node; auto.
    eapply Permutation_in; eauto.
  - symmetry. apply find_node_None. apply find_node_None in E. intros H. apply E.
    eapply Permutation_in; [|exact H]. apply Permutation_map, Permutation_sym, HP.
Qed.

Lemma deref_add (m : mesh) P t nodes' n g t' a' : inv m P ->
  Permutation (n :: m_nodes m t) nodes' -> n_addr n = m_next m t ->
  deref (add_node t nodes' g m) t' a' =
    if tag_eq_dec t t' then if a' =? m_next m t then Some (n_el n) else deref m t' a'
    else deref m t' a'.
Proof.
  intros HI HP HA. unfold deref, add_node. simpl. rewrite upd_spec.
  destruct (tag_eq_dec t t') as [<-|]; auto.
  rewrite <- (find_node_perm (n :: m_nodes m t)); auto.
  - unfold find_node at 1. simpl. rewrite HA, (Nat.eqb_sym a').
    destruct (m_next m t =? a'); reflexivity.
  - simpl. constructor; [|apply HI]. rewrite HA. eapply fresh_addr; eauto.
Qed.

Lemma inv_add (m : mesh) P t nodes' n g :
  inv m P ->
  Permutation (n :: m_nodes m t) nodes' -> n_addr n = m_next m t ->
  e_id (n_el n) < g -> m_idgen m t <= g ->
  (forall x, In x (m_nodes m t) -> e_id (n_el x) <> e_id (n_el n)) ->
  t <> Vertex ->
  length (e_verts (n_el n)) = nverts t -> NoDup (e_verts (n_el n)) ->
  (forall v, In v (e_verts (n_el n)) -> In v (map n_addr (m_nodes m Vertex))) ->
  e_bnd (n_el n) = [] ->
  (keyed cfg t = true -> key_of m (e_verts (n_el n)) = Some (n_key n) /\ StronglySorted klt nodes') ->
  inv (add_node t nodes' g m) ((t, n_addr n) :: P).
Proof.
  intros HI HP HA Hid Hg Hnew Htv HL HND HV HB HK.
  assert (HNV : m_nodes (add_node t nodes' g m) Vertex = m_nodes m Vertex).
  { simpl. now rewrite upd_other. }
  assert (HIn : forall t' x, In x (m_nodes (add_node t nodes' g m) t') ->
            (t' = t /\ x = n) \/ In x (m_nodes m t')).
  { intros t' x. simpl. rewrite upd_spec. destruct (tag_eq_dec t t') as [<-|]; auto.
    intros H. apply (Permutation_in x (Permutation_sym HP)) in H as [->|H]; auto. }
  assert (HE : ext m (add_node t nodes' g m)).
  { intros t' a e H. exists e. split; auto.
    rewrite (deref_add m P t nodes' n g); auto.
    destruct (tag_eq_dec t t') as [<-|]; auto.
    destruct (Nat.eqb_spec a (m_next m t)); auto. subst.
    exfalso. eapply (fresh_addr m P t HI). apply range_deref. eauto. }
  constructor.
  - intros t'. simpl. rewrite upd_spec. destruct (tag_eq_dec t t') as [<-|]; [|apply HI].
    eapply Permutation_NoDup; [apply Permutation_map, HP|]. simpl.
    constructor; [|apply HI]. rewrite HA. eapply fresh_addr; eauto.
  - intros t' x H. apply HIn in H. simpl. rewrite upd_spec.
    destruct (tag_eq_dec t t') as [<-|].
    + destruct H as [[_ ->]|H]; [lia|]. apply (i_next m P HI) in H. lia.
    + destruct H as [[-> _]|H]; [congruence|]. now apply (i_next m P HI).
  - intros t' x H. apply HIn in H. simpl. rewrite upd_spec.
    destruct (tag_eq_dec t t') as [<-|].
    + destruct H as [[_ ->]|H]; [lia|]. apply (i_idlt m P HI) in H. lia.
    + destruct H as [[-> _]|H]; [congruence|]. now apply (i_idlt m P HI).
  - intros t' x y Hx Hy E. apply HIn in Hx, Hy.
    destruct Hx as [[-> ->]|Hx], Hy as [[T ->]|Hy]; auto.
    + exfalso. apply (Hnew y); auto.
    + subst. exfalso. apply (Hnew x); auto.
    + eapply (i_id m P HI); eauto.
  - rewrite HNV. apply HI.
  - intros t' x T H. rewrite HNV. apply HIn in H as [[-> ->]|H]; [|now apply (i_verts m P HI)].
    auto.
  - intros t' x K H. rewrite (key_of_vertices _ m) by auto.
    apply HIn in H as [[-> ->]|H]; [|now apply (i_key m P HI t')].
    now apply HK.
  - intros t' K. simpl. rewrite upd_spec. destruct (tag_eq_dec t t') as [<-|]; [now apply HK|].
    now apply (i_sort m P HI).
  - intros t' x H. apply HIn in H as [[-> ->]|H].
    + exists [], (btab cfg t). rewrite HB. repeat split; auto. intros Hn. exfalso. apply Hn. now left.
    + destruct (i_bnd m P HI t' x H) as (d & r & E & F & G).
      exists d, r. repeat split; auto.
      * eapply Forall2_impl'; [|exact F]. intros. eapply good_entry_ext; eauto.
      * intros Hn. apply G. intros Hin. apply Hn. now right.
Qed.

(** ** Changing only counters and the log *)
Lemma inv_same_nodes (m m' : mesh) P : inv m P ->
  (forall t, m_nodes m' t = m_nodes m t) -> (forall t, m_next m' t = m_next m t) ->
  (forall t, m_idgen m t <= m_idgen m' t) -> inv m' P.
Proof.
  intros HI HN HX HG.
  assert (HE : ext m m').
  { intros t a e H. exists e. split; auto. now rewrite (deref_nodes_eq m' m). }
  constructor; intros *; rewrite ?HN; try apply HI.
  - rewrite HX. apply HI.
  - intros H. apply (i_idlt m P HI) in H. specialize (HG t). lia.
  - rewrite (key_of_vertices m' m) by auto. apply HI.
  - intros H. destruct (i_bnd m P HI t n H) as (d & r & E & F & G).
    exists d, r. repeat split; auto.
    eapply Forall2_impl'; [|exact F]. intros. eapply good_entry_ext; eauto.
Qed.

(** ** Appending a boundary entry to the element in progress *)
Lemma deref_put (m : mesh) t a e t' a' : 
  deref (put m t a e) t' a' =
    if tag_eq_dec t t' then if a =? a' then option_map (fun _ => e) (deref m t' a') else deref m t' a'
    else deref m t' a'.
Proof.
  unfold deref, put. simpl. rewrite upd_spec. destruct (tag_eq_dec t t') as [<-|]; auto.
  rewrite find_node_set_el. destruct (a =? a'); auto.
  now destruct (find_node (m_nodes m t) a').
Qed.

Lemma in_set_el (l : list node) a e x : In x (set_el l a e) ->
  exists y, In y l /\ n_addr x = n_addr y /\ n_key x = n_key y /\
    ((n_addr y = a /\ n_el x = e) \/ (n_addr y <> a /\ x = y)).
Proof.
  intros H. apply in_map_iff in H as (y & E & H). exists y. split; auto.
  destruct (Nat.eqb_spec (n_addr y) a); subst x; simpl; repeat split; auto.
Qed.

Lemma inv_put (m : mesh) P t a host b ent done rest :
  inv m P -> t <> Vertex -> In (t, a) P ->
  deref m t a = Some host ->
  btab cfg t = done ++ ent :: rest ->
  Forall2 (good_entry m host) (e_bnd host) done ->
  good_entry m host b ent ->
  let host' := mkE (e_id host) (e_verts host) (e_bnd host ++ [b]) (e_pt host) in
  inv (put m t a host') P.
Proof.
  intros HI Htv HPa HH HT HF HG host'.
  assert (HE : ext m (put m t a host')).
  { intros t' a' e H. rewrite deref_put. destruct (tag_eq_dec t t') as [<-|]; eauto.
    destruct (Nat.eqb_spec a a') as [<-|]; eauto.
    rewrite H. simpl. exists host'. split; auto. rewrite HH in H. inversion H; subst. auto. }
  assert (HNV : m_nodes (put m t a host') Vertex = m_nodes m Vertex).
  { simpl. now rewrite upd_other. }
  assert (HIn : forall t' x, In x (m_nodes (put m t a host') t') ->
     exists y, In y (m_nodes m t') /\ n_addr x = n_addr y /\ n_key x = n_key y /\
       ((t' = t /\ n_addr y = a /\ n_el y = host /\ n_el x = host') \/ x = y)).
  { intros t' x. simpl. rewrite upd_spec. destruct (tag_eq_dec t t') as [<-|].
    - intros H. apply in_set_el in H as (y & Hy & A & K & [[E1 E2]|[E1 E2]]).
      + exists y. repeat split; auto. left. repeat split; auto.
        pose proof (In_deref m P t y HI Hy) as D. rewrite E1, HH in D. congruence.
      + exists y. repeat split; auto.
    - intros H. exists x. auto. }
  constructor.
  - intros t'. simpl. rewrite upd_spec. destruct (tag_eq_dec t t') as [<-|]; [|apply HI].
    rewrite set_el_addrs. apply HI.
  - intros t' x H. apply HIn in H as (y & Hy & A & _). rewrite A. now apply (i_next m P HI).
  - intros t' x H. apply HIn in H as (y & Hy & A & K & [(-> & _ & E1 & E2)| ->]).
    + rewrite E2. simpl. rewrite <- E1. now apply (i_idlt m P HI).
    + now apply (i_idlt m P HI).
  - intros t' x y Hx Hy E.
    assert (forall x, In x (m_nodes (put m t a host') t') ->
       exists y, In y (m_nodes m t') /\ n_addr x = n_addr y /\ e_id (n_el x) = e_id (n_el y)) as Q.
    { intros z Hz. apply HIn in Hz as (w & Hw & A & K & [(_ & _ & E1 & E2)| ->]).
      - exists w. repeat split; auto. rewrite E1, E2. reflexivity.
      - eauto. }
    destruct (Q _ Hx) as (x' & X1 & X2 & X3), (Q _ Hy) as (y' & Y1 & Y2 & Y3).
    assert (x' = y') by (eapply (i_id m P HI); eauto; congruence). subst y'.
    assert (ND : NoDup (map n_addr (m_nodes (put m t a host') t'))).
    { simpl. rewrite upd_spec. destruct (tag_eq_dec t t') as [<-|]; [|apply HI].
      rewrite set_el_addrs. apply HI. }
    pose proof (In_find_node _ _ ND Hx) as F1. pose proof (In_find_node _ _ ND Hy) as F2.
    rewrite X2 in F1. rewrite Y2 in F2. congruence.
  - rewrite HNV. apply HI.
  - intros t' x T H. rewrite HNV. apply HIn in H as (y & Hy & A & K & [(-> & _ & E1 & E2)| ->]).
    + rewrite E2. simpl. rewrite <- E1. now apply (i_verts m P HI).
    + now apply (i_verts m P HI).
  - intros t' x K H. rewrite (key_of_vertices _ m) by auto.
    apply HIn in H as (y & Hy & A & K' & [(-> & _ & E1 & E2)| ->]).
    + rewrite E2, K'. simpl. rewrite <- E1. now apply (i_key m P HI t).
    + now apply (i_key m P HI t').
  - intros t' K. simpl. rewrite upd_spec. destruct (tag_eq_dec t t') as [<-|];
      [|now apply (i_sort m P HI)].
    eapply ssorted_keys; [symmetry; apply set_el_keys|]. now apply (i_sort m P HI).
  - intros t' x H. apply HIn in H as (y & Hy & A & K & [(-> & E0 & E1 & E2)| ->]).
    + exists (done ++ [ent]), rest. rewrite E2. simpl. repeat split.
      * now rewrite <- app_assoc.
      * apply Forall2_app; [|constructor; [|constructor]].
        -- eapply Forall2_impl'; [|exact HF]. intros. eapply good_entry_ext; eauto.
        -- eapply good_entry_ext; eauto.
      * rewrite A, E0. tauto.
    + destruct (i_bnd m P HI t' y Hy) as (d & r & E & F & G).
      exists d, r. repeat split; auto.
      eapply Forall2_impl'; [|exact F]. intros. eapply good_entry_ext; eauto.
Qed.

(** ** Insertion of a non-vertex element *)

(** [(t', a')] is [(t, a)] or is reached from it by passing to stored boundary elements. *)
Inductive chain (m : mesh) : tag -> addr -> tag -> addr -> Prop :=
| chain_self t a : chain m t a t a
| chain_step t a e b t' a' : deref m t a = Some e -> In b (e_bnd e) ->
    chain m (b_tag b) (b_addr b) t' a' -> chain m t a t' a'.

Lemma bnd_dim (m : mesh) P t a e b : inv m P -> deref m t a = Some e -> In b (e_bnd e) -> dim (b_tag b) < dim t.
Proof.
  intros HI HD Hb. unfold deref in HD. destruct (find_node (m_nodes m t) a) as [n|] eqn:E; [|discriminate].
  simpl in HD. inversion HD; subst. apply find_node_In in E as [Hn _].
  destruct (i_bnd m P HI t n Hn) as (d & r & Et & F & _).
  apply In_nth_error in Hb as (k & Hk).
  assert (X : exists y, nth_error d k = Some y /\ good_entry m (n_el n) b y).
  { clear - F Hk. revert k Hk. induction F as [|x y l l' H F IH]; intros [|k] Hk; simpl in *; try discriminate.
    - inversion Hk; subst. eauto.
    - now apply IH. }
  destruct X as ([bt idx] & Hy & HG). destruct HG as [HG _]. simpl in HG. rewrite HG.
  apply nth_error_In in Hy. assert (HT : In (bt, idx) (btab cfg t)) by (rewrite Et; apply in_or_app; now left).
  apply btab_In in HT as [HT _]. apply btable_ok in HT. tauto.
Qed.

(** A chain survives changes of elements of higher dimension. *)
Lemma chain_ext (m m2 : mesh) P k : inv m P ->
  (forall t a e, dim t < k -> deref m t a = Some e -> deref m2 t a = Some e) ->
  forall t a t' a', chain m t a t' a' -> dim t < k -> chain m2 t a t' a'.
Proof.
  intros HI H t a t' a' C. induction C as [|t a e b t' a' HD Hb C IH]; intros Hk; [constructor|].
  pose proof (bnd_dim m P t a e b HI HD Hb).
  eapply chain_step; [apply H; eauto|exact Hb|]. apply IH. lia.
Qed.

Record post (t : tag) (vs : list addr) (i : nat) (m m' : mesh) (a : addr) (fresh : bool) : Prop := mkPost {
  p_vert : m_nodes m' Vertex = m_nodes m Vertex /\ m_next m' Vertex = m_next m Vertex
           /\ m_idgen m' Vertex = m_idgen m Vertex;
  p_frame : forall t' a' e', deref m t' a' = Some e' -> deref m' t' a' = Some e';
  p_new : forall t' a' e', deref m' t' a' = Some e' ->
     deref m t' a' = Some e' \/
     (m_next m t' <= a' /\
      ((t' = t /\ a' = a /\ fresh = true) \/
       (dim t' < dim t /\ t' <> Vertex /\ keyed cfg t' = true /\ incl (e_verts e') vs /\ m_idgen m t' <= e_id e'
        /\ e_pt e' = None)));
  p_elem : exists e, deref m' t a = Some e /\ Permutation (e_verts e) vs /\
     (fresh = true -> e_verts e = vs /\ a = m_next m t /\ e_id e = i /\ e_pt e = None);
  p_same : fresh = false -> forall t', m_nodes m' t' = m_nodes m t';
  p_high : forall t', t' <> t -> dim t <= dim t' -> m_nodes m' t' = m_nodes m t' /\ m_idgen m' t' = m_idgen m t';
  p_self : keyed cfg t = false -> range m' t = range m t ++ [a] /\ fresh = true;
  p_mono : forall t', m_next m t' <= m_next m' t' /\ m_idgen m t' <= m_idgen m' t';
  p_cc : m_cc m < m_cc m';
  p_log : exists L, m_log m' = m_log m ++ L /\ In (t, a) L /\
     (forall t' a', In (t', a') L -> exists e', deref m' t' a' = Some e' /\
         incl (e_verts e') vs /\ (t' = t /\ a' = a \/ dim t' < dim t) /\ t' <> Vertex) /\
     (fresh = true -> forall e, deref m' t a = Some e ->
         forall b, In b (e_bnd e) -> In (b_tag b, b_addr b) L) /\
     (forall t' a' e', deref m' t' a' = Some e' -> deref m t' a' = None -> In (t', a') L) /\
     (forall t' a', In (t', a') L -> chain m' t a t' a')
}.

Definition allowed (t : tag) : Prop :=
  t <> Vertex /\ (t = cfg_cell cfg \/ dim t < dim (cfg_cell cfg)).

Lemma allowed_boundary t bt idx : allowed t -> In (bt, idx) (btab cfg t) ->
  allowed bt /\ keyed cfg bt = true.
Proof.
  intros [H1 H2] H. apply btab_In in H as [H _]. apply btable_ok in H as (H3 & H4 & _).
  assert (dim bt < dim (cfg_cell cfg)) by (destruct H2; [subst; auto|lia]).
  split; [split; auto|].
  unfold keyed. apply andb_true_iff. split; apply negb_true_iff, tag_eqb_neq; auto.
  intros ->. lia.
Qed.

(** Specification of [push] for non-vertex tags. *)
Definition id_ok (gen : bool) (m : mesh) (t : tag) (i : nat) : Prop :=
  gen = true \/ (i <> m_idgen m t /\ forall n, In n (m_nodes m t) -> e_id (n_el n) <> i).

Definition new_id (gen : bool) (m : mesh) (t : tag) (i : nat) : nat :=
  if gen then m_idgen m t else i.

Lemma push_spec gen t (m : mesh) P e :
  inv m P -> allowed t -> id_ok gen m t (e_id e) ->
  length (e_verts e) = nverts t -> NoDup (e_verts e) ->
  (forall v, In v (e_verts e) -> In v (map n_addr (m_nodes m Vertex))) ->
  e_bnd e = [] ->
  (exists m1 n, push cfg t gen m e = Some (m1, (n_addr n, false)) /\
     keyed cfg t = true /\
     In n (m_nodes m t) /\ Permutation (e_verts (n_el n)) (e_verts e) /\
     (forall t', m_nodes m1 t' = m_nodes m t') /\ (forall t', m_next m1 t' = m_next m t') /\
     (forall t', m_idgen m t' <= m_idgen m1 t') /\ (forall t', t' <> t -> m_idgen m1 t' = m_idgen m t') /\
     m_cc m1 = m_cc m + 1 /\ m_log m1 = m_log m) \/
  (exists k nodes' g, let n := mkN (m_next m t) k (set_id (new_id gen m t (e_id e)) e) in
     push cfg t gen m e = Some (add_node t nodes' g m, (m_next m t, true)) /\
     Permutation (n :: m_nodes m t) nodes' /\
     m_idgen m t <= g /\
     (keyed cfg t = false -> nodes' = m_nodes m t ++ [n]) /\
     inv (add_node t nodes' g m) ((t, m_next m t) :: P)).
Proof.
  intros HI [Htv HA] Hid HL HND HV HB. unfold push.
  set (ig := if gen then gen_id (m_idgen m t) else (e_id e, set_max_id (e_id e) (m_idgen m t))).
  assert (Hig : exists g, ig = (new_id gen m t (e_id e), g) /\ new_id gen m t (e_id e) < g /\ m_idgen m t <= g
     /\ forall x, In x (m_nodes m t) -> e_id (n_el x) <> new_id gen m t (e_id e)).
  { unfold ig, new_id. destruct gen; simpl.
    - exists (m_idgen m t + 1). repeat split; try lia. intros x Hx. apply (i_idlt m P HI) in Hx. lia.
    - destruct Hid as [?|[H1 H2]]; [discriminate|].
      unfold set_max_id. eexists; split; [reflexivity|].
      destruct (Nat.ltb_spec (m_idgen m t) (e_id e)); repeat split; auto; lia. }
  destruct Hig as (g & Eig & G1 & G2 & G3). rewrite Eig.
  destruct (keyed cfg t) eqn:HK.
  - destruct (key_of_total m (e_verts e) HV) as [k Hk]. rewrite Hk. simpl.
    destruct (find_key (m_nodes m t) k) as [n|] eqn:Hf.
    + left. apply find_key_Some in Hf as [Hn Kn].
      eexists _, n. split; [reflexivity|]. simpl.
      repeat split; auto.
      * eapply key_perm; eauto. rewrite <- Kn. now apply (i_key m P HI t).
      * intros t'. rewrite upd_spec. destruct (tag_eq_dec t t') as [<-|]; auto.
        destruct gen; auto. unfold set_max_id. destruct (Nat.ltb_spec (m_idgen m t) (e_id e)); lia.
      * intros t' T. rewrite upd_other; auto.
    + right. exists k, (insert_keyed (mkN (m_next m t) k (set_id (new_id gen m t (e_id e)) e)) (m_nodes m t)), g.
      split; [reflexivity|]. split; [apply insert_keyed_perm|].
      split; auto. split; [discriminate|].
      apply (inv_add m P t _ (mkN (m_next m t) k (set_id (new_id gen m t (e_id e)) e)) g); simpl; auto.
      * apply insert_keyed_perm.
      * intros _. split; auto. apply insert_keyed_sorted; [now apply (i_sort m P HI)|].
        simpl. apply find_key_None; auto.
  - right. exists [], (m_nodes m t ++ [mkN (m_next m t) [] (set_id (new_id gen m t (e_id e)) e)]), g.
    split; [reflexivity|]. split; [apply Permutation_cons_append|].
    split; auto. split; auto.
    apply (inv_add m P t _ (mkN (m_next m t) [] (set_id (new_id gen m t (e_id e)) e)) g); simpl; auto.
    + apply Permutation_cons_append.
    + congruence.
Qed.

Lemma inv_complete (m : mesh) P t a host : inv m ((t, a) :: P) ->
  deref m t a = Some host -> length (e_bnd host) = length (btab cfg t) -> inv m P.
Proof.
  intros HI HH HL. constructor; try apply HI.
  intros t' n Hn. destruct (i_bnd m _ HI t' n Hn) as (d & r & E & F & G).
  exists d, r. repeat split; auto. intros HN.
  destruct (tag_eq_dec t' t) as [->|T].
  - destruct (Nat.eq_dec (n_addr n) a) as [<-|A].
    + rewrite (In_deref m _ t n HI Hn) in HH. inversion HH; subst.
      apply Forall2_len in F. rewrite E, app_length in HL.
      destruct r; auto. simpl in HL. lia.
    + apply G. intros [X|X]; [congruence|auto].
  - apply G. intros [X|X]; [congruence|auto].
Qed.

Definition pend_above (t : tag) (P : list (tag * addr)) : Prop :=
  forall t' a', In (t', a') P -> dim t < dim t'.

Lemma deref_log t a (m : mesh) t' a' : deref (log_insert t a m) t' a' = deref m t' a'.
Proof. reflexivity. Qed.

Lemma insert_existing t vs i (m m1 : mesh) P n : inv m P -> allowed t -> keyed cfg t = true ->
  In n (m_nodes m t) -> Permutation (e_verts (n_el n)) vs ->
  (forall t', m_nodes m1 t' = m_nodes m t') -> (forall t', m_next m1 t' = m_next m t') ->
  (forall t', m_idgen m t' <= m_idgen m1 t') -> (forall t', t' <> t -> m_idgen m1 t' = m_idgen m t') ->
  m_cc m1 = m_cc m + 1 -> m_log m1 = m_log m ->
  inv (log_insert t (n_addr n) m1) P /\
  post t vs i m (log_insert t (n_addr n) m1) (n_addr n) false.
Proof.
  intros HI HAl HK Hn HPm N1 X1 G1 G1' C1 L1.
  assert (HI1 : inv m1 P) by (eapply inv_same_nodes; eauto; intros; rewrite ?X1; auto).
  split; [eapply inv_same_nodes; [exact HI1|reflexivity|reflexivity|reflexivity]|].
  assert (D : forall t' a', deref (log_insert t (n_addr n) m1) t' a' = deref m t' a')
      by (intros; rewrite deref_log; now apply deref_nodes_eq).
  destruct HAl as [HA1 HA2].
  constructor.
  - simpl. repeat split; auto.
  - intros; now rewrite D.
  - intros t' a' e'; rewrite D; auto.
  - exists (n_el n); rewrite D; split; [apply (In_deref m P); auto|split; [auto|discriminate]].
  - simpl. auto.
  - simpl. auto.
  - congruence.
  - intros; simpl. rewrite X1; auto.
  - simpl. lia.
  - exists [(t, n_addr n)]. simpl. rewrite L1. split; [reflexivity|]. split; [now left|].
    split; [|split; [|split]].
    + intros t' a' [E|[]]; inversion E; subst; exists (n_el n); rewrite D.
      split; [apply (In_deref m P); auto|]. split; [|auto].
      intros v Hv; eapply Permutation_in; eauto.
    + discriminate.
    + intros t' a' e'; rewrite D; congruence.
    + intros t' a' [E|[]]; inversion E; subst; constructor.
Qed.

Lemma insert_spec depth : forall gen t (m : mesh) P e,
  inv m P -> allowed t -> dim t <= S depth -> pend_above t P -> id_ok gen m t (e_id e) ->
  length (e_verts e) = nverts t -> NoDup (e_verts e) ->
  (forall v, In v (e_verts e) -> In v (map n_addr (m_nodes m Vertex))) ->
  e_bnd e = [] -> e_pt e = None ->
  exists m' a fresh, insert depth cfg gen t m e = Some (m', (a, fresh)) /\
    inv m' P /\ post t (e_verts e) (new_id gen m t (e_id e)) m m' a fresh.
Proof.
  induction depth as [|d IHd]; intros gen t m P e HI HAl Hd HP Hid HL HND HV HB HPt;
  destruct (push_spec gen t m P e HI HAl Hid HL HND HV HB) as
    [(m1 & n & Epush & HK & Hn & HPm & N1 & X1 & G1 & G1' & C1 & L1)
    |(k & nodes' & g & Epush & HPm & Hg & Hdq & HI1)].
  1,3: exists (log_insert t (n_addr n) m1), (n_addr n), false;
    (split; [simpl; rewrite Epush; reflexivity|]); eapply insert_existing; eauto.
  - (* depth 0: no boundary *)
    assert (HT : btab cfg t = []).
    { destruct (btab cfg t) as [|[bt idx] r] eqn:E; auto.
      assert (In (bt, idx) (btab cfg t)) by (rewrite E; now left).
      apply btab_In in H as [H _]. apply btable_ok in H as (? & H1 & _).
      destruct HAl as [? _]. exfalso. assert (dim bt = 0) by lia. destruct bt; simpl in *; try lia. congruence. }
    exists (log_insert t (m_next m t) (add_node t nodes' g m)), (m_next m t), true.
    set (a := m_next m t) in *.
    set (nn := mkN a k (set_id (new_id gen m t (e_id e)) e)) in *.
    assert (D : forall t' a', deref (log_insert t a (add_node t nodes' g m)) t' a' =
       if tag_eq_dec t t' then if a' =? a then Some (n_el nn) else deref m t' a' else deref m t' a').
    { intros. rewrite deref_log. apply (deref_add m P t nodes' nn); auto. }
    split; [simpl; rewrite Epush; simpl; now rewrite HT|].
    split.
    { apply (inv_same_nodes (add_node t nodes' g m)); [|reflexivity|reflexivity|reflexivity].
      eapply (inv_complete _ _ t a (n_el nn)); [exact HI1| |].
      - generalize (D t a). rewrite deref_log. destruct (tag_eq_dec t t); [|congruence].
        now rewrite Nat.eqb_refl.
      - simpl. rewrite HB, HT. reflexivity. }
    destruct HAl as [Htv HA].
    constructor.
    + simpl. rewrite !upd_other by auto. auto.
    + intros t' a' e' H. rewrite D. destruct (tag_eq_dec t t') as [<-|]; auto.
      destruct (Nat.eqb_spec a' a); auto. subst. exfalso. eapply (fresh_addr m P t HI).
      apply range_deref. eauto.
    + intros t' a' e'. rewrite D. destruct (tag_eq_dec t t') as [<-|]; auto.
      destruct (Nat.eqb_spec a' a); auto. subst. intros _. right. split; auto.
    + exists (n_el nn). rewrite D. destruct (tag_eq_dec t t); [|congruence].
      rewrite Nat.eqb_refl. simpl. repeat split; auto.
    + discriminate.
    + intros t' H _. simpl. rewrite !upd_other; auto.
    + intros HK. split; auto. unfold range. simpl. rewrite upd_same, (Hdq HK), map_app. reflexivity.
    + intros t'. simpl. rewrite !upd_spec. destruct (tag_eq_dec t t') as [<-|]; lia.
    + simpl. lia.
    + exists [(t, a)]. simpl. repeat split; auto.
      * intros t' a' [E|[]]. inversion E; subst. exists (n_el nn).
        rewrite D. destruct (tag_eq_dec t' t'); [|congruence]. rewrite Nat.eqb_refl.
        simpl. repeat split; auto. apply incl_refl.
      * intros _ e0 H. rewrite D in H. destruct (tag_eq_dec t t); [|congruence].
        rewrite Nat.eqb_refl in H. inversion H; subst. simpl. rewrite HB. easy.
      * intros t' a' e'. rewrite D. destruct (tag_eq_dec t t') as [<-|]; [|congruence].
        destruct (Nat.eqb_spec a' a); [|congruence]. subst. auto.
      * intros t' a' [E|[]]. inversion E; subst. constructor.
  - (* depth S d *)
    set (a := m_next m t) in *.
    set (nn := mkN a k (set_id (new_id gen m t (e_id e)) e)) in *.
    set (m1 := add_node t nodes' g m) in *.
    assert (D1 : forall t' a', deref m1 t' a' =
       if tag_eq_dec t t' then if a' =? a then Some (n_el nn) else deref m t' a' else deref m t' a').
    { intros. apply (deref_add m P t nodes' nn); auto. }
    destruct HAl as [Htv HA].
    set (vs := e_verts e) in *.
    (* the loop over the boundary table *)
    assert (Loop : forall rest done mc host,
      btab cfg t = done ++ rest -> inv mc ((t, a) :: P) ->
      deref mc t a = Some host -> e_verts host = vs -> e_id host = new_id gen m t (e_id e) -> e_pt host = None ->
      Forall2 (good_entry mc host) (e_bnd host) done ->
      m_nodes mc Vertex = m_nodes m Vertex ->
      exists m2 host2, ofold (boundary_step (insert d cfg true) t a) rest mc = Some m2 /\
        inv m2 ((t, a) :: P) /\ deref m2 t a = Some host2 /\
        e_verts host2 = vs /\ e_id host2 = new_id gen m t (e_id e) /\ e_pt host2 = None /\
        length (e_bnd host2) = length (btab cfg t) /\
        m_nodes m2 Vertex = m_nodes mc Vertex /\ m_next m2 Vertex = m_next mc Vertex /\ m_idgen m2 Vertex = m_idgen mc Vertex /\
        (forall t' a' e', (t', a') <> (t, a) -> deref mc t' a' = Some e' -> deref m2 t' a' = Some e') /\
        (forall t' a' e', deref m2 t' a' = Some e' -> (t', a') = (t, a) \/
           deref mc t' a' = Some e' \/
           (m_next mc t' <= a' /\ dim t' < dim t /\ t' <> Vertex /\ keyed cfg t' = true /\ incl (e_verts e') vs
             /\ m_idgen mc t' <= e_id e' /\ e_pt e' = None)) /\
        (forall t', t' <> t -> dim t <= dim t' -> m_nodes m2 t' = m_nodes mc t' /\ m_idgen m2 t' = m_idgen mc t') /\
        range m2 t = range mc t /\ 
        (forall t', m_next mc t' <= m_next m2 t' /\ m_idgen mc t' <= m_idgen m2 t') /\
        m_cc mc <= m_cc m2 /\
        (exists L, m_log m2 = m_log mc ++ L /\
          (forall t' a', In (t', a') L -> exists e', deref m2 t' a' = Some e' /\
             incl (e_verts e') vs /\ dim t' < dim t /\ t' <> Vertex) /\
          (exists bs, e_bnd host2 = e_bnd host ++ bs /\ (forall b, In b bs -> In (b_tag b, b_addr b) L) /\
             (forall t' a', In (t', a') L -> exists b, In b bs /\ dim (b_tag b) < dim t /\ chain m2 (b_tag b) (b_addr b) t' a')) /\
          (forall t' a' e', deref m2 t' a' = Some e' -> (t', a') = (t, a) \/ (exists e0, deref mc t' a' = Some e0) \/ In (t', a') L))).
    { induction rest as [|[bt idx] rest IHr]; intros done mc host HT HIc HH HVs HIdh HPth HF HNV.
      - exists mc, host. simpl. split; [reflexivity|].
        rewrite app_nil_r in HT. rewrite HT.
        split; [exact HIc|]. repeat split; auto.
        + eapply Forall2_len; eauto.
        + exists []. rewrite app_nil_r. split; [reflexivity|].
          split; [easy|]. split.
          * exists []. rewrite app_nil_r. split; [reflexivity|]. split; easy.
          * intros t' a' e' H. right. left. eauto.
      - assert (HInT : In (bt, idx) (btab cfg t)) by (rewrite HT; apply in_or_app; right; now left).
        destruct (allowed_boundary t bt idx (conj Htv HA) HInT) as [HAb HKb].
        pose proof (proj1 (proj1 (btab_In _ _ _) HInT)) as Hbt.
        apply btable_ok in Hbt as (Hdb & Hbv & Hlen & HNDi & Hrange).
        destruct (omap_total (nth_error vs) idx) as [ws Hws].
        { intros i Hi. specialize (Hrange i Hi).
          destruct (nth_error vs i) eqn:E; eauto. apply nth_error_None in E. lia. }
        assert (Hwl : length ws = nverts bt) by (rewrite (omap_length _ _ _ Hws); auto).
        assert (Hwin : incl ws vs).
        { intros w Hw. apply omap_Forall2 in Hws. clear - Hws Hw.
          induction Hws; simpl in *; [easy|]. destruct Hw as [->|Hw]; auto. eapply nth_error_In; eauto. }
        assert (HwND : NoDup ws).
        { apply omap_Forall2 in Hws. clear - Hws HNDi HND.
          induction Hws as [|i w idx' ws' Hiw Hr IH]; constructor.
          - intros Hin. inversion HNDi; subst.
            apply H1. clear - Hr Hin Hiw HND.
            induction Hr as [|j u idx' ws' Hju Hr' IH']; simpl in *; [easy|].
            destruct Hin as [->|Hin]; [left|right; auto].
            apply (proj1 (NoDup_nth_error vs) HND); [|congruence].
            apply nth_error_Some. congruence.
          - inversion HNDi; auto. }
        destruct (IHd true bt mc ((t, a) :: P) (mkE 0 ws [] None)) as (m' & h & fresh & Eins & HI' & Hpost);
          simpl; auto.
        { lia. }
        { intros t' a' [E|Hin]; [inversion E; subst; auto|]. apply HP in Hin. lia. }
        { left; reflexivity. }
        { intros v Hv. rewrite HNV. apply HV. now apply Hwin. }
        destruct (p_elem _ _ _ _ _ _ _ Hpost) as (f & Hf & HPf & Hff). simpl in HPf, Hff.
        assert (HH' : deref m' t a = Some host) by (apply (p_frame _ _ _ _ _ _ _ Hpost); auto).
        set (o := if fresh then default_orient (length ws) else compute_orient (e_verts f) ws).
        set (host' := mkE (e_id host) (e_verts host) (e_bnd host ++ [mkB bt h o]) (e_pt host)).
        assert (Estep : boundary_step (insert d cfg true) t a mc (bt, idx) = Some (put m' t a host')).
        { unfold boundary_step. rewrite HH. cbn [obind]. rewrite HVs, Hws. cbn [obind].
          rewrite Eins. cbn [obind]. rewrite Hf. cbn [obind]. rewrite HH'. cbn [obind]. reflexivity. }
        assert (Hgood : good_entry m' host (mkB bt h o) (bt, idx)).
        { split; [reflexivity|]. exists f, ws. simpl. rewrite HVs. split; [auto|].
          split; [exact Hws|]. split; [auto|]. unfold o. destruct fresh.
          - destruct (Hff eq_refl) as (Efv & _).
            split; [unfold default_orient; now rewrite map_length, seq_length|].
            intros i v Hi. exists i. rewrite Efv. split; auto.
            apply default_orient_spec. apply nth_error_Some. congruence.
          - split; [unfold compute_orient; now rewrite match_orient_length, repeat_length|].
            intros i v Hi. apply compute_orient_spec; auto. }
        assert (HF' : Forall2 (good_entry m' host) (e_bnd host) done).
        { eapply Forall2_impl'; [|exact HF]. intros x y Hxy. eapply good_entry_ext; [|reflexivity|exact Hxy].
          intros t' a' e' He'. exists e'. split; auto. now apply (p_frame _ _ _ _ _ _ _ Hpost). }
        assert (HIp : inv (put m' t a host') ((t, a) :: P)).
        { eapply (inv_put m' _ t a host (mkB bt h o) (bt, idx) done rest); auto. now left. }
        assert (Dp : forall t' a', deref (put m' t a host') t' a' =
            if tag_eq_dec t t' then if a =? a' then Some host' else deref m' t' a' else deref m' t' a').
        { intros. rewrite deref_put. destruct (tag_eq_dec t t') as [<-|]; auto.
          destruct (Nat.eqb_spec a a') as [<-|]; auto. now rewrite HH'. }
        assert (Dp1 : deref (put m' t a host') t a = Some host').
        { rewrite Dp. destruct (tag_eq_dec t t); [|congruence]. now rewrite Nat.eqb_refl. }
        assert (Dp2 : forall t' a', (t', a') <> (t, a) -> deref (put m' t a host') t' a' = deref m' t' a').
        { intros t' a' Hne. rewrite Dp. destruct (tag_eq_dec t t') as [<-|]; auto.
          destruct (Nat.eqb_spec a a') as [<-|]; auto. congruence. }
        destruct (p_vert _ _ _ _ _ _ _ Hpost) as (V1 & V2 & V3).
        destruct (IHr (done ++ [(bt, idx)]) (put m' t a host') host') as
          (m2 & host2 & E2 & I2 & H2 & W2 & J2 & K2 & L2 & A1 & A2 & A3 & Fr & Nw & Hi & Se & Mo & Cc & Lg); auto.
        { now rewrite <- app_assoc. }
        { simpl. apply Forall2_app; [|constructor; [|constructor]].
          - eapply Forall2_impl'; [|exact HF']. intros x y Hxy.
            eapply good_entry_ext; [|reflexivity|exact Hxy].
            intros t' a' e' He'. rewrite Dp. destruct (tag_eq_dec t t') as [<-|]; eauto.
            destruct (Nat.eqb_spec a a') as [<-|]; eauto.
            rewrite HH' in He'. inversion He'; subst. eauto.
          - eapply good_entry_ext; [|reflexivity|exact Hgood].
            intros t' a' e' He'. rewrite Dp. destruct (tag_eq_dec t t') as [<-|]; eauto.
            destruct (Nat.eqb_spec a a') as [<-|]; eauto.
            rewrite HH' in He'. inversion He'; subst. eauto. }
        { simpl. rewrite upd_other by auto. congruence. }
        simpl in A1, A2, A3. rewrite upd_other in A1 by auto.
        exists m2, host2. split; [change (obind (boundary_step (insert d cfg true) t a mc (bt, idx)) (ofold (boundary_step (insert d cfg true) t a) rest) = Some m2); rewrite Estep; exact E2|].
        assert (Hbt_t : bt <> t) by (intros ->; lia).
        assert (Fr' : forall t' a' e', (t', a') <> (t, a) -> deref m' t' a' = Some e' -> deref m2 t' a' = Some e').
        { intros t' a' e' Hne He'. apply Fr; auto. now rewrite Dp2. }
        split; [auto|]. split; [auto|]. split; [auto|]. split; [auto|]. split; [auto|]. split; [auto|].
        split; [congruence|]. split; [congruence|]. split; [congruence|].
        split; [|split; [|split; [|split; [|split; [|split]]]]].
        + intros t' a' e' Hne He'. apply Fr'; auto. now apply (p_frame _ _ _ _ _ _ _ Hpost).
        + intros t' a' e' He'. destruct (Nw t' a' e' He') as [E|[E|E]]; auto.
          * destruct (tag_eq_dec t' t) as [->|Tn].
            { destruct (Nat.eq_dec a' a) as [->|]; [now left|].
              rewrite Dp2 in E by congruence.
              destruct (p_new _ _ _ _ _ _ _ Hpost _ _ _ E) as [E'|(E0 & [(E1 & _)|E1])]; auto; [congruence|].
              lia. }
            rewrite Dp2 in E by congruence.
            destruct (p_new _ _ _ _ _ _ _ Hpost _ _ _ E) as [E'|(E0 & [(-> & -> & ->)|E1])]; auto.
            { right. right. rewrite Hf in E. inversion E; subst.
              destruct (Hff eq_refl) as (Q1 & Q2 & Q3 & Q4).
              repeat split; auto.
              - rewrite Q1. auto.
              - rewrite Q3. simpl. auto. }
            { right. right. destruct E1 as (Q1 & Q2 & Q3 & Q4 & Q5 & Q6).
              repeat split; auto; [lia|]. intros v Hv. auto. }
          * right. right. destruct E as (Q0 & Q1 & Q2 & Q3 & Q4 & Q5 & Q6).
            destruct (p_mono _ _ _ _ _ _ _ Hpost t') as [M1 M2]. simpl in Q0, Q5.
            repeat split; auto; lia.
        + intros t' Hne Hle. destruct (Hi t' Hne Hle) as [B1 B2]. simpl in B1, B2.
          rewrite upd_other in B1 by auto.
          assert (t' <> bt) by (intros ->; lia).
          destruct (p_high _ _ _ _ _ _ _ Hpost t') as [B3 B4]; auto; [lia|].
          split; congruence.
        + rewrite Se. unfold range. simpl. rewrite upd_same, set_el_addrs.
          destruct (p_high _ _ _ _ _ _ _ Hpost t) as [B3 B4]; auto; [lia|]. now rewrite B3.
        + intros t'. destruct (Mo t') as [M1 M2]. simpl in M1, M2.
          destruct (p_mono _ _ _ _ _ _ _ Hpost t'). lia.
        + simpl in Cc. pose proof (p_cc _ _ _ _ _ _ _ Hpost). lia.
        + destruct Lg as (L & G2 & G3 & (bs & G4 & G5 & G7) & G6).
          destruct (p_log _ _ _ _ _ _ _ Hpost) as (L' & F2 & F3 & F4 & F5 & F6 & F7).
          exists (L' ++ L). split; [rewrite G2; simpl; now rewrite F2, app_assoc|].
          split; [|split].
          * intros t' a' Hin. apply in_app_or in Hin as [Hin|Hin]; auto.
            destruct (F4 _ _ Hin) as (e' & Q1 & Q2 & Q3 & Q4).
            exists e'.
            assert (dim t' < dim t) by (destruct Q3 as [[-> _]|Q3]; lia).
            split; [apply Fr'; auto; intros X; inversion X; subst; lia|].
            repeat split; auto. intros v Hv. auto.
          * exists (mkB bt h o :: bs). rewrite G4. simpl. rewrite <- app_assoc. split; [reflexivity|]. split.
            { intros b [<-|Hb]; apply in_or_app; auto. }
            intros t' a' Hin. apply in_app_or in Hin as [Hin|Hin].
            { exists (mkB bt h o). split; [now left|]. split; [exact Hdb|]. simpl.
              apply (chain_ext m' m2 ((t, a) :: P) (dim t) HI'); auto.
              intros t0 a0 e0 Hlt. apply Fr'. intros X. inversion X; subst. lia. }
            { destruct (G7 _ _ Hin) as (b & Hb & Hc). exists b. split; [now right|exact Hc]. }
          * intros t' a' e' He'. destruct (G6 _ _ _ He') as [?|[[e0 E0]|?]]; auto.
            { destruct (tag_eq_dec t' t) as [->|Tn].
              - destruct (Nat.eq_dec a' a) as [->|]; [now left|].
                rewrite Dp2 in E0 by congruence.
                destruct (deref mc t a') as [e1|] eqn:E1; [right; left; eauto|].
                right. right. apply in_or_app. left. eapply F6; eauto.
              - rewrite Dp2 in E0 by congruence.
                destruct (deref mc t' a') as [e1|] eqn:E1; [right; left; eauto|].
                right. right. apply in_or_app. left. eapply F6; eauto. }
            { right. right. apply in_or_app. now right. } }
    destruct (Loop (btab cfg t) [] m1 (n_el nn)) as
       (m2 & host2 & E2 & I2 & H2 & W2 & J2 & K2 & L2 & A1 & A2 & A3 & Fr & Nw & Hi & Se & Mo & Cc & Lg); auto.
    { rewrite D1. destruct (tag_eq_dec t t); [|congruence]. now rewrite Nat.eqb_refl. }
    { simpl. rewrite HB. constructor. }
    { unfold m1. simpl. now rewrite upd_other. }
    assert (Hnone : deref m t a = None).
    { destruct (deref m t a) eqn:E; auto. exfalso. apply (fresh_addr m P t HI). apply range_deref. eauto. }
    assert (D1n : forall t' a', (t', a') <> (t, a) -> deref m1 t' a' = deref m t' a').
    { intros t' a' Hne. rewrite D1. destruct (tag_eq_dec t t') as [<-|]; auto.
      destruct (Nat.eqb_spec a' a) as [->|]; auto. congruence. }
    exists (log_insert t a m2), a, true.
    split; [cbn [insert]; rewrite Epush; cbn [obind]; rewrite E2; reflexivity|].
    split.
    { apply (inv_same_nodes m2); [|reflexivity|reflexivity|reflexivity]. eapply inv_complete; eauto. }
    assert (HN1 : forall t', t' <> t -> m_nodes m1 t' = m_nodes m t' /\ m_next m1 t' = m_next m t' /\ m_idgen m1 t' = m_idgen m t').
    { intros t' T. unfold m1. simpl. rewrite !upd_other; auto. }
    assert (HM1 : forall t', m_next m t' <= m_next m1 t' /\ m_idgen m t' <= m_idgen m1 t').
    { intros t'. unfold m1. simpl. rewrite !upd_spec. destruct (tag_eq_dec t t') as [<-|]; lia. }
    constructor.
    + simpl. destruct (HN1 Vertex) as (Q1 & Q2 & Q3); auto. repeat split; congruence.
    + intros t' a' e' He'. rewrite deref_log. apply Fr; [congruence|]. rewrite D1n; congruence.
    + intros t' a' e'. rewrite deref_log. intros He'.
      destruct (Nw _ _ _ He') as [E|[E|E]].
      * inversion E; subst. right. split; auto.
      * destruct (tag_eq_dec t' t) as [->|]; [destruct (Nat.eq_dec a' a) as [->|]|].
        { right. split; auto. }
        { left. rewrite <- D1n; congruence. }
        { left. rewrite <- D1n; congruence. }
      * destruct E as (Q0 & Q1 & Q2 & Q3 & Q4 & Q5 & Q6). destruct (HM1 t').
        right. split; [lia|]. right. repeat split; auto. lia.
    + exists host2. rewrite deref_log. rewrite W2. repeat split; auto.
    + discriminate.
    + intros t' T Hle. simpl. destruct (Hi t' T Hle) as [B1 B2].
      destruct (HN1 t') as (Q1 & Q2 & Q3); auto. split; congruence.
    + intros HK. split; auto. change (range (log_insert t a m2) t) with (range m2 t). rewrite Se.
      unfold range, m1. simpl. rewrite upd_same, (Hdq HK), map_app. reflexivity.
    + intros t'. destruct (Mo t'), (HM1 t'). simpl. lia.
    + simpl. unfold m1 in Cc. simpl in Cc. lia.
    + destruct Lg as (L & G2 & G3 & (bs & G4 & G5 & G7) & G6).
      exists (L ++ [(t, a)]). simpl. rewrite G2. unfold m1. simpl.
      split; [now rewrite app_assoc|]. split; [apply in_or_app; right; now left|].
      split; [|split; [|split]].
      * intros t' a' Hin. rewrite deref_log. apply in_app_or in Hin as [Hin|[E|[]]].
        -- destruct (G3 _ _ Hin) as (e' & Q1 & Q2 & Q3 & Q4). eauto 10.
        -- inversion E; subst. exists host2. repeat split; auto. rewrite W2. apply incl_refl.
      * intros _ e0 He0 b Hb. rewrite deref_log, H2 in He0. inversion He0; subst.
        apply in_or_app. left. rewrite G4 in Hb. simpl in Hb. rewrite HB in Hb. auto.
      * intros t' a' e'. rewrite deref_log. intros He' Hnn. apply in_or_app.
        destruct (G6 _ _ _ He') as [E|[[e0 E0]|?]]; auto.
        { right. left. congruence. }
        { destruct (tag_eq_dec t' t) as [->|]; [destruct (Nat.eq_dec a' a) as [->|]|].
          - right; now left.
          - rewrite D1n in E0 by congruence. congruence.
          - rewrite D1n in E0 by congruence. congruence. }
      * intros t' a' Hin. apply in_app_or in Hin as [Hin|[E|[]]].
        -- destruct (G7 _ _ Hin) as (b & Hb & Hlt & Hc).
           apply (chain_step _ _ _ host2 b).
           ++ rewrite deref_log. exact H2.
           ++ rewrite G4. apply in_or_app. now right.
           ++ apply (chain_ext m2 (log_insert t a m2) ((t, a) :: P) (dim t) I2); auto.
        -- inversion E; subst. constructor.
Qed.

End Inv.
