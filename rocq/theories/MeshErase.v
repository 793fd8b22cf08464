(** Deletion of a set of elements: lemmas. *)
From Coq Require Import List Arith Bool Lia Permutation Sorted.
From Verif Require Import ModelTopo ModelMesh ModelErase SpecMesh SpecErase MeshBase MeshInv MeshIds MeshWf.
Import ListNotations.

Section EraseSet.
Context {Pt : Type}.
Notation mesh := (@mesh Pt).
Notation element := (@element Pt).
Notation node := (@node Pt).
Notation described := (@described Pt).
Variable cfg : config.

Definition drefs (d : described) (bt : tag) (i : nat) : Prop :=
  (bt = Vertex /\ In (Some i) (d_verts d)) \/ (exists o, In (bt, Some i, o) (d_bnd d)).

Lemma drefs_references (m : mesh) (e : element) bt i :
  drefs (describe m e) bt i <-> exists b, references e bt b /\ id_at m bt b = Some i.
Proof.
  unfold drefs, describe, references. simpl. split.
  - intros [[-> H]|(o & H)].
    + apply in_map_iff in H as (b & E & H). exists b. auto.
    + apply in_map_iff in H as (x & E & H). inversion E; subst. exists (b_addr x). split; eauto.
  - intros (b & [[-> H]|(x & Hx & <- & <-)] & E).
    + left. split; auto. rewrite <- E. now apply in_map.
    + right. exists (b_orient x). rewrite <- E. now apply (in_map (fun b => (b_tag b, id_at m (b_tag b) (b_addr b), b_orient b))).
Qed.

Lemma described_In (m : mesh) t d : In d (described_of m t) <->
  exists n, In n (m_nodes m t) /\ d = describe m (n_el n).
Proof.
  unfold described_of, elements_of. rewrite map_map. rewrite in_map_iff.
  split; intros (n & A & B); exists n; auto.
Qed.

Lemma drefs_dim (m : mesh) t d bt i : refs m -> In d (described_of m t) -> drefs d bt i -> dim bt < dim t.
Proof.
  intros R Hd H. apply described_In in Hd as (n & Hn & ->). apply drefs_references in H as (b & H & _).
  eapply references_live; eauto.
Qed.

Definition keepb (is : list nat) (d : described) : bool := negb (memb (d_id d) is).

Lemma memb_In a l : memb a l = true <-> In a l.
Proof.
  unfold memb. rewrite existsb_exists. split.
  - intros (x & H & E). apply Nat.eqb_eq in E. now subst.
  - intros H. exists a. split; auto. apply Nat.eqb_refl.
Qed.
Lemma memb_notIn a l : memb a l = false <-> ~ In a l.
Proof. rewrite <- memb_In. destruct (memb a l); split; intros; congruence || (exfalso; auto). Qed.

Lemma Permutation_filter {A} (f : A -> bool) l l' : Permutation l l' -> Permutation (filter f l) (filter f l').
Proof.
  induction 1; simpl; auto.
  - destruct (f x); auto.
  - destruct (f x), (f y); auto. constructor.
  - etransitivity; eauto.
Qed.

Lemma filter_ext_in' {A} (f g : A -> bool) l : (forall x, In x l -> f x = g x) -> filter f l = filter g l.
Proof. apply filter_ext_in. Qed.

Lemma described_ids (m : mesh) t : map d_id (described_of m t) = ids m t.
Proof. unfold described_of, elements_of, ids. rewrite !map_map. reflexivity. Qed.

(** Deleting several elements of one type, given by their ids. *)
Lemma erase_ids_spec t is : forall m : mesh, wf cfg m -> NoDup is ->
  (forall i, In i is -> In i (ids m t)) ->
  (forall t' d i, In d (described_of m t') -> In i is -> ~ drefs d t i) ->
  exists m', ofold (erase_one t) is m = Some m' /\ wf cfg m' /\
    (forall t', t' <> t -> described_of m' t' = described_of m t') /\
    Permutation (described_of m' t) (filter (keepb is) (described_of m t)) /\
    (forall t' a, t' <> t -> id_at m' t' a = id_at m t' a) /\
    m_next m' = m_next m /\ m_idgen m' = m_idgen m /\ m_cc m' = m_cc m.
Proof.
  induction is as [|i is IH]; intros m HW HND Hin Hun.
  - exists m. simpl. split; auto. split; auto. split; auto. split; [|repeat split; auto].
    rewrite (filter_ext_in' _ (fun _ => true)); auto.
    induction (described_of m t); simpl; auto.
  - inversion HND as [|? ? Hni HND']; subst.
    assert (Hi := Hin i (or_introl eq_refl)). unfold ids in Hi.
    apply in_map_iff in Hi as (te & Ei & Hte). unfold nid in Ei.
    destruct (erase_one_spec cfg m t te HW Hte) as (m1 & E1 & W1 & D1 & P1 & I1 & X1 & X2 & X3).
    { intros t' n Hn Hr. apply (Hun t' (describe m (n_el n)) i).
      - apply described_In. eauto.
      - now left.
      - apply drefs_references. exists (n_addr te). split; auto. unfold id_at.
        rewrite (wf_In_deref cfg m t te); auto. simpl. congruence. }
    rewrite Ei in E1. cbn [ofold]. rewrite E1. cbn [obind].
    assert (Psub : forall t' d, In d (described_of m1 t') -> In d (described_of m t')).
    { intros t' d Hd. destruct (tag_eq_dec t' t) as [->|T]; [|now rewrite <- D1].
      eapply Permutation_in; [apply Permutation_sym, P1|now right]. }
    assert (Pids : Permutation (ids m t) (i :: ids m1 t)).
    { rewrite <- !described_ids. rewrite <- Ei. apply (Permutation_map d_id P1). }
    destruct (IH m1) as (m' & E' & W' & D' & P' & I' & Y1 & Y2 & Y3); auto.
    { intros j Hj. assert (H := Hin j (or_intror Hj)). apply (Permutation_in j Pids) in H as [->|H]; auto. easy. }
    { intros t' d j Hd Hj. eapply Hun; [eapply Psub; eauto|now right]. }
    exists m'. split; auto. split; auto. split.
    { intros t' T. rewrite D', D1; auto. }
    split.
    { rewrite P'. rewrite (Permutation_filter _ _ _ P1). cbn [filter].
      assert (K : keepb (i :: is) (describe m (n_el te)) = false).
      { unfold keepb, memb. simpl. rewrite Ei, Nat.eqb_refl. reflexivity. }
      rewrite K. apply Permutation_refl'. apply filter_ext_in'. intros d Hd.
      unfold keepb, memb. simpl. f_equal. destruct (Nat.eqb_spec (d_id d) i) as [Ed|Ed]; auto.
      exfalso. destruct HW as (_ & HN & _). specialize (HN t).
      apply (Permutation_NoDup Pids) in HN. inversion HN as [|? ? Hx _]; subst.
      apply Hx. rewrite <- Ed. rewrite <- described_ids. now apply in_map. }
    split; [intros t' a T; rewrite I', I1; auto|]. repeat split; congruence.
Qed.

Lemma omap_ids (m m' : mesh) t view : (forall a, id_at m' t a = id_at m t a) ->
  omap (fun a => option_map e_id (deref m' t a)) view = omap (fun a => option_map e_id (deref m t a)) view.
Proof. intros H. apply omap_ext. intros a _. apply H. Qed.

(** Deleting several types, in an order of non-increasing dimension. *)
Lemma erase_order_spec view vids : forall ord (m : mesh), wf cfg m -> NoDup ord ->
  StronglySorted (fun a b => dim b <= dim a) ord ->
  (forall t, In t ord -> omap (fun a => option_map e_id (deref m t a)) (view t) = Some (vids t) /\
     NoDup (vids t) /\ forall i, In i (vids t) -> In i (ids m t)) ->
  (forall t' d t i, In d (described_of m t') -> In t ord -> In i (vids t) -> drefs d t i ->
     In t' ord /\ In (d_id d) (vids t')) ->
  exists m', ofold (fun m t => erase_type t (view t) m) ord m = Some m' /\ wf cfg m' /\
    (forall t, In t ord -> Permutation (described_of m' t) (filter (keepb (vids t)) (described_of m t))) /\
    (forall t, ~ In t ord -> described_of m' t = described_of m t) /\
    m_next m' = m_next m /\ m_idgen m' = m_idgen m /\ m_cc m' = m_cc m.
Proof.
  induction ord as [|t ord IH]; intros m HW HND HS Hv Hcl.
  - exists m. simpl. split; auto. split; auto. split; [easy|]. repeat split; auto.
  - inversion HND as [|? ? Hnt HND']; subst. inversion HS as [|? ? HS' HF]; subst.
    rewrite Forall_forall in HF.
    destruct (Hv t (or_introl eq_refl)) as (V1 & V2 & V3).
    destruct (erase_ids_spec t (vids t) m HW V2 V3) as (m1 & E1 & W1 & D1 & P1 & I1 & X1 & X2 & X3).
    { intros t' d i Hd Hi Hr. pose proof (drefs_dim m t' d t i (proj2 (proj2 HW)) Hd Hr) as Hdim.
      destruct (Hcl t' d t i Hd (or_introl eq_refl) Hi Hr) as [[->|Ht'] _]; [lia|].
      apply HF in Ht'. lia. }
    cbn [ofold]. unfold erase_type at 1. rewrite V1. cbn [obind]. rewrite E1. cbn [obind].
    destruct (IH m1) as (m' & E' & W' & P' & D' & Y1 & Y2 & Y3); auto.
    { intros t' Ht'. destruct (Hv t' (or_intror Ht')) as (U1 & U2 & U3).
      assert (t' <> t) by congruence. rewrite (omap_ids m) by (intros; apply I1; auto).
      repeat split; auto. intros i Hi. rewrite <- described_ids, D1, described_ids by auto. auto. }
    { intros t' d s i Hd Hs Hi Hr. destruct (tag_eq_dec t' t) as [->|T].
      - exfalso. apply (Permutation_in d P1), filter_In in Hd as [Hd K].
        destruct (Hcl t d s i Hd (or_intror Hs) Hi Hr) as [_ Hid].
        unfold keepb in K. apply memb_In in Hid. rewrite Hid in K. discriminate.
      - rewrite D1 in Hd by auto. destruct (Hcl t' d s i Hd (or_intror Hs) Hi Hr) as [[->|Ht'] Hid]; [congruence|auto]. }
    exists m'. split; auto. split; auto. split; [|split; [|repeat split; congruence]].
    + intros s [<-|Hs]; [now rewrite D'|]. assert (s <> t) by congruence.
      rewrite P' by auto. now rewrite D1.
    + intros s Hs. rewrite D', D1; auto; intros H; apply Hs; simpl; auto.
Qed.

Lemma erase_order_sorted : StronglySorted (fun a b => dim b <= dim a) erase_order.
Proof. repeat constructor. Qed.
Lemma erase_order_nodup : NoDup erase_order.
Proof. repeat constructor; simpl; intuition discriminate. Qed.
Lemma erase_order_all t : In t erase_order.
Proof. destruct t; simpl; tauto. Qed.

Lemma view_ids (m : mesh) t view : wf cfg m -> NoDup view -> Forall (is_live m t) view ->
  exists is, omap (fun a => option_map e_id (deref m t a)) view = Some is /\ NoDup is /\
    (forall i, In i is -> In i (ids m t)) /\
    forall n, In n (m_nodes m t) -> (In (e_id (n_el n)) is <-> In (n_addr n) view).
Proof.
  intros HW HND HL. destruct (omap_total (fun a => option_map e_id (deref m t a)) view) as [is E].
  { intros a Ha. rewrite Forall_forall in HL. destruct (HL a Ha) as [e He]. rewrite He. simpl. eauto. }
  exists is. split; auto. apply omap_Forall2 in E.
  assert (Hid : forall n i, In n (m_nodes m t) -> option_map e_id (deref m t (n_addr n)) = Some i -> i = e_id (n_el n)).
  { intros n i Hn. rewrite (wf_In_deref cfg m t n HW Hn). simpl. congruence. }
  assert (F : forall i, In i is -> exists a, In a view /\ id_at m t a = Some i).
  { clear - E. induction E as [|a i view is Ha _ IH]; simpl; [easy|]. intros j [<-|Hj]; [exists a; auto|].
    destruct (IH _ Hj) as (b & ? & ?). exists b; auto. }
  assert (G : forall a, In a view -> exists i, In i is /\ id_at m t a = Some i).
  { clear - E. induction E as [|a i view is Ha _ IH]; simpl; [easy|]. intros b [<-|Hb]; [exists i; auto|].
    destruct (IH _ Hb) as (j & ? & ?). exists j; auto. }
  split; [|split].
  - clear F G. induction E as [|a i view is Ha E IH]; [constructor|]. inversion HND; inversion HL; subst.
    constructor; auto. intros Hi. apply H1.
    assert (exists b, In b view /\ id_at m t b = Some i) as (b & Hb & Ib).
    { clear - E Hi. induction E as [|x y view is Hx _ IH]; simpl in *; [easy|].
      destruct Hi as [->|Hi]; [exists x; auto|]. destruct (IH Hi) as (b & ? & ?). exists b; auto. }
    assert (a = b) by (eapply id_at_inj; eauto). now subst.
  - intros i Hi. destruct (F i Hi) as (a & _ & Ia). unfold id_at in Ia.
    destruct (deref m t a) as [e|] eqn:D; [|discriminate]. simpl in Ia. inversion Ia; subst.
    apply deref_In in D as (n & Hn & _ & <-). apply (in_map nid _ _ Hn).
  - intros n Hn. split; intros H.
    + destruct (F _ H) as (a & Ha & Ia). assert (a = n_addr n); [|now subst].
      eapply id_at_inj; eauto. unfold id_at. rewrite (wf_In_deref cfg m t n HW Hn). reflexivity.
    + destruct (G _ H) as (i & Hi & Ii). unfold id_at in Ii. now rewrite <- (Hid n i Hn Ii).
Qed.

Lemma choose_ids (m : mesh) view : wf cfg m -> valid_view m view ->
  exists vids, forall t, omap (fun a => option_map e_id (deref m t a)) (view t) = Some (vids t) /\ NoDup (vids t) /\
    (forall i, In i (vids t) -> In i (ids m t)) /\
    forall n, In n (m_nodes m t) -> (In (e_id (n_el n)) (vids t) <-> In (n_addr n) (view t)).
Proof.
  intros HW HV.
  exists (fun t => match omap (fun a => option_map e_id (deref m t a)) (view t) with Some l => l | None => [] end).
  intros t. destruct (HV t) as [V1 V2]. destruct (view_ids m t (view t) HW V1 V2) as (is & E & R).
  rewrite E. auto.
Qed.

Lemma erase_elements_spec (m : mesh) view : wf cfg m -> valid_view m view -> reference_closed m view ->
  exists m', erase_elements m view = Some m' /\ wf cfg m' /\
    (forall t, Permutation (described_of m' t) (map (describe m) (elements_except m t (view t)))) /\
    m_next m' = m_next m /\ m_idgen m' = m_idgen m /\ m_cc m' = m_cc m + 1.
Proof.
  intros HW HV HC. destruct (choose_ids m view HW HV) as (vids & Hvid).
  destruct (erase_order_spec view vids erase_order m HW erase_order_nodup erase_order_sorted)
    as (m' & E & W' & P & _ & X1 & X2 & X3).
  - intros t _. destruct (Hvid t) as (? & ? & ? & ?). auto.
  - intros t' d t i Hd _ Hi Hr. split; [apply erase_order_all|].
    apply described_In in Hd as (n & Hn & ->). apply drefs_references in Hr as (b & Hr & Ib). simpl.
    apply Hvid; auto.
    assert (Hb : In b (view t)).
    { destruct (references_live m t' n t b (proj2 (proj2 HW)) Hn Hr) as [Hlb _].
      apply in_map_iff in Hlb as (nb & <- & Hnb). apply Hvid; auto.
      unfold id_at in Ib. rewrite (wf_In_deref cfg m t nb HW Hnb) in Ib. simpl in Ib. now inversion Ib; subst. }
    eapply HC; [exact Hb|eapply wf_In_deref; eauto|].
    eapply has_boundary_references; eauto. apply HW.
  - unfold erase_elements. rewrite E. simpl. eexists. split; [reflexivity|]. simpl.
    split; [|split; [|repeat split; congruence]].
    + destruct W' as ([A1 A2 A3 A4] & N' & [R1 R2 R3 R4]). split; [constructor; auto|]. split; auto. constructor; auto.
    + intros t. change (described_of _ t) with (described_of m' t). rewrite P by apply erase_order_all.
      apply Permutation_refl'. unfold described_of, elements_of, elements_except. rewrite !map_map.
      clear P. destruct (Hvid t) as (_ & _ & _ & Hv).
      induction (m_nodes m t) as [|n l IH]; simpl; auto.
      unfold keepb at 1. simpl.
      assert (Q : memb (e_id (n_el n)) (vids t) = memb (n_addr n) (view t)).
      { destruct (memb (n_addr n) (view t)) eqn:M.
        - apply memb_In. apply memb_In in M. apply Hv; simpl; auto.
        - apply memb_notIn. apply memb_notIn in M. intros H. apply M, Hv; simpl; auto. }
      rewrite Q. destruct (memb (n_addr n) (view t)); simpl; rewrite IH; auto; intros; apply Hv; simpl; auto.
Qed.

(** ** Histories *)
Lemma ereach_wf (m : mesh) : ereach cfg m -> wf cfg m.
Proof.
  induction 1 as [|m o m' HR IH HV HS]; [apply wf_empty|].
  destruct o as [p|i p|t vs|view|];
    [exact (step_wf cfg m m' _ IH HV HS)|exact (step_wf cfg m m' _ IH HV HS)|exact (step_wf cfg m m' _ IH HV HS)| |exact (step_wf cfg m m' _ IH HV HS)].
  destruct HV as [V1 V2]. cbn [step] in HS.
  destruct (erase_elements_spec m view IH V1 V2) as (m2 & E & W & _). congruence.
Qed.

Lemma reach_ereach (m : mesh) : reach cfg m -> ereach cfg m.
Proof.
  induction 1 as [|m o m' HR IH HV HS]; [constructor|]. econstructor; eauto.
  destruct o; auto. easy.
Qed.

Lemma wf_no_dangling (m : mesh) : wf cfg m -> no_dangling m.
Proof.
  intros HW t a e bt b HD HB. apply deref_In in HD as (n & Hn & <- & <-).
  apply live_is_live. eapply (references_live m t n); eauto; [apply HW|].
  eapply has_boundary_references; eauto. apply HW.
Qed.
End EraseSet.
