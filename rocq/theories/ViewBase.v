(** Lemmas about views and marking. *)
From Coq Require Import List Arith Bool Lia Permutation Sorted.
From Verif Require Import ModelTopo ModelMesh ModelErase ModelAccessor ModelQuery ModelView SpecMesh SpecErase SpecQuery SpecView
  MeshBase MeshInv MeshIds MeshReach MeshProofs MeshWf MeshErase MeshSimple QueryBase QueryBnd.
Import ListNotations.

Section ViewBase.
Context {Pt : Type}.
Notation mesh := (@mesh Pt).
Notation element := (@element Pt).
Notation node := (@node Pt).
Variable cfg : config.

(** ** Set views *)
Lemma id_at_deref (m : mesh) t a i : id_at m t a = Some i <-> exists e, deref m t a = Some e /\ e_id e = i.
Proof.
  unfold id_at. destruct (deref m t a) as [e|]; simpl; split; intros H.
  - inversion H; subst. eauto.
  - destruct H as (e' & E & <-). inversion E; subst. auto.
  - discriminate.
  - destruct H as (e' & E & _). discriminate.
Qed.

Lemma increasing_In (m : mesh) t v ids a : Forall2 (fun a i => id_at m t a = Some i) v ids -> In a v ->
  exists i, In i ids /\ id_at m t a = Some i.
Proof. induction 1; simpl; [easy|]. intros [<-|Hin]; [eauto|]. destruct (IHForall2 Hin) as (i & ? & ?). eauto. Qed.

Lemma increasing_nodup (m : mesh) t v : id_increasing m t v -> NoDup v.
Proof.
  intros (ids & F & S). induction F as [|a i v ids Ha F IH]; [constructor|]. inversion S as [|? ? S' FA]; subst.
  constructor; auto. intros Hin. destruct (increasing_In m t v ids a F Hin) as (j & Hj & E).
  rewrite Forall_forall in FA. specialize (FA j Hj). assert (j = i) by congruence. lia.
Qed.

Lemma increasing_live (m : mesh) t v : id_increasing m t v -> Forall (is_live m t) v.
Proof.
  intros (ids & F & _). apply Forall_forall. intros a Ha. destruct (increasing_In m t v ids a F Ha) as (i & _ & E).
  apply id_at_deref in E as (e & E & _). exists e. auto.
Qed.

Lemma set_insert_spec (m : mesh) t h v : wf cfg m -> is_live m t h -> id_increasing m t v ->
  exists v', set_insert m t h v = Some v' /\ id_increasing m t v' /\ forall a, In a v' <-> a = h \/ In a v.
Proof.
  intros W (eh & Hh) (ids & F & S).
  assert (Ih : id_at m t h = Some (e_id eh)) by (apply id_at_deref; eauto).
  enough (exists v' ids', set_insert m t h v = Some v' /\ Forall2 (fun a i => id_at m t a = Some i) v' ids' /\
     StronglySorted lt ids' /\ (forall i, In i ids' <-> i = e_id eh \/ In i ids) /\ forall a, In a v' <-> a = h \/ In a v) as (v' & ids' & A & B & C & _ & D).
  { exists v'. split; auto. split; auto. exists ids'. auto. }
  induction F as [|x i v ids Hx F IH]; cbn [set_insert].
  - rewrite Hh. simpl. exists [h], [e_id eh]. split; auto. split; [repeat constructor; auto|].
    split; [repeat constructor|]. split; simpl; intuition.
  - inversion S as [|? ? S' FA]; subst. destruct (proj1 (id_at_deref m t x i) Hx) as (ex & Ex & <-).
    rewrite Hh, Ex. cbn [obind]. destruct (e_id eh <? e_id ex) eqn:L1; [apply Nat.ltb_lt in L1|apply Nat.ltb_ge in L1].
    + exists (h :: x :: v), (e_id eh :: e_id ex :: ids). split; auto. split; [repeat constructor; auto|].
      split; [|split; simpl; intuition].
      constructor; auto. constructor; auto. rewrite Forall_forall in *. intros y Hy. specialize (FA y Hy). lia.
    + destruct (e_id ex <? e_id eh) eqn:L2; [apply Nat.ltb_lt in L2|apply Nat.ltb_ge in L2].
      * destruct (IH S') as (v' & ids' & -> & A & B & C & D). exists (x :: v'), (e_id ex :: ids'). split; auto.
        split; [constructor; auto|]. split.
        { constructor; auto. rewrite Forall_forall in *. intros y Hy. apply C in Hy as [->|Hy]; auto. }
        split.
        { intros j. simpl. rewrite C. intuition. }
        { intros a. simpl. rewrite D. intuition. }
      * assert (E : x = h) by (apply (id_at_inj cfg m t x h (e_id eh) W); auto; rewrite Hx; f_equal; lia). subst x.
        exists (h :: v), (e_id ex :: ids). split; auto. split; [constructor; auto|]. split; auto. split.
        { intros j. simpl. replace (e_id ex) with (e_id eh) by lia. intuition. }
        { intros a. simpl. intuition. }
Qed.

Lemma view_has_In v h : view_has v h = true <-> In h v.
Proof.
  unfold view_has. rewrite existsb_exists. split.
  - intros (x & Hx & E). apply Nat.eqb_eq in E. now subst.
  - intros H. exists h. split; auto. apply Nat.eqb_refl.
Qed.

Lemma view_insert_spec (m : mesh) t (v : tag -> list addr) h : wf cfg m -> is_live m t h -> good_view m v ->
  exists v', view_insert m t v h = Some v' /\ good_view m v' /\ forall t' a, In a (v' t') <-> (t' = t /\ a = h) \/ In a (v t').
Proof.
  intros W L G. destruct (set_insert_spec m t h (v t) W L (G t)) as (l & E & I & X).
  unfold view_insert. rewrite E. simpl. eexists. split; [reflexivity|]. split.
  - intros t'. rewrite upd_spec. destruct (tag_eq_dec t t') as [<-|]; auto.
  - intros t' a. rewrite upd_spec. destruct (tag_eq_dec t t') as [<-|N]; [rewrite X; intuition|]. intuition congruence.
Qed.

Lemma fold_insert_spec (m : mesh) ct l : wf cfg m -> (forall a, In a l -> is_live m ct a) -> forall v : tag -> list addr, good_view m v ->
  exists v', ofold (fun v a => if view_has (v ct) a then Some v else view_insert m ct v a) l v = Some v' /\ good_view m v' /\
    forall t a, In a (v' t) <-> (t = ct /\ In a l) \/ In a (v t).
Proof.
  intros W. induction l as [|x l IH]; intros L v G; cbn [ofold].
  - exists v. split; auto. split; auto. intros t a. simpl. intuition.
  - assert (exists v1, (if view_has (v ct) x then Some v else view_insert m ct v x) = Some v1 /\ good_view m v1 /\
        forall t a, In a (v1 t) <-> (t = ct /\ a = x) \/ In a (v t)) as (v1 & -> & G1 & X1).
    { destruct (view_has (v ct) x) eqn:E.
      - apply view_has_In in E. exists v. split; auto. split; auto. intros t a. intuition. subst. auto.
      - apply view_insert_spec; auto. apply L. left. auto. }
    cbn [obind]. destruct (IH (fun a H => L a (or_intror H)) v1 G1) as (v2 & -> & G2 & X2).
    exists v2. split; auto. split; auto. intros t a. rewrite X2, X1. simpl. intuition.
Qed.

Lemma cobs_In (m : mesh) bt ct b a : wf cfg m -> In a (cobs m bt ct b) <-> bounded_by m ct a bt b.
Proof. intros W. destruct (cobs_exact cfg m bt ct b W) as [_ X]. apply X. Qed.

Lemma bounded_live (m : mesh) ct a bt b : bounded_by m ct a bt b -> is_live m ct a.
Proof. intros (e & E & _). exists e. auto. Qed.

Lemma mark_types_spec t h cts : forall (s : qstate Pt) (v : tag -> list addr), qreach cfg s -> is_live (q_mesh s) t h -> good_view (q_mesh s) v ->
  exists s' v', ofold (mark_type t h) cts (s, v) = Some (s', v') /\ q_mesh s' = q_mesh s /\ qreach cfg s' /\ good_view (q_mesh s) v' /\
    forall t' a, In a (v' t') <-> (In t' cts /\ bounded_by (q_mesh s) t' a t h) \/ In a (v t').
Proof.
  induction cts as [|ct cts IH]; intros s v QR L G; cbn [ofold].
  - exists s, v. split; auto. split; auto. split; auto. split; auto. intros t' a. simpl. intuition.
  - destruct (qreach_inv cfg s QR) as [ER I]. pose proof (ereach_wf cfg _ ER) as W. unfold mark_type at 1.
    assert (L' := L). apply live_is_live in L'.
    destruct (query_cob_spec cfg false s t ct h W (ereach_simple cfg _ ER) I L') as (s1 & E1 & _ & M1 & _).
    assert (QR1 : qreach cfg s1).
    { eapply qreach_step with (o := QCob false t ct h); eauto. cbn [qstep]. now rewrite E1. }
    rewrite E1. cbn [obind].
    rewrite M1. destruct (fold_insert_spec (q_mesh s) ct (cobs (q_mesh s) t ct h) W) with (v := v) as (v1 & -> & G1 & X1); auto.
    { intros a Ha. apply cobs_In in Ha; auto. eapply bounded_live; eauto. }
    cbn [option_map obind]. destruct (IH s1 v1) as (s2 & v2 & -> & M2 & QR2 & G2 & X2); rewrite ?M1; auto.
    exists s2, v2. split; auto. split; [congruence|]. split; auto. rewrite M1 in *. split; auto.
    intros t' a. rewrite X2, X1, (cobs_In _ _ _ _ _ W). simpl. split.
    + intros [[H1 H2]|[[-> H]|H]]; auto.
    + intros [[[->|H1] H2]|H]; auto.
Qed.

Lemma bounded_dim (m : mesh) ct a bt b : wf cfg m -> bounded_by m ct a bt b -> dim bt < dim ct.
Proof.
  intros W (e & E & B). apply deref_In in E as (n & Hn & <- & <-).
  destruct W as (_ & _ & R). eapply references_live; eauto. eapply has_boundary_references; eauto.
Qed.

Lemma referencing_all (m : mesh) t a bt b : wf cfg m -> bounded_by m t a bt b -> In t (referencing_types bt).
Proof.
  intros W B. pose proof (bounded_dim m t a bt b W B) as D. unfold referencing_types. apply filter_In. split.
  - destruct t; simpl; auto 10. simpl in D. lia.
  - now apply Nat.ltb_lt.
Qed.

Lemma mark_erase_spec t h (s : qstate Pt) (v : tag -> list addr) : qreach cfg s -> is_live (q_mesh s) t h -> good_view (q_mesh s) v ->
  exists s' v', mark_erase t h (s, v) = Some (s', v') /\ q_mesh s' = q_mesh s /\ qreach cfg s' /\ good_view (q_mesh s) v' /\
    forall t' a, In a (v' t') <-> refers_or_is (q_mesh s) t' a t h \/ In a (v t').
Proof.
  intros QR L G. destruct (qreach_inv cfg s QR) as [ER _]. pose proof (ereach_wf cfg _ ER) as W. unfold mark_erase. cbn [fst snd].
  destruct (view_insert_spec (q_mesh s) t v h W L G) as (v1 & -> & G1 & X1). cbn [obind]. unfold mark_referencing.
  destruct (mark_types_spec t h (referencing_types t) s v1 QR L G1) as (s2 & v2 & -> & M2 & I2 & G2 & X2).
  exists s2, v2. split; auto. split; auto. split; auto. split; auto. intros t' a. split.
  - rewrite X2, X1. unfold refers_or_is. intuition.
  - rewrite X2, X1. unfold refers_or_is. intros [[H|H]|H]; auto. left. split; auto. eapply referencing_all; eauto.
Qed.

Lemma empty_view_good (m : mesh) : good_view m empty_view.
Proof. intros t. exists []. split; constructor. Qed.

Lemma good_valid (m : mesh) v : good_view m v -> valid_view m v.
Proof. intros G t. split; [eapply increasing_nodup, G|apply increasing_live, G]. Qed.

(** ** Transitive boundaries *)
Lemma mark_closed (m : mesh) (v v' : tag -> list addr) t h : boundary_transitive m -> reference_closed m v ->
  (forall t' a, In a (v' t') <-> refers_or_is m t' a t h \/ In a (v t')) -> reference_closed m v'.
Proof.
  intros T C X bt b t' a e Hb D B. apply X. apply X in Hb as [[[-> ->]|Hb]|Hb].
  - left. right. exists e. auto.
  - left. right. eapply T; [|exact Hb]. exists e. auto.
  - right. eapply C; eauto.
Qed.

End ViewBase.
