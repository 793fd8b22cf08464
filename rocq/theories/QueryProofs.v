(** Proofs of C14-C16. *)
From Coq Require Import List Arith Bool Lia Permutation.
From Verif Require Import ModelTopo ModelMesh ModelErase ModelAccessor ModelQuery SpecMesh SpecErase SpecQuery
  MeshBase MeshInv MeshIds MeshWf MeshErase MeshSimple QueryBase QueryBnd.
Import ListNotations.

Lemma C14_always_defined_pf : forall Pt cfg (s : qstate Pt) o, qreach cfg s -> valid_qop cfg (q_mesh s) o ->
  exists s', qstep cfg s o = Some s' /\ qreach cfg s'.
Proof.
  intros Pt cfg s o HR HV. enough (exists s', qstep cfg s o = Some s') as [s' E].
  { exists s'. split; auto. eapply qreach_step; eauto. }
  destruct (qreach_inv cfg s HR) as [ER I]. pose proof (ereach_wf cfg _ ER) as W. pose proof (ereach_simple cfg _ ER) as S.
  destruct o as [o|c bt ct b|c t k a|t a]; cbn [qstep valid_qop] in *.
  - destruct (ereach_total cfg _ o ER HV) as [m' E]. unfold mesh_op. rewrite E. eexists. reflexivity.
  - apply live_is_live in HV. destruct (query_cob_spec cfg c s bt ct b W S I HV) as (s1 & -> & _). eexists. reflexivity.
  - apply live_is_live in HV. destruct (query_nb_spec cfg c s t k a W S I HV) as (s1 & l & -> & _). eexists. reflexivity.
  - destruct HV as [HB HV]. apply live_is_live in HV.
    destruct (query_bnd_spec cfg s t a W S I HB HV) as (s1 & -> & _). eexists. reflexivity.
Qed.

Lemma C14_coboundary_exact_pf : forall Pt cfg (s : qstate Pt) const bt ct b, qreach cfg s -> is_live (q_mesh s) bt b ->
  exists s' l, query_cob const bt ct s b = Some (s', l) /\ q_mesh s' = q_mesh s /\
    lists_exactly l (fun a => bounded_by (q_mesh s) ct a bt b).
Proof.
  intros Pt cfg s const bt ct b HR HL. destruct (qreach_inv cfg s HR) as [ER I].
  pose proof (ereach_wf cfg _ ER) as W. apply live_is_live in HL.
  destruct (query_cob_spec cfg const s bt ct b W (ereach_simple cfg _ ER) I HL) as (s1 & E & _ & M & _).
  exists s1, (cobs (q_mesh s) bt ct b). split; auto. split; auto. now apply (cobs_exact cfg).
Qed.

Lemma C14_coboundary_order_pf : forall Pt cfg (s s' : qstate Pt) const bt ct b l, qreach cfg s -> is_live (q_mesh s) bt b ->
  query_cob const bt ct s b = Some (s', l) ->
  l = filter (fun a => match deref (q_mesh s) ct a with Some e => memb b (boundary_of e bt) | None => false end)
        (range (q_mesh s) ct).
Proof.
  intros Pt cfg s s' const bt ct b l HR HL HQ. destruct (qreach_inv cfg s HR) as [ER I].
  pose proof (ereach_wf cfg _ ER) as W. apply live_is_live in HL.
  destruct (query_cob_spec cfg const s bt ct b W (ereach_simple cfg _ ER) I HL) as (s1 & E & _ & M & _).
  rewrite HQ in E. inversion E; subst. unfold cobs, range.
  assert (G : forall l, incl l (m_nodes (q_mesh s) ct) ->
     map n_addr (filter (fun n => memb b (boundary_of (n_el n) bt)) l) =
     filter (fun a => match deref (q_mesh s) ct a with Some e => memb b (boundary_of e bt) | None => false end) (map n_addr l)).
  { induction l as [|n l IH]; intros HI; simpl; auto.
    rewrite (wf_In_deref cfg _ ct n W) by (apply HI; left; auto).
    assert (HI' : incl l (m_nodes (q_mesh s) ct)) by (intros x Hx; apply HI; right; auto).
    destruct (memb b _); simpl; rewrite IH; auto. }
  apply G. apply incl_refl.
Qed.

Lemma C15_neighbours_exact_pf : forall Pt cfg (s : qstate Pt) const t c a, qreach cfg s -> is_live (q_mesh s) t a ->
  exists s' l, query_nb const t c s a = Some (s', l) /\ q_mesh s' = q_mesh s /\
    lists_exactly l (share (q_mesh s) t c a).
Proof.
  intros Pt cfg s const t c a HR HL. destruct (qreach_inv cfg s HR) as [ER I].
  pose proof (ereach_wf cfg _ ER) as W. apply live_is_live in HL.
  destruct (query_nb_spec cfg const s t c a W (ereach_simple cfg _ ER) I HL) as (s1 & l & E & X & _ & M).
  exists s1, l. auto.
Qed.

Lemma C15_irreflexive_symmetric_pf : forall Pt cfg (s s1 s2 : qstate Pt) c1 c2 t c a b la lb, qreach cfg s ->
  is_live (q_mesh s) t a -> is_live (q_mesh s) t b ->
  query_nb c1 t c s a = Some (s1, la) -> query_nb c2 t c s1 b = Some (s2, lb) ->
  ~ In a la /\ (In b la <-> In a lb).
Proof.
  intros Pt cfg s s1 s2 c1 c2 t c a b la lb HR HA HB Q1 Q2.
  destruct (C15_neighbours_exact_pf Pt cfg s c1 t c a HR HA) as (s1' & la' & E1 & M1 & _ & X1).
  rewrite Q1 in E1. inversion E1; subst s1' la'.
  assert (R1 : qreach cfg s1). { eapply qreach_step with (o := QNb c1 t c a); eauto. cbn [qstep]. now rewrite Q1. }
  rewrite <- M1 in HB.
  destruct (C15_neighbours_exact_pf Pt cfg s1 c2 t c b R1 HB) as (s2' & lb' & E2 & M2 & _ & X2).
  rewrite Q2 in E2. inversion E2; subst s2' lb'. rewrite M1 in X2.
  split.
  - intros H. apply X1 in H. destruct H as [H _]. auto.
  - rewrite X1, X2. unfold share. split; intros (N & k & K1 & K2); split; auto; exists k; auto.
Qed.

Lemma count_cobs {Pt} cfg (m : @mesh Pt) f : wf cfg m -> cell_count cfg m f (length (cobs m (facet_tag (cfg_cell cfg)) (cfg_cell cfg) f)).
Proof. intros W. exists (cobs m (facet_tag (cfg_cell cfg)) (cfg_cell cfg) f). split; auto. now apply (cobs_exact cfg). Qed.

Lemma one_cobs {Pt} cfg (m : @mesh Pt) f : wf cfg m ->
  on_one_cell cfg m f <-> length (cobs m (facet_tag (cfg_cell cfg)) (cfg_cell cfg) f) = 1.
Proof.
  intros W. pose proof (cobs_exact cfg m (facet_tag (cfg_cell cfg)) (cfg_cell cfg) f W) as [ND X].
  unfold on_one_cell. split.
  - intros (c & H). destruct (cobs _ _ _ _) as [|x [|y l]]; auto.
    + exfalso. apply (X c). apply H. auto.
    + exfalso. assert (x = c) by (apply H, X; simpl; auto). assert (y = c) by (apply H, X; simpl; auto). subst.
      inversion ND; subst. apply H2. left. auto.
  - destruct (cobs _ _ _ _) as [|x [|y l]]; try discriminate. intros _. exists x. intros a. rewrite <- X. simpl. intuition.
Qed.

Lemma C16_boundary_exact_pf : forall Pt cfg (s : qstate Pt) t a, qreach cfg s ->
  t = facet_tag (cfg_cell cfg) \/ In t (bnd_types cfg) -> is_live (q_mesh s) t a -> at_most_two cfg (q_mesh s) ->
  exists s' r, query_bnd cfg t s a = Some (s', r) /\ q_mesh s' = q_mesh s /\
    (r = true <-> on_boundary cfg (q_mesh s) t a).
Proof.
  intros Pt cfg s t a HR HT HL H2. destruct (qreach_inv cfg s HR) as [ER I].
  pose proof (ereach_wf cfg _ ER) as W. apply live_is_live in HL.
  destruct (query_bnd_spec cfg s t a W (ereach_simple cfg _ ER) I HT HL) as (s1 & E & _ & M).
  exists s1, (flag cfg (q_mesh s) t a). split; auto. split; auto.
  assert (CF : forall f, coflag cfg (q_mesh s) f = true <-> on_one_cell cfg (q_mesh s) f).
  { intros f. rewrite (one_cobs cfg _ f W). pose proof (H2 f _ (count_cobs cfg _ f W)) as L. unfold coflag.
    set (n := length _) in *. destruct n as [|[|[|n]]]; cbn; try lia; split; try discriminate; auto. }
  unfold on_boundary. destruct (tag_eqb t (facet_tag (cfg_cell cfg))) eqn:Z.
  - unfold flag. rewrite Z. apply CF.
  - assert (Q : t <> facet_tag (cfg_cell cfg)) by (apply tag_eqb_neq; auto). split.
    + intros H. destruct (flag_true cfg _ t a W H Q) as (f & H1 & B). exists f. split; auto. now apply CF.
    + intros (f & H1 & B). apply CF in H1. eapply (flag_true' cfg); eauto.
Qed.

Lemma C16_facet_parity_pf : forall Pt cfg (s : qstate Pt) f n, qreach cfg s ->
  is_live (q_mesh s) (facet_tag (cfg_cell cfg)) f -> cell_count cfg (q_mesh s) f n ->
  exists s', query_bnd cfg (facet_tag (cfg_cell cfg)) s f = Some (s', Nat.odd n).
Proof.
  intros Pt cfg s f n HR HL (l & [ND X] & <-). destruct (qreach_inv cfg s HR) as [ER I].
  pose proof (ereach_wf cfg _ ER) as W. apply live_is_live in HL.
  destruct (query_bnd_spec cfg s _ f W (ereach_simple cfg _ ER) I (or_introl eq_refl) HL) as (s1 & E & _ & M).
  exists s1. rewrite E. unfold flag. rewrite tag_eqb_refl. unfold coflag. do 3 f_equal.
  pose proof (cobs_exact cfg (q_mesh s) (facet_tag (cfg_cell cfg)) (cfg_cell cfg) f W) as [ND' X'].
  apply Permutation_length. apply NoDup_Permutation; auto. intros x. rewrite X, X'. tauto.
Qed.

Lemma C16_three_cells_refuted_pf : forall Pt cfg (s : qstate Pt) f, qreach cfg s ->
  is_live (q_mesh s) (facet_tag (cfg_cell cfg)) f -> cell_count cfg (q_mesh s) f 3 ->
  exists s', query_bnd cfg (facet_tag (cfg_cell cfg)) s f = Some (s', true) /\ ~ on_one_cell cfg (q_mesh s) f.
Proof.
  intros Pt cfg s f HR HL HC. destruct (C16_facet_parity_pf Pt cfg s f 3 HR HL HC) as (s' & E).
  exists s'. split; auto. destruct (qreach_inv cfg s HR) as [ER _]. pose proof (ereach_wf cfg _ ER) as W.
  rewrite (one_cobs cfg _ f W). destruct HC as (l & [ND X] & L).
  pose proof (cobs_exact cfg (q_mesh s) (facet_tag (cfg_cell cfg)) (cfg_cell cfg) f W) as [ND' X'].
  assert (P : Permutation l (cobs (q_mesh s) (facet_tag (cfg_cell cfg)) (cfg_cell cfg) f)).
  { apply NoDup_Permutation; auto. intros x. rewrite X, X'. tauto. }
  apply Permutation_length in P. lia.
Qed.
