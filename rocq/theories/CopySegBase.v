(** Lemmas for C24 and C40: adding to segments by id. *)
From Coq Require Import List Arith ZArith Bool Lia.
From Verif Require Import ModelTopo ModelMesh ModelErase ModelAccessor ModelQuery ModelView ModelSegmentation ModelSegment ModelCopy ModelCopySeg
  SpecMesh SpecErase SpecQuery SpecView SpecSegmentation SpecSegment SpecCopy SpecCopySeg
  MeshBase MeshInv MeshReach MeshWf MeshErase MeshSimple SegmentationBase ViewBase SegmentView SegmentBase SegmentInv SegmentStep SegmentProofs CopyBase.
Import ModelSegmentation ListNotations.
Open Scope nat_scope.

Section Adding.
Context {Pt : Type}.
Variable cfg : config.
Hypothesis NH : cfg_cell cfg <> Hex.

(** All names are the decimal notations of the ids. *)
Notation decnames := numbered.

Lemma decnames_new : decnames new_segmentation.
Proof. intros z. cbn. split; auto. Qed.

Lemma inid_iff (s : sstate Pt) z t h : sreach cfg s -> (in_segment_id s z t h <-> exists a, In (z, a) (g_ids (st_segs s)) /\ in_segment s a t h).
Proof.
  intros R. pose proof (si_g cfg s (sreach_inv cfg NH s R)) as G. unfold in_segment_id, segment_has_id, is_segment. split.
  - intros (a & [_ E] & H). exists a. split; auto. now apply id_in_ids.
  - intros (a & E & H). exists a. split; auto. split; [apply in_range; eauto|]. now apply id_in_ids.
Qed.

Lemma add_by_id_spec (s : sstate Pt) t h z : sreach cfg s -> decnames (st_segs s) -> is_live (st_mesh s) t h ->
  exists s', add_by_id t h s z = Done s' /\ sreach cfg s' /\ decnames (st_segs s') /\ st_mesh s' = st_mesh s /\
    (forall z' t' x, in_segment_id s' z' t' x <-> in_segment_id s z' t' x \/ (z' = z /\ part_of (st_mesh s) t' x t h)) /\
    (forall z', has_id (st_segs s') z' <-> has_id (st_segs s) z' \/ z' = z).
Proof.
  intros R DN L. pose proof (sreach_inv cfg NH s R) as I. pose proof (si_g cfg s I) as G. unfold add_by_id.
  destruct (get_make_id_spec z (st_segs s) G) as [(a & Ha & E)|(N & g' & W & X)].
  - rewrite E. assert (Es : with_segs s (st_segs s) = s) by (destruct s; reflexivity). rewrite Es.
    assert (Sg : is_segment s a) by (apply in_range; eauto).
    destruct (C20_add_pf Pt cfg s a t h NH R Sg L) as (s' & E' & M & GS & O & IN). rewrite E'. cbn [of_option].
    assert (R' : sreach cfg s') by (eapply (sr_step cfg s (SAdd a t h)); eauto; cbn; auto).
    exists s'. split; auto. split; auto. split; [now rewrite GS|]. split; auto. split.
    + intros z' t' x. rewrite !inid_iff, GS by auto. split.
      * intros (b & Hb & H). destruct (Nat.eq_dec b a) as [->|Nb].
        -- apply IN in H as [H|H]; [left; eauto|]. right. split; auto. eapply ids_fun; eauto.
        -- left. exists b. split; auto. unfold in_segment in *. now rewrite (O b Nb) in H.
      * intros [(b & Hb & H)|[-> H]].
        -- exists b. split; auto. destruct (Nat.eq_dec b a) as [->|Nb]; [apply IN; auto|]. unfold in_segment in *. now rewrite (O b Nb).
        -- exists a. split; auto. apply IN. auto.
    + intros z'. rewrite GS. split; auto. intros [H| ->]; auto. apply has_id_iff; auto. eauto.
  - assert (F : find_name (decimal z) (g_names (st_segs s)) = None) by (apply DN; auto).
    destruct X as [(F' & M & E)|(F' & M & E)]; [|congruence]. rewrite E.
    assert (G' : ginv g') by (eapply ginv_with; eauto; eapply get_make_id_names; eauto).
    assert (R1 : sreach cfg (with_segs s g')).
    { eapply (sr_step cfg s (SManage (SgId z))); eauto; cbn [valid_sop sstep sgstep]; [repeat split; discriminate|]. rewrite E. reflexivity. }
    set (a := g_next (st_segs s)) in *. destruct W as (W1 & W2 & W3 & W4).
    assert (Ha : In (z, a) (g_ids g')) by (rewrite W2; apply id_insert_In; auto).
    assert (Sg : is_segment (with_segs s g') a) by (apply in_range; eauto).
    destruct (C20_add_pf Pt cfg _ a t h NH R1 Sg L) as (s' & E' & M' & GS & O & IN). rewrite E'. cbn [of_option]. cbn [with_segs st_segs st_mesh] in *.
    assert (R' : sreach cfg s') by (eapply (sr_step cfg _ (SAdd a t h)); [exact R1|..]; eauto; cbn; auto).
    assert (FR : forall t' x, ~ In x (k_view (st_con s a) t')).
    { intros t' x Hx. rewrite (si_fresh cfg s I a) in Hx; [destruct Hx|unfold a; auto]. }
    exists s'. split; auto. split; auto. split; [|split; auto; split].
    + intros z'. rewrite GS, M, W2. cbn. destruct (String.eqb_spec (decimal z') (decimal z)) as [Q|Q].
      * apply decimal_inj in Q. subst z'. split; [discriminate|]. intros H. destruct (H a). apply id_insert_In. auto.
      * rewrite (DN z'). split; intros H b Hb.
        -- apply id_insert_In in Hb as [Hb|Hb]; [inversion Hb; subst; congruence|]. eapply H; eauto.
        -- apply (H b). apply id_insert_In. auto.
    + intros z' t' x. rewrite !inid_iff, GS, W2 by auto. split.
      * intros (b & Hb & H). destruct (Nat.eq_dec b a) as [->|Nb].
        -- apply IN in H as [H|H]; [destruct (FR _ _ H)|]. right. split; auto. apply (ids_fun g' z' z a); auto. now rewrite W2.
        -- apply id_insert_In in Hb as [Hb|Hb]; [injection Hb as _ Hb2; contradiction|]. left. exists b. split; auto.
           unfold in_segment in *. rewrite (O b Nb) in H. exact H.
      * intros [(b & Hb & H)|[-> H]].
        -- exists b. split; [apply id_insert_In; auto|]. assert (Nb : b <> a).
           { intros ->. eapply FR; eauto. }
           unfold in_segment in *. now rewrite (O b Nb).
        -- exists a. split; [apply id_insert_In; auto|]. apply IN. auto.
    + intros z'. rewrite GS, !has_id_iff by auto. split.
      * intros (b & Hb). rewrite W2 in Hb. apply id_insert_In in Hb as [Hb|Hb]; [inversion Hb; auto|eauto].
      * intros [(b & Hb)| ->]; [exists b|exists a; auto]. rewrite W2. apply id_insert_In. auto.
Qed.

Lemma add_all_spec t h zs : forall (s : sstate Pt), sreach cfg s -> decnames (st_segs s) -> is_live (st_mesh s) t h ->
  exists s', add_all t h zs s = Done s' /\ sreach cfg s' /\ decnames (st_segs s') /\ st_mesh s' = st_mesh s /\
    (forall z t' x, in_segment_id s' z t' x <-> in_segment_id s z t' x \/ (In z zs /\ part_of (st_mesh s) t' x t h)) /\
    (forall z, has_id (st_segs s') z <-> has_id (st_segs s) z \/ In z zs).
Proof.
  induction zs as [|z zs IH]; intros s R DN L; unfold add_all; cbn [rfold].
  - exists s. split; auto. split; auto. split; auto. split; auto. simpl. split; intros; tauto.
  - destruct (add_by_id_spec s t h z R DN L) as (s1 & -> & R1 & D1 & M1 & IN1 & H1). cbn [rbind].
    destruct (IH s1) as (s2 & E2 & R2 & D2 & M2 & IN2 & H2); auto. { now rewrite M1. }
    exists s2. split; [exact E2|]. split; auto. split; auto. split; [congruence|]. split.
    + intros z' t' x. rewrite IN2, IN1, M1. simpl. split.
      * intros [[H|[-> H]]|[H H']]; auto.
      * intros [H|[[<-|H] H']]; auto.
    + intros z'. rewrite H2, H1. simpl. split.
      * intros [[H| ->]|H]; auto.
      * intros [H|[<-|H]]; auto.
Qed.

(** A new cell is put into segments: its segments are these, those of the other
    cells stay. *)
Lemma new_cell_spec (s : sstate Pt) (d' : @mesh Pt) t a zs : sreach cfg s -> decnames (st_segs s) -> sreach cfg (with_mesh s d') ->
  range d' t = range (st_mesh s) t ++ [a] ->
  exists s', add_all t a zs (with_mesh s d') = Done s' /\ sreach cfg s' /\ decnames (st_segs s') /\ st_mesh s' = d' /\
    (forall z x, In x (range (st_mesh s) t) -> (in_segment_id s' z t x <-> in_segment_id s z t x)) /\
    (forall z, in_segment_id s' z t a <-> In z zs) /\
    (forall z, has_id (st_segs s') z <-> has_id (st_segs s) z \/ In z zs).
Proof.
  intros R DN R1 RG. pose proof (sreach_inv cfg NH _ R) as I. pose proof (sreach_inv cfg NH _ R1) as I1.
  pose proof (reach_wf cfg _ (si_reach cfg _ I1)) as W'. cbn [with_mesh st_mesh] in W'.
  assert (La : is_live d' t a).
  { apply live_is_live. unfold live. change (In a (range d' t)). rewrite RG. apply in_app_iff. right. now left. }
  destruct (add_all_spec t a zs (with_mesh s d') R1 DN La) as (s' & E & R' & D' & M & IN & H). cbn [with_mesh st_mesh st_segs] in *.
  assert (ND : NoDup (range d' t)) by apply W'. rewrite RG in ND.
  assert (Na : ~ In a (range (st_mesh s) t)).
  { intros Ha. apply NoDup_remove_2 with (l := range (st_mesh s) t) (l' := []) in ND. apply ND. now rewrite app_nil_r. }
  assert (SM : forall z t' x, in_segment_id (with_mesh s d') z t' x <-> in_segment_id s z t' x) by (intros; reflexivity).
  assert (PO : forall x, part_of d' t x t a <-> x = a).
  { intros x. split; [|intros ->; left; auto]. intros [[_ E']|B]; auto. pose proof (bounded_dim cfg d' t a t x W' B). lia. }
  exists s'. split; auto. split; auto. split; auto. split; auto. split; [|split; auto].
  - intros z x Hx. rewrite IN, SM, PO. split; auto. intros [X|[_ ->]]; auto. contradiction.
  - intros z. rewrite IN, SM, PO. split; [|auto]. intros [X|[X _]]; auto. exfalso. apply Na.
    apply inid_iff in X as (b & Hb & X); auto. destruct (si_con cfg s I _ _ Hb) as ([GV _ _] & _).
    pose proof (good_all_live _ _ GV t a X) as L. apply live_is_live in L. exact L.
Qed.
End Adding.
