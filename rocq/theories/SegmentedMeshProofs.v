(** Proofs of C70. *)
From Coq Require Import List Arith ZArith Bool Lia.
From Verif Require Import ModelTopo ModelMesh ModelErase ModelQuery ModelView ModelSegmentation ModelSegment ModelCopy ModelCopySeg ModelSegmentedMesh
  SpecMesh SpecErase SpecQuery SpecView SpecSegmentation SpecSegment SpecCopy SpecCopySeg
  MeshBase MeshInv MeshReach MeshWf MeshErase MeshSimple SegmentInv SegmentProofs CopyBase CopySegBase CopySegProofs SegmentDemo MeshDemo.
Import ModelSegmentation ListNotations.
Open Scope nat_scope.

Lemma filter_true {A} (l : list A) : filter (fun _ => true) l = l.
Proof. induction l; cbn; congruence. Qed.
Lemma first_uses_nodup l : NoDup (first_uses l).
Proof. apply (fu_NoDup l []). constructor. Qed.
Lemma first_uses_in l x : In x (first_uses l) <-> In x l.
Proof. change (first_uses l) with (fu [] l). rewrite fu_In. simpl. tauto. Qed.
Lemma set_same {Pt} (st : @store Pt) x s : store_set st x s x = s.
Proof. unfold store_set. now rewrite Nat.eqb_refl. Qed.
Lemma set_other {Pt} (st : @store Pt) x s y : y <> x -> store_set st x s y = st y.
Proof. intros H. unfold store_set. apply Nat.eqb_neq in H. now rewrite H. Qed.
Lemma assign_is_copy {Pt} cfg x y (st : @store Pt) : x <> y ->
  sm_assign cfg x y st = rbind (copy_seg cfg (st y) (st x) (fun _ => true)) (fun s => Done (store_set (store_set st x (sm_clear (st x))) x s)).
Proof.
  intros H. unfold sm_assign. cbv zeta. rewrite set_same, set_other by auto. unfold copy_seg, sm_clear.
  destruct (rfold _ _ _); reflexivity.
Qed.

Lemma C70_copy_partial_pf : forall Pt cfg (st : @store Pt) x y, let src := st y in let t := cfg_cell cfg in
  x <> y -> t <> Hex -> t <> Vertex -> sreach cfg src -> (forall c, In c (range (st_mesh src) t) -> segment_ids src t c <> None) ->
  exists st' phi, sm_copy cfg x y st = Done st' /\ sreach cfg (st' x) /\ (forall z, z <> x -> st' z = st z) /\
    is_copy (st_mesh src) (st_mesh (st' x)) t (range (st_mesh src) t) phi /\
    Forall2 (same_segments src (st' x) t) (range (st_mesh src) t) (range (st_mesh (st' x)) t) /\
    (forall z, has_id (st_segs (st' x)) z <-> exists c, In c (range (st_mesh src) t) /\ in_segment_id src z t c).
Proof.
  intros Pt cfg st x y src t NE NH NV HR HE. unfold sm_copy. rewrite assign_is_copy, set_same, set_other by auto.
  destruct (C24_copy_partial_pf Pt cfg cfg (st y) empty_mesh (fun _ => true)) as (dst & phi & E & R & I & F & H); auto using reach_empty.
  { rewrite filter_true. exact HE. }
  rewrite filter_true in *. unfold sm_fresh. rewrite E. cbn [rbind]. eexists _, phi. split; [reflexivity|]. rewrite set_same. split; auto. split; auto.
  intros z Hz. now rewrite !set_other.
Qed.

Lemma C70_unrecorded_refuted_pf : forall Pt cfg (st : @store Pt) x y c, let src := st y in let t := cfg_cell cfg in
  x <> y -> t <> Hex -> t <> Vertex -> sreach cfg src -> In c (range (st_mesh src) t) -> segment_ids src t c = None ->
  sm_copy cfg x y st = Undefined.
Proof.
  intros Pt cfg st x y c src t NE NH NV HR HI HE. unfold sm_copy. rewrite assign_is_copy, set_same, set_other by auto. unfold sm_fresh.
  rewrite (C24_unrecorded_refuted_pf Pt cfg cfg (st y) empty_mesh (fun _ => true) c); auto using reach_empty.
Qed.

Lemma C70_isolated_vertex_refuted_pf : forall Pt cfg (st st' : @store Pt) x y v, let src := st y in let t := cfg_cell cfg in
  x <> y -> t <> Hex -> t <> Vertex -> sreach cfg src -> sm_copy cfg x y st = Done st' ->
  In v (range (st_mesh src) Vertex) -> (forall c vs, In c (range (st_mesh src) t) -> vertices_at (st_mesh src) t c = Some vs -> ~ In v vs) ->
  length (range (st_mesh (st' x)) Vertex) < length (range (st_mesh src) Vertex).
Proof.
  intros Pt cfg st st' x y v src t NE NH NV HR E Hv Hn.
  assert (HE : forall c, In c (range (st_mesh src) t) -> segment_ids src t c <> None).
  { intros c Hc Q. rewrite (C70_unrecorded_refuted_pf Pt cfg st x y c) in E; auto. discriminate. }
  destruct (C70_copy_partial_pf Pt cfg st x y) as (s2 & phi & E2 & _ & _ & I & _); auto. rewrite E2 in E. injection E as <-.
  rewrite (ic_verts _ _ _ _ _ I), map_length.
  assert (N : NoDup (v :: first_uses (corners (st_mesh src) t (range (st_mesh src) t)))).
  { constructor; [|apply first_uses_nodup]. intros Q. apply (proj1 (first_uses_in _ _)) in Q. unfold corners in Q. apply in_flat_map in Q as (c & Hc & Q).
    destruct (vertices_at (st_mesh src) t c) as [vs|] eqn:V; [|destruct Q]. exact (Hn c vs Hc V Q). }
  apply (NoDup_incl_length N). intros u [<-|Hu]; auto.
  apply (proj1 (first_uses_in _ _)) in Hu. destruct (ic_points _ _ _ _ _ I u Hu) as [P _]. apply range_deref. unfold point_at in P. change (st y) with src in P. destruct (deref (st_mesh src) Vertex u); [eauto|now elim P].
Qed.

Lemma C70_empty_segment_refuted_pf : forall Pt cfg (st st' : @store Pt) x y z, let src := st y in let t := cfg_cell cfg in
  x <> y -> t <> Hex -> t <> Vertex -> sreach cfg src -> sm_copy cfg x y st = Done st' ->
  has_id (st_segs src) z -> (forall c, ~ in_segment_id src z t c) -> ~ has_id (st_segs (st' x)) z.
Proof.
  intros Pt cfg st st' x y z src t NE NH NV HR E Hz Hn Q.
  assert (HE : forall c, In c (range (st_mesh src) t) -> segment_ids src t c <> None).
  { intros c Hc U. rewrite (C70_unrecorded_refuted_pf Pt cfg st x y c) in E; auto. discriminate. }
  destruct (C70_copy_partial_pf Pt cfg st x y) as (s2 & phi & E2 & _ & _ & _ & _ & H); auto. rewrite E2 in E. injection E as <-.
  apply H in Q as (c & _ & Q). exact (Hn c Q).
Qed.

Lemma C70_assign_again_refuted_pf : forall Pt cfg (st : @store Pt) x y, let src := st y in let t := cfg_cell cfg in
  x <> y -> t <> Hex -> t <> Vertex -> sreach cfg src -> (forall c, In c (range (st_mesh src) t) -> segment_ids src t c <> None) ->
  (exists c z, In c (range (st_mesh src) t) /\ in_segment_id src z t c) ->
  exists st', sm_copy cfg x y st = Done st' /\ sm_assign cfg x y st' = Thrown.
Proof.
  intros Pt cfg st x y src t NE NH NV HR HE HS.
  destruct (C24_twice_refuted_pf Pt cfg cfg (st y) empty_mesh (fun _ => true)) as (dst & E & T); auto using reach_empty.
  { rewrite filter_true. exact HE. } { rewrite filter_true. exact HS. }
  unfold sm_copy. rewrite assign_is_copy, set_same, set_other by auto. unfold sm_fresh. rewrite E. cbn [rbind]. eexists. split; [reflexivity|].
  rewrite assign_is_copy, set_same, !set_other by auto. now rewrite T.
Qed.

Lemma C70_self_refuted_pf : forall Pt cfg (st : @store Pt) x, exists st', sm_assign cfg x x st = Done st' /\
  (forall t, range (st_mesh (st' x)) t = []) /\ (forall z, ~ has_id (st_segs (st' x)) z) /\ (forall y, y <> x -> st' y = st y).
Proof.
  intros Pt cfg st x. unfold sm_assign. cbv zeta. rewrite set_same. change (range (st_mesh (sm_clear (st x))) (cfg_cell cfg)) with (@nil addr).
  cbn [rfold rbind fst]. eexists. split; [reflexivity|]. rewrite set_same. split; [reflexivity|]. split.
  - apply (C24_clear_pf Pt (with_mesh (st x) (clear_mesh (st_mesh (st x))))).
  - intros y Hy. now rewrite !set_other.
Qed.
