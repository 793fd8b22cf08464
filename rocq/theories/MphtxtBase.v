(** The Comsol writer: sorted lists of ids, corners, and what the queries keep. *)
From Coq Require Import Reals List Arith ZArith Bool Lia Lra Relations Permutation.
From Verif Require Import ModelTopo ModelMesh ModelErase ModelGeom ModelVolume ModelQuery ModelView ModelSegmentation ModelSegment ModelMphtxt
  SpecMesh SpecErase SpecQuery SpecView SpecSegmentation SpecSegment SpecInterface SpecCopy SpecGeom SpecMphtxt
  MeshBase MeshInv MeshIds MeshReach MeshProofs MeshWf MeshErase MeshSimple QueryBase QueryBnd ViewBase
  SegmentationBase SegmentView SegmentBase SegmentInv SegmentStep SegmentProofs InterfaceBase RefineMeshLoop CopyBase CopyBase UniqueProofs CenterProofs.
Import ModelSegmentation ListNotations.
Open Scope nat_scope.

(** ** Lists of ids *)
Lemma insert_perm z l : Permutation (insert_id z l) (z :: l).
Proof.
  induction l as [|y l IH]; cbn; auto. destruct (z <=? y)%Z; auto.
  eapply perm_trans; [apply perm_skip, IH|apply perm_swap].
Qed.
Lemma sort_perm l : Permutation (sort_ids l) l.
Proof. induction l as [|z l IH]; cbn; auto. eapply perm_trans; [apply insert_perm|now apply perm_skip]. Qed.
Lemma insert_comm x y l : insert_id x (insert_id y l) = insert_id y (insert_id x l).
Proof.
  induction l as [|z l IH]; cbn [insert_id].
  - destruct (Z.leb_spec x y), (Z.leb_spec y x); auto; try lia. assert (x = y) by lia. now subst.
  - destruct (Z.leb_spec y z), (Z.leb_spec x z); cbn [insert_id].
    + destruct (Z.leb_spec x y), (Z.leb_spec y x); cbn [insert_id];
        repeat match goal with |- context [(?a <=? ?b)%Z] => destruct (Z.leb_spec a b) end; try lia; auto.
      assert (x = y) by lia. now subst.
    + repeat match goal with |- context [(?a <=? ?b)%Z] => destruct (Z.leb_spec a b) end; try lia; auto.
    + repeat match goal with |- context [(?a <=? ?b)%Z] => destruct (Z.leb_spec a b) end; try lia; auto.
    + repeat match goal with |- context [(?a <=? ?b)%Z] => destruct (Z.leb_spec a b) end; try lia; auto.
      now rewrite IH.
Qed.
Lemma sort_ids_perm l r : Permutation l r -> sort_ids l = sort_ids r.
Proof.
  induction 1; [reflexivity| | |congruence].
  - change (insert_id x (sort_ids l) = insert_id x (sort_ids l')). now rewrite IHPermutation.
  - apply insert_comm.
Qed.
Lemma eq_ids_iff a : forall b, eq_ids a b = true <-> a = b.
Proof.
  induction a as [|x a IH]; intros [|y b]; cbn; try (split; [discriminate|discriminate]); try tauto.
  rewrite andb_true_iff, IH, Z.eqb_eq. split; [intros [-> ->]; auto|]. intros E. injection E as -> ->. auto.
Qed.
Lemma ids_equal_iff a b : NoDup a -> NoDup b -> (ids_equal a b = true <-> forall z, In z a <-> In z b).
Proof.
  intros Na Nb. unfold ids_equal. rewrite andb_true_iff, eq_ids_iff, Nat.eqb_eq. split.
  - intros [_ E] z. assert (P : Permutation a b).
    { eapply perm_trans; [symmetry; apply sort_perm|]. rewrite E. apply sort_perm. }
    split; apply Permutation_in; auto. now symmetry.
  - intros H. assert (P : Permutation a b) by now apply NoDup_Permutation. split; [now apply Permutation_length|now apply sort_ids_perm].
Qed.

(** ** Corners *)
Lemma live_corners cfg (m : @mesh point) t x : reach cfg m -> t <> Vertex -> is_live m t x ->
  exists ps, corner_points m t x = Some ps /\ has_corners m t x ps /\ length ps = nverts t.
Proof.
  intros HR NV (e & D). unfold corner_points. rewrite D. cbn [obind].
  destruct (C03_vertices_stored_pf point cfg m HR t x e NV D) as (L & _ & F).
  assert (P : pointed m) by (apply (ereach_pointed cfg), reach_ereach; auto).
  assert (X : forall vs, Forall (is_live m Vertex) vs -> exists ps, omap (fun v => obind (deref m Vertex v) e_pt) vs = Some ps /\ map (point_at m) vs = map Some ps).
  { induction 1 as [|v vs (ev & Dv) _ IH]; [exists []; auto|]. destruct IH as (ps & E & M). unfold point_at in *. cbn [omap map]. rewrite Dv. cbn [obind].
    destruct (e_pt ev) as [p|] eqn:Ep.
    - exists (p :: ps). cbn [obind]. rewrite E. cbn [obind map]. split; auto. now rewrite M.
    - exfalso. apply deref_In in Dv as (n & Hn & _ & En). specialize (P n Hn). congruence. }
  destruct (X _ F) as (ps & E & M). exists ps. split; [exact E|]. split.
  - exists (e_verts e). split; auto. unfold vertices_at. now rewrite D.
  - rewrite <- L, <- (map_length (point_at m)), M. now rewrite map_length.
Qed.

Lemma corners_fun (m : @mesh point) t x ps qs : has_corners m t x ps -> has_corners m t x qs -> ps = qs.
Proof.
  intros (vs & E & M) (ws & E' & M'). rewrite E in E'. injection E' as <-. rewrite M in M'.
  clear - M'. revert qs M'. induction ps as [|p ps IH]; intros [|q qs] M'; cbn in M'; try discriminate; auto.
  injection M' as -> M'. f_equal. auto.
Qed.

Lemma normal_cross p0 p1 p2 : normal_of [p0; p1; p2] (cross_prod (psub p1 p0) (psub p2 p0)).
Proof. exists p0, p1, p2. repeat split; reflexivity. Qed.

Lemma inner_dot n k : inner_prod 3 n k = dot 3 n k.
Proof. unfold inner_prod, dot. cbn. lra. Qed.
Lemma norm_dot n : norm_2 3 n = sqrt (dot 3 n n).
Proof. unfold norm_2. f_equal. unfold dot. cbn. lra. Qed.

Lemma normal_dot ps n n' k k' qs : normal_of ps n -> normal_of ps n' -> normal_of qs k -> normal_of qs k' -> dot 3 n k = dot 3 n' k'.
Proof.
  intros (a & b & c & -> & H0 & H1 & H2) (a' & b' & c' & E & H0' & H1' & H2'). injection E as <- <- <-.
  intros (u & v & w & -> & K0 & K1 & K2) (u' & v' & w' & E & K0' & K1' & K2'). injection E as <- <- <-.
  unfold dot. cbn. rewrite H0, H1, H2, K0, K1, K2, H0', H1', H2', K0', K1', K2'. reflexivity.
Qed.

Lemma live_normal cfg (m : @mesh point) x : reach cfg m -> is_live m Triangle x ->
  exists n ps, triangle_normal m x = Some n /\ has_corners m Triangle x ps /\ normal_of ps n /\ corner_points m Triangle x = Some ps.
Proof.
  intros HR L. destruct (live_corners cfg m Triangle x HR) as (ps & E & H & Len); auto; [discriminate|].
  destruct ps as [|p0 [|p1 [|p2 [|? ?]]]]; try discriminate. exists (cross_prod (psub p1 p0) (psub p2 p0)), [p0; p1; p2].
  unfold triangle_normal. rewrite E. cbn [obind]. split; auto. split; auto. split; auto. apply normal_cross.
Qed.

Lemma planar_iff (m : @mesh point) x y ps qs n k :
  has_corners m Triangle x ps -> normal_of ps n -> has_corners m Triangle y qs -> normal_of qs k ->
  (planar n k = true <-> coplanar m x y).
Proof.
  intros Hx Nx Hy Ny. unfold planar. rewrite inner_dot, !norm_dot. destruct (Rgt_dec _ _) as [G|G]; split; auto; try discriminate.
  - intros _. exists ps, qs, n, k. auto.
  - intros (ps' & qs' & n' & k' & Hx' & Hy' & Nx' & Ny' & G'). exfalso. apply G.
    rewrite (corners_fun _ _ _ _ _ Hx' Hx) in Nx'. rewrite (corners_fun _ _ _ _ _ Hy' Hy) in Ny'.
    rewrite (normal_dot ps n n' k k' qs), (normal_dot ps n n' n n' ps), (normal_dot qs k k' k k' qs); auto.
Qed.

Lemma coplanar_sym (m : @mesh point) x y : coplanar m x y -> coplanar m y x.
Proof.
  intros (ps & qs & n & k & Hx & Hy & Nx & Ny & G). exists qs, ps, k, n. repeat split; auto.
  replace (dot 3 k n) with (dot 3 n k) by (unfold dot; cbn; lra).
  replace ((1 - / 10 ^ 6) * sqrt (dot 3 k k) * sqrt (dot 3 n n))%R with ((1 - / 10 ^ 6) * sqrt (dot 3 n n) * sqrt (dot 3 k k))%R by ring. exact G.
Qed.

(** ** The first segment *)
Lemma first_hull_unique cfg s a b x : first_hull cfg s a x -> first_hull cfg s b x -> a = b.
Proof.
  intros (l & r & E & H & F) (l' & r' & E' & H' & F'). rewrite E in E'. clear E.
  revert l' E' F'. induction l as [|c l IH]; intros [|c' l'] E' F'; cbn in E'.
  - congruence.
  - injection E' as -> _. exfalso. apply (F' c'); [now left|auto].
  - injection E' as -> _. exfalso. apply (F b); [now left|auto].
  - injection E' as -> E'. apply (IH (fun b Hb => F b (or_intror Hb)) l'); auto. intros b0 Hb. apply F'. now right.
Qed.

Lemma adjoining_sym cfg s x y : adjoining cfg s x y -> adjoining cfg s y x.
Proof.
  intros ((a & Hx & Hy) & (N & k & Bx & By) & Sm & C). split; [eauto|]. split.
  - split; [congruence|eauto].
  - split; [|now apply coplanar_sym]. intros b Hb. now rewrite (Sm b Hb).
Qed.

Lemma clos_sym cfg s x y : patch cfg s x y -> patch cfg s y x.
Proof. induction 1; [apply rt_step, adjoining_sym; auto|apply rt_refl|eapply rt_trans; eauto]. Qed.

(** ** States that differ in the caches only *)
Section Keep.
Variable cfg : config.
Hypothesis TC : cfg_cell cfg = Tet.
Variable s0 : sstate point.
Hypothesis T0 : forall a, is_segment s0 a -> two_cells cfg s0 a.

Lemma NHex : cfg_cell cfg <> Hex.
Proof. rewrite TC. discriminate. Qed.

Definition keeps (s : sstate point) : Prop := sreach cfg s /\ alike s0 s /\ st_map s = st_map s0.

Lemma keeps_cache s a k : keeps s -> k_view k = k_view (st_con s a) -> k_cc k = k_cc (st_con s a) ->
  sreach cfg (set_con s a k) -> keeps (set_con s a k).
Proof.
  intros (R & A & M) V C R'. split; auto. split; auto. eapply alike_trans; eauto.
  constructor; auto; intros b; cbn; unfold upd_con; destruct (Nat.eqb_spec a b) as [<-|]; auto.
Qed.

Lemma keeps_seg s a : keeps s -> is_segment s0 a -> is_segment s a.
Proof. intros (_ & A & _). unfold is_segment. now rewrite (al_segs _ _ A). Qed.
Lemma keeps_in s a t x : keeps s -> (in_segment s a t x <-> in_segment s0 a t x).
Proof. intros (_ & A & _). unfold in_segment. now rewrite (al_view _ _ A). Qed.

Lemma keeps_bnd s a x : keeps s -> is_segment s0 a -> in_segment s0 a Triangle x ->
  exists k r, seg_bnd cfg Triangle (st_mesh s) (st_con s a) x = Some (k, r) /\ keeps (set_con s a k) /\
    (r = true <-> on_hull cfg s0 a x).
Proof.
  intros K Ha Hx. pose proof (keeps_seg s a K Ha) as Ha'. pose proof (proj2 (keeps_in s a Triangle x K) Hx) as Hx'.
  destruct K as (R & A & M). assert (FT : Triangle = facet_tag (cfg_cell cfg)) by now rewrite TC.
  destruct (C46_boundary_pf point cfg s a Triangle x NHex R Ha' Hx' (or_introl FT) (alike_two cfg s0 s a A (T0 a Ha))) as (k & r & E & V & X).
  exists k, r. split; auto.
  assert (CC : k_cc k = k_cc (st_con s a)).
  { unfold seg_bnd in E. destruct (seg_q _ _) as [q|]; [|discriminate]. cbn in E. destruct (query_bnd_in _ _ _ _ _); [|discriminate].
    cbn in E. inversion E; subst. reflexivity. }
  split.
  - apply keeps_cache; auto; [split; auto|]. apply (sr_step cfg s (SBnd a Triangle x)); auto.
    + split; auto.
    + cbn [sstep]. now rewrite E.
  - rewrite X. unfold on_boundary_of. rewrite <- FT. cbn [tag_eqb]. rewrite (alike_one cfg s0 s a x A). unfold on_hull. tauto.
Qed.

Lemma keeps_nb s a x : keeps s -> is_segment s0 a -> in_segment s0 a Triangle x ->
  exists k l, seg_nb true Triangle Vertex (st_mesh s) (st_con s a) x = Some (k, l) /\ keeps (set_con s a k) /\
    forall y, In y l <-> in_segment s0 a Triangle y /\ share (st_mesh s0) Triangle Vertex x y.
Proof.
  intros K Ha Hx. pose proof (keeps_seg s a K Ha) as Ha'. pose proof (proj2 (keeps_in s a Triangle x K) Hx) as Hx'.
  pose proof K as (R & A & M).
  destruct (C46_neighbors_pf point cfg s a true Triangle Vertex x NHex R Ha' Hx') as (k & l & E & V & N & X).
  exists k, l. split; auto.
  assert (CC : k_cc k = k_cc (st_con s a)).
  { unfold seg_nb in E. destruct (seg_q _ _) as [q|]; [|discriminate]. cbn in E. destruct (query_nb_in _ _ _ _ _ _); [|discriminate].
    cbn in E. inversion E; subst. reflexivity. }
  split.
  - apply keeps_cache; auto. apply (sr_step cfg s (SNb a true Triangle Vertex x)); auto.
    + split; auto.
    + cbn [sstep]. now rewrite E.
  - intros y. rewrite X, (keeps_in s a Triangle y K). now rewrite (al_mesh _ _ A).
Qed.

Lemma keeps_cob s a x : keeps s -> is_segment s0 a -> in_segment s0 a Triangle x ->
  exists k l, seg_cob true Triangle Tet (st_mesh s) (st_con s a) x = Some (k, l) /\ keeps (set_con s a k) /\
    lists_exactly l (fun c => in_segment s0 a Tet c /\ bounded_by (st_mesh s0) Tet c Triangle x).
Proof.
  intros K Ha Hx. pose proof (keeps_seg s a K Ha) as Ha'. pose proof (proj2 (keeps_in s a Triangle x K) Hx) as Hx'.
  pose proof K as (R & A & M).
  destruct (C46_coboundary_pf point cfg s a true Triangle Tet x NHex R Ha' Hx') as (k & l & E & V & X).
  exists k, l. split; auto.
  assert (CC : k_cc k = k_cc (st_con s a)).
  { unfold seg_cob in E. destruct (seg_q _ _) as [q|]; [|discriminate]. cbn in E. destruct (query_cob_in _ _ _ _ _ _); [|discriminate].
    cbn in E. inversion E; subst. reflexivity. }
  split.
  - apply keeps_cache; auto. apply (sr_step cfg s (SCob a true Triangle Tet x)); auto.
    + split; auto.
    + cbn [sstep]. now rewrite E.
  - eapply lists_exactly_iff; [|exact X]. intros y. cbn. now rewrite (keeps_in s a Tet y K), (al_mesh _ _ A).
Qed.

Hypothesis R0 : sreach cfg s0.

Lemma keeps_start : keeps s0.
Proof. split; auto. split; [apply alike_refl|auto]. Qed.

Lemma reach0 : reach cfg (st_mesh s0).
Proof. pose proof (sreach_inv cfg NHex s0 R0) as I. apply (si_reach _ _ I). Qed.

Lemma member_live a t x : is_segment s0 a -> in_segment s0 a t x -> is_live (st_mesh s0) t x.
Proof.
  intros Ha Hx. destruct (C20_closure_pf point cfg s0 a NHex R0 Ha) as (_ & G & _). eapply (proj1 (Forall_forall _ _) (increasing_live _ _ _ (G t))); eauto.
Qed.

Lemma keeps_ids s a t x : keeps s -> is_segment s0 a -> in_segment s0 a t x ->
  exists l, segment_ids s t x = Some l /\ segment_ids s0 t x = Some l /\ NoDup l /\ forall z, In z l <-> exists b, segment_has_id s0 b z /\ in_segment s0 b t x.
Proof.
  intros (R & A & M) Ha Hx.
  assert (E : segment_ids s t x = segment_ids s0 t x) by (unfold segment_ids; now rewrite M, (al_mesh _ _ A)).
  destruct (C20_segment_ids_pf point cfg s0 t x NHex R0) as [X Y]. specialize (Y a Ha Hx).
  destruct (segment_ids s0 t x) as [l|] eqn:El; [|congruence]. exists l. rewrite E. destruct (X l eq_refl). auto.
Qed.

Lemma has_id_inj a b z : segment_has_id s0 a z -> segment_has_id s0 b z -> a = b.
Proof.
  pose proof (sreach_inv cfg NHex s0 R0) as I.
  intros (_ & Ha) (_ & Hb). apply (id_in_ids _ _ _ (si_g cfg s0 I)) in Ha, Hb. eapply ids_inj; eauto. apply I.
Qed.
Lemma has_some_id a : is_segment s0 a -> exists z, segment_has_id s0 a z.
Proof.
  intros Ha. pose proof (sreach_inv cfg NHex s0 R0) as I. destruct (seg_of cfg s0 a I Ha) as (z & nm & Hz & F). exists z. split; auto.
  apply (id_in_ids _ _ _ (si_g cfg s0 I)); auto.
Qed.

Lemma same_segments a t x y lx ly : is_segment s0 a -> in_segment s0 a t x -> in_segment s0 a t y ->
  segment_ids s0 t x = Some lx -> segment_ids s0 t y = Some ly ->
  (ids_equal lx ly = true <-> forall b, is_segment s0 b -> (in_segment s0 b t x <-> in_segment s0 b t y)).
Proof.
  intros Ha Hx Hy Ex Ey. destruct (C20_segment_ids_pf point cfg s0 t x NHex R0) as [X _], (C20_segment_ids_pf point cfg s0 t y NHex R0) as [Y _].
  destruct (X lx Ex) as [Nx Ix], (Y ly Ey) as [Ny Iy]. rewrite ids_equal_iff; auto. split.
  - intros H b Hb. destruct (has_some_id b Hb) as (z & Hz).
    split; intros G; [assert (In z ly) as Q by (apply H, Ix; eauto); apply Iy in Q|assert (In z lx) as Q by (apply H, Iy; eauto); apply Ix in Q];
      destruct Q as (b' & Hz' & G'); now rewrite (has_id_inj b b' z Hz Hz').
  - intros H z. rewrite Ix, Iy. split; intros (b & Hz & G); exists b; split; auto; apply (H b); auto; apply Hz.
Qed.

End Keep.
