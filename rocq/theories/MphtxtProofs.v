(** Proofs of C71 and C72. *)
From Coq Require Import Reals List Arith ZArith Bool Lia Lra Relations Permutation Sorted.
From Verif Require Import ModelTopo ModelMesh ModelErase ModelGeom ModelVolume ModelQuery ModelView ModelSegmentation ModelSegment ModelMphtxt
  SpecMesh SpecErase SpecQuery SpecView SpecSegmentation SpecSegment SpecInterface SpecCopy SpecGeom SpecMphtxt
  MeshBase MeshInv MeshIds MeshReach MeshProofs MeshWf MeshErase CopyBase SegmentInv SegmentDemo SegmentProofs InterfaceBase InterfaceDemo
  MphtxtBase MphtxtLoop MphtxtFile MphtxtDemo.
Import ModelSegmentation ListNotations.
Open Scope nat_scope.

Lemma same_state cfg s s' : keeps cfg s s' -> sreach cfg s' /\ st_mesh s' = st_mesh s /\ st_segs s' = st_segs s /\
  forall b, k_view (st_con s' b) = k_view (st_con s b).
Proof. intros (R & [A B C D] & M). auto. Qed.

Lemma C71_contacts_pf : forall cfg s, cfg_cell cfg = Tet -> sreach cfg s -> (forall a, is_segment s a -> two_cells cfg s a) ->
  exists s' f n, mark_contacts cfg s = Some (s', f, n) /\
    (st_mesh s' = st_mesh s /\ st_segs s' = st_segs s /\ forall b, k_view (st_con s' b) = k_view (st_con s b)) /\
    (forall x, (f x = -1)%Z <-> forall a, is_segment s a -> ~ on_hull cfg s a x) /\
    (forall x a, is_segment s a -> on_hull cfg s a x -> (0 <= f x < n)%Z) /\
    (forall k, (0 <= k < n)%Z -> exists x, f x = k) /\
    (forall x y, (f x <> -1)%Z -> (f x = f y <-> patch cfg s x y)).
Proof.
  intros cfg s TC R T. destruct (mark_contacts_spec cfg TC s T R s (keeps_start cfg s R)) as (s' & f & n & E & K & P).
  exists s', f, n. split; auto. split; [apply (same_state cfg s s' K)|]. destruct P as [P1 P2 P3 P4 P5 P6 P7].
  split; [|split; [|split; auto]].
  - intros x. split.
    + intros E1 a Ha Hx. exact (P4 a x Ha Hx E1).
    + intros H. destruct (Z.eq_dec (f x) (-1)) as [E1|E1]; auto. destruct (P3 x E1) as (b & Hb & (? & ? & _ & O & _)). destruct (H b Hb O).
  - intros x a Ha Hx. destruct (P2 x) as [E1|E1]; auto. destruct (P4 a x Ha Hx E1).
  - intros x y Hx. split; [now apply P5|]. intros Q. unfold patch in Q. apply clos_rt_rt1n in Q. induction Q as [|x y z A Q IH]; auto.
    pose proof (P6 x y Hx A) as Exy. rewrite <- Exy. apply IH. congruence.
Qed.

Lemma C71_separate_segments_pf : forall cfg s x y, cfg_cell cfg = Tet -> sreach cfg s -> separate_segments cfg s ->
  (adjoining cfg s x y <-> (exists a, is_segment s a /\ on_hull cfg s a x) /\ (exists b, is_segment s b /\ on_hull cfg s b y) /\
    share (st_mesh s) Triangle Vertex x y /\
    (forall b, is_segment s b -> (in_segment s b Triangle x <-> in_segment s b Triangle y)) /\
    coplanar (st_mesh s) x y).
Proof.
  intros cfg s x y TC R (FC & SC & TW). split.
  - intros ((a & (l & r & E & H & F) & (l' & r' & E' & H' & F')) & Sh & Sm & Cp).
    split; [exists a; split; auto; unfold is_segment; rewrite E; apply in_elt|].
    split; [exists a; split; auto; unfold is_segment; rewrite E; apply in_elt|]. auto.
  - intros ((a & Ha & Hx) & (b & Hb & Hy) & Sh & Sm & Cp). split; auto.
    assert (FT : facet_tag (cfg_cell cfg) = Triangle) by now rewrite TC.
    (* in two segments: on the hull of each *)
    assert (Two : forall w c d, is_segment s c -> is_segment s d -> c <> d -> in_segment s c Triangle w -> in_segment s d Triangle w -> on_hull cfg s c w).
    { intros w c d Hc Hd N Ic Id. split; auto. destruct (FC c Hc w) as (u & Iu & Bu); [now rewrite FT|]. destruct (FC d Hd w) as (v & Iv & Bv); [now rewrite FT|].
      exists u. intros u'. split; [|intros ->; auto]. intros (Iu' & Bu').
      destruct (TW w u' u v Bu' Bu Bv) as [E|[E|E]]; auto; exfalso; apply N; [apply (SC c d u')|apply (SC c d u)]; auto; congruence. }
    assert (HY : forall c, is_segment s c -> (on_hull cfg s c x <-> on_hull cfg s c y)).
    { assert (Half : forall u w a b, is_segment s a -> is_segment s b -> on_hull cfg s a u -> on_hull cfg s b w ->
        (forall b, is_segment s b -> (in_segment s b Triangle u <-> in_segment s b Triangle w)) ->
        forall c, is_segment s c -> on_hull cfg s c u -> on_hull cfg s c w).
      { clear - Two. intros u w a b Ha Hb Hu Hw Sm c Hc Hcu. assert (Ic : in_segment s c Triangle w) by (apply Sm; auto; apply Hcu).
        destruct (Nat.eq_dec b c) as [->|N]; auto. apply (Two w c b); auto. apply Hw. }
      intros c Hc. split; [apply (Half x y a b); auto|apply (Half y x b a); auto]. intros d Hd. now rewrite (Sm d Hd). }
    assert (First : forall l r, segment_range (st_segs s) = l ++ r -> (forall c, In c l -> ~ on_hull cfg s c x) -> (exists c, In c r /\ on_hull cfg s c x) ->
      exists a, first_hull cfg s a x /\ first_hull cfg s a y).
    { intros l r. revert l. induction r as [|c r IH]; intros l E NL (c0 & Hc0 & Oc0); [destruct Hc0|].
      assert (Hc : is_segment s c) by (unfold is_segment; rewrite E; apply in_elt).
      assert (Dec : on_hull cfg s c x \/ ~ on_hull cfg s c x).
      { unfold on_hull, in_segment. destruct (one_cellb cfg s c x) eqn:O.
        - apply one_cellb_spec in O. destruct (in_dec Nat.eq_dec x (k_view (st_con s c) Triangle)); [left; auto|right; tauto].
        - right. intros (_ & H). apply one_cellb_spec in H. congruence. }
      destruct Dec as [O|O].
      - exists c. split; exists l, r; (split; [auto|]).
        + split; auto.
        + split; [now apply HY|]. intros d Hd Od. apply (NL d Hd). apply HY; auto. unfold is_segment. rewrite E. apply in_or_app. now left.
      - apply (IH (l ++ [c])).
        + now rewrite <- app_assoc.
        + intros d Hd. apply in_app_or in Hd as [Hd|[<-|[]]]; auto.
        + destruct Hc0 as [->|Hc0]; [contradiction|eauto]. }
    apply (First [] (segment_range (st_segs s)) eq_refl); [intros c []|]. exists a. auto.
Qed.

Lemma sqrt_le_by x y : (0 <= y -> x <= y * y -> sqrt x <= y)%R.
Proof. intros H1 H2. rewrite <- (sqrt_square y H1). now apply sqrt_le_1_alt. Qed.
Lemma sqrt_ge_by x y : (0 <= y -> y * y <= x -> y <= sqrt x)%R.
Proof. intros H1 H2. rewrite <- (sqrt_square y H1) at 1. now apply sqrt_le_1_alt. Qed.

Definition bent_pts (i : nat) : point := fun j =>
  match i, j with
  | 1, 0 => 1 | 2, 1 => 1 | 4, 0 => -1 | 5, 1 => 1 | 5, 2 => / 1000 | 7, 1 => -1 | 7, 2 => - (2 / 1000)
  | 3, 2 => -1 | 3, _ => / 3 | 6, 2 => -1 | 6, 0 => - / 3 | 6, _ => / 3 | 8, 2 => -1 | 8, _ => - / 3
  | _, _ => 0
  end%R.

Lemma bent_normals : let n := cross_prod (psub (bent_pts 1) (bent_pts 0)) (psub (bent_pts 2) (bent_pts 0)) in
  let k := cross_prod (psub (bent_pts 4) (bent_pts 0)) (psub (bent_pts 5) (bent_pts 0)) in
  let h := cross_prod (psub (bent_pts 4) (bent_pts 0)) (psub (bent_pts 7) (bent_pts 0)) in
  planar n k = true /\ planar k h = true /\ planar n h = false.
Proof.
  intros n k h. unfold planar. rewrite !inner_dot, !norm_dot.
  assert (A1 : dot 3 n n = 1%R) by (unfold n, dot, cross_prod, psub, bent_pts; cbn; field).
  assert (A2 : dot 3 k k = (1 + / 1000000)%R) by (unfold k, dot, cross_prod, psub, bent_pts; cbn; field).
  assert (A3 : dot 3 h h = (1 + 4 / 1000000)%R) by (unfold h, dot, cross_prod, psub, bent_pts; cbn; field).
  assert (A4 : dot 3 n k = (-1)%R) by (unfold n, k, dot, cross_prod, psub, bent_pts; cbn; field).
  assert (A5 : dot 3 k h = (- (1 + 2 / 1000000))%R) by (unfold k, h, dot, cross_prod, psub, bent_pts; cbn; field).
  assert (A6 : dot 3 n h = 1%R) by (unfold n, h, dot, cross_prod, psub, bent_pts; cbn; field).
  rewrite A1, A2, A3, A4, A5, A6, sqrt_1.
  replace (Rabs (-1)) with 1%R by (rewrite Rabs_left; lra). replace (Rabs (- (1 + 2 / 1000000))) with (1 + 2 / 1000000)%R by (rewrite Rabs_left; lra). rewrite Rabs_R1.
  assert (B1 : (sqrt (1 + / 1000000) <= 1 + 5 / 10000000)%R) by (apply sqrt_le_by; lra).
  assert (B2 : (sqrt (1 + 4 / 1000000) <= 1 + 2 / 1000000)%R) by (apply sqrt_le_by; lra).
  assert (B3 : (1 + 19 / 10000000 <= sqrt (1 + 4 / 1000000))%R) by (apply sqrt_ge_by; lra).
  assert (B4 : (0 <= sqrt (1 + / 1000000))%R) by apply sqrt_pos.
  assert (B5 : (sqrt (1 + / 1000000) * sqrt (1 + 4 / 1000000) <= (1 + 5 / 10000000) * (1 + 2 / 1000000))%R) by (apply Rmult_le_compat; auto; apply sqrt_pos).
  replace (10 ^ 6)%R with 1000000%R by ring.
  split; [|split].
  - destruct (Rgt_dec _ _) as [|N]; auto. exfalso. apply N. lra.
  - destruct (Rgt_dec _ _) as [|N]; auto. exfalso. apply N. rewrite Rmult_assoc. lra.
  - destruct (Rgt_dec _ _) as [G|]; auto. exfalso. lra.
Qed.

Lemma bent_patch (s : sstate point) p : sreach mp_cfg s -> segment_range (st_segs s) = [0] ->
  forallb (fun x => in_segmentb s 0 Triangle x && one_cellb mp_cfg s 0 x) [0; 4; 8] = true ->
  map (vertices_at (st_mesh s) Triangle) [0; 4; 8] = [Some [0;1;2]; Some [0;4;5]; Some [0;4;7]] ->
  map (point_at (st_mesh s)) [0;1;2;4;5;7] = map (fun i => Some (p i)) [0;1;2;4;5;7] ->
  planar (cross_prod (psub (p 1) (p 0)) (psub (p 2) (p 0))) (cross_prod (psub (p 4) (p 0)) (psub (p 5) (p 0))) = true ->
  planar (cross_prod (psub (p 4) (p 0)) (psub (p 5) (p 0))) (cross_prod (psub (p 4) (p 0)) (psub (p 7) (p 0))) = true ->
  planar (cross_prod (psub (p 1) (p 0)) (psub (p 2) (p 0))) (cross_prod (psub (p 4) (p 0)) (psub (p 7) (p 0))) = false ->
  on_hull mp_cfg s 0 0 /\ patch mp_cfg s 0 8 /\ ~ coplanar (st_mesh s) 0 8.
Proof.
  intros R SR HH VV PP N1 N2 N3. cbn [forallb map] in HH, VV, PP. injection VV as V0 V4 V8. injection PP as P0 P1 P2 P4 P5 P7.
  rewrite !andb_true_iff in HH. destruct HH as ((I0 & O0) & (I4 & O4) & (I8 & O8) & _).
  apply existsb_nat in I0, I4, I8. apply one_cellb_spec in O0, O4, O8.
  assert (H0 : on_hull mp_cfg s 0 0) by (split; auto). assert (H4 : on_hull mp_cfg s 0 4) by (split; auto). assert (H8 : on_hull mp_cfg s 0 8) by (split; auto).
  assert (F : forall x, on_hull mp_cfg s 0 x -> first_hull mp_cfg s 0 x) by (intros x Hx; exists [], []; split; [auto|split; [auto|intros b []]]).
  assert (S1 : is_segment s 0) by (unfold is_segment; rewrite SR; now left).
  assert (Sm : forall x y, in_segment s 0 Triangle x -> in_segment s 0 Triangle y -> forall b, is_segment s b -> (in_segment s b Triangle x <-> in_segment s b Triangle y)).
  { intros x y Ix Iy b Hb. unfold is_segment in Hb. rewrite SR in Hb. destruct Hb as [<-|[]]. tauto. }
  assert (C0 : has_corners (st_mesh s) Triangle 0 [p 0; p 1; p 2]) by (exists [0;1;2]; split; auto; cbn; congruence).
  assert (C4 : has_corners (st_mesh s) Triangle 4 [p 0; p 4; p 5]) by (exists [0;4;5]; split; auto; cbn; congruence).
  assert (C8 : has_corners (st_mesh s) Triangle 8 [p 0; p 4; p 7]) by (exists [0;4;7]; split; auto; cbn; congruence).
  assert (Sh : forall x y vs ws, x <> y -> vertices_at (st_mesh s) Triangle x = Some (0 :: vs) -> vertices_at (st_mesh s) Triangle y = Some (0 :: ws) -> share (st_mesh s) Triangle Vertex x y).
  { intros x y vs ws N Ex Ey. split; auto. exists 0. unfold vertices_at in Ex, Ey.
    destruct (deref (st_mesh s) Triangle x) as [e|] eqn:Dx; [|discriminate]. destruct (deref (st_mesh s) Triangle y) as [e'|] eqn:Dy; [|discriminate].
    cbn in Ex, Ey. split; [exists e|exists e']; (split; [auto|]); unfold has_boundary, boundary_of; [injection Ex as ->|injection Ey as ->]; now left. }
  split; auto. split.
  - eapply rt_trans; apply rt_step.
    + split; [exists 0; split; apply F; [exact H0|exact H4]|]. split; [eapply Sh; eauto|]. split; [apply Sm; auto|].
      apply (planar_iff _ 0 4 _ _ _ _ C0 (normal_cross _ _ _) C4 (normal_cross _ _ _)); auto.
    + split; [exists 0; split; apply F; [exact H4|exact H8]|]. split; [eapply Sh; eauto|]. split; [apply Sm; auto|].
      apply (planar_iff _ 4 8 _ _ _ _ C4 (normal_cross _ _ _) C8 (normal_cross _ _ _)); auto.
  - intros Q. apply (planar_iff _ 0 8 _ _ _ _ C0 (normal_cross _ _ _) C8 (normal_cross _ _ _)) in Q. congruence.
Qed.

Lemma fan_two_cells p : forall a, is_segment (fan p) a -> two_cells mp_cfg (fan p) a.
Proof. intros a Ha. unfold is_segment in Ha. rewrite fan_range in Ha. destruct Ha as [<-|[]]. apply two_cellsb_sound, fan_two. Qed.

Lemma C71_one_plane_refuted_pf : exists cfg s s' f n x y, cfg_cell cfg = Tet /\ sreach cfg s /\ (forall a, is_segment s a -> two_cells cfg s a) /\
  mark_contacts cfg s = Some (s', f, n) /\ f x <> (-1)%Z /\ f x = f y /\ ~ coplanar (st_mesh s) x y.
Proof.
  destruct (C71_contacts_pf mp_cfg (fan bent_pts) eq_refl (fan_reach _) (fan_two_cells _)) as (s' & f & n & E & _ & X1 & _ & _ & X2).
  destruct bent_normals as (N1 & N2 & N3).
  destruct (bent_patch (fan bent_pts) bent_pts (fan_reach _) (fan_range _) (fan_hull _) (fan_verts _) (fan_points _) N1 N2 N3) as (H0 & P & C).
  exists mp_cfg, (fan bent_pts), s', f, n, 0, 8. split; [reflexivity|]. split; [apply fan_reach|]. split; [apply fan_two_cells|]. split; [exact E|].
  assert (F0 : f 0 <> (-1)%Z).
  { intros E0. apply (proj1 (X1 0) E0 0); [|exact H0]. unfold is_segment. rewrite fan_range. now left. }
  split; [exact F0|]. split; [|exact C]. apply (X2 0 8 F0). exact P.
Qed.

Lemma pair_two_cells p : forall a, is_segment (pair_mesh p) a -> two_cells mp_cfg (pair_mesh p) a.
Proof.
  intros a Ha. unfold is_segment in Ha. rewrite pair_range in Ha. pose proof (pair_two p) as T. cbn [forallb] in T.
  apply andb_true_iff in T as [T0 T1]. apply andb_true_iff in T1 as [T1 _]. destruct Ha as [<-|[<-|[]]]; apply two_cellsb_sound; assumption.
Qed.

Lemma C72_file_partial_pf : forall cfg s, cfg_cell cfg = Tet -> cfg_keep cfg Triangle = true -> sreach cfg s ->
  (forall a, is_segment s a -> two_cells cfg s a) ->
  (forall c, In c (range (st_mesh s) Tet) -> exists a, is_segment s a /\ in_segment s a Tet c) ->
  exists s' F, write_mphtxt cfg s = Some (s', F) /\
    (st_mesh s' = st_mesh s /\ st_segs s' = st_segs s /\ forall b, k_view (st_con s' b) = k_view (st_con s b)) /\
    map (point_at (st_mesh s)) (range (st_mesh s) Vertex) = map Some (mp_points F) /\
    Forall2 (at_positions (st_mesh s) Tet) (range (st_mesh s) Tet) (mp_tets F) /\
    Forall2 (fun c d => exists a z, segment_has_id s a z /\ in_segment s a Tet c /\ d = (z + 1)%Z) (range (st_mesh s) Tet) (mp_domains F) /\
    exists hs, lists_exactly hs (fun x => exists a, is_segment s a /\ on_hull cfg s a x) /\ id_increasing (st_mesh s) Triangle hs /\
      Forall2 (at_positions (st_mesh s) Triangle) hs (mp_triangles F) /\
      Forall2 (fun x v => some_segment s (segment_side true cfg s x) (fst v) /\ some_segment s (segment_side false cfg s x) (snd v)) hs (mp_sides F) /\
      exists f, mp_contacts F = map f hs /\ (forall x, In x hs -> (0 <= f x)%Z) /\
        forall x y, In x hs -> In y hs -> (f x = f y <-> patch cfg s x y).
Proof.
  intros cfg s TC CK R T DOM. pose proof (reach0 cfg TC s R) as HR. pose proof (RefineMeshLoop.reach_wf cfg _ HR) as W.
  unfold write_mphtxt.
  assert (PT : exists pts, omap (fun n => e_pt (n_el n)) (m_nodes (st_mesh s) Vertex) = Some pts /\ map (point_at (st_mesh s)) (range (st_mesh s) Vertex) = map Some pts).
  { assert (P : pointed (st_mesh s)) by (apply (ereach_pointed cfg), reach_ereach; auto).
    assert (G : forall l, incl l (m_nodes (st_mesh s) Vertex) -> exists pts, omap (fun n => e_pt (n_el n)) l = Some pts /\ map (point_at (st_mesh s)) (map n_addr l) = map Some pts).
    { induction l as [|n l IH]; intros I; [exists []; auto|]. destruct IH as (pts & E & M); [intros x Hx; apply I; now right|].
      assert (Hn : In n (m_nodes (st_mesh s) Vertex)) by (apply I; now left). specialize (P n Hn). destruct (e_pt (n_el n)) as [q|] eqn:Eq; [|congruence].
      exists (q :: pts). cbn [omap map]. rewrite Eq, E. cbn [obind]. split; auto. rewrite M. f_equal.
      unfold point_at. rewrite (wf_In_deref cfg _ _ n W Hn). exact Eq. }
    apply G. apply incl_refl. }
  destruct PT as (pts & EP & MP). rewrite EP. cbn [obind].
  destruct (used_triangles_spec cfg TC CK s T R s (keeps_start cfg s R)) as (s1 & u & EU & K1 & LI). rewrite EU. cbn [obind fst snd].
  destruct (mark_contacts_spec cfg TC s T R s1 K1) as (s2 & f & n & EC & K2 & PA). rewrite EC. cbn [obind fst snd].
  destruct (same_state cfg s s2 K2) as (R2 & EM & ES & EV). rewrite EM.
  set (hs := map (fun i => ti_handle (snd i)) u).
  assert (HI : forall x, In x hs <-> exists a, is_segment s a /\ on_hull cfg s a x).
  { intros x. unfold hs. rewrite in_map_iff. split.
    - intros ((i & w) & <- & Hw). destruct (li_entry _ _ _ _ LI i w Hw) as (_ & (b & Hb & _ & Ob) & _). eauto.
    - intros (a & Ha & Hx). destruct (li_all _ _ _ _ LI a x Ha I Hx) as (w & Hw & Ew). eauto. }
  assert (INC : id_increasing (st_mesh s) Triangle hs).
  { exists (keys u). split; [|apply (li_sorted _ _ _ _ LI)]. unfold hs, keys.
    assert (G : forall l, incl l u -> Forall2 (fun a i => id_at (st_mesh s) Triangle a = Some i) (map (fun i => ti_handle (snd i)) l) (map fst l)).
    { induction l as [|[i w] l IH]; intros Hl; constructor; [|apply IH; intros x Hx; apply Hl; now right].
      apply (li_entry _ _ _ _ LI i w). apply Hl. now left. }
    apply G, incl_refl. }
  destruct (omap_forall2 (corner_indices (st_mesh s) Triangle) (at_positions (st_mesh s) Triangle) hs) as (tris & ET & FT).
  { intros x Hx. apply HI in Hx as (a & Ha & Hx). apply (corner_indices_spec cfg); auto; [discriminate|]. eapply (member_live cfg TC s R a); eauto. apply Hx. }
  rewrite ET. cbn [obind].
  destruct (omap_forall2 (corner_indices (st_mesh s) Tet) (at_positions (st_mesh s) Tet) (range (st_mesh s) Tet)) as (tets & EQ & FQ).
  { intros x Hx. apply (corner_indices_spec cfg); auto; [discriminate|]. now apply range_deref. }
  rewrite EQ. cbn [obind].
  destruct (omap_forall2 (domain s2) (fun c d => exists a z, segment_has_id s a z /\ in_segment s a Tet c /\ d = (z + 1)%Z) (range (st_mesh s) Tet)) as (doms & ED & FD).
  { intros c Hc. destruct (DOM c Hc) as (a & Ha & Hin). destruct (keeps_ids cfg TC s R s2 a Tet c K2 Ha Hin) as (l & El & _ & _ & Xl).
    unfold domain. rewrite El. cbn [obind]. destruct l as [|z l].
    - exfalso. destruct (has_some_id cfg TC s R a Ha) as (z & Hz). apply (Xl z). eauto.
    - exists (z + 1)%Z. split; auto. destruct (proj1 (Xl z) (or_introl eq_refl)) as (b & Hb & Ib). eauto. }
  rewrite ED. cbn [obind]. eexists s2, _. split; [reflexivity|]. split; [auto|]. cbn [mp_points mp_tets mp_domains mp_triangles mp_sides mp_contacts].
  split; auto. split; auto. split; auto. exists hs. split.
  { split; auto. eapply ViewBase.increasing_nodup; eauto. }
  split; auto. split; auto. split.
  - unfold hs. assert (G : forall l, incl l u -> Forall2 (fun x v => some_segment s (segment_side true cfg s x) (fst v) /\ some_segment s (segment_side false cfg s x) (snd v))
       (map (fun i => ti_handle (snd i)) l) (map (fun i => (ti_up (snd i), ti_down (snd i))) l)).
    { induction l as [|[i w] l IH]; intros Hl; constructor; [|apply IH; intros x Hx; apply Hl; now right]. cbn [fst snd].
      destruct (li_entry _ _ _ _ LI i w) as (_ & _ & U & D); [apply Hl; now left|].
      assert (SO : forall P v, side_ok s (fun b => True /\ P b) v -> some_segment s P v).
      { intros P v [[-> N]|(b & z & Hb & [_ Pb] & Ev)]; [left; split; auto; intros a Ha Pa; apply (N a Ha); auto|right; eauto]. }
      split; apply SO; assumption. }
    apply G, incl_refl.
  - exists f. split; [unfold hs; now rewrite map_map|]. destruct PA as [P1 P2 P3 P4 P5 P6 P7].
    assert (NM : forall x, In x hs -> f x <> (-1)%Z) by (intros x Hx; apply HI in Hx as (a & Ha & Hx); apply (P4 a x Ha Hx)).
    split; [intros x Hx; destruct (P2 x); [exfalso; now apply (NM x)|lia]|].
    intros x y Hx Hy. split; [now apply P5; auto|]. intros Q. unfold patch in Q. apply clos_rt_rt1n in Q. pose proof (NM x Hx) as Nx. clear Hx Hy.
    induction Q as [|x y z A Q IH]; auto. pose proof (P6 x y Nx A) as Exy. rewrite <- Exy. apply IH. congruence.
Qed.

Lemma C72_no_segment_refuted_pf : forall cfg s c, cfg_cell cfg = Tet -> cfg_keep cfg Triangle = true -> sreach cfg s -> (forall a, is_segment s a -> two_cells cfg s a) ->
  In c (range (st_mesh s) Tet) -> (forall a, is_segment s a -> ~ in_segment s a Tet c) -> write_mphtxt cfg s = None.
Proof.
  intros cfg s c TC CK R T Hc NS. unfold write_mphtxt. destruct (omap _ _) as [pts|]; [|reflexivity]. cbn [obind].
  destruct (used_triangles_spec cfg TC CK s T R s (keeps_start cfg s R)) as (s1 & u & EU & K1 & _). rewrite EU. cbn [obind fst snd].
  destruct (mark_contacts_spec cfg TC s T R s1 K1) as (s2 & f & n & EC & K2 & _). rewrite EC. cbn [obind fst snd].
  destruct (omap _ _) as [tris|]; [|reflexivity]. cbn [obind]. destruct (omap _ _) as [tets|]; [|reflexivity]. cbn [obind].
  assert (KM : st_mesh s2 = st_mesh s /\ st_map s2 = st_map s) by (destruct K2 as (_ & [A _ _ _] & M); auto).
  destruct KM as [EM EP]. rewrite EM.
  assert (DN : domain s2 c = None).
  { unfold domain. assert (E : segment_ids s2 Tet c = segment_ids s Tet c) by (unfold segment_ids; now rewrite EM, EP). rewrite E.
    destruct (segment_ids s Tet c) as [l|] eqn:El; [|reflexivity]. cbn [obind].
    destruct (C20_segment_ids_pf point cfg s Tet c (NHex cfg TC) R) as [X _]. destruct (X l El) as [_ Xl].
    destruct l as [|z l]; auto. exfalso. destruct (proj1 (Xl z) (or_introl eq_refl)) as (a & Ha & Ia). apply (NS a); auto. apply Ha. }
  assert (G : forall l, In c l -> omap (domain s2) l = None).
  { induction l as [|x l IH]; intros H; [destruct H|]. cbn [omap]. destruct H as [->|H]; [now rewrite DN|]. rewrite (IH H). destruct (domain s2 x); reflexivity. }
  now rewrite (G _ Hc).
Qed.
