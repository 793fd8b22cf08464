(** C64-C66: Voronoi quantities. *)
From Coq Require Import Reals List Arith Bool Lia Lra Permutation Classical_Prop.
From Verif Require Import ModelTopo ModelMesh ModelErase ModelQuery ModelGeom ModelVolume ModelDistance ModelSurface ModelVoronoi
  SpecMesh SpecErase SpecQuery SpecCopy SpecRefine SpecGeom SpecDistance SpecSurface SpecVoronoi.
From Verif Require Import MeshBase MeshInv MeshWf MeshErase MeshSimple MeshProofs CopyBase QueryBase QueryProofs VolumeProofs CenterProofs DistanceProofs.
From Verif Require Import RefineMeshLoop VtkLink VoronoiGeom VoronoiUpd VoronoiTri VoronoiMesh VoronoiStep VoronoiLoop VoronoiEdge VoronoiGap VoronoiOther VoronoiHex.
Import ListNotations.
Local Open Scope R_scope.

Lemma proper_cr m c e p0 p1 p2 : proper_cells 2 m Triangle -> deref m Triangle c = Some e -> cell_points m e = Some [p0; p1; p2] -> cr p0 p1 p2 <> 0.
Proof.
  intros P D CP E. apply (P c); [now exists e|]. exists [p0; p1; p2]. assert (NV : Triangle <> Vertex) by discriminate. split; [now apply (cell_has m Triangle c e)|].
  cbn [shape_of volume_cell]. rewrite sv3, E, Rabs_R0. f_equal. lra.
Qed.
Lemma range_NoDup cfg (m : @mesh point) t : reach cfg m -> NoDup (range m t).
Proof. intros H. apply (reach_wf cfg _ H). Qed.
Lemma exact_perm {P : addr -> Prop} l l' : lists_exactly l P -> lists_exactly l' P -> Permutation l l'.
Proof. intros [N H] [N' H']. apply NoDup_Permutation; auto. intros x. rewrite H, H'. reflexivity. Qed.
Lemma range_exact cfg (m : @mesh point) t : reach cfg m -> lists_exactly (range m t) (is_live m t).
Proof. intros H. split; [now apply (range_NoDup cfg)|]. intros a. apply range_is_live. Qed.
Lemma has_volume_fun d m t a x y : has_volume d m t a x -> has_volume d m t a y -> x = y.
Proof. intros (ps & H1 & E1) (qs & H2 & E2). pose proof (has_points_fun m t a _ _ H1 H2) as <-. congruence. Qed.
(** Two lists of the same things and their values. *)
Lemma perm_values {A} (V : A -> R -> Prop) (f : forall a x y, V a x -> V a y -> x = y) l l' xs xs' : Permutation l l' -> Forall2 V l xs -> Forall2 V l' xs' -> Rsum xs = Rsum xs'.
Proof.
  intros P. revert xs xs'. induction P as [|a l l' P IH|a b l|l1 l2 l3 P1 IH1 P2 IH2]; intros xs xs' F F'.
  - inversion F; inversion F'; subst. reflexivity.
  - inversion F as [|? x ? xr V1 F1]; inversion F' as [|? y ? yr V2 F2]; subst. rewrite !Rsum_cons, (IH _ _ F1 F2). now rewrite (f _ _ _ V1 V2).
  - inversion F as [|? x1 ? xr V1 F1]; subst. inversion F1 as [|? x2 ? xrr V2 F2]; subst. inversion F' as [|? y1 ? yr W1 G1]; subst. inversion G1 as [|? y2 ? yrr W2 G2]; subst.
    rewrite !Rsum_cons. rewrite (f _ _ _ V1 W2), (f _ _ _ V2 W1). assert (Rsum xrr = Rsum yrr); [|lra]. clear - f F2 G2. revert yrr G2. induction F2 as [|a x l xs V1 F IH]; intros ys G; inversion G; subst; [reflexivity|].
    rewrite !Rsum_cons. rewrite (f a x y) by auto. f_equal. auto.
  - assert (X : exists ys, Forall2 V l2 ys).
    { clear - P1 F. revert xs F. induction P1 as [|a l l' P IH|a b l|l1 l2 l3 P1 IH1 P2 IH2]; intros xs F.
      - exists []. constructor.
      - inversion F as [|? x ? xr V1 F1]; subst. destruct (IH _ F1) as (ys & H). exists (x :: ys). constructor; auto.
      - inversion F as [|? x1 ? xr V1 F1]; subst. inversion F1 as [|? x2 ? xrr V2 F2]; subst. exists (x2 :: x1 :: xrr). repeat constructor; auto.
      - destruct (IH1 _ F) as (ys & H). eauto. }
    destruct X as (ys & H). rewrite (IH1 _ _ F H). auto.
Qed.

Lemma classic_open m c : (exists h a b z C, edge_of_cell m h c a b z /\ centered C a b z /\ gamma a b z C < 0 /\ lonely m h c) \/ ~ (exists h a b z C, edge_of_cell m h c a b z /\ centered C a b z /\ gamma a b z C < 0 /\ lonely m h c).
Proof. apply Classical_Prop.classic. Qed.

Section Tri.
Variables (cfg : config) (q : qstate point) (s : store).
Hypothesis Q : qreach cfg q.
Hypothesis R : reach cfg (q_mesh q).
Hypothesis K : cfg_keep cfg Line = true.
Hypothesis PR : proper_cells 2 (q_mesh q) Triangle.
Lemma run_triangles : exists q2 s2 rcs, voronoi_triangles q s = Some (q2, s2) /\ qreach cfg q2 /\ q_mesh q2 = q_mesh q /\ Forall2 (tri_at (q_mesh q)) (range (q_mesh q) Triangle) rcs /\
    (forall k x, increase s s2 k x = all_parts k rcs x) /\
    (forall k x, k <> InterfaceArea \/ Forall (fun rc => snd rc) rcs -> con_sum (vo_con s2 k x) = con_sum (vo_con s k x) + increase s s2 k x) /\
    ((forall k x, NoDup (map fst (vo_con s k x))) -> forall k x, NoDup (map fst (vo_con s2 k x))) /\
    (forall k x c, In c (map fst (vo_con s2 k x)) -> In c (map fst (vo_con s k x)) \/ is_live (q_mesh q) Triangle c).
Proof.
  destruct (triangles_loop cfg (q_mesh q) R K (fun c e p0 p1 p2 => proper_cr (q_mesh q) c e p0 p1 p2 PR) (range (q_mesh q) Triangle) q s Q eq_refl) as (q2 & s2 & rcs & E & Q2 & M2 & F & V & C & N & KE).
  { intros c. apply range_is_live. }
  assert (INC : forall k x, increase s s2 k x = all_parts k rcs x) by (intros k x; unfold increase; rewrite V; lra).
  exists q2, s2, rcs. split; [exact E|]. split; auto. split; auto. split; auto. split; auto. split; [|auto]. intros k x H. rewrite INC. now apply C.
Qed.
End Tri.

Lemma C64_triangles_pf : forall cfg q s, qreach cfg q -> reach cfg (q_mesh q) -> cfg_keep cfg Line = true -> proper_cells 2 (q_mesh q) Triangle ->
  exists q' s', voronoi_triangles q s = Some (q', s') /\ q_mesh q' = q_mesh q /\ qreach cfg q' /\
    forall vs es cs xs, lists_exactly vs (is_live (q_mesh q) Vertex) -> lists_exactly es (is_live (q_mesh q) Line) ->
      lists_exactly cs (is_live (q_mesh q) Triangle) -> Forall2 (has_volume 2 (q_mesh q) Triangle) cs xs ->
      Rsum (map (increase s s' VertexBox) vs) = Rsum xs /\ Rsum (map (increase s s' EdgeBox) es) = Rsum xs.
Proof.
  intros cfg q s Q R K PR. destruct (run_triangles cfg q s Q R K PR) as (q2 & s2 & rcs & E & Q2 & M2 & F & V & C & N & KE).
  exists q2, s2. split; auto. split; auto. split; auto. intros vs es cs xs [NV HV] [NE HE] HC FX.
  assert (TOT : Rsum (map (fun rc => Rsum (map both (fst rc))) rcs) = Rsum xs).
  { assert (FV : Forall2 (has_volume 2 (q_mesh q) Triangle) (range (q_mesh q) Triangle) (map (fun rc => Rsum (map both (fst rc))) rcs)).
    { clear - F R K. induction F as [|c rc cs rcs T F IH]; constructor; auto. destruct (tri_at_volume (q_mesh q) c rc T) as (x & HX & <-). exact HX. }
    apply (perm_values _ (fun a x y => has_volume_fun 2 (q_mesh q) Triangle a x y) _ cs _ xs (exact_perm _ _ (range_exact cfg _ _ R) HC) FV FX). }
  assert (L : forall c rc r, tri_at (q_mesh q) c rc -> In r (fst rc) -> In (r_u r) vs /\ In (r_w r) vs /\ In (r_h r) es).
  { intros c rc r T I. pose proof (tri_at_edges cfg (q_mesh q) R c rc T) as FE. rewrite Forall_forall in FE. rewrite !HV, HE. now apply FE. }
  split; rewrite <- TOT.
  - rewrite <- (all_parts_sum (q_mesh q) VertexBox _ rcs vs F); [f_equal; apply map_ext; intros x; apply V|].
    intros c rc r T I. destruct (L c rc r T I) as (L1 & L2 & _). now apply part_sum_vertices.
  - rewrite <- (all_parts_sum (q_mesh q) EdgeBox _ rcs es F); [f_equal; apply map_ext; intros x; apply V|].
    intros c rc r T I. destruct (L c rc r T I) as (_ & _ & L3). now apply part_sum_edges.
Qed.

Lemma C64_quadrilaterals_pf : forall cfg m s, reach cfg m -> cfg_keep cfg Line = true ->
  exists s', voronoi_quads 2 m s = Some s' /\
    forall vs es cs xs, lists_exactly vs (is_live m Vertex) -> lists_exactly es (is_live m Line) ->
      lists_exactly cs (is_live m Quad) -> Forall2 (quad_area m) cs xs ->
      Rsum (map (increase s s' VertexBox) vs) = Rsum xs /\ Rsum (map (increase s s' EdgeBox) es) = Rsum xs.
Proof.
  intros cfg m s R K. destruct (quads_loop cfg m R K (range m Quad) s) as (usss & rss & E & F & FR); [intros c; apply range_is_live|].
  eexists. split; [exact E|]. intros vs es cs xs [NV HV] [NE HE] HC FX.
  assert (TOT : Rsum (map both (List.concat rss)) = Rsum xs).
  { assert (FA : Forall2 (quad_area m) (range m Quad) (map (fun rs => Rsum (map both rs)) rss)).
    { assert (HA : forall c, In c (range m Quad) -> exists x, quad_area m c x).
      { intros c I. apply range_is_live in I. apply (proj2 HC) in I. clear - I FX. induction FX as [|a x l xs H FX IH]; [destruct I|]. destruct I as [->|I]; eauto. }
      clear - FR HA. induction FR as [|c rs l rss (_ & H) FR IH]; constructor; auto; [|apply IH; intros; apply HA; now right].
      destruct (HA c (or_introl eq_refl)) as (x & HX). now rewrite (H x HX). }
    assert (QF : forall a x y, quad_area m a x -> quad_area m a y -> x = y).
    { intros a x y (p0 & p1 & p2 & p3 & H & _ & ->) (r0 & r1 & r2 & r3 & H' & _ & ->). pose proof (has_points_fun m Quad a _ _ H H') as EE. now injection EE as -> -> -> ->. }
    rewrite <- (perm_values _ QF _ cs _ xs (exact_perm _ _ (range_exact cfg _ _ R) HC) FA FX). clear. induction rss as [|rs rss IH]; [reflexivity|]. cbn [List.concat map]. now rewrite map_app, Rsum_app, Rsum_cons, IH. }
  assert (L : forall r, In r (List.concat rss) -> In (r_u r) vs /\ In (r_w r) vs /\ In (r_h r) es).
  { intros r I. apply in_concat in I as (rs & I1 & I2). assert (X : live_rec m r).
    { clear - FR I1 I2. induction FR as [|c rs' l rss (H & _) FR IH]; [destruct I1|]. destruct I1 as [->|I1]; [|auto]. rewrite Forall_forall in H. auto. }
    rewrite !HV, HE. exact X. }
  split; rewrite <- TOT; apply (records_total (fun _ => True)); auto; intros r I; destruct (L r I) as (L1 & L2 & L3); [now apply part_sum_vertices|now apply part_sum_edges].
Qed.

Lemma C64_lines_pf : forall cfg d m s, reach cfg m ->
  exists s', voronoi_lines d m s = Some s' /\
    (forall h x, is_live m Line h -> has_volume d m Line h x -> vo_val s' EdgeBox h = x /\ vo_val s' InterfaceArea h = 1) /\
    (forall v es xs, lists_exactly es (line_at_vertex m v) -> Forall2 (has_volume d m Line) es xs -> increase s s' VertexBox v = Rsum xs / 2) /\
    (forall vs es xs, lists_exactly vs (is_live m Vertex) -> lists_exactly es (is_live m Line) -> Forall2 (has_volume d m Line) es xs ->
       Rsum (map (increase s s' VertexBox) vs) = Rsum xs).
Proof.
  intros cfg d m s R. destruct (lines_loop cfg m R d (range m Line) s) as (s' & rs & E & RUN & F); [intros c; apply range_is_live|].
  destruct (lines_at m _ _ F) as (EH & NE & LV). assert (ND : NoDup (map k_h rs)) by (rewrite EH; now apply (range_NoDup cfg)).
  assert (VAL : forall h x, is_live m Line h -> has_volume d m Line h x -> vo_val s' EdgeBox h = x /\ vo_val s' InterfaceArea h = 1).
  { intros h x L HX. apply range_is_live in L.
    assert (Y : exists r, In r rs /\ k_h r = h /\ k_i r = 1 /\ k_b r = x). { clear - F L HX. induction F as [|c r l rs ((E & _) & I & HV) F IH]; [destruct L|]. destruct L as [->|L]; [exists r; repeat split; auto; [now left|eapply has_volume_fun; eauto]|].
      destruct (IH L) as (r' & I' & H). exists r'. split; [now right|auto]. }
    destruct Y as (r & I & <- & E1 & E2). destruct (run_set _ _ _ RUN ND r I) as [-> ->]. auto. }
  exists s'. split; [exact E|]. split; [exact VAL|]. split.
  - intros v es xs [NES HES] FX. rewrite (run_at_vertex s rs s' v es RUN ND NE NES).
    + clear - FX VAL HES. assert (LL : forall h, In h es -> is_live m Line h) by (intros h I; apply HES in I as (e & D & _); now exists e). clear HES.
      induction FX as [|h x es xs H FX IH]; [cbn [map]; rewrite Rsum_nil; lra|]. cbn [map]. rewrite !Rsum_cons, IH by (intros; apply LL; now right).
      destruct (VAL h x (LL h (or_introl eq_refl)) H) as [-> _]. lra.
    + intros h. rewrite HES. unfold line_at_vertex. symmetry. apply (lines_edges m _ _ v F). intros k. apply range_is_live.
  - intros vs es xs [NV HV] HE FX. rewrite (run_total s rs s' vs RUN NV).
    + assert (FB : Forall2 (has_volume d m Line) (range m Line) (map k_b rs)) by (clear - F; induction F as [|c r l rs (_ & _ & H) F IH]; constructor; auto).
      apply (perm_values _ (fun a x y => has_volume_fun d m Line a x y) _ es _ xs (exact_perm _ _ (range_exact cfg _ _ R) HE) FB FX).
    + refine (Forall_impl _ _ LV). intros r [L1 L2]. now rewrite !HV.
Qed.

Lemma C64_parallelepipeds_pf : forall cfg m s, reach cfg m -> cfg_keep cfg Line = true -> cfg_keep cfg Quad = true ->
  (forall f, is_live m Quad f -> parallelogram m f) ->
  exists s', voronoi_hexes m s = Some s' /\
    forall vs es cs xs, lists_exactly vs (is_live m Vertex) -> lists_exactly es (is_live m Line) ->
      lists_exactly cs (is_live m Hex) -> Forall2 (parallelepiped_volume m) cs xs ->
      Rsum (map (increase s s' VertexBox) vs) = Rsum xs /\ Rsum (map (increase s s' EdgeBox) es) = Rsum xs.
Proof.
  intros cfg m s R K KQ PG. destruct (hexes_total cfg m R K KQ PG (range m Hex) s) as (usss & rss & E & F & FR); [intros c; apply range_is_live|].
  eexists. split; [exact E|]. intros vs es cs xs [NV HV] [NE HE] HC FX.
  assert (TOT : Rsum (map both (List.concat rss)) = Rsum xs).
  { assert (FA : Forall2 (parallelepiped_volume m) (range m Hex) (map (fun rs => Rsum (map both rs)) rss)).
    { assert (HA : forall c, In c (range m Hex) -> exists x, parallelepiped_volume m c x).
      { intros c I. apply range_is_live in I. apply (proj2 HC) in I. clear - I FX. induction FX as [|a x l xs H FX IH]; [destruct I|]. destruct I as [->|I]; eauto. }
      clear - FR HA. induction FR as [|c rs l rss (_ & H) FR IH]; constructor; auto; [|apply IH; intros; apply HA; now right].
      destruct (HA c (or_introl eq_refl)) as (x & HX). now rewrite (H x HX). }
    rewrite <- (perm_values _ (box_fun m) _ cs _ xs (exact_perm _ _ (range_exact cfg _ _ R) HC) FA FX). clear. induction rss as [|rs rss IH]; [reflexivity|]. cbn [List.concat map]. now rewrite map_app, Rsum_app, Rsum_cons, IH. }
  assert (L : forall r, In r (List.concat rss) -> In (r_u r) vs /\ In (r_w r) vs /\ In (r_h r) es).
  { intros r I. apply in_concat in I as (rs & I1 & I2). assert (X : live_rec m r).
    { clear - FR I1 I2. induction FR as [|c rs' l rss (H & _) FR IH]; [destruct I1|]. destruct I1 as [->|I1]; [|auto]. rewrite Forall_forall in H. auto. }
    rewrite !HV, HE. exact X. }
  split; rewrite <- TOT; apply (records_total (fun _ => True)); auto; intros r I; destruct (L r I) as (L1 & L2 & L3); [now apply part_sum_vertices|now apply part_sum_edges].
Qed.

Lemma C64_hexahedra_partial_pf : forall cfg m s, reach cfg m -> cfg_keep cfg Line = true -> cfg_keep cfg Quad = true ->
  exists s', voronoi_hexes m s = Some s' /\
    forall vs es, lists_exactly vs (is_live m Vertex) -> lists_exactly es (is_live m Line) ->
      Rsum (map (increase s s' VertexBox) vs) = Rsum (map (increase s s' EdgeBox) es).
Proof.
  intros cfg m s R K KQ. destruct (hex_loop cfg m R K (range m Hex) s) as (uss & rs & E & F & FR); [intros c; apply range_is_live|].
  eexists. split; [exact E|]. intros vs es [NV HV] [NE HE].
  assert (L : forall r, In r rs -> In (r_u r) vs /\ In (r_w r) vs /\ In (r_h r) es) by (intros r I; rewrite Forall_forall in FR; rewrite !HV, HE; now apply FR).
  transitivity (Rsum (map both rs)); [|symmetry]; apply (records_total (fun _ => True)); auto; intros r I; destruct (L r I) as (L1 & L2 & L3); [now apply part_sum_vertices|now apply part_sum_edges].
Qed.

Lemma C64_tetrahedra_partial_pf : forall cfg m s s', reach cfg m -> voronoi_tets m s = Some s' ->
  forall vs es, lists_exactly vs (is_live m Vertex) -> lists_exactly es (is_live m Line) ->
    Rsum (map (increase s s' VertexBox) vs) = Rsum (map (vo_val s' EdgeBox) es).
Proof.
  intros cfg m s s' R E vs es [NV HV] HE. unfold voronoi_tets in E. destruct (facet_centers m) as [fc|]; [|discriminate]. cbn [obind] in E. destruct (interface_bounds m fc) as [bounds|]; [|discriminate]. cbn [obind] in E.
  destruct (tets_loop cfg m R bounds _ _ _ E) as (rs & RUN & F). destruct (lines_at m _ _ F) as (EH & NE & LV). assert (ND : NoDup (map k_h rs)) by (rewrite EH; now apply (range_NoDup cfg)).
  rewrite (run_total s rs s' vs RUN NV); [|refine (Forall_impl _ _ LV); intros r [L1 L2]; now rewrite !HV].
  pose proof (exact_perm _ _ HE (range_exact cfg m Line R)) as P. rewrite (Rsum_perm _ _ (Permutation_map (vo_val s' EdgeBox) P)), <- EH, map_map. f_equal. apply map_ext_in. intros r I.
  destruct (run_set _ _ _ RUN ND r I) as [_ ->]. reflexivity.
Qed.

Lemma C65_interface_pf : forall cfg q s, qreach cfg q -> reach cfg (q_mesh q) -> cfg_keep cfg Line = true -> proper_cells 2 (q_mesh q) Triangle ->
  exists q' s', voronoi_triangles q s = Some (q', s') /\
    forall h, is_live (q_mesh q) Line h -> exists cs xs, lists_exactly cs (fun c => bounded_by (q_mesh q) Triangle c Line h) /\
      increase s s' InterfaceArea h = Rsum xs /\
      Forall2 (fun c x => forall a b p z y, edge_of_cell (q_mesh q) h c a b p -> circle_centre z a b p -> signed_distance a b p z y ->
        (y < 0 -> only_cell (q_mesh q) h c -> x = 0) /\ (0 <= y \/ ~ only_cell (q_mesh q) h c -> x = y)) cs xs.
Proof.
  intros cfg q s Q R K PR. destruct (run_triangles cfg q s Q R K PR) as (q2 & s2 & rcs & E & Q2 & M2 & F & V & C & N & KE).
  exists q2, s2. split; auto. intros h _.
  destruct (sum_at (q_mesh q) InterfaceArea h (range (q_mesh q) Triangle) rcs) as (ds & rds & LE & F' & _ & ES); [discriminate|exact F|now apply (range_NoDup cfg)|intros c; apply range_is_live|].
  exists ds, (map (fun rc => parts InterfaceArea (fst rc) h) rds). split; [exact LE|]. split; [now rewrite V|].
  assert (BD : forall c, In c ds -> bounded_by (q_mesh q) Triangle c Line h) by (intros c; apply LE). clear - BD F' R K.
  induction F' as [|c rc ds rds T F' IH]; [constructor|]. cbn [map]. constructor; [|apply IH; intros; apply BD; now right].
  specialize (BD c (or_introl eq_refl)). intros a b p z y EC CC SD. destruct (tri_side cfg (q_mesh q) R K c rc h T BD) as (a0 & b0 & z0 & C0 & r & S).
  destruct (side_match _ _ _ _ _ _ _ _ _ _ _ _ S EC) as (-> & -> & ->). pose proof (sd_center _ _ _ _ _ _ _ _ _ S) as CE. pose proof CE as (NZ & _).
  rewrite (sd_i _ _ _ _ _ _ _ _ _ S).
  assert (Y : y = iface C0 a0 b0 z0). { rewrite (signed_iface a0 b0 z0 z y NZ SD). apply iface_ext. apply (circ_unique C0 z a0 b0 z0 CE). now apply circle_centered. }
  assert (SG : gamma a0 b0 z0 C0 < 0 <-> y < 0).
  { rewrite Y. unfold iface. assert (LP : 0 < Rabs (cr a0 b0 z0) / sqrt (sq a0 b0)) by (apply Rdiv_lt_0_compat; [now apply Rabs_pos_lt|now apply (sqrt_sq_pos a0 b0 z0)]).
    unfold Rdiv in *. rewrite Rmult_assoc. split; intros H; nra. }
  pose proof (only_lonely (q_mesh q) h c BD) as OL. destruct (sd_edge _ _ _ _ _ _ _ _ _ S) as [(G & LO & ->)|(NO & ->)].
  - split; auto. intros [H|H]; [apply SG in G; lra|]. exfalso. apply H. now apply OL.
  - split; [|auto]. intros G LO. exfalso. apply NO. split; [now apply SG|now apply OL].
Qed.

Lemma C65_delaunay_pf : forall cfg q s, qreach cfg q -> reach cfg (q_mesh q) -> cfg_keep cfg Line = true -> proper_cells 2 (q_mesh q) Triangle ->
  exists q' s', voronoi_triangles q s = Some (q', s') /\
    forall h c1 c2 a b p1 p2 z1 z2, c1 <> c2 -> (forall c, bounded_by (q_mesh q) Triangle c Line h <-> c = c1 \/ c = c2) ->
      edge_of_cell (q_mesh q) h c1 a b p1 -> edge_of_cell (q_mesh q) h c2 a b p2 ->
      circle_centre z1 a b p1 -> circle_centre z2 a b p2 ->
      turn a b p1 * turn a b p2 < 0 -> dist_sq 2 z1 a <= dist_sq 2 z1 p2 ->
      increase s s' InterfaceArea h = sqrt (dist_sq 2 z1 z2).
Proof.
  intros cfg q s Q R K PR. destruct (C65_interface_pf cfg q s Q R K PR) as (q2 & s2 & E & H). exists q2, s2. split; auto.
  intros h c1 c2 a b p1 p2 z1 z2 NE BB EC1 EC2 CC1 CC2 TT DEL.
  assert (L : is_live (q_mesh q) Line h) by (destruct EC1 as (_ & (e & D & _) & _); now exists e).
  destruct (H h L) as (cs & xs & LE & -> & F).
  assert (N1 : cr a b p1 <> 0) by (intros X; change (turn a b p1) with (cr a b p1) in TT; rewrite X in TT; lra).
  assert (N2 : cr a b p2 <> 0) by (intros X; change (turn a b p2) with (cr a b p2) in TT; rewrite X in TT; lra).
  destruct (signed_exists a b p1 z1 N1) as (n & U1 & U2 & U3 & U4).
  assert (SD1 : signed_distance a b p1 z1 (dot 2 n (psub z1 a))) by (exists n; auto).
  assert (CRN : forall w : point, exists k, cr a b w = k * dot 2 n (psub w a) /\ k * k = sq a b) by (
    intros w; exists ((b 0%nat - a 0%nat) * n 1%nat - (b 1%nat - a 1%nat) * n 0%nat); rewrite !dot2 in *; unfold psub in *; split;
    [unfold cr; set (v0 := b 0%nat - a 0%nat) in *; set (v1 := b 1%nat - a 1%nat) in *;
     replace ((v0 * n 1%nat - v1 * n 0%nat) * (n 0%nat * (w 0%nat - a 0%nat) + n 1%nat * (w 1%nat - a 1%nat))) with
      ((v0 * (w 1%nat - a 1%nat) - v1 * (w 0%nat - a 0%nat)) * (n 0%nat * n 0%nat + n 1%nat * n 1%nat) + (n 0%nat * v0 + n 1%nat * v1) * (n 1%nat * (w 0%nat - a 0%nat) - n 0%nat * (w 1%nat - a 1%nat))) by ring;
     rewrite U1, U2; ring
    |unfold sq; set (v0 := b 0%nat - a 0%nat) in *; set (v1 := b 1%nat - a 1%nat) in *;
     replace ((v0 * n 1%nat - v1 * n 0%nat) * (v0 * n 1%nat - v1 * n 0%nat)) with ((v0 * v0 + v1 * v1) * (n 0%nat * n 0%nat + n 1%nat * n 1%nat) - (n 0%nat * v0 + n 1%nat * v1) * (n 0%nat * v0 + n 1%nat * v1)) by ring;
     rewrite U1, U2; unfold v0, v1; ring]).
  assert (P2N : dot 2 n (psub p2 a) < 0).
  { set (k := (b 0%nat - a 0%nat) * n 1%nat - (b 1%nat - a 1%nat) * n 0%nat).
    assert (X : forall w : point, cr a b w = k * dot 2 n (psub w a)).
    { intros w. rewrite !dot2 in *. unfold psub in *. unfold k, cr. set (v0 := b 0%nat - a 0%nat) in *. set (v1 := b 1%nat - a 1%nat) in *.
      replace ((v0 * n 1%nat - v1 * n 0%nat) * (n 0%nat * (w 0%nat - a 0%nat) + n 1%nat * (w 1%nat - a 1%nat))) with
       ((v0 * (w 1%nat - a 1%nat) - v1 * (w 0%nat - a 0%nat)) * (n 0%nat * n 0%nat + n 1%nat * n 1%nat) + (n 0%nat * v0 + n 1%nat * v1) * (n 1%nat * (w 0%nat - a 0%nat) - n 0%nat * (w 1%nat - a 1%nat))) by ring.
      rewrite U1, U2. ring. }
    change (turn a b p1) with (cr a b p1) in TT. change (turn a b p2) with (cr a b p2) in TT. rewrite !X in TT.
    assert (KK : 0 <= k * k) by apply Rle_0_sqr. destruct (Rlt_dec (dot 2 n (psub p2 a)) 0) as [G|G]; auto. exfalso. apply Rnot_lt_le in G.
    assert (0 <= k * k * (dot 2 n (psub p1 a) * dot 2 n (psub p2 a))); [|lra]. apply Rmult_le_pos; auto. apply Rmult_le_pos; lra. }
  set (n' := fun i => - n i).
  assert (DN : forall w, dot 2 n' w = - dot 2 n w) by (intros w; rewrite !dot2; unfold n'; ring).
  assert (SD2 : signed_distance a b p2 z2 (- dot 2 n (psub z2 a))).
  { exists n'. rewrite !DN, U2. split; [rewrite dot2 in *; unfold n'; lra|]. split; [lra|]. split; [lra|reflexivity]. }
  assert (NO1 : ~ only_cell (q_mesh q) h c1) by (intros O; apply NE; symmetry; apply O, BB; now right).
  assert (NO2 : ~ only_cell (q_mesh q) h c2) by (intros O; apply NE, O, BB; now left).
  assert (SUM : Rsum xs = dot 2 n (psub z1 a) + - dot 2 n (psub z2 a)).
  { destruct LE as [ND IN]. assert (P : Permutation cs [c1; c2]). { apply NoDup_Permutation; auto; [constructor; [intros [X|[]]; auto|constructor; auto; constructor]|]. intros c. rewrite IN, BB. cbn. intuition. }
    assert (V1 : forall x, In (c1, x) (combine cs xs) -> x = dot 2 n (psub z1 a)).
    { intros x I. clear - F I EC1 CC1 SD1 NO1. induction F as [|c y cs xs HH F IH]; [destruct I|]. destruct I as [X|I]; [|auto]. injection X as -> ->. apply (HH a b p1 z1 _ EC1 CC1 SD1). now right. }
    assert (V2 : forall x, In (c2, x) (combine cs xs) -> x = - dot 2 n (psub z2 a)).
    { intros x I. clear - F I EC2 CC2 SD2 NO2. induction F as [|c y cs xs HH F IH]; [destruct I|]. destruct I as [X|I]; [|auto]. injection X as -> ->. apply (HH a b p2 z2 _ EC2 CC2 SD2). now right. }
    apply Permutation_sym, Permutation_length_2_inv in P as [-> | ->]; inversion F as [|? x1 ? xr _ F1]; subst; inversion F1 as [|? x2 ? xrr _ F2]; subst; inversion F2; subst; rewrite !Rsum_cons, Rsum_nil; cbn [combine] in V1, V2.
    - rewrite (V1 x1) by (now left). rewrite (V2 x2) by (right; now left). lra.
    - rewrite (V2 x1) by (now left). rewrite (V1 x2) by (right; now left). lra. }
  rewrite SUM. clear SUM F H LE BB EC1 EC2 NO1 NO2 SD1 SD2 CRN U4.
  destruct CC1 as [A1 A2], CC2 as [B1 B2]. rewrite !dist_sq_sq in *. rewrite !dot2 in *. unfold psub in *. clear DN n'.
  set (w0 := z1 0%nat - z2 0%nat). set (w1 := z1 1%nat - z2 1%nat).
  assert (PERP : w0 * (b 0%nat - a 0%nat) + w1 * (b 1%nat - a 1%nat) = 0) by (unfold w0, w1, sq in *; nra).
  set (t := n 0%nat * w0 + n 1%nat * w1).
  assert (W : w0 = t * n 0%nat /\ w1 = t * n 1%nat).
  { assert (NV : 0 < sq b a) by (apply (sq_nonzero a b p1 N1)). unfold t, sq in *.
    set (v0 := b 0%nat - a 0%nat) in *. set (v1 := b 1%nat - a 1%nat) in *. set (n0 := n 0%nat) in *. set (n1 := n 1%nat) in *.
    assert (C0 : w0 * n1 - w1 * n0 = 0).
    { apply (Rmult_eq_reg_l (v0 * v0 + v1 * v1)); [|lra]. rewrite Rmult_0_r.
      replace ((v0 * v0 + v1 * v1) * (w0 * n1 - w1 * n0)) with ((w0 * v0 + w1 * v1) * (v0 * n1 - v1 * n0) - (v0 * w1 - v1 * w0) * (n0 * v0 + n1 * v1)) by ring. rewrite PERP, U2. ring. }
    split.
    - replace w0 with (w0 * (n0 * n0 + n1 * n1)) at 1 by (rewrite U1; ring). replace (w0 * (n0 * n0 + n1 * n1)) with ((n0 * w0 + n1 * w1) * n0 + n1 * (w0 * n1 - w1 * n0)) by ring. rewrite C0. ring.
    - replace w1 with (w1 * (n0 * n0 + n1 * n1)) at 1 by (rewrite U1; ring). replace (w1 * (n0 * n0 + n1 * n1)) with ((n0 * w0 + n1 * w1) * n1 - n0 * (w0 * n1 - w1 * n0)) by ring. rewrite C0. ring. }
  destruct W as [W0 W1].
  assert (TP : 0 <= t).
  { assert (X : 0 <= - (w0 * (p2 0%nat - a 0%nat) + w1 * (p2 1%nat - a 1%nat))) by (unfold w0, w1, sq in *; nra).
    rewrite W0, W1 in X. replace (- (t * n 0%nat * (p2 0%nat - a 0%nat) + t * n 1%nat * (p2 1%nat - a 1%nat))) with (t * - (n 0%nat * (p2 0%nat - a 0%nat) + n 1%nat * (p2 1%nat - a 1%nat))) in X by ring. nra. }
  replace (n 0%nat * (z1 0%nat - a 0%nat) + n 1%nat * (z1 1%nat - a 1%nat) + - (n 0%nat * (z2 0%nat - a 0%nat) + n 1%nat * (z2 1%nat - a 1%nat))) with t by (unfold t, w0, w1; ring).
  replace (sq z1 z2) with (t * t); [symmetry; now apply sqrt_square|]. unfold sq. fold w0 w1. rewrite W0, W1.
  replace (t * n 0%nat * (t * n 0%nat) + t * n 1%nat * (t * n 1%nat)) with (t * t * (n 0%nat * n 0%nat + n 1%nat * n 1%nat)) by ring. rewrite U1. ring.
Qed.

Lemma C65_boxes_pf : forall cfg q s, qreach cfg q -> reach cfg (q_mesh q) -> cfg_keep cfg Line = true -> proper_cells 2 (q_mesh q) Triangle ->
  centres_covered (q_mesh q) ->
  exists q' s', voronoi_triangles q s = Some (q', s') /\
    (forall h x, has_volume 2 (q_mesh q) Line h x -> increase s s' EdgeBox h = increase s s' InterfaceArea h * x / 2) /\
    (forall v es, lists_exactly es (line_at_vertex (q_mesh q) v) ->
       increase s s' VertexBox v = Rsum (map (fun h => increase s s' EdgeBox h / 2) es)).
Proof.
  intros cfg q s Q R K PR CV. destruct (run_triangles cfg q s Q R K PR) as (q2 & s2 & rcs & E & Q2 & M2 & F & V & C & N & KE).
  exists q2, s2. split; auto. split.
  - intros h x HX. rewrite !V. assert (X : forall c rc, tri_at (q_mesh q) c rc -> parts EdgeBox (fst rc) h = parts InterfaceArea (fst rc) h * x / 2).
    { intros c rc T. destruct (deref (q_mesh q) Triangle c) as [e|] eqn:D; [|destruct T as (e & D' & _); congruence].
      destruct (in_dec Nat.eq_dec h (boundary_of e Line)) as [I|I].
      - assert (B : bounded_by (q_mesh q) Triangle c Line h) by (exists e; auto). destruct (tri_side cfg (q_mesh q) R K c rc h T B) as (a & b & z & C0 & r & S).
        rewrite (sd_i _ _ _ _ _ _ _ _ _ S), (sd_e _ _ _ _ _ _ _ _ _ S). pose proof (covered_closed cfg (q_mesh q) R K c rc CV T) as CL.
        rewrite (sd_full _ _ _ _ _ _ _ _ _ S CL). assert (LEN : x = sqrt (sq a b)).
        { apply (has_volume_fun 2 (q_mesh q) Line h _ _ HX). exists [a; b]. split; [apply S|]. cbn [shape_of volume_cell]. f_equal. unfold norm_2. cbn [sum_upto]. unfold psub, sq. f_equal. ring. }
        rewrite <- LEN. f_equal. f_equal. destruct (sd_edge _ _ _ _ _ _ _ _ _ S) as [(G & LO & E0)|(_ & E0)]; [|now rewrite E0].
        exfalso. pose proof (sd_center _ _ _ _ _ _ _ _ _ S) as CE. pose proof CE as (NZ & Q1 & Q3).
        assert (0 <= iface C0 a b z).
        { apply (CV h c a b z C0); [now apply (side_edge (q_mesh q) c rc h a b z C0 r)| |now apply signed_exists|now apply only_lonely]. split; rewrite !dist_sq_sq; congruence. }
        assert (LP : 0 < Rabs (cr a b z) / sqrt (sq a b)) by (apply Rdiv_lt_0_compat; [now apply Rabs_pos_lt|now apply (sqrt_sq_pos a b z)]). unfold iface, Rdiv in *. rewrite Rmult_assoc in H. nra.
      - assert (NB : ~ bounded_by (q_mesh q) Triangle c Line h) by (intros (e' & D' & I'); rewrite D in D'; injection D' as <-; auto).
        rewrite !(tri_away (q_mesh q) _ c rc h) by (auto; discriminate). lra. }
    unfold all_parts. clear - F X. induction F as [|c rc cs rcs T F IH]; [cbn [map]; rewrite Rsum_nil; lra|]. cbn [map]. rewrite !Rsum_cons, IH, (X c rc T). lra.
  - intros v es [NES HES]. rewrite V.
    assert (EQ : Rsum (map (fun h => increase s s2 EdgeBox h / 2) es) = Rsum (map (fun rc => Rsum (map (fun h => parts EdgeBox (fst rc) h / 2) es)) rcs)).
    { rewrite <- (RefineGeom.Rsum_swap (fun h rc => parts EdgeBox (fst rc) h / 2)). f_equal. apply map_ext. intros h. rewrite V. unfold all_parts. clear. induction rcs as [|rc rcs IH]; [cbn [map]; rewrite !Rsum_nil; lra|]. cbn [map]. rewrite !Rsum_cons, <- IH. lra. }
    rewrite EQ. unfold all_parts. clear EQ.
    assert (X : forall c rc, tri_at (q_mesh q) c rc -> parts VertexBox (fst rc) v = Rsum (map (fun h => parts EdgeBox (fst rc) h / 2) es)).
    { intros c rc T. pose proof (tri_vertices cfg (q_mesh q) R K c rc T (covered_closed cfg (q_mesh q) R K c rc CV T)) as FV. clear - FV NES HES. unfold parts.
      induction FV as [|r rs (E1 & E2 & NE & f & D & P) FV IH]; [cbn [map]; rewrite Rsum_nil; symmetry; apply RefineGeom.Rsum_zero; intros; unfold Rsum; cbn; lra|].
      cbn [map]. rewrite Rsum_cons, IH. clear IH.
      assert (Y : Rsum (map (fun h => Rsum (part EdgeBox r h :: map (fun r => part EdgeBox r h) rs) / 2) es) = Rsum (map (fun h => part EdgeBox r h / 2) es) + Rsum (map (fun h => Rsum (map (fun r => part EdgeBox r h) rs) / 2) es)).
      { rewrite <- Rsum_plus. f_equal. apply map_ext. intros h. rewrite Rsum_cons. lra. }
      rewrite Y. f_equal. clear Y. unfold part. rewrite E1, E2.
      assert (Z : Rsum (map (fun h => (if Nat.eqb h (r_h r) then both r / 2 + both r / 2 else 0) / 2) es) = if in_dec Nat.eq_dec (r_h r) es then both r / 2 else 0).
      { destruct (in_dec Nat.eq_dec (r_h r) es) as [I|I].
        - rewrite <- (Rsum_if_one es (r_h r) (both r / 2) NES I) at 1. f_equal. apply map_ext. intros h. destruct (Nat.eqb h (r_h r)); lra.
        - apply RefineGeom.Rsum_zero. intros h HI. destruct (Nat.eqb_spec h (r_h r)) as [->|]; [contradiction|lra]. }
      assert (EB : both r / 2 + both r / 2 = both r) by lra.
      transitivity (if in_dec Nat.eq_dec (r_h r) es then both r / 2 else 0); [|symmetry; exact Z].
      assert (IN : In (r_h r) es <-> r_u r = v \/ r_w r = v).
      { rewrite HES. unfold line_at_vertex. split.
        - intros (f' & D' & I). rewrite D in D'. injection D' as <-. apply (Permutation_in _ P) in I. cbn in I. tauto.
        - intros H. exists f. split; auto. apply (Permutation_in _ (Permutation_sym P)). cbn. tauto. }
      rewrite (Nat.eqb_sym v (r_u r)), (Nat.eqb_sym v (r_w r)). destruct (in_dec Nat.eq_dec (r_h r) es) as [I|I].
      - apply IN in I. destruct (Nat.eqb_spec (r_u r) v) as [U|U], (Nat.eqb_spec (r_w r) v) as [W|W]; try congruence; try lra. destruct I; congruence.
      - destruct (Nat.eqb_spec (r_u r) v) as [U|U]; [exfalso; apply I, IN; now left|]. destruct (Nat.eqb_spec (r_w r) v) as [W|W]; [exfalso; apply I, IN; now right|]. lra. }
    clear - F X. induction F as [|c rc cs rcs T F IH]; [reflexivity|]. cbn [map]. now rewrite !Rsum_cons, IH, (X c rc T).
Qed.

Lemma C65_no_obtuse_angle_pf : forall m : @mesh point, proper_cells 2 m Triangle -> no_obtuse_angle m -> centres_covered m.
Proof.
  intros m PR NO h c a b p z y (B & HL & ps & HC & P) CC SD _.
  assert (N : cr a b p <> 0).
  { intros X. destruct B as (e & D & _). apply (PR c); [now exists e|]. exists ps. split; auto.
    assert (V : forall u v w, cr u v w = 0 -> volume_cell 2 (shape_of Triangle) [u; v; w] = Some 0) by (intros u v w H; cbn [shape_of volume_cell]; rewrite sv3, H, Rabs_R0; f_equal; lra).
    assert (LP : length ps = 3%nat) by (rewrite (Permutation_length P); reflexivity). destruct ps as [|u [|v [|w [|? ?]]]]; try discriminate.
    apply V. clear - P X.
    assert (I : In a [u; v; w]) by (apply (Permutation_in _ (Permutation_sym P)); now left). destruct I as [->|[->|[->|[]]]].
    - apply Permutation_cons_inv in P. apply Permutation_sym, Permutation_length_2_inv in P as [E|E]; injection E as -> ->; unfold cr in *; lra.
    - rewrite perm_swap in P. apply Permutation_cons_inv in P. apply Permutation_sym, Permutation_length_2_inv in P as [E|E]; injection E as -> ->; unfold cr in *; lra.
    - assert (P' : Permutation (a :: [u; v]) (a :: [b; p])) by (rewrite <- P; apply (Permutation_cons_append [u; v] a)). apply Permutation_cons_inv in P'. apply Permutation_sym, Permutation_length_2_inv in P' as [E|E]; injection E as -> ->; unfold cr in *; lra. }
  rewrite (signed_iface a b p z y N SD). pose proof (circle_centered z a b p N CC) as (_ & E1 & E2). pose proof (gamma_eq a b p z N E1 E2) as G.
  assert (ANG : 0 <= dot 2 (psub a p) (psub b p)) by (eapply NO; eauto). rewrite dot2 in ANG. unfold psub in ANG.
  assert (GP : 0 <= gamma a b p z).
  { assert (DD : 0 < cr a b p * cr a b p) by nra. assert (SP : 0 <= sq b a) by apply sq_pos. unfold ip in G.
    assert (RH : sq p a - ((b 0%nat - a 0%nat) * (p 0%nat - a 0%nat) + (b 1%nat - a 1%nat) * (p 1%nat - a 1%nat)) = (a 0%nat - p 0%nat) * (b 0%nat - p 0%nat) + (a 1%nat - p 1%nat) * (b 1%nat - p 1%nat)) by (unfold sq; ring).
    rewrite RH in G. assert (0 <= 2 * gamma a b p z * (cr a b p * cr a b p)); [rewrite G; now apply Rmult_le_pos|]. nra. }
  unfold iface, Rdiv. apply Rmult_le_pos; [apply Rmult_le_pos; [exact GP|apply Rabs_pos]|]. apply Rlt_le, Rinv_0_lt_compat, (sqrt_sq_pos a b p N).
Qed.

Lemma C65_tetrahedra_pf : forall cfg m s s', reach cfg m -> voronoi_tets m s = Some s' ->
  (forall h x, is_live m Line h -> has_volume 3 m Line h x ->
     0 <= vo_val s' InterfaceArea h /\ vo_val s' EdgeBox h = vo_val s' InterfaceArea h * x / 3) /\
  (forall v es, lists_exactly es (line_at_vertex m v) -> increase s s' VertexBox v = Rsum (map (fun h => vo_val s' EdgeBox h / 2) es)).
Proof.
  intros cfg m s s' R E. unfold voronoi_tets in E. destruct (facet_centers m) as [fc|]; [|discriminate]. cbn [obind] in E. destruct (interface_bounds m fc) as [bounds|]; [|discriminate]. cbn [obind] in E.
  destruct (tets_loop cfg m R bounds _ _ _ E) as (rs & RUN & F). destruct (lines_at m _ _ F) as (EH & NE & LV). assert (ND : NoDup (map k_h rs)) by (rewrite EH; now apply (range_NoDup cfg)).
  split.
  - intros h x L HX. apply range_is_live in L.
    assert (Y : exists r, In r rs /\ k_h r = h /\ 0 <= k_i r /\ k_b r = k_i r * x / 3).
    { clear - F L HX. induction F as [|c r l rs ((E & _) & I & len & HV & EB) F IH]; [destruct L|]. destruct L as [->|L].
      - exists r. split; [now left|]. split; auto. split; auto. now rewrite (has_volume_fun _ _ _ _ _ _ HX HV).
      - destruct (IH L) as (r' & I' & H). exists r'. split; [now right|auto]. }
    destruct Y as (r & I & <- & E1 & E2). destruct (run_set _ _ _ RUN ND r I) as [-> ->]. auto.
  - intros v es [NES HES]. apply (run_at_vertex s rs s' v es RUN ND NE NES). intros h. rewrite HES. unfold line_at_vertex. symmetry. apply (lines_edges m _ _ v F). intros k. apply range_is_live.
Qed.

Lemma C66_triangles_pf : forall cfg q s, qreach cfg q -> reach cfg (q_mesh q) -> cfg_keep cfg Line = true -> proper_cells 2 (q_mesh q) Triangle ->
  exists q' s', voronoi_triangles q s = Some (q', s') /\
    (consistent_for s VertexBox -> consistent_for s' VertexBox) /\ (consistent_for s EdgeBox -> consistent_for s' EdgeBox) /\
    (one_entry_each s -> one_entry_each s') /\
    (forall k a c, In c (map fst (vo_con s' k a)) -> In c (map fst (vo_con s k a)) \/ is_live (q_mesh q) Triangle c).
Proof.
  intros cfg q s Q R K PR. destruct (run_triangles cfg q s Q R K PR) as (q2 & s2 & rcs & E & Q2 & M2 & F & V & C & N & KE).
  exists q2, s2. split; auto.
  assert (G : forall k, k <> InterfaceArea -> consistent_for s k -> consistent_for s2 k).
  { intros k NK H a. fold (con_sum (vo_con s2 k a)). rewrite C by auto. specialize (H a). fold (con_sum (vo_con s k a)) in H. unfold increase. lra. }
  split; [apply G; discriminate|]. split; [apply G; discriminate|]. split; [exact N|]. exact KE.
Qed.

Lemma C66_interface_partial_pf : forall cfg q s, qreach cfg q -> reach cfg (q_mesh q) -> cfg_keep cfg Line = true -> proper_cells 2 (q_mesh q) Triangle ->
  centres_covered (q_mesh q) ->
  exists q' s', voronoi_triangles q s = Some (q', s') /\ (consistent s -> consistent s').
Proof.
  intros cfg q s Q R K PR CV. destruct (run_triangles cfg q s Q R K PR) as (q2 & s2 & rcs & E & Q2 & M2 & F & V & C & N & KE).
  exists q2, s2. split; auto. intros H k a. fold (con_sum (vo_con s2 k a)). rewrite C.
  - specialize (H k a). fold (con_sum (vo_con s k a)) in H. unfold increase. lra.
  - right. clear - F CV R K. induction F as [|c rc cs rcs T F IH]; constructor; auto. apply (covered_closed cfg (q_mesh q) R K c rc CV T).
Qed.

Lemma C66_interface_refuted_pf : forall cfg q s, qreach cfg q -> reach cfg (q_mesh q) -> cfg_keep cfg Line = true -> proper_cells 2 (q_mesh q) Triangle ->
  ~ centres_covered (q_mesh q) -> consistent s ->
  exists q' s', voronoi_triangles q s = Some (q', s') /\ exists h, Rsum (map snd (vo_con s' InterfaceArea h)) < vo_val s' InterfaceArea h.
Proof.
  intros cfg q s Q R K PR NC CO. destruct (run_triangles cfg q s Q R K PR) as (q2 & s2 & rcs & E & Q2 & M2 & F & V & C & N & KE).
  exists q2, s2. split; auto.
  assert (ALL : forall l q1 s1 q2 s2, qreach cfg q1 -> q_mesh q1 = q_mesh q -> (forall c, In c l -> is_live (q_mesh q) Triangle c) -> ofold triangle_step l (q1, s1) = Some (q2, s2) ->
     exists us, s2 = apply_updates true us s1 /\ Forall quiet us /\
       forall h c a b z C, In c l -> edge_of_cell (q_mesh q) h c a b z -> centered C a b z -> gamma a b z C < 0 -> lonely (q_mesh q) h c -> exists u, In u us /\ loud u).
  { clear - R K PR. induction l as [|c l IH]; intros q1 s1 q2 s2 Q1 M1 L E; [injection E as <- <-; exists []; split; [reflexivity|]; split; [constructor|]; intros ? ? ? ? ? ? []|].
    rewrite ofold_cons in E. destruct (L c (or_introl eq_refl)) as (e & D).
    assert (ND : forall p0 p1 p2, cell_points (q_mesh q) e = Some [p0; p1; p2] -> cr p0 p1 p2 <> 0) by (intros p0 p1 p2; now apply (proper_cr (q_mesh q) c e)).
    destruct (triangle_result cfg (q_mesh q) R K q1 s1 c e Q1 M1 D ND) as (qa & uss & rs & closed & E1 & Qa & Ma & _). set (sa := apply_updates true (List.concat uss) s1) in *.
    rewrite E1 in E. cbn [obind] in E. destruct (IH qa sa q2 s2 Qa Ma) as (us2 & S2 & F2 & H2); [intros; apply L; now right|exact E|].
    destruct (step_quiet q1 s1 c qa sa E1) as (us1 & S1 & F1).
    destruct (tri_data cfg (q_mesh q) R K c e D) as (v0 & v1 & v2 & p0 & p1 & p2 & h0 & h1 & h2 & l0 & l1 & l2 & EV & EB & CP & _).
    destruct (classic_open (q_mesh q) c) as [(h & a & b & z & C & EC & CC & G & LO)|NOP].
    - destruct (open_loud cfg (q_mesh q) R K q1 s1 c e p0 p1 p2 h a b z C qa sa Q1 M1 D CP (ND _ _ _ CP) EC CC G LO E1) as (us3 & u & S3 & F3 & I3 & L3).
      exists (us3 ++ us2). rewrite apply_app, <- S3. split; [exact S2|]. split; [apply Forall_app; auto|]. intros. exists u. split; auto. apply in_or_app. now left.
    - exists (us1 ++ us2). rewrite apply_app, <- S1. split; [exact S2|]. split; [apply Forall_app; auto|]. intros h c' a b z C [<-|I] EC CC G LO; [exfalso; apply NOP; eauto 10|].
      destruct (H2 h c' a b z C I EC CC G LO) as (u & IU & LU). exists u. split; auto. apply in_or_app. now right. }
  destruct (ALL (range (q_mesh q) Triangle) q s q2 s2 Q eq_refl (fun c => proj1 (range_is_live (q_mesh q) Triangle c)) E) as (us & S & FQ & H).
  assert (X : exists u, In u us /\ loud u).
  { destruct (Classical_Prop.classic (exists u, In u us /\ loud u)) as [X|X]; auto. exfalso. apply NC. intros h c a b p z y EC CC SD ON.
    destruct (Rle_lt_dec 0 y) as [P|P]; auto. exfalso. apply X. assert (B : bounded_by (q_mesh q) Triangle c Line h) by apply EC.
    assert (LC : is_live (q_mesh q) Triangle c) by (destruct B as (e & D & _); now exists e). pose proof LC as (e & D).
    assert (NZ : cr a b p <> 0).
    { assert (LI : In c (range (q_mesh q) Triangle)) by now apply range_is_live. clear - F LI B EC R K.
      assert (T : exists rc, tri_at (q_mesh q) c rc). { induction F as [|x rc cs rcs T F IH]; [destruct LI|]. destruct LI as [->|LI]; eauto. }
      destruct T as (rc & T). destruct (tri_side cfg (q_mesh q) R K c rc h T B) as (a0 & b0 & z0 & C0 & r & S). destruct (side_match _ _ _ _ _ _ _ _ _ _ _ _ S EC) as (-> & -> & ->). apply S. }
    apply (H h c a b p z); auto; [now apply range_is_live|now apply circle_centered| |now apply only_lonely].
    rewrite (signed_iface a b p z y NZ SD) in P. assert (LP : 0 < Rabs (cr a b p) / sqrt (sq a b)) by (apply Rdiv_lt_0_compat; [now apply Rabs_pos_lt|now apply (sqrt_sq_pos a b p)]).
    unfold iface, Rdiv in *. rewrite Rmult_assoc in P. nra. }
  destruct X as (u & IU & LU). exists (u_el u). fold (con_sum (vo_con s2 InterfaceArea (u_el u))). rewrite S.
  assert (FS : Forall (fun u => u_set u = false) us) by (refine (Forall_impl _ _ FQ); intros x QX; apply QX).
  rewrite (apply_val true us FS), apply_con, missing_split. pose proof (CO InterfaceArea (u_el u)) as CC. fold (con_sum (vo_con s InterfaceArea (u_el u))) in CC.
  pose proof (missing_loud us u FQ IU LU). lra.
Qed.

Lemma C66_quadrilaterals_pf : forall d m s s', voronoi_quads d m s = Some s' -> consistent s -> consistent s'.
Proof.
  intros d m s s'. apply quads_consistent.
Qed.

Lemma C66_hexahedra_pf : forall m s s', voronoi_hexes m s = Some s' -> consistent s -> consistent s'.
Proof.
  intros m s s'. apply hexes_consistent.
Qed.

Lemma C66_lines_pf : forall cfg d m s', reach cfg m -> voronoi_lines d m no_voronoi = Some s' -> consistent s'.
Proof.
  intros cfg d m s' R E. destruct (lines_loop cfg m R d (range m Line) no_voronoi) as (s2 & rs & E2 & RUN & F); [intros c; apply range_is_live|].
  unfold voronoi_lines in E. rewrite E in E2. injection E2 as <-. destruct (lines_at m _ _ F) as (EH & _). apply (run_consistent rs s' RUN). rewrite EH. now apply (range_NoDup cfg).
Qed.

Lemma C66_tetrahedra_pf : forall cfg m s', reach cfg m -> voronoi_tets m no_voronoi = Some s' -> consistent s' /\ one_entry_each s'.
Proof.
  intros cfg m s' R E. unfold voronoi_tets in E. destruct (facet_centers m) as [fc|]; [|discriminate]. cbn [obind] in E. destruct (interface_bounds m fc) as [bounds|]; [|discriminate]. cbn [obind] in E.
  split.
  - destruct (tets_loop cfg m R bounds _ _ _ E) as (rs & RUN & F). destruct (lines_at m _ _ F) as (EH & _). apply (run_consistent rs s' RUN). rewrite EH. now apply (range_NoDup cfg).
  - assert (G : forall l s s', ofold (tet_edge_step m bounds) l s = Some s' -> one_entry_each s -> one_entry_each s').
    { clear. induction l as [|h l IH]; intros s s' E H; [now injection E as <-|]. rewrite ofold_cons in E. destruct (tet_edge_step m bounds s h) as [s1|] eqn:ST; [|discriminate]. apply (IH s1 s' E). clear IH E.
      unfold tet_edge_step in ST. destruct (deref m Line h); [|discriminate]. cbn [obind] in ST. destruct (corners_of m e) as [vs|]; [|discriminate]. cbn [obind] in ST.
      destruct vs as [|(v0, p0) [|(v1, p1) [|? ?]]]; try discriminate. destruct (spanned_volume 3 [p0; p1]) as [len|]; [|discriminate]. cbn [obind] in ST. destruct (inner_point (bounds h)); [|discriminate]. cbn [obind] in ST.
      destruct (omap _ (bounds h)) as [k|]; [|discriminate]. cbn [option_map obind] in ST. apply VtkText.some_inj in ST. subst s1.
      intros q a. apply apply_NoDup. clear q a.
      assert (EN : forall q x c y s, one_entry_each s -> one_entry_each (enter q x c y s)) by (intros q x c y s0 H0 q' a'; unfold enter; cbn [vo_con]; destruct (andb _ _); [apply unique_update_NoDup|]; apply H0).
      unfold tet_entries. revert s H. induction k as [|ic k IH]; intros s H; cbn [fold_left]; [exact H|]. apply IH. destruct (Rlt_dec 0 (fst ic)); auto. }
    apply (G _ _ _ E). intros q a. constructor.
Qed.
