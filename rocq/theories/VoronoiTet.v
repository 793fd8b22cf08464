(** Lemmas for C64: the boxes of a tetrahedron with a right-angled corner. *)
From Coq Require Import Reals List Arith Bool Lia Lra.
From Verif Require Import ModelTopo ModelMesh ModelErase ModelQuery ModelGeom ModelVolume ModelDistance ModelSurface ModelVoronoi
  SpecMesh SpecErase SpecQuery SpecCopy SpecRefine SpecGeom SpecDistance SpecSurface SpecVoronoi.
From Verif Require Import MeshBase MeshInv MeshWf MeshErase MeshSimple MeshProofs MeshDemo CopyBase QueryBase QueryProofs VolumeProofs CenterProofs DistanceProofs.
From Verif Require Import RefineMeshLoop VtkLink VoronoiGeom VoronoiUpd VoronoiTri VoronoiMesh VoronoiStep VoronoiLoop VoronoiEdge VoronoiGap VoronoiOther VoronoiHex VoronoiProofs.
Import ListNotations.
Local Open Scope R_scope.

Section Areas.
Variable cfg : config.
Variable m : @mesh point.
Hypothesis RC : reach cfg m.
Definition edge_areas (l : list bound) (x : point) : option (list (R * addr)) :=
  omap (fun b : bound => option_map (fun i => (i, snd b)) (spanned_volume 3 [fst (fst b); snd (fst b); x])) l.
Lemma tets_areas bounds l : forall s s', ofold (tet_edge_step m bounds) l s = Some s' -> exists rs, set_run s rs s' /\
  Forall2 (fun h r => k_h r = h /\ exists x k, inner_point (bounds h) = Some x /\ edge_areas (bounds h) x = Some k /\ k_i r = area_of k) l rs.
Proof.
  induction l as [|h l IH]; intros s s' E; [injection E as <-; exists []; split; constructor|]. rewrite ofold_cons in E.
  destruct (tet_edge_step m bounds s h) as [s1|] eqn:ST; [|discriminate]. cbn [obind] in E. destruct (IH _ _ E) as (rs & RUN & F). unfold tet_edge_step in ST.
  destruct (deref m Line h) as [e|] eqn:D; [|discriminate]. cbn [obind] in ST. destruct (line_verts cfg m RC h e D) as (u & w & EV & NE & LU & LW).
  destruct (corners cfg m RC Line h e D) as (ps & CP & CO & _ & _ & L1 & L2); [discriminate|]. rewrite CO, EV in ST. cbn [obind] in ST.
  destruct ps as [|p0 [|p1 [|? ?]]]; try discriminate; cbn [combine] in ST.
  destruct (spanned_volume 3 [p0; p1]) as [len|] eqn:EL; [|discriminate]. cbn [obind] in ST. destruct (inner_point (bounds h)) as [x|] eqn:IP; [|discriminate]. cbn [obind] in ST.
  destruct (omap _ (bounds h)) as [k|] eqn:EK; [|discriminate]. cbn [option_map] in ST. injection ST as <-.
  exists (mkLine h u w (area_of k) (area_of k * len / 3) :: rs). split; [econstructor; [apply tet_updates_step|exact RUN]|].
  constructor; [|exact F]. split; [reflexivity|]. exists x, k. split; [exact IP|]. split; [exact EK|reflexivity].
Qed.
Lemma edge_interface fc bounds s s' h : facet_centers m = Some fc -> interface_bounds m fc = Some bounds -> voronoi_tets m s = Some s' -> is_live m Line h ->
  exists x k, inner_point (bounds h) = Some x /\ edge_areas (bounds h) x = Some k /\ vo_val s' InterfaceArea h = area_of k.
Proof.
  intros E1 E2 E L. unfold voronoi_tets in E. rewrite E1 in E. cbn [obind] in E. rewrite E2 in E. cbn [obind] in E.
  destruct (tets_areas _ _ _ _ E) as (rs & RUN & F).
  assert (EH : map k_h rs = range m Line) by (clear - F; induction F as [|h r l rs [H _] F IH]; cbn; [reflexivity|congruence]).
  assert (ND : NoDup (map k_h rs)) by (rewrite EH; now apply (range_NoDup cfg)).
  assert (IL : In h (range m Line)) by now apply (range_exact cfg m Line RC).
  assert (X : exists r, In r rs /\ k_h r = h /\ exists x k, inner_point (bounds h) = Some x /\ edge_areas (bounds h) x = Some k /\ k_i r = area_of k).
  { clear - F IL. induction F as [|h' r l rs [H G] F IH]; [destruct IL|]. destruct IL as [-> |IL]; [exists r; split; [now left|auto]|]. destruct (IH IL) as (r' & I & X). exists r'. split; [now right|exact X]. }
  destruct X as (r & I & Hr & x & k & X1 & X2 & X3). exists x, k. split; [exact X1|]. split; [exact X2|]. rewrite <- Hr. destruct (run_set _ _ _ RUN ND r I) as [-> _]. exact X3.
Qed.
End Areas.

Lemma triangle_is p q r x : 0 <= x -> inner_prod 3 (cross_prod (psub q p) (psub r p)) (cross_prod (psub q p) (psub r p)) = 4 * (x * x) -> spanned_volume 3 [p; q; r] = Some x.
Proof.
  intros P E. unfold spanned_volume. cbn [signed_spanned_volume option_map]. f_equal. unfold norm_2.
  replace (sum_upto 3 _) with ((2 * x) * (2 * x)); [rewrite sqrt_square by lra; rewrite Rabs_right; lra|]. unfold inner_prod in E. lra.
Qed.

(** What a mesh with one tetrahedron looks like. *)
Record one_tet (m : @mesh point) (p0 p1 p2 p3 : point) : Prop := {
  ot_reach : reach (full_config Tet) m;
  ot_tets : range m Tet = [0%nat];
  ot_triangles : range m Triangle = [0; 1; 2; 3]%nat;
  ot_lines : range m Line = [0; 1; 2; 3; 4; 5]%nat;
  ot_vertices : range m Vertex = [0; 1; 2; 3]%nat;
  ot_facets : option_map (fun e => boundary_of e Triangle) (deref m Tet 0%nat) = Some [0; 1; 2; 3]%nat;
  ot_points : element_points m Tet 0%nat = Some [p0; p1; p2; p3];
  ot_f : map (element_points m Triangle) [0; 1; 2; 3]%nat = [Some [p0; p1; p2]; Some [p0; p1; p3]; Some [p0; p2; p3]; Some [p1; p2; p3]];
  ot_e : map (fun f => option_map (fun e => boundary_of e Line) (deref m Triangle f)) [0; 1; 2; 3]%nat = [Some [0; 1; 3]; Some [0; 2; 4]; Some [1; 2; 5]; Some [3; 4; 5]]%nat;
  ot_l : map (element_points m Line) [0; 1; 2; 3; 4; 5]%nat = [Some [p0; p1]; Some [p0; p2]; Some [p0; p3]; Some [p1; p2]; Some [p1; p3]; Some [p2; p3]]
}.
Lemma one_tet_exists p0 p1 p2 p3 : exists m, one_tet m p0 p1 p2 p3.
Proof.
  exists (mesh_of (full_config Tet) (map (fun p => OVertex p) [p0; p1; p2; p3] ++ [OElement Tet [0;1;2;3]%nat])).
  split; [apply demo_ok; reflexivity|reflexivity..].
Qed.
Definition around (x y y' z : point) : list bound := [((x, y), 0%nat); ((z, y), 0%nat); ((x, y'), 0%nat); ((z, y'), 0%nat)].
Section OneTet.
Variables p0 p1 p2 p3 x y0 y1 y2 y3 : point.
Hypothesis EX : circumcenter_tet p0 p1 p2 p3 = CPoint x.
Hypothesis E0 : circumcenter_tri3 p0 p1 p2 = Some y0.
Hypothesis E1 : circumcenter_tri3 p0 p1 p3 = Some y1.
Hypothesis E2 : circumcenter_tri3 p0 p2 p3 = Some y2.
Hypothesis E3 : circumcenter_tri3 p1 p2 p3 = Some y3.
Variable m : @mesh point.
Hypothesis O : one_tet m p0 p1 p2 p3.
Lemma one_center : tet_center m 0%nat = Some x.
Proof. unfold tet_center. rewrite (ot_points _ _ _ _ _ O). cbn [obind]. now rewrite EX. Qed.
Lemma one_facets : exists fc, facet_centers m = Some fc /\ forall f, (f < 4)%nat -> fc f = [(x, 0%nat)].
Proof.
  unfold facet_centers. rewrite (ot_tets _ _ _ _ _ O). rewrite ofold_cons. cbv beta.
  pose proof (ot_facets _ _ _ _ _ O) as D.
  destruct (deref m Tet 0%nat) as [e|]; [|discriminate D]. cbn [option_map] in D. apply VtkText.some_inj in D. cbn [obind]. rewrite one_center. cbn [option_map obind]. eexists. split; [reflexivity|].
  rewrite <- D.
  intros [|[|[|[|f]]]] L; try reflexivity. lia.
Qed.
Lemma facet_points f ps y : element_points m Triangle f = Some ps -> match ps with [a; b; c] => circumcenter_tri3 a b c | _ => None end = Some y -> facet_center m f = Some y.
Proof. intros E H. unfold facet_center. now rewrite E. Qed.
Lemma one_f0 : facet_center m 0%nat = Some y0. Proof. pose proof (ot_f _ _ _ _ _ O) as H. cbn [map] in H. injection H as H _ _ _. exact (facet_points 0%nat [p0; p1; p2] y0 H E0). Qed.
Lemma one_f1 : facet_center m 1%nat = Some y1. Proof. pose proof (ot_f _ _ _ _ _ O) as H. cbn [map] in H. injection H as _ H _ _. exact (facet_points 1%nat [p0; p1; p3] y1 H E1). Qed.
Lemma one_f2 : facet_center m 2%nat = Some y2. Proof. pose proof (ot_f _ _ _ _ _ O) as H. cbn [map] in H. injection H as _ _ H _. exact (facet_points 2%nat [p0; p2; p3] y2 H E2). Qed.
Lemma one_f3 : facet_center m 3%nat = Some y3. Proof. pose proof (ot_f _ _ _ _ _ O) as H. cbn [map] in H. injection H as _ _ _ H. exact (facet_points 3%nat [p1; p2; p3] y3 H E3). Qed.
Lemma edge_points h p q : element_points m Line h = Some [p; q] -> edge_center m h = Some (circumcenter_line p q).
Proof. intros E. unfold edge_center. now rewrite E. Qed.
Lemma one_edges : edge_center m 0%nat = Some (circumcenter_line p0 p1) /\ edge_center m 1%nat = Some (circumcenter_line p0 p2) /\ edge_center m 2%nat = Some (circumcenter_line p0 p3) /\
  edge_center m 3%nat = Some (circumcenter_line p1 p2) /\ edge_center m 4%nat = Some (circumcenter_line p1 p3) /\ edge_center m 5%nat = Some (circumcenter_line p2 p3).
Proof. pose proof (ot_l _ _ _ _ _ O) as H. cbn [map] in H. injection H as H0 H1 H2 H3 H4 H5. repeat split; now apply edge_points. Qed.
Definition put (x y z : point) (h : addr) (g : addr -> list bound) : addr -> list bound := fun a => if Nat.eqb a h then g a ++ [((x, y), 0%nat); ((z, y), 0%nat)] else g a.
Lemma one_face fc f y h1 h2 h3 z1 z2 z3 g : fc f = [(x, 0%nat)] -> facet_center m f = Some y -> option_map (fun e => boundary_of e Line) (deref m Triangle f) = Some [h1; h2; h3] ->
  edge_center m h1 = Some z1 -> edge_center m h2 = Some z2 -> edge_center m h3 = Some z3 ->
  obind (deref m Triangle f) (fun e => ofold (fun g h => option_map (fun l a => if Nat.eqb a h then g a ++ l else g a) (edge_bounds m (fc f) f h)) (boundary_of e Line) g) =
  Some (put x y z3 h3 (put x y z2 h2 (put x y z1 h1 g))).
Proof.
  intros Hf Hy D Z1 Z2 Z3. destruct (deref m Triangle f) as [e|]; [|discriminate D]. cbn [option_map] in D. apply VtkText.some_inj in D. cbn [obind]. rewrite <- D, Hf.
  assert (B : forall h z, edge_center m h = Some z -> edge_bounds m [(x, 0%nat)] f h = Some [((x, y), 0%nat); ((z, y), 0%nat)]) by (intros h z Z; unfold edge_bounds; rewrite Hy, Z; reflexivity).
  rewrite ofold_cons, (B _ _ Z1). cbn [option_map obind]. rewrite ofold_cons, (B _ _ Z2). cbn [option_map obind]. rewrite ofold_cons, (B _ _ Z3). reflexivity.
Qed.
Lemma one_bounds : exists fc bounds, facet_centers m = Some fc /\ interface_bounds m fc = Some bounds /\
  bounds 0%nat = around x y0 y1 (circumcenter_line p0 p1) /\ bounds 1%nat = around x y0 y2 (circumcenter_line p0 p2) /\ bounds 2%nat = around x y1 y2 (circumcenter_line p0 p3) /\
  bounds 3%nat = around x y0 y3 (circumcenter_line p1 p2) /\ bounds 4%nat = around x y1 y3 (circumcenter_line p1 p3) /\ bounds 5%nat = around x y2 y3 (circumcenter_line p2 p3).
Proof.
  destruct one_facets as (fc & EF & HF). destruct one_edges as (Z0 & Z1 & Z2 & Z3 & Z4 & Z5). pose proof (ot_e _ _ _ _ _ O) as H. cbn [map] in H. injection H as H0 H1 H2 H3.
  eexists fc, _. split; [exact EF|]. split; [|split; [|split; [|split; [|split; [|split]]]]].
  - unfold interface_bounds. rewrite (ot_triangles _ _ _ _ _ O).
    rewrite ofold_cons, (one_face fc 0%nat y0 0%nat 1%nat 3%nat _ _ _ _ (HF 0%nat ltac:(lia)) one_f0 H0 Z0 Z1 Z3). cbn [obind].
    rewrite ofold_cons, (one_face fc 1%nat y1 0%nat 2%nat 4%nat _ _ _ _ (HF 1%nat ltac:(lia)) one_f1 H1 Z0 Z2 Z4). cbn [obind].
    rewrite ofold_cons, (one_face fc 2%nat y2 1%nat 2%nat 5%nat _ _ _ _ (HF 2%nat ltac:(lia)) one_f2 H2 Z1 Z2 Z5). cbn [obind].
    rewrite ofold_cons, (one_face fc 3%nat y3 3%nat 4%nat 5%nat _ _ _ _ (HF 3%nat ltac:(lia)) one_f3 H3 Z3 Z4 Z5). cbn [obind]. reflexivity.
  - reflexivity.
  - reflexivity.
  - reflexivity.
  - reflexivity.
  - reflexivity.
  - reflexivity.
Qed.
Lemma areas_some l y : exists k, edge_areas l y = Some k.
Proof. induction l as [|q l (k & IH)]; [exists []; reflexivity|]. unfold edge_areas in *. cbn [omap]. unfold spanned_volume at 1. cbn [signed_spanned_volume option_map]. rewrite IH. cbn [obind option_map]. eauto. Qed.
Lemma one_live h : (h < 6)%nat -> is_live m Line h.
Proof. intros L. apply (range_exact (full_config Tet) m Line (ot_reach _ _ _ _ _ O)). rewrite (ot_lines _ _ _ _ _ O). cbn. lia. Qed.
Lemma one_corners h : (h < 6)%nat -> exists u w q0 q1, obind (deref m Line h) (corners_of m) = Some [(u, q0); (w, q1)].
Proof.
  intros L. destruct (one_live h L) as (e & D). pose proof (ot_reach _ _ _ _ _ O) as RM. destruct (line_verts (full_config Tet) m RM h e D) as (u & w & EV & _).
  destruct (corners (full_config Tet) m RM Line h e D) as (ps & CP & CO & _ & _ & L1 & L2); [discriminate|]. rewrite D. cbn [obind]. rewrite CO, EV.
  destruct ps as [|q0 [|q1 [|? ?]]]; try discriminate. exists u, w, q0, q1. reflexivity.
Qed.
Lemma one_has t a ps : t <> Vertex -> is_live m t a -> element_points m t a = Some ps -> has_points m t a ps.
Proof. intros NV (e & D) E. apply (cell_has m t a e); auto. unfold element_points in E. rewrite D in E. destruct t; try congruence; exact E. Qed.
Lemma one_runs : forall s, exists s', voronoi_tets m s = Some s'.
Proof.
  intros s. destruct one_bounds as (fc & bounds & EF & EB & B0 & B1 & B2 & B3 & B4 & B5). unfold voronoi_tets. rewrite EF. cbn [obind]. rewrite EB. cbn [obind].
  assert (ST : forall h s, (h < 6)%nat -> exists s', tet_edge_step m bounds s h = Some s').
  { clear s. intros h s L. assert (NB : exists y, inner_point (bounds h) = Some y).
    { destruct h as [|[|[|[|[|[|h]]]]]]; [rewrite B0|rewrite B1|rewrite B2|rewrite B3|rewrite B4|rewrite B5|lia]; eexists; reflexivity. }
    destruct NB as (y & NB). unfold tet_edge_step. destruct (areas_some (bounds h) y) as (k & EK). unfold edge_areas in EK.
    assert (DC : exists u w q0 q1, obind (deref m Line h) (corners_of m) = Some [(u, q0); (w, q1)]) by (apply one_corners; exact L).
    destruct DC as (u & w & q0 & q1 & DC). destruct (deref m Line h) as [e|]; [|discriminate DC]. cbn [obind] in *. rewrite DC. cbn [obind]. unfold spanned_volume at 1. cbn [signed_spanned_volume option_map obind]. rewrite NB. cbn [obind]. rewrite EK. cbn [option_map]. eauto. }
  rewrite (ot_lines _ _ _ _ _ O).
  rewrite ofold_cons. destruct (ST 0%nat s) as (s0 & ->); [lia|]. cbn [obind]. rewrite ofold_cons. destruct (ST 1%nat s0) as (s1 & ->); [lia|]. cbn [obind]. rewrite ofold_cons. destruct (ST 2%nat s1) as (s2 & ->); [lia|]. cbn [obind]. rewrite ofold_cons. destruct (ST 3%nat s2) as (s3 & ->); [lia|]. cbn [obind].
  rewrite ofold_cons. destruct (ST 4%nat s3) as (s4 & ->); [lia|]. cbn [obind]. rewrite ofold_cons. destruct (ST 5%nat s4) as (s5 & ->); [lia|]. cbn [obind]. eexists. reflexivity.
Qed.
End OneTet.
Section Corner.
Variables a b c : R.
Hypothesis Ha : / 10 ^ 10 <= a.
Hypothesis Hb : 0 < b.
Hypothesis Hc : 0 < c.
Let o := space 0 0 0.
Let pa := space a 0 0.
Let pb := space 0 b 0.
Let pc := space 0 0 c.
Lemma Ha0 : 0 < a.
Proof. assert (0 < / 10 ^ 10) by (apply Rinv_0_lt_compat; apply pow_lt; lra). lra. Qed.
Lemma corner_center : exists x, circumcenter_tet o pa pb pc = CPoint x /\ x 0%nat = a / 2 /\ x 1%nat = b / 2 /\ x 2%nat = c / 2.
Proof.
  pose proof Ha0 as A0. unfold circumcenter_tet. assert (N : norm_2 3 (cross_prod (psub pb o) (psub pc o)) = b * c).
  { unfold norm_2. match goal with |- sqrt ?x = _ => replace x with ((b * c) * (b * c)) end; [apply sqrt_square; apply Rlt_le; now apply Rmult_lt_0_compat|]. cbn. unfold psub, pb, pc, o, space. ring. }
  assert (P : inner_prod 3 (psub pa o) (cross_prod (psub pb o) (psub pc o)) = a * (b * c)).
  { unfold inner_prod. cbn. unfold psub, pa, pb, pc, o, space. ring. }
  assert (BC : 0 < b * c) by now apply Rmult_lt_0_compat. assert (ABC : 0 < a * (b * c)) by now apply Rmult_lt_0_compat.
  rewrite N, P. destruct (Rlt_dec _ _) as [L|L]; [exfalso|].
  - rewrite Rabs_right in L by lra. apply Rmult_lt_reg_r in L; lra.
  - destruct (Req_EM_T (a * (b * c) * 2) 0); [lra|]. eexists. split; [reflexivity|].
    split; [|split]; unfold padd, pdiv, pscale, inner_prod; cbn; unfold psub, pa, pb, pc, o, space; field; lra.
Qed.
(** The circumcenter of a face at the corner. *)
Lemma face_center p q r : inner_prod 3 (cross_prod (psub p q) (psub q r)) (cross_prod (psub p q) (psub q r)) <> 0 -> exists y, circumcenter_tri3 p q r = Some y.
Proof. intros N. unfold circumcenter_tri3. destruct (Req_EM_T _ 0); [lra|]. eauto. Qed.
Ltac face := unfold circumcenter_tri3; destruct (Req_EM_T _ 0) as [Z|Z]; [exfalso; revert Z; unfold inner_prod; cbn; unfold psub, pa, pb, pc, o, space; intros Z|
  eexists; split; [reflexivity|]; split; [|split]; unfold padd, pscale, inner_prod; cbn; unfold psub, pa, pb, pc, o, space; field; repeat split; try lra].
Lemma face_ab : exists y, circumcenter_tri3 o pa pb = Some y /\ y 0%nat = a / 2 /\ y 1%nat = b / 2 /\ y 2%nat = 0.
Proof. pose proof Ha0 as A0. assert (0 < a * b) by now apply Rmult_lt_0_compat. assert (0 < (a * b) * (a * b)) by now apply Rmult_lt_0_compat. face. all: lra. Qed.
Lemma face_ac : exists y, circumcenter_tri3 o pa pc = Some y /\ y 0%nat = a / 2 /\ y 1%nat = 0 /\ y 2%nat = c / 2.
Proof. pose proof Ha0 as A0. assert (0 < a * c) by now apply Rmult_lt_0_compat. assert (0 < (a * c) * (a * c)) by now apply Rmult_lt_0_compat. face. all: lra. Qed.
Lemma face_bc : exists y, circumcenter_tri3 o pb pc = Some y /\ y 0%nat = 0 /\ y 1%nat = b / 2 /\ y 2%nat = c / 2.
Proof. pose proof Ha0 as A0. assert (0 < b * c) by now apply Rmult_lt_0_compat. assert (0 < (b * c) * (b * c)) by now apply Rmult_lt_0_compat. face. all: lra. Qed.
Lemma face_abc : exists y, circumcenter_tri3 pa pb pc = Some y.
Proof.
  pose proof Ha0 as A0. apply face_center. unfold inner_prod. cbn. unfold psub, pa, pb, pc, o, space. assert (0 < a * b) by now apply Rmult_lt_0_compat. assert (0 < (a * b) * (a * b)) by now apply Rmult_lt_0_compat.
  pose proof (Rle_0_sqr (a * c)). pose proof (Rle_0_sqr (b * c)). unfold Rsqr in *. lra.
Qed.
(** The interface of an edge at the corner is a rectangle. *)
Lemma rectangle x y y' z q k : inner_point (around x y y' z) = Some q -> edge_areas (around x y y' z) q = Some k -> 
  (forall i, (i < 3)%nat -> x i - y' i = y i - z i) ->
  forall w, 0 < w -> inner_prod 3 (cross_prod (psub y z) (psub y' z)) (cross_prod (psub y z) (psub y' z)) = w * w -> area_of k = w.
Proof.
  intros Hq Hk PR w W HW. unfold inner_point, around in Hq. apply VtkText.some_inj in Hq.
  pose proof (PR 0%nat ltac:(lia)) as X0. pose proof (PR 1%nat ltac:(lia)) as X1. pose proof (PR 2%nat ltac:(lia)) as X2.
  assert (Q : forall i, q i = ((x i + y i) / 2 + (z i + y i) / 2 + (x i + y' i) / 2 + (z i + y' i) / 2) / 4).
  { intros i. rewrite Hq. cbn [fst snd fold_left List.length]. unfold pdiv, padd. replace (INR 4) with 4 by (cbn; lra). field. }
  pose proof (Q 0%nat) as Q0. pose proof (Q 1%nat) as Q1. pose proof (Q 2%nat) as Q2. clear Q Hq.
  assert (T : forall p p', In (p, p') [(x, y); (z, y); (x, y'); (z, y')] -> spanned_volume 3 [p; p'; q] = Some (w / 4)).
  { intros p p' I. apply triangle_is; [lra|]. replace (4 * (w / 4 * (w / 4))) with (w * w / 4) by field. rewrite <- HW.
    destruct I as [I|[I|[I|[I|[]]]]]; injection I as <- <-; unfold inner_prod; cbn; unfold psub; rewrite Q0, Q1, Q2;
      replace (x 0%nat) with (y' 0%nat + (y 0%nat - z 0%nat)) by lra; replace (x 1%nat) with (y' 1%nat + (y 1%nat - z 1%nat)) by lra; replace (x 2%nat) with (y' 2%nat + (y 2%nat - z 2%nat)) by lra; field. }
  unfold edge_areas, around in Hk. cbn [omap fst snd] in Hk. rewrite !T in Hk by (cbn; auto). cbn [option_map obind] in Hk. apply VtkText.some_inj in Hk. subst k.
  rewrite !area_cons. cbn [fst]. destruct (Rlt_dec 0 (w / 4)); [|lra]. unfold area_of. cbn [fold_left]. lra.
Qed.
Lemma corner_boxes : exists m s', reach (full_config Tet) m /\ lists_exactly [0%nat] (is_live m Tet) /\ lists_exactly [0; 1; 2; 3]%nat (is_live m Vertex) /\
  has_points m Tet 0%nat [space 0 0 0; space a 0 0; space 0 b 0; space 0 0 c] /\ has_volume 3 m Tet 0%nat (a * b * c / 6) /\
  voronoi_tets m no_voronoi = Some s' /\ Rsum (map (increase no_voronoi s' VertexBox) [0; 1; 2; 3]%nat) >= 3 / 2 * (a * b * c / 6).
Proof.
  pose proof Ha0 as A0. destruct corner_center as (x & EX & X0 & X1 & X2). destruct face_ab as (y0 & E0 & P0 & P1 & P2). destruct face_ac as (y1 & E1 & Q0 & Q1 & Q2). destruct face_bc as (y2 & E2 & S0 & S1 & S2). destruct face_abc as (y3 & E3).
  destruct (one_tet_exists o pa pb pc) as (m & O). pose proof (ot_reach _ _ _ _ _ O) as RM.
  destruct (one_bounds o pa pb pc x y0 y1 y2 y3 EX E0 E1 E2 E3 m O) as (fc & bounds & EF & EB & B0 & B1 & B2 & _).
  destruct (one_runs o pa pb pc x y0 y1 y2 y3 EX E0 E1 E2 E3 m O no_voronoi) as (s' & ES).
  assert (LT : lists_exactly [0%nat] (is_live m Tet)) by (rewrite <- (ot_tets _ _ _ _ _ O); exact (range_exact (full_config Tet) m Tet RM)).
  assert (LV : lists_exactly [0; 1; 2; 3]%nat (is_live m Vertex)) by (rewrite <- (ot_vertices _ _ _ _ _ O); exact (range_exact (full_config Tet) m Vertex RM)).
  assert (LL : lists_exactly [0; 1; 2; 3; 4; 5]%nat (is_live m Line)) by (rewrite <- (ot_lines _ _ _ _ _ O); exact (range_exact (full_config Tet) m Line RM)).
  assert (HP : has_points m Tet 0%nat [o; pa; pb; pc]) by (apply one_has; [discriminate|apply LT; now left|exact (ot_points _ _ _ _ _ O)]).
  pose proof (ot_l _ _ _ _ _ O) as PL. cbn [map] in PL. injection PL as PL0 PL1 PL2 PL3 PL4 PL5.
  assert (HL : forall h q0 q1, has_points m Line h [q0; q1] -> forall w, 0 <= w -> inner_prod 3 (psub q1 q0) (psub q1 q0) = w * w -> has_volume 3 m Line h w).
  { intros h q0 q1 H w W E. exists [q0; q1]. split; [exact H|]. cbn [shape_of volume_cell]. unfold norm_2. f_equal. rewrite <- (sqrt_square w W), <- E. f_equal. unfold inner_prod. cbn. unfold psub. ring. }
  assert (BC : 0 < b * c) by now apply Rmult_lt_0_compat. assert (AC : 0 < a * c) by now apply Rmult_lt_0_compat. assert (AB : 0 < a * b) by now apply Rmult_lt_0_compat.
  assert (IL : forall h, In h [0; 1; 2; 3; 4; 5]%nat -> is_live m Line h) by (intros h I; now apply LL).
  destruct (C65_tetrahedra_pf (full_config Tet) m no_voronoi s' RM ES) as [EBX _].
  assert (V0 : vo_val s' EdgeBox 0%nat = a * b * c / 12).
  { destruct (edge_interface (full_config Tet) m RM fc bounds no_voronoi s' 0%nat EF EB ES (IL 0%nat ltac:(cbn; auto))) as (q & k & K1 & K2 & K3). rewrite B0 in K1, K2.
    assert (AK : area_of k = b * c / 4).
    { apply (rectangle _ _ _ _ q k K1 K2); [|lra|]; [intros [|[|[|i]]] Hi; [| | |lia]; unfold circumcenter_line, pdiv, padd, o, pa, space; lra|].
      unfold inner_prod. cbn. unfold psub, circumcenter_line, pdiv, padd, o, pa, space. rewrite P0, P1, P2, Q0, Q1, Q2. field. }
    assert (HV : has_volume 3 m Line 0%nat a) by (apply (HL 0%nat o pa); [apply one_has; [discriminate|apply IL; cbn; auto|exact PL0]|lra|unfold inner_prod; cbn; unfold psub, o, pa, space; ring]).
    destruct (EBX 0%nat a (IL 0%nat ltac:(cbn; auto)) HV) as [_ ->]. rewrite K3, AK. field. }
  assert (V1 : vo_val s' EdgeBox 1%nat = a * b * c / 12).
  { destruct (edge_interface (full_config Tet) m RM fc bounds no_voronoi s' 1%nat EF EB ES (IL 1%nat ltac:(cbn; auto))) as (q & k & K1 & K2 & K3). rewrite B1 in K1, K2.
    assert (AK : area_of k = a * c / 4).
    { apply (rectangle _ _ _ _ q k K1 K2); [|lra|]; [intros [|[|[|i]]] Hi; [| | |lia]; unfold circumcenter_line, pdiv, padd, o, pb, space; lra|].
      unfold inner_prod. cbn. unfold psub, circumcenter_line, pdiv, padd, o, pb, space. rewrite P0, P1, P2, S0, S1, S2. field. }
    assert (HV : has_volume 3 m Line 1%nat b) by (apply (HL 1%nat o pb); [apply one_has; [discriminate|apply IL; cbn; auto|exact PL1]|lra|unfold inner_prod; cbn; unfold psub, o, pb, space; ring]).
    destruct (EBX 1%nat b (IL 1%nat ltac:(cbn; auto)) HV) as [_ ->]. rewrite K3, AK. field. }
  assert (V2 : vo_val s' EdgeBox 2%nat = a * b * c / 12).
  { destruct (edge_interface (full_config Tet) m RM fc bounds no_voronoi s' 2%nat EF EB ES (IL 2%nat ltac:(cbn; auto))) as (q & k & K1 & K2 & K3). rewrite B2 in K1, K2.
    assert (AK : area_of k = a * b / 4).
    { apply (rectangle _ _ _ _ q k K1 K2); [|lra|]; [intros [|[|[|i]]] Hi; [| | |lia]; unfold circumcenter_line, pdiv, padd, o, pc, space; lra|].
      unfold inner_prod. cbn. unfold psub, circumcenter_line, pdiv, padd, o, pc, space. rewrite Q0, Q1, Q2, S0, S1, S2. field. }
    assert (HV : has_volume 3 m Line 2%nat c) by (apply (HL 2%nat o pc); [apply one_has; [discriminate|apply IL; cbn; auto|exact PL2]|lra|unfold inner_prod; cbn; unfold psub, o, pc, space; ring]).
    destruct (EBX 2%nat c (IL 2%nat ltac:(cbn; auto)) HV) as [_ ->]. rewrite K3, AK. field. }
  assert (VP : forall h, In h [3; 4; 5]%nat -> 0 <= vo_val s' EdgeBox h).
  { intros h I. assert (IH : is_live m Line h) by (apply IL; cbn in *; tauto).
    assert (HV : exists w, 0 <= w /\ has_volume 3 m Line h w).
    { assert (X : exists q0 q1, has_points m Line h [q0; q1]) by (destruct I as [<-|[<-|[<-|[]]]]; eexists _, _; (apply one_has; [discriminate|exact IH|eassumption])).
      destruct X as (q0 & q1 & X). eexists. split; [|exists [q0; q1]; split; [exact X|reflexivity]]. apply sqrt_pos. }
    destruct HV as (w & W & HV). destruct (EBX h w IH HV) as [P ->]. assert (0 <= vo_val s' InterfaceArea h * w) by now apply Rmult_le_pos. lra. }
  exists m, s'. split; [exact RM|]. split; [exact LT|]. split; [exact LV|]. split; [exact HP|]. split; [|split; [exact ES|]].
  - exists [o; pa; pb; pc]. split; [exact HP|]. cbn [shape_of volume_cell]. assert (0 < a * b * c) by now apply Rmult_lt_0_compat.
    unfold spanned_volume. cbn [signed_spanned_volume option_map]. f_equal. match goal with |- Rabs ?t = _ => replace t with (a * b * c / 6) end; [apply Rabs_right; lra|]. unfold inner_prod. cbn. unfold psub, o, pa, pb, pc, space. field.
  - rewrite (C64_tetrahedra_partial_pf (full_config Tet) m no_voronoi s' RM ES _ _ LV LL). cbn [map]. rewrite !Rsum_cons, Rsum_nil, V0, V1, V2.
    pose proof (VP 3%nat ltac:(cbn; auto)). pose proof (VP 4%nat ltac:(cbn; auto)). pose proof (VP 5%nat ltac:(cbn; auto)). lra.
Qed.
End Corner.
