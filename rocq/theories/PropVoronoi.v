From Coq Require Import Reals List Arith Bool Lia Lra Permutation.
From Verif Require Import ModelTopo ModelMesh ModelErase ModelQuery ModelGeom ModelVolume ModelDistance ModelSurface ModelVoronoi
  SpecMesh SpecErase SpecQuery SpecCopy SpecRefine SpecGeom SpecDistance SpecSurface SpecVoronoi MeshDemo QueryDemo VtkLink DistanceProofs VoronoiGeom VoronoiMesh VoronoiStep VoronoiLoop VoronoiEdge VoronoiProofs.
Import ListNotations.
Local Open Scope R_scope.
(** The boxes of the vertices and the boxes of the edges cover the triangles: each
    kind adds up to the total area, also if circumcenters are outside. *)
Theorem C64_triangles : forall cfg q s, qreach cfg q -> reach cfg (q_mesh q) -> cfg_keep cfg Line = true -> proper_cells 2 (q_mesh q) Triangle ->
  exists q' s', voronoi_triangles q s = Some (q', s') /\ q_mesh q' = q_mesh q /\ qreach cfg q' /\
    forall vs es cs xs, lists_exactly vs (is_live (q_mesh q) Vertex) -> lists_exactly es (is_live (q_mesh q) Line) ->
      lists_exactly cs (is_live (q_mesh q) Triangle) -> Forall2 (has_volume 2 (q_mesh q) Triangle) cs xs ->
      Rsum (map (increase s s' VertexBox) vs) = Rsum xs /\ Rsum (map (increase s s' EdgeBox) es) = Rsum xs.
Proof. exact C64_triangles_pf. Qed.
Print Assumptions C64_triangles.

(** The same for convex quadrilaterals in the plane. *)
Theorem C64_quadrilaterals : forall cfg m s, reach cfg m -> cfg_keep cfg Line = true ->
  exists s', voronoi_quads 2 m s = Some s' /\
    forall vs es cs xs, lists_exactly vs (is_live m Vertex) -> lists_exactly es (is_live m Line) ->
      lists_exactly cs (is_live m Quad) -> Forall2 (quad_area m) cs xs ->
      Rsum (map (increase s s' VertexBox) vs) = Rsum xs /\ Rsum (map (increase s s' EdgeBox) es) = Rsum xs.
Proof. exact C64_quadrilaterals_pf. Qed.
Print Assumptions C64_quadrilaterals.

(** Lines: the box of a line is its length, its interface is 1, and the box of a
    vertex is half of the lengths of the lines at it; the boxes of the vertices add
    up to the total length. *)
Theorem C64_lines : forall cfg d m s, reach cfg m ->
  exists s', voronoi_lines d m s = Some s' /\
    (forall h x, is_live m Line h -> has_volume d m Line h x -> vo_val s' EdgeBox h = x /\ vo_val s' InterfaceArea h = 1) /\
    (forall v es xs, lists_exactly es (line_at_vertex m v) -> Forall2 (has_volume d m Line) es xs -> increase s s' VertexBox v = Rsum xs / 2) /\
    (forall vs es xs, lists_exactly vs (is_live m Vertex) -> lists_exactly es (is_live m Line) -> Forall2 (has_volume d m Line) es xs ->
       Rsum (map (increase s s' VertexBox) vs) = Rsum xs).
Proof. exact C64_lines_pf. Qed.
Print Assumptions C64_lines.

(** The same for hexahedra that are parallelepipeds, in a mesh whose quadrilaterals
    are parallelograms. *)
Theorem C64_parallelepipeds : forall cfg m s, reach cfg m -> cfg_keep cfg Line = true -> cfg_keep cfg Quad = true ->
  (forall f, is_live m Quad f -> parallelogram m f) ->
  exists s', voronoi_hexes m s = Some s' /\
    forall vs es cs xs, lists_exactly vs (is_live m Vertex) -> lists_exactly es (is_live m Line) ->
      lists_exactly cs (is_live m Hex) -> Forall2 (parallelepiped_volume m) cs xs ->
      Rsum (map (increase s s' VertexBox) vs) = Rsum xs /\ Rsum (map (increase s s' EdgeBox) es) = Rsum xs.
Proof. exact C64_parallelepipeds_pf. Qed.
Print Assumptions C64_parallelepipeds.

(** Hexahedra: the boxes of the vertices and of the edges have the same total.
    (That it is the volume of the cells is proved for parallelepipeds only, above.) *)
Theorem C64_hexahedra_partial : forall cfg m s, reach cfg m -> cfg_keep cfg Line = true -> cfg_keep cfg Quad = true ->
  exists s', voronoi_hexes m s = Some s' /\
    forall vs es, lists_exactly vs (is_live m Vertex) -> lists_exactly es (is_live m Line) ->
      Rsum (map (increase s s' VertexBox) vs) = Rsum (map (increase s s' EdgeBox) es).
Proof. exact C64_hexahedra_partial_pf. Qed.
Print Assumptions C64_hexahedra_partial.

(** Tetrahedra: the same. *)
Theorem C64_tetrahedra_partial : forall cfg m s s', reach cfg m -> voronoi_tets m s = Some s' ->
  forall vs es, lists_exactly vs (is_live m Vertex) -> lists_exactly es (is_live m Line) ->
    Rsum (map (increase s s' VertexBox) vs) = Rsum (map (vo_val s' EdgeBox) es).
Proof. exact C64_tetrahedra_partial_pf. Qed.
Print Assumptions C64_tetrahedra_partial.

(** The interface of an edge is the sum of the signed distances of the circumcenters
    of its triangles: the circumcenter of a triangle counts negative if the edge
    separates it from the triangle, and not at all if the edge does so and has no other
    triangle. *)
Theorem C65_interface : forall cfg q s, qreach cfg q -> reach cfg (q_mesh q) -> cfg_keep cfg Line = true -> proper_cells 2 (q_mesh q) Triangle ->
  exists q' s', voronoi_triangles q s = Some (q', s') /\
    forall h, is_live (q_mesh q) Line h -> exists cs xs, lists_exactly cs (fun c => bounded_by (q_mesh q) Triangle c Line h) /\
      increase s s' InterfaceArea h = Rsum xs /\
      Forall2 (fun c x => forall a b p z y, edge_of_cell (q_mesh q) h c a b p -> circle_centre z a b p -> signed_distance a b p z y ->
        (y < 0 -> only_cell (q_mesh q) h c -> x = 0) /\ (0 <= y \/ ~ only_cell (q_mesh q) h c -> x = y)) cs xs.
Proof. exact C65_interface_pf. Qed.
Print Assumptions C65_interface.

(** With an empty circumcircle, it is the distance of the two circumcenters: if an
    edge has two triangles, one on each side, and the opposite point of the second
    is not inside the circumcircle of the first. *)
Theorem C65_delaunay : forall cfg q s, qreach cfg q -> reach cfg (q_mesh q) -> cfg_keep cfg Line = true -> proper_cells 2 (q_mesh q) Triangle ->
  exists q' s', voronoi_triangles q s = Some (q', s') /\
    forall h c1 c2 a b p1 p2 z1 z2, c1 <> c2 -> (forall c, bounded_by (q_mesh q) Triangle c Line h <-> c = c1 \/ c = c2) ->
      edge_of_cell (q_mesh q) h c1 a b p1 -> edge_of_cell (q_mesh q) h c2 a b p2 ->
      circle_centre z1 a b p1 -> circle_centre z2 a b p2 ->
      turn a b p1 * turn a b p2 < 0 -> dist_sq 2 z1 a <= dist_sq 2 z1 p2 ->
      increase s s' InterfaceArea h = sqrt (dist_sq 2 z1 z2).
Proof. exact C65_delaunay_pf. Qed.
Print Assumptions C65_delaunay.

(** If no circumcenter is outside the mesh behind an edge of its triangle: the box of an
    edge is half its interface times its length, and the box of a vertex is half of the
    boxes of its edges. *)
Theorem C65_boxes : forall cfg q s, qreach cfg q -> reach cfg (q_mesh q) -> cfg_keep cfg Line = true -> proper_cells 2 (q_mesh q) Triangle ->
  centres_covered (q_mesh q) ->
  exists q' s', voronoi_triangles q s = Some (q', s') /\
    (forall h x, has_volume 2 (q_mesh q) Line h x -> increase s s' EdgeBox h = increase s s' InterfaceArea h * x / 2) /\
    (forall v es, lists_exactly es (line_at_vertex (q_mesh q) v) ->
       increase s s' VertexBox v = Rsum (map (fun h => increase s s' EdgeBox h / 2) es)).
Proof. exact C65_boxes_pf. Qed.
Print Assumptions C65_boxes.

(** That is so if no triangle has an obtuse angle. *)
Theorem C65_no_obtuse_angle : forall m : @mesh point, proper_cells 2 m Triangle -> no_obtuse_angle m -> centres_covered m.
Proof. exact C65_no_obtuse_angle_pf. Qed.
Print Assumptions C65_no_obtuse_angle.

(** Tetrahedra: the box of an edge is a third of its interface times its length, and
    the box of a vertex is half of the boxes of its edges. *)
Theorem C65_tetrahedra : forall cfg m s s', reach cfg m -> voronoi_tets m s = Some s' ->
  (forall h x, is_live m Line h -> has_volume 3 m Line h x ->
     0 <= vo_val s' InterfaceArea h /\ vo_val s' EdgeBox h = vo_val s' InterfaceArea h * x / 3) /\
  (forall v es, lists_exactly es (line_at_vertex m v) -> increase s s' VertexBox v = Rsum (map (fun h => vo_val s' EdgeBox h / 2) es)).
Proof. exact C65_tetrahedra_pf. Qed.
Print Assumptions C65_tetrahedra.

(** The values are the sums of the contributions of the cells: the boxes of vertices
    and edges of triangles; every cell that is entered exists, and it is entered once. *)
Theorem C66_triangles : forall cfg q s, qreach cfg q -> reach cfg (q_mesh q) -> cfg_keep cfg Line = true -> proper_cells 2 (q_mesh q) Triangle ->
  exists q' s', voronoi_triangles q s = Some (q', s') /\
    (consistent_for s VertexBox -> consistent_for s' VertexBox) /\ (consistent_for s EdgeBox -> consistent_for s' EdgeBox) /\
    (one_entry_each s -> one_entry_each s') /\
    (forall k a c, In c (map fst (vo_con s' k a)) -> In c (map fst (vo_con s k a)) \/ is_live (q_mesh q) Triangle c).
Proof. exact C66_triangles_pf. Qed.
Print Assumptions C66_triangles.

(** The interfaces of triangles as well, if no circumcenter is outside the mesh
    behind an edge of its triangle. *)
Theorem C66_interface_partial : forall cfg q s, qreach cfg q -> reach cfg (q_mesh q) -> cfg_keep cfg Line = true -> proper_cells 2 (q_mesh q) Triangle ->
  centres_covered (q_mesh q) ->
  exists q' s', voronoi_triangles q s = Some (q', s') /\ (consistent s -> consistent s').
Proof. exact C66_interface_partial_pf. Qed.
Print Assumptions C66_interface_partial.

(** In general not: as soon as there is such a circumcenter, some interface is larger
    than the sum of its contributions. *)
Theorem C66_interface_refuted : forall cfg q s, qreach cfg q -> reach cfg (q_mesh q) -> cfg_keep cfg Line = true -> proper_cells 2 (q_mesh q) Triangle ->
  ~ centres_covered (q_mesh q) -> consistent s ->
  exists q' s', voronoi_triangles q s = Some (q', s') /\ exists h, Rsum (map snd (vo_con s' InterfaceArea h)) < vo_val s' InterfaceArea h.
Proof. exact C66_interface_refuted_pf. Qed.
Print Assumptions C66_interface_refuted.

(** Quadrilaterals (in any dimension) and hexahedra. *)
Theorem C66_quadrilaterals : forall d m s s', voronoi_quads d m s = Some s' -> consistent s -> consistent s'.
Proof. exact C66_quadrilaterals_pf. Qed.
Print Assumptions C66_quadrilaterals.

Theorem C66_hexahedra : forall m s s', voronoi_hexes m s = Some s' -> consistent s -> consistent s'.
Proof. exact C66_hexahedra_pf. Qed.
Print Assumptions C66_hexahedra.

(** Lines and tetrahedra, from fresh accessors; every cell of a tetrahedral mesh is entered once. *)
Theorem C66_lines : forall cfg d m s', reach cfg m -> voronoi_lines d m no_voronoi = Some s' -> consistent s'.
Proof. exact C66_lines_pf. Qed.
Print Assumptions C66_lines.

Theorem C66_tetrahedra : forall cfg m s', reach cfg m -> voronoi_tets m no_voronoi = Some s' -> consistent s' /\ one_entry_each s'.
Proof. exact C66_tetrahedra_pf. Qed.
Print Assumptions C66_tetrahedra.

(** Two triangles with the corners (0,0), (2,0), (1,2) and (0,0), (2,0), (1,-2): their
    circumcenters are (1,3/4) and (1,-3/4), so the interface of the common edge is 3/2
    and its box is 3/2. *)
Definition vo_cfg := full_config Triangle.
Definition vo_ops : list (op point) := [OVertex (pt2 0 0); OVertex (pt2 2 0); OVertex (pt2 1 2); OVertex (pt2 1 (-2));
  OElement Triangle [0;1;2]%nat; OElement Triangle [0;1;3]%nat].
Definition vo_q := qstate_of vo_cfg (map (fun o => QMesh o) vo_ops).
Definition vo_m := mesh_of vo_cfg vo_ops.
Example ex_vo_reach : qreach vo_cfg vo_q /\ reach vo_cfg (q_mesh vo_q) /\ cfg_keep vo_cfg Line = true.
Proof. split; [apply qdemo_ok; cbv -[pt2]; reflexivity|]. split; [|reflexivity]. unfold vo_q. rewrite qmesh_of. apply demo_ok. cbv -[pt2]; reflexivity. Qed.
Lemma vo_mesh : q_mesh vo_q = vo_m.
Proof. unfold vo_q, vo_m. apply qmesh_of. Qed.
Lemma points_at m t a ps : t <> Vertex -> option_map e_verts (deref m t a) <> None ->
  (forall vs, option_map e_verts (deref m t a) = Some vs -> Forall2 (fun v p => option_map e_pt (deref m Vertex v) = Some (Some p)) vs ps) -> has_points m t a ps.
Proof.
  intros NV L H. unfold has_points. destruct (deref m t a) as [e|]; [|contradiction]. exists e. split; [reflexivity|]. specialize (H (e_verts e) eq_refl).
  assert (G : Forall2 (fun v p => exists ev, deref m Vertex v = Some ev /\ e_pt ev = Some p) (e_verts e) ps).
  { induction H as [|v p vs ps V F IH]; constructor; auto. destruct (deref m Vertex v) as [ev|]; [|discriminate]. exists ev. split; [reflexivity|]. cbn in V. congruence. }
  destruct t; auto. contradiction.
Qed.
Lemma vo_points : has_points vo_m Triangle 0 [pt2 0 0; pt2 2 0; pt2 1 2] /\ has_points vo_m Triangle 1 [pt2 0 0; pt2 2 0; pt2 1 (-2)] /\ has_points vo_m Line 0 [pt2 0 0; pt2 2 0].
Proof.
  split; [|split]; apply points_at; [discriminate|cbv -[pt2]; discriminate| |discriminate|cbv -[pt2]; discriminate| |discriminate|cbv -[pt2]; discriminate|];
  intros vs E; cbv -[pt2] in E; injection E as <-; repeat constructor; cbv -[pt2]; reflexivity.
Qed.
Lemma vo_live c : is_live vo_m Triangle c -> c = 0%nat \/ c = 1%nat.
Proof. intros H. apply range_is_live in H. change (In c [0; 1]%nat) in H. cbn in H. intuition. Qed.
Lemma vo_cells c ps : has_points vo_m Triangle c ps -> (c = 0%nat /\ ps = [pt2 0 0; pt2 2 0; pt2 1 2]) \/ (c = 1%nat /\ ps = [pt2 0 0; pt2 2 0; pt2 1 (-2)]).
Proof.
  intros H. assert (L : is_live vo_m Triangle c) by (destruct H as (e & D & _); now exists e). destruct vo_points as (P0 & P1 & _).
  destruct (vo_live c L) as [-> | ->]; [left|right]; split; auto; eapply has_points_fun; eauto.
Qed.
Lemma sum2 f : sum_upto 2 f = f 0%nat + f 1%nat.
Proof. cbn. ring. Qed.
Example ex_vo_proper : proper_cells 2 (q_mesh vo_q) Triangle.
Proof.
  rewrite vo_mesh. intros c _ (ps & H & V). destruct (vo_cells c ps H) as [(_ & ->)|(_ & ->)]; cbn [shape_of volume_cell] in V; rewrite VoronoiGeom.sv3 in V; injection V as V;
  unfold VoronoiGeom.cr, pt2 in V; apply (Rmult_eq_compat_r 2) in V; unfold Rdiv in V; rewrite Rmult_assoc, Rinv_l, Rmult_0_l, Rmult_1_r in V by lra;
  revert V; unfold Rabs; destruct (Rcase_abs _); lra.
Qed.
Example ex_vo_acute : no_obtuse_angle (q_mesh vo_q).
Proof.
  rewrite vo_mesh. intros c ps a b p H P.
  assert (ALL : forall u v w a b p : point, Permutation [u; v; w] [a; b; p] ->
     0 <= dot 2 (psub u w) (psub v w) -> 0 <= dot 2 (psub v u) (psub w u) -> 0 <= dot 2 (psub u v) (psub w v) -> 0 <= dot 2 (psub a p) (psub b p)).
  { clear. intros u v w a b p P H1 H2 H3. assert (S : forall x y z, dot 2 (psub x z) (psub y z) = dot 2 (psub y z) (psub x z)) by (intros; rewrite !VoronoiLoop.dot2; ring).
    assert (I : In p [u; v; w]) by (apply (Permutation_in _ (Permutation_sym P)); cbn; auto). destruct I as [->|[->|[->|[]]]].
    - assert (Q : Permutation (p :: [v; w]) (p :: [a; b])) by (rewrite P; symmetry; apply (Permutation_cons_append [a; b] p)). apply Permutation_cons_inv, Permutation_length_2_inv in Q as [E|E]; injection E as -> ->; [exact H2|now rewrite S].
    - assert (Q : Permutation (p :: [u; w]) (p :: [a; b])) by (rewrite perm_swap, P; symmetry; apply (Permutation_cons_append [a; b] p)). apply Permutation_cons_inv, Permutation_length_2_inv in Q as [E|E]; injection E as -> ->; [exact H3|now rewrite S].
    - assert (Q : Permutation (p :: [u; v]) (p :: [a; b])). { transitivity [u; v; p]; [apply (Permutation_cons_append [u; v] p)|]. rewrite P. symmetry. apply (Permutation_cons_append [a; b] p). }
      apply Permutation_cons_inv, Permutation_length_2_inv in Q as [E|E]; injection E as -> ->; [exact H1|now rewrite S]. }
  destruct (vo_cells c ps H) as [(_ & ->)|(_ & ->)]; apply (ALL _ _ _ _ _ _ P); rewrite VoronoiLoop.dot2; unfold psub, pt2; lra.
Qed.
Example ex_vo_covered : centres_covered (q_mesh vo_q).
Proof. apply C65_no_obtuse_angle; [apply ex_vo_proper|apply ex_vo_acute]. Qed.
Lemma vo_bounded c : bounded_by vo_m Triangle c Line 0 <-> c = 0%nat \/ c = 1%nat.
Proof.
  split; [intros (e & D & _); apply vo_live; now exists e|]. intros H.
  assert (X : forall c, option_map (fun e => existsb (Nat.eqb 0) (boundary_of e Line)) (deref vo_m Triangle c) = Some true -> bounded_by vo_m Triangle c Line 0).
  { intros k E. destruct (deref vo_m Triangle k) as [e|] eqn:D; [|discriminate]. exists e. split; [exact D|]. cbn in E. unfold has_boundary. injection E as E. apply existsb_exists in E as (x & I & E). destruct x; [exact I|discriminate E]. }
  destruct H as [-> | ->]; apply X; cbv -[pt2]; reflexivity.
Qed.
Example ex_vo_interface : exists q' s', voronoi_triangles vo_q no_voronoi = Some (q', s') /\ increase no_voronoi s' InterfaceArea 0 = 3 / 2 /\ increase no_voronoi s' EdgeBox 0 = 3 / 2.
Proof.
  destruct ex_vo_reach as (Q & R & K). destruct (C65_delaunay _ _ no_voronoi Q R K ex_vo_proper) as (q' & s' & E & H).
  destruct (C65_boxes _ _ no_voronoi Q R K ex_vo_proper ex_vo_covered) as (q2 & s2 & E2 & B & _). rewrite E in E2. injection E2 as <- <-. exists q', s'. split; [exact E|].
  rewrite vo_mesh in *. destruct vo_points as (P0 & P1 & PL).
  assert (I : increase no_voronoi s' InterfaceArea 0 = 3 / 2).
  { rewrite (H 0%nat 0%nat 1%nat (pt2 0 0) (pt2 2 0) (pt2 1 2) (pt2 1 (-2)) (pt2 1 (3/4)) (pt2 1 (-3/4))).
    - replace (dist_sq 2 (pt2 1 (3/4)) (pt2 1 (-3/4))) with (3/2 * (3/2)) by (rewrite !dist_sq_sq; unfold sq, pt2; lra). apply sqrt_square. lra.
    - discriminate.
    - apply vo_bounded.
    - split; [apply vo_bounded; auto|]. split; [exact PL|]. eexists. split; [exact P0|reflexivity].
    - split; [apply vo_bounded; auto|]. split; [exact PL|]. eexists. split; [exact P1|reflexivity].
    - split; rewrite !dist_sq_sq; unfold sq, pt2; lra.
    - split; rewrite !dist_sq_sq; unfold sq, pt2; lra.
    - unfold turn, pt2; lra.
    - rewrite !dist_sq_sq; unfold sq, pt2; lra. }
  split; [exact I|]. rewrite (B 0%nat 2), I; [lra|]. exists [pt2 0 0; pt2 2 0]. split; [exact PL|]. cbn [shape_of volume_cell]. f_equal. unfold norm_2. cbn [sum_upto]. unfold psub, pt2.
  match goal with |- sqrt ?x = 2 => replace x with (2 * 2) by ring end. apply sqrt_square. lra.
Qed.

(** One triangle with the corners (0,0), (4,0), (2,1): its circumcenter is (2,-3/2). *)
Definition vo_q1 := qstate_of vo_cfg (map (fun o => QMesh o) [OVertex (pt2 0 0); OVertex (pt2 4 0); OVertex (pt2 2 1); OElement Triangle [0;1;2]%nat]).
Definition vo_m1 := mesh_of vo_cfg [OVertex (pt2 0 0); OVertex (pt2 4 0); OVertex (pt2 2 1); OElement Triangle [0;1;2]%nat].
Lemma vo_mesh1 : q_mesh vo_q1 = vo_m1.
Proof. unfold vo_q1, vo_m1. apply qmesh_of. Qed.
Lemma vo_points1 : has_points vo_m1 Triangle 0 [pt2 0 0; pt2 4 0; pt2 2 1] /\ has_points vo_m1 Line 0 [pt2 0 0; pt2 4 0].
Proof.
  split; apply points_at; [discriminate|cbv -[pt2]; discriminate| |discriminate|cbv -[pt2]; discriminate|];
  intros vs E; cbv -[pt2] in E; injection E as <-; repeat constructor; cbv -[pt2]; reflexivity.
Qed.
Lemma vo_live1 c : is_live vo_m1 Triangle c -> c = 0%nat.
Proof. intros H. apply range_is_live in H. change (In c [0]%nat) in H. cbn in H. intuition. Qed.
Example ex_vo_obtuse : qreach vo_cfg vo_q1 /\ reach vo_cfg (q_mesh vo_q1) /\ cfg_keep vo_cfg Line = true /\ proper_cells 2 (q_mesh vo_q1) Triangle /\
  ~ centres_covered (q_mesh vo_q1) /\ consistent no_voronoi.
Proof.
  split; [apply qdemo_ok; cbv -[pt2]; reflexivity|]. rewrite vo_mesh1. split; [apply demo_ok; cbv -[pt2]; reflexivity|]. split; [reflexivity|].
  destruct vo_points1 as (P0 & PL). split.
  - intros c L (ps & H & V). apply vo_live1 in L. subst c. pose proof (has_points_fun _ _ _ _ _ H P0) as ->. cbn [shape_of volume_cell] in V; rewrite VoronoiGeom.sv3 in V; injection V as V;
    unfold VoronoiGeom.cr, pt2 in V; apply (Rmult_eq_compat_r 2) in V; unfold Rdiv in V; rewrite Rmult_assoc, Rinv_l, Rmult_0_l, Rmult_1_r in V by lra;
    revert V; unfold Rabs; destruct (Rcase_abs _); lra.
  - split; [|intros q a; cbn; reflexivity]. intros CV.
    assert (B : bounded_by vo_m1 Triangle 0 Line 0).
    { assert (X : option_map (fun e => existsb (Nat.eqb 0) (boundary_of e Line)) (deref vo_m1 Triangle 0) = Some true) by (cbv -[pt2]; reflexivity).
      destruct (deref vo_m1 Triangle 0) as [e|] eqn:D; [|discriminate]. exists e. split; [exact D|]. unfold has_boundary. injection X as X. apply existsb_exists in X as (x & I & X). destruct x; [exact I|discriminate X]. }
    assert (0 <= -3 / 2); [|lra]. apply (CV 0%nat 0%nat (pt2 0 0) (pt2 4 0) (pt2 2 1) (pt2 2 (-3/2))).
    + split; [exact B|]. split; [exact PL|]. eexists. split; [exact P0|reflexivity].
    + split; rewrite !dist_sq_sq; unfold sq, pt2; lra.
    + exists (pt2 0 1). rewrite !VoronoiLoop.dot2; unfold psub, pt2; lra.
    + intros x. split; [intros (e & D & _); apply vo_live1; now exists e|intros ->; exact B].
Qed.

Definition pt3 (x y z : R) : point := fun i => match i with O => x | S O => y | S (S O) => z | _ => 0 end.
(** A quadrilateral (the square (0,0), (2,0), (0,2), (2,2)), a hexahedron and lines. *)
Definition vo_quad := mesh_of (full_config Quad) [OVertex (pt2 0 0); OVertex (pt2 2 0); OVertex (pt2 0 2); OVertex (pt2 2 2); OElement Quad [0;1;2;3]%nat].
Example ex_vo_quad : reach (full_config Quad) vo_quad /\ cfg_keep (full_config Quad) Line = true /\ quad_area vo_quad 0 4.
Proof.
  split; [apply demo_ok; cbv -[pt2]; reflexivity|]. split; [reflexivity|]. exists (pt2 0 0), (pt2 2 0), (pt2 0 2), (pt2 2 2). split.
  - apply points_at; [discriminate|cbv -[pt2]; discriminate|]; intros vs E; cbv -[pt2] in E; injection E as <-; repeat constructor; cbv -[pt2]; reflexivity.
  - split; [left; unfold turn, pt2; lra|]. unfold pt2. match goal with |- _ = Rabs ?x / 2 => replace x with 8 by ring end. rewrite Rabs_right; lra.
Qed.
Definition vo_hex := mesh_of (full_config Hex) (map (fun p => OVertex p) [pt3 0 0 0; pt3 1 0 0; pt3 0 1 0; pt3 1 1 0; pt3 0 0 1; pt3 1 0 1; pt3 0 1 1; pt3 1 1 1] ++ [OElement Hex [0;1;2;3;4;5;6;7]%nat]).
Lemma vo_hex_face f p0 p1 p2 p3 : has_points vo_hex Quad f [p0; p1; p2; p3] -> (forall i, (i < 3)%nat -> p0 i + p3 i = p1 i + p2 i) -> parallelogram vo_hex f.
Proof. intros H E. exists p0, p1, p2, p3. split; assumption. Qed.
Lemma vo_hex_face0 : has_points vo_hex Quad 0%nat [pt3 0 0 0; pt3 1 0 0; pt3 0 1 0; pt3 1 1 0].
Proof. apply points_at; [discriminate|cbv -[pt3]; discriminate|]; intros vs E; cbv -[pt3] in E; injection E as <-; repeat (apply Forall2_cons; [cbv -[pt3]; reflexivity|]); apply Forall2_nil. Qed.
Lemma vo_hex_face1 : has_points vo_hex Quad 1%nat [pt3 0 0 0; pt3 1 0 0; pt3 0 0 1; pt3 1 0 1].
Proof. apply points_at; [discriminate|cbv -[pt3]; discriminate|]; intros vs E; cbv -[pt3] in E; injection E as <-; repeat (apply Forall2_cons; [cbv -[pt3]; reflexivity|]); apply Forall2_nil. Qed.
Lemma vo_hex_face2 : has_points vo_hex Quad 2%nat [pt3 0 0 0; pt3 0 1 0; pt3 0 0 1; pt3 0 1 1].
Proof. apply points_at; [discriminate|cbv -[pt3]; discriminate|]; intros vs E; cbv -[pt3] in E; injection E as <-; repeat (apply Forall2_cons; [cbv -[pt3]; reflexivity|]); apply Forall2_nil. Qed.
Lemma vo_hex_face3 : has_points vo_hex Quad 3%nat [pt3 1 0 0; pt3 1 1 0; pt3 1 0 1; pt3 1 1 1].
Proof. apply points_at; [discriminate|cbv -[pt3]; discriminate|]; intros vs E; cbv -[pt3] in E; injection E as <-; repeat (apply Forall2_cons; [cbv -[pt3]; reflexivity|]); apply Forall2_nil. Qed.
Lemma vo_hex_face4 : has_points vo_hex Quad 4%nat [pt3 0 1 0; pt3 1 1 0; pt3 0 1 1; pt3 1 1 1].
Proof. apply points_at; [discriminate|cbv -[pt3]; discriminate|]; intros vs E; cbv -[pt3] in E; injection E as <-; repeat (apply Forall2_cons; [cbv -[pt3]; reflexivity|]); apply Forall2_nil. Qed.
Lemma vo_hex_face5 : has_points vo_hex Quad 5%nat [pt3 0 0 1; pt3 1 0 1; pt3 0 1 1; pt3 1 1 1].
Proof. apply points_at; [discriminate|cbv -[pt3]; discriminate|]; intros vs E; cbv -[pt3] in E; injection E as <-; repeat (apply Forall2_cons; [cbv -[pt3]; reflexivity|]); apply Forall2_nil. Qed.
Lemma vo_hex_faces f : In f [0; 1; 2; 3; 4; 5]%nat -> parallelogram vo_hex f.
Proof.
  intros [<-|[<-|[<-|[<-|[<-|[<-|[]]]]]]].
  - apply (vo_hex_face _ _ _ _ _ vo_hex_face0). clear. intros [|[|[|i]]] Hi; unfold pt3; [lra|lra|lra|lia].
  - apply (vo_hex_face _ _ _ _ _ vo_hex_face1). clear. intros [|[|[|i]]] Hi; unfold pt3; [lra|lra|lra|lia].
  - apply (vo_hex_face _ _ _ _ _ vo_hex_face2). clear. intros [|[|[|i]]] Hi; unfold pt3; [lra|lra|lra|lia].
  - apply (vo_hex_face _ _ _ _ _ vo_hex_face3). clear. intros [|[|[|i]]] Hi; unfold pt3; [lra|lra|lra|lia].
  - apply (vo_hex_face _ _ _ _ _ vo_hex_face4). clear. intros [|[|[|i]]] Hi; unfold pt3; [lra|lra|lra|lia].
  - apply (vo_hex_face _ _ _ _ _ vo_hex_face5). clear. intros [|[|[|i]]] Hi; unfold pt3; [lra|lra|lra|lia].
Qed.
Lemma vo_hex_reach : reach (full_config Hex) vo_hex.
Proof. apply demo_ok. cbv -[pt3]. reflexivity. Qed.
Lemma vo_hex_quads : range vo_hex Quad = [0; 1; 2; 3; 4; 5]%nat.
Proof. reflexivity. Qed.
Example ex_vo_hex : reach (full_config Hex) vo_hex /\ cfg_keep (full_config Hex) Line = true /\ cfg_keep (full_config Hex) Quad = true /\ range vo_hex Hex = [0%nat] /\
  (forall f, is_live vo_hex Quad f -> parallelogram vo_hex f) /\ parallelepiped_volume vo_hex 0%nat 1.
Proof.
  split; [exact vo_hex_reach|]. split; [reflexivity|]. split; [reflexivity|]. split; [reflexivity|]. split.
  - intros f L. apply vo_hex_faces. rewrite <- vo_hex_quads. exact (proj2 (proj2 (range_exact (full_config Hex) vo_hex Quad vo_hex_reach) f) L).
  - exists [pt3 0 0 0; pt3 1 0 0; pt3 0 1 0; pt3 1 1 0; pt3 0 0 1; pt3 1 0 1; pt3 0 1 1; pt3 1 1 1], (pt3 0 0 0), (pt3 1 0 0), (pt3 0 1 0), (pt3 0 0 1). split; [|split].
    + apply points_at; [discriminate|cbv -[pt3]; discriminate|]; intros vs E; cbv -[pt3] in E; injection E as <-; repeat (apply Forall2_cons; [cbv -[pt3]; reflexivity|]); apply Forall2_nil.
    + unfold parallelepiped. cbn [map fst snd]. repeat (apply Forall2_cons; [intros [|[|[|i]]] Hi; unfold pt3; [lra|lra|lra|lia]|]). apply Forall2_nil.
    + unfold determinant, pt3. match goal with |- _ = Rabs ?x => replace x with 1 by ring end. rewrite Rabs_right; lra.
Qed.
Definition vo_line := mesh_of (full_config Line) [OVertex (pt2 0 0); OVertex (pt2 2 0); OVertex (pt2 3 0); OElement Line [0;1]%nat; OElement Line [1;2]%nat].
Example ex_vo_line : reach (full_config Line) vo_line /\ range vo_line Line = [0; 1]%nat.
Proof. split; [apply demo_ok; cbv -[pt2]; reflexivity|]. reflexivity. Qed.

(** A tetrahedron. *)
Definition vo_tet := mesh_of (full_config Tet) (map (fun p => OVertex p) [pt3 0 0 0; pt3 1 0 0; pt3 0 1 0; pt3 0 0 1] ++ [OElement Tet [0;1;2;3]%nat]).
Lemma vo_tet_center : exists x, circumcenter_tet (pt3 0 0 0) (pt3 1 0 0) (pt3 0 1 0) (pt3 0 0 1) = CPoint x.
Proof.
  unfold circumcenter_tet. assert (N : norm_2 3 (cross_prod (psub (pt3 0 1 0) (pt3 0 0 0)) (psub (pt3 0 0 1) (pt3 0 0 0))) = 1).
  { unfold norm_2. match goal with |- sqrt ?x = 1 => replace x with (1 * 1) end; [apply sqrt_square; lra|]. cbn. unfold psub, pt3. ring. }
  assert (P : inner_prod 3 (psub (pt3 1 0 0) (pt3 0 0 0)) (cross_prod (psub (pt3 0 1 0) (pt3 0 0 0)) (psub (pt3 0 0 1) (pt3 0 0 0))) = 1).
  { unfold inner_prod. cbn. unfold psub, pt3. ring. }
  rewrite N, P. destruct (Rlt_dec _ _) as [L|L]; [exfalso|].
  - rewrite Rabs_R1, Rmult_1_r in L. assert (/ 10 ^ 10 <= 1); [|lra]. rewrite <- Rinv_1. apply Rinv_le_contravar; lra.
  - destruct (Req_EM_T (1 * 2) 0); [lra|]. eauto.
Qed.
Lemma vo_facet_center a b c : inner_prod 3 (cross_prod (psub a b) (psub b c)) (cross_prod (psub a b) (psub b c)) <> 0 -> exists x, circumcenter_tri3 a b c = Some x.
Proof. intros N. unfold circumcenter_tri3. destruct (Req_EM_T _ 0); [lra|]. eauto. Qed.
Example ex_vo_tet : reach (full_config Tet) vo_tet /\ exists s', voronoi_tets vo_tet no_voronoi = Some s'.
Proof.
  split; [apply demo_ok; cbv -[pt3]; reflexivity|].
  assert (X : match voronoi_tets vo_tet no_voronoi with Some _ => True | None => False end); [|destruct (voronoi_tets vo_tet no_voronoi); [eauto|contradiction]].
  destruct vo_tet_center as (x & EX).
  destruct (vo_facet_center (pt3 0 0 0) (pt3 1 0 0) (pt3 0 1 0)) as (y0 & E0); [unfold inner_prod; cbn; unfold psub, pt3; lra|].
  destruct (vo_facet_center (pt3 0 0 0) (pt3 1 0 0) (pt3 0 0 1)) as (y1 & E1); [unfold inner_prod; cbn; unfold psub, pt3; lra|].
  destruct (vo_facet_center (pt3 0 0 0) (pt3 0 1 0) (pt3 0 0 1)) as (y2 & E2); [unfold inner_prod; cbn; unfold psub, pt3; lra|].
  destruct (vo_facet_center (pt3 1 0 0) (pt3 0 1 0) (pt3 0 0 1)) as (y3 & E3); [unfold inner_prod; cbn; unfold psub, pt3; lra|].
  unfold voronoi_tets. cbv -[IZR pt3 circumcenter_tet circumcenter_tri3 norm_2 sqrt Rlt_dec tet_edge_updates tet_entries padd pdiv psub apply_updates spanned_volume circumcenter_line no_voronoi].
  rewrite EX. rewrite ?E0, ?E1, ?E2, ?E3. 
  cbv -[IZR pt3 norm_2 sqrt Rlt_dec tet_edge_updates tet_entries padd pdiv psub apply_updates no_voronoi].
  exact I.
Qed.
