(** Property C28: volumes of quadrilaterals, polygons, hexahedra and meshes. *)
From Coq Require Import Reals List Arith Lra Lia Permutation.
From Verif Require Import ModelMesh ModelGeom ModelVolume SpecRefine SpecGeom VolumeProofs.
Import ListNotations.

(** The volume of a polygon in the plane is the enclosed area (shoelace
    formula), whatever point is stored at its first vertex. *)
Theorem C28_polygon_plane : forall origin ps, (3 <= length ps)%nat ->
  polygon_volume 2 origin ps = Some (Rabs (shoelace ps) / 2)%R.
Proof. exact C28_polygon_plane_pf. Qed.
Print Assumptions C28_polygon_plane.

(** In particular, for a point O that sees all edges from the same side
    (star-shaped polygon), the volume is the sum of the volumes of the triangles
    from O to the edges. *)
Theorem C28_polygon_star_shaped : forall O origin ps, (3 <= length ps)%nat ->
  (forall e, In e (closed_edges ps) -> 0 <= signed_area O (fst e) (snd e))%R \/
  (forall e, In e (closed_edges ps) -> signed_area O (fst e) (snd e) <= 0)%R ->
  exists vs, volumes_are (fun e => spanned_volume 2 [O; fst e; snd e]) (closed_edges ps) vs /\
    polygon_volume 2 origin ps = Some (Rsum vs).
Proof. exact C28_polygon_star_shaped_pf. Qed.
Print Assumptions C28_polygon_star_shaped.

(** A polygon in space that is a plane polygon, placed by an isometry, has the
    area of the plane polygon, provided its first vertex sees all edges from
    the same side. *)
Theorem C28_polygon_space_partial : forall o a b q0 qs, orthonormal a b -> (2 <= length qs)%nat ->
  (forall e, In e (closed_edges (q0 :: qs)) -> 0 <= signed_area q0 (fst e) (snd e))%R \/
  (forall e, In e (closed_edges (q0 :: qs)) -> signed_area q0 (fst e) (snd e) <= 0)%R ->
  volume_cell 3 ShPolygon (map (place o a b) (q0 :: qs)) = volume_cell 2 ShPolygon (q0 :: qs).
Proof. exact C28_polygon_space_partial_pf. Qed.
Print Assumptions C28_polygon_space_partial.

(** Otherwise the area of a polygon in space is too large: the dart
    (4,0), (1,1), (0,4), (0,0) has area 4, which is what the code returns for it
    in the plane; in space it returns 12. *)
Theorem C28_polygon_space_refuted : exists qs o a b v2 v3, orthonormal a b /\ (3 <= length qs)%nat /\
  volume_cell 2 ShPolygon qs = Some v2 /\ volume_cell 3 ShPolygon (map (place o a b) qs) = Some v3 /\ (v2 < v3)%R.
Proof. exact C28_polygon_space_refuted_pf. Qed.
Print Assumptions C28_polygon_space_refuted.

(** The corner handles of a convex quadrilateral, in the library's numbering:
    the triangles 0-1-3 and 0-3-2 decompose it.  The volume the library returns
    is the sum of their volumes if and only if the edges 0-1 and 2-3 are
    parallel; it is wrong for every other convex quadrilateral. *)
Theorem C28_quadrilateral : forall p0 p1 p2 p3, convex_quad p0 p1 p2 p3 ->
  covers 2 [p0; p1; p2; p3] [[p0; p1; p3]; [p0; p3; p2]] /\
  no_overlap 2 [[p0; p1; p3]; [p0; p3; p2]] /\
  exists v vs, volume_cell 2 ShQuad [p0; p1; p2; p3] = Some v /\
    volumes_are (spanned_volume 2) [[p0; p1; p3]; [p0; p3; p2]] vs /\
    (v = Rsum vs <-> ((p1 0%nat - p0 0%nat) * (p3 1%nat - p2 1%nat) = (p1 1%nat - p0 1%nat) * (p3 0%nat - p2 0%nat))%R).
Proof. exact C28_quadrilateral_pf. Qed.
Print Assumptions C28_quadrilateral.

(** In particular it is right for parallelograms, in the plane and in space. *)
Theorem C28_parallelogram : forall d p0 p1 p2 p3, (2 <= d <= 3)%nat ->
  (forall i, (i < d)%nat -> p3 i = p1 i + p2 i - p0 i)%R ->
  exists v, spanned_volume d [p0; p1; p2] = Some v /\ volume_cell d ShQuad [p0; p1; p2; p3] = Some (2 * v)%R.
Proof. exact C28_parallelogram_pf. Qed.
Print Assumptions C28_parallelogram.

(** A parallelepiped, in the library's numbering: the six tetrahedra along the
    diagonal 0-7 decompose it, and the volume returned is the sum of theirs. *)
Theorem C28_parallelepiped : forall o a b c, independent 3 [o; padd o a; padd o b; padd o c] ->
  covers 3 (parallelepiped o a b c) (diagonal_tets (parallelepiped o a b c)) /\
  no_overlap 3 (diagonal_tets (parallelepiped o a b c)) /\
  exists vs, volumes_are (spanned_volume 3) (diagonal_tets (parallelepiped o a b c)) vs /\
    volume_cell 3 ShHex (parallelepiped o a b c) = Some (Rsum vs).
Proof. exact C28_parallelepiped_pf. Qed.
Print Assumptions C28_parallelepiped.

(** For other hexahedra the returned value is not a volume: the convex
    hexahedron 0 <= x <= 1, 0 <= y <= 1 + x, 0 <= z <= 1 lies inside the box
    0 <= x <= 1, 0 <= y <= 2, 0 <= z <= 1, and misses a tetrahedron of volume 1/6
    of it, but the library returns the same value for both. *)
Theorem C28_hexahedron_refuted :
  (forall x, in_hull 3 slanted_hex x -> in_hull 3 box_hex x) /\
  (forall x, in_hull 3 missed_tet x -> in_hull 3 box_hex x) /\
  (forall x, in_hull 3 slanted_hex x -> in_interior 3 missed_tet x -> False) /\
  spanned_volume 3 missed_tet = Some (1 / 6)%R /\
  volume_cell 3 ShHex slanted_hex = Some 2%R /\ volume_cell 3 ShHex box_hex = Some 2%R.
Proof. exact C28_hexahedron_refuted_pf. Qed.
Print Assumptions C28_hexahedron_refuted.

(** The volume of a mesh or segment is the sum of the volumes of its cells. *)
Theorem C28_mesh_volume : forall d s cells v,
  volume_mesh d s cells = Some v <-> exists vs, volumes_are (volume_cell d s) cells vs /\ v = Rsum vs.
Proof. exact C28_mesh_volume_pf. Qed.
Print Assumptions C28_mesh_volume.

(** The hypotheses are met by a pentagon seen from its centre, a general
    convex quadrilateral, the unit cube and a square in space. *)
Definition pentagon : list point := [pt2 0 0; pt2 4 0; pt2 5 3; pt2 2 5; pt2 (-1) 3].
Example C28_witness_star : (3 <= length pentagon)%nat /\
  (forall e, In e (closed_edges pentagon) -> 0 <= signed_area (pt2 2 2) (fst e) (snd e))%R.
Proof.
  split; [cbn; lia|]. intros e H. cbn in H. unfold signed_area, pt2 in *.
  repeat destruct H as [<-|H]; try contradiction; cbn; lra.
Qed.
Example C28_witness_quad : convex_quad (pt2 0 0) (pt2 2 0) (pt2 0 1) (pt2 1 2) /\
  ((pt2 2 0 0%nat - pt2 0 0 0%nat) * (pt2 1 2 1%nat - pt2 0 1 1%nat) <> (pt2 2 0 1%nat - pt2 0 0 1%nat) * (pt2 1 2 0%nat - pt2 0 1 0%nat))%R.
Proof. unfold convex_quad, signed_area, pt2. cbn. lra. Qed.
Example C28_witness_cube : independent 3 [vec3 0 0 0; padd (vec3 0 0 0) (vec3 1 0 0); padd (vec3 0 0 0) (vec3 0 1 0); padd (vec3 0 0 0) (vec3 0 0 1)].
Proof.
  apply SpannedProofs.indep4_lin, SpannedProofs.lin3_det. unfold SpannedProofs.det3, inner_prod, cross_prod, padd, psub, vec3. cbn. lra.
Qed.
Example C28_witness_space : orthonormal (vec3 1 0 0) (vec3 0 0 1) /\
  (forall e, In e (closed_edges [pt2 0 0; pt2 1 0; pt2 1 1; pt2 0 1]) -> 0 <= signed_area (pt2 0 0) (fst e) (snd e))%R.
Proof.
  split; [unfold orthonormal, dot, vec3; cbn; lra|]. intros e H. cbn in H. unfold signed_area, pt2 in *.
  repeat destruct H as [<-|H]; try contradiction; cbn; lra.
Qed.
Example C28_witness_mesh : exists v, volume_mesh 2 ShTriangle [[pt2 0 0; pt2 1 0; pt2 0 1]; [pt2 1 1; pt2 1 0; pt2 0 1]] = Some v.
Proof. eexists. reflexivity. Qed.
