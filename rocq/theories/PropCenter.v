(** Properties C29 (circumcenters) and C31 (centroids). *)
From Coq Require Import Reals List Arith Lra Lia Permutation.
From Verif Require Import ModelMesh ModelGeom ModelVolume SpecRefine SpecGeom CenterProofs.
Import ListNotations.

(** The circumcenter of a line has the same distance from both end points. *)
Theorem C29_line : forall d A B,
  dist_sq d (circumcenter_line A B) A = dist_sq d (circumcenter_line A B) B.
Proof. exact C29_line_pf. Qed.
Print Assumptions C29_line.

(** The circumcenter of a non-degenerate triangle in the plane is the one point
    with the same distance from the three corners; for a degenerate triangle
    there is no result. *)
Theorem C29_triangle_plane : forall A B C,
  (independent 2 [A; B; C] ->
     exists c, circumcenter_tri2 A B C = Some c /\
       dist_sq 2 c A = dist_sq 2 c B /\ dist_sq 2 c A = dist_sq 2 c C /\
       forall x, dist_sq 2 x A = dist_sq 2 x B -> dist_sq 2 x A = dist_sq 2 x C -> same_point 2 x c) /\
  (~ independent 2 [A; B; C] -> circumcenter_tri2 A B C = None).
Proof. exact C29_triangle_plane_pf. Qed.
Print Assumptions C29_triangle_plane.

(** The circumcenter of a non-degenerate triangle in space has the same distance
    from the three corners and lies in their plane. *)
Theorem C29_triangle_space : forall A B C,
  (independent 3 [A; B; C] ->
     exists c, circumcenter_tri3 A B C = Some c /\
       dist_sq 3 c A = dist_sq 3 c B /\ dist_sq 3 c A = dist_sq 3 c C /\
       exists a b g, (a + b + g = 1 /\ forall i, (i < 3)%nat -> c i = a * A i + b * B i + g * C i)%R) /\
  (~ independent 3 [A; B; C] -> circumcenter_tri3 A B C = None).
Proof. exact C29_triangle_space_pf. Qed.
Print Assumptions C29_triangle_space.

(** Whenever circumcenter(tetrahedron) returns, the tetrahedron is not
    degenerate and the result is the one point with the same distance from the
    four corners. *)
Theorem C29_tetrahedron : forall P0 P1 P2 P3 c, circumcenter_tet P0 P1 P2 P3 = CPoint c ->
  independent 3 [P0; P1; P2; P3] /\
  dist_sq 3 c P0 = dist_sq 3 c P1 /\ dist_sq 3 c P0 = dist_sq 3 c P2 /\ dist_sq 3 c P0 = dist_sq 3 c P3 /\
  forall x, dist_sq 3 x P0 = dist_sq 3 x P1 -> dist_sq 3 x P0 = dist_sq 3 x P2 -> dist_sq 3 x P0 = dist_sq 3 x P3 ->
    same_point 3 x c.
Proof. exact C29_tetrahedron_pf. Qed.
Print Assumptions C29_tetrahedron.

(** It returns for every non-degenerate tetrahedron whose height over the face
    0-2-3 is at least 10^-10; a degenerate tetrahedron gives an exception or,
    if already that face is degenerate, NaNs. *)
Theorem C29_tetrahedron_returns_partial : forall P0 P1 P2 P3 h,
  inner_prod 3 (psub P1 P0) (cross_prod (psub P2 P0) (psub P3 P0)) = (h * norm_2 3 (cross_prod (psub P2 P0) (psub P3 P0)))%R ->
  independent 3 [P0; P1; P2; P3] ->
  (/ 10 ^ 10 <= Rabs h)%R -> exists c, circumcenter_tet P0 P1 P2 P3 = CPoint c.
Proof. exact C29_tetrahedron_returns_partial_pf. Qed.
Print Assumptions C29_tetrahedron_returns_partial.

(** Not for every non-degenerate tetrahedron: the threshold is an absolute
    length, so a well-shaped but small tetrahedron is rejected. *)
Theorem C29_small_tetrahedron_refuted :
  let s := (/ 10 ^ 11)%R in
  independent 3 [vec3 0 0 0; vec3 s 0 0; vec3 0 s 0; vec3 0 0 s] /\
  circumcenter_tet (vec3 0 0 0) (vec3 s 0 0) (vec3 0 s 0) (vec3 0 0 s) = CThrow.
Proof. exact C29_small_tetrahedron_refuted_pf. Qed.
Print Assumptions C29_small_tetrahedron_refuted.

(** Rectangles and cuboids: the mean of the corners has the same distance from
    all of them (it does not for other quadrilaterals and hexahedra). *)
Theorem C29_rectangle_and_cuboid : forall d o a b c,
  (dot d a b = 0 -> dot d a c = 0 -> dot d b c = 0 ->
     forall p q, In p (parallelepiped o a b c) -> In q (parallelepiped o a b c) ->
       dist_sq d (circumcenter_mean (parallelepiped o a b c)) p = dist_sq d (circumcenter_mean (parallelepiped o a b c)) q)%R /\
  (dot d a b = 0 ->
     let quad := [o; padd o a; padd o b; padd (padd o a) b] in
     forall p q, In p quad -> In q quad -> dist_sq d (circumcenter_mean quad) p = dist_sq d (circumcenter_mean quad) q)%R.
Proof. exact C29_rectangle_and_cuboid_pf. Qed.
Print Assumptions C29_rectangle_and_cuboid.

(** The centroid of a cell is the mean of its corners with equal weights, a
    point of the cell; the order of the corners does not matter, and the
    centroid of the image under an affine map is the image of the centroid. *)
Theorem C31_centroid : forall d ps, ps <> [] ->
  weighted_mean d (repeat 1%R (length ps)) ps (centroid ps) /\
  in_hull d ps (centroid ps) /\
  (forall qs, Permutation ps qs -> same_point d (centroid qs) (centroid ps)) /\
  (forall A t f, is_affine d A t f -> same_point d (centroid (map f ps)) (f (centroid ps))).
Proof. exact C31_centroid_pf. Qed.
Print Assumptions C31_centroid.

(** The centroid of a mesh is the mean of the centroids of its cells, weighted
    with their volumes; it exists exactly if the volumes do and their sum is not
    zero. *)
Theorem C31_mesh_centroid : forall d s cells c, centroid_mesh d s cells = Some c ->
  exists vs, volumes_are (volume_cell d s) cells vs /\ Rsum vs <> 0%R /\
    weighted_mean d vs (map centroid cells) c.
Proof. exact C31_mesh_centroid_pf. Qed.
Print Assumptions C31_mesh_centroid.

Theorem C31_mesh_centroid_exists : forall d s cells vs, volumes_are (volume_cell d s) cells vs -> Rsum vs <> 0%R ->
  exists c, centroid_mesh d s cells = Some c.
Proof. exact C31_mesh_centroid_exists_pf. Qed.
Print Assumptions C31_mesh_centroid_exists.

(** The hypotheses are met: a right triangle, a unit tetrahedron, two cells. *)
Example C29_witness_tri : independent 2 [pt2 0 0; pt2 4 0; pt2 0 3].
Proof. apply SpannedProofs.indep3_lin, SpannedProofs.lin2_det. unfold psub, pt2. cbn. lra. Qed.
Example C29_witness_tri3 : independent 3 [vec3 0 0 0; vec3 4 0 0; vec3 0 3 1].
Proof. apply SpannedProofs.indep3_lin, SpannedProofs.lin2_cross. unfold inner_prod, cross_prod, psub, vec3. cbn. lra. Qed.
Example C29_witness_tet : exists c, circumcenter_tet (vec3 0 0 0) (vec3 1 0 0) (vec3 0 1 0) (vec3 0 0 1) = CPoint c.
Proof.
  apply (C29_tetrahedron_returns_partial _ _ _ _ 1).
  - unfold norm_2, inner_prod, cross_prod, psub, vec3. cbn.
    match goal with |- _ = (1 * sqrt ?x)%R => replace x with 1%R by ring end. rewrite sqrt_1. ring.
  - apply SpannedProofs.indep4_lin, SpannedProofs.lin3_det. unfold SpannedProofs.det3, inner_prod, cross_prod, psub, vec3. cbn. lra.
  - rewrite Rabs_R1. apply (Rmult_le_reg_l (10 ^ 10)); [apply pow_lt; lra|]. rewrite Rinv_r by (apply pow_nonzero; lra). simpl. lra.
Qed.
Example C31_witness : exists c, centroid_mesh 2 ShTriangle [[pt2 0 0; pt2 1 0; pt2 0 1]; [pt2 1 1; pt2 1 0; pt2 0 1]] = Some c.
Proof.
  apply (C31_mesh_centroid_exists _ _ _ [1 / 2; 1 / 2]%R).
  - unfold volumes_are, volume_cell, spanned_volume. repeat constructor; cbn; f_equal; unfold pt2;
      match goal with |- Rabs ?x = _ => first [rewrite Rabs_pos_eq; lra | rewrite Rabs_left; lra] end.
  - cbn. lra.
Qed.
