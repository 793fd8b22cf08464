(** Property C30: point inclusion. *)
From Coq Require Import Reals List Arith Lra Lia.
From Verif Require Import ModelMesh ModelGeom ModelVolume SpecRefine SpecGeom InsideProofs.
Import ListNotations.

(** The test of a triangle in any dimension, with any tolerance: if [q] is the
    foot of the perpendicular from [p] to the plane of the triangle and
    (x, y, z) are its barycentric coordinates, the answer is true exactly if
    they are above the stated bounds.  Only a degenerate triangle gives no
    answer. *)
Theorem C30_triangle : forall d eps a b c p,
  (independent d [a; b; c] ->
     exists x y z q, is_foot d [a; b; c] p q /\ barycentric d [a; b; c] [x; y; z] q /\
       exists r, is_inside_tri d eps a b c p = Some r /\
         (r = true <-> - (2 * Rabs eps) <= x /\ - Rabs eps <= y /\ - Rabs eps <= z)%R) /\
  (~ independent d [a; b; c] -> is_inside_tri d eps a b c p = None).
Proof. exact C30_triangle_pf. Qed.
Print Assumptions C30_triangle.

(** In the plane with tolerance zero: exactly the points of the triangle. *)
Theorem C30_triangle_plane : forall a b c p, independent 2 [a; b; c] ->
  exists r, is_inside_tri 2 0 a b c p = Some r /\ (r = true <-> in_hull 2 [a; b; c] p).
Proof. exact C30_triangle_plane_pf. Qed.
Print Assumptions C30_triangle_plane.

(** In any dimension: no point of the triangle is rejected, whatever the
    tolerance. *)
Theorem C30_triangle_no_false_negative : forall d eps a b c p, independent d [a; b; c] ->
  in_hull d [a; b; c] p -> is_inside_tri d eps a b c p = Some true.
Proof. exact C30_triangle_no_false_negative_pf. Qed.
Print Assumptions C30_triangle_no_false_negative.

(** In space the test is not inclusion: for every non-degenerate triangle there
    is a point off its plane that is accepted. *)
Theorem C30_triangle_space_refuted : forall eps a b c, independent 3 [a; b; c] ->
  exists p, is_inside_tri 3 eps a b c p = Some true /\ ~ in_hull 3 [a; b; c] p.
Proof. exact C30_triangle_space_refuted_pf. Qed.
Print Assumptions C30_triangle_space_refuted.

(** The test of a tetrahedron with any tolerance: the answer is true exactly if
    the negative ones among the barycentric coordinates sum up to at most the
    tolerance; only a degenerate tetrahedron gives no answer. *)
Theorem C30_tetrahedron : forall eps a b c e p,
  (independent 3 [a; b; c; e] ->
     exists ws, barycentric 3 [a; b; c; e] ws p /\
       exists r, is_inside_tet eps a b c e p = Some r /\
         (r = true <-> Rsum (map (fun w => Rmax 0 (- w)) ws) <= Rabs eps)%R) /\
  (~ independent 3 [a; b; c; e] -> is_inside_tet eps a b c e p = None).
Proof. exact C30_tetrahedron_pf. Qed.
Print Assumptions C30_tetrahedron.

(** With tolerance zero: exactly the points of the tetrahedron. *)
Theorem C30_tetrahedron_exact : forall a b c e p, independent 3 [a; b; c; e] ->
  exists r, is_inside_tet 0 a b c e p = Some r /\ (r = true <-> in_hull 3 [a; b; c; e] p).
Proof. exact C30_tetrahedron_exact_pf. Qed.
Print Assumptions C30_tetrahedron_exact.

(** The hypotheses are met, and both answers occur. *)
Example C30_witness : independent 2 [pt2 0 0; pt2 4 0; pt2 0 3] /\ independent 3 [vec3 0 0 0; vec3 1 0 0; vec3 0 1 0; vec3 0 0 1].
Proof.
  split.
  - apply SpannedProofs.indep3_lin, SpannedProofs.lin2_det. unfold psub, pt2. cbn. lra.
  - apply SpannedProofs.indep4_lin, SpannedProofs.lin3_det. unfold SpannedProofs.det3, inner_prod, cross_prod, psub, vec3. cbn. lra.
Qed.
Example C30_witness_answers : is_inside_tri 2 0 (pt2 0 0) (pt2 1 0) (pt2 0 1) (pt2 (1/4) (1/4)) = Some true /\
  is_inside_tri 2 0 (pt2 0 0) (pt2 1 0) (pt2 0 1) (pt2 1 1) = Some false.
Proof.
  unfold is_inside_tri, inner_prod, psub, pt2. cbn. rewrite Rabs_R0. split.
  - destruct Req_EM_T; [lra|]. do 3 (destruct Rle_dec; [|exfalso; lra]). reflexivity.
  - destruct Req_EM_T; [lra|]. do 2 (destruct Rle_dec; [|reflexivity]). destruct Rle_dec; [exfalso; lra|reflexivity].
Qed.
