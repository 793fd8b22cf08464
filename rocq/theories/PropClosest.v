(** C47-C49: closest points of points, lines, triangles, quadrilaterals,
    tetrahedra and hexahedra. *)
From Coq Require Import Reals List Arith Lra Psatz.
From Verif Require Import ModelGeom ModelVolume ModelClosest SpecRefine SpecGeom SpecClosest ClosestProofs.
Import ListNotations.
Local Open Scope R_scope.
Theorem C47_point_line : forall d p a b,
  let '(x, y) := closest_point_line d p a b in
  x = p /\ nearest d p (in_hull d [a; b]) y.
Proof. exact C47_point_line_pf. Qed.
Print Assumptions C47_point_line.

Theorem C47_point_triangle : forall d p a b c, independent d [a; b; c] ->
  exists y, closest_point_triangle d p a b c = Some (p, y) /\ nearest d p (in_hull d [a; b; c]) y.
Proof. exact C47_point_triangle_pf. Qed.
Print Assumptions C47_point_triangle.

Theorem C47_point_tetrahedron : forall d p a b c e, independent d [a; b; c; e] ->
  exists y, closest_point_tetrahedron d p a b c e = Some (p, y) /\ nearest d p (in_hull d [a; b; c; e]) y.
Proof. exact C47_point_tetrahedron_pf. Qed.
Print Assumptions C47_point_tetrahedron.

(** A point of the triangle or tetrahedron is its own nearest point. *)
Theorem C47_inside : forall d p a b c e,
  (independent d [a; b; c] -> in_hull d [a; b; c] p ->
   exists y, closest_point_triangle d p a b c = Some (p, y) /\ same_point d p y) /\
  (independent d [a; b; c; e] -> in_hull d [a; b; c; e] p ->
   exists y, closest_point_tetrahedron d p a b c e = Some (p, y) /\ same_point d p y).
Proof. exact C47_inside_pf. Qed.
Print Assumptions C47_inside.

(** A triangle in space and a tetrahedron, seen from a point above and beside. *)
Example C47_witness_triangle : independent 3 [vec3 0 0 0; vec3 2 0 0; vec3 0 1 1].
Proof.
  apply SpannedProofs.indep3_lin. intros x y C. pose proof (C 0%nat ltac:(auto)) as A. pose proof (C 1%nat ltac:(auto)) as B.
  unfold psub, vec3 in *. cbn in *. lra.
Qed.
Example C47_witness_tetrahedron : independent 3 [vec3 0 0 0; vec3 2 0 0; vec3 0 1 1; vec3 1 1 3].
Proof.
  apply SpannedProofs.indep4_lin. intros x y z C. pose proof (C 0%nat ltac:(auto)) as A. pose proof (C 1%nat ltac:(auto)) as B. pose proof (C 2%nat ltac:(auto)) as E.
  unfold psub, vec3 in *. cbn in *. lra.
Qed.

Theorem C49_quadrilateral : forall d p v0 v1 v2 v3, independent d [v0; v1; v2] -> independent d [v1; v3; v2] ->
  exists y, closest_point_quadrilateral d p v0 v1 v2 v3 = Some (p, y) /\
    nearest d p (in_union d [[v0; v1; v2]; [v1; v3; v2]]) y.
Proof. exact C49_quadrilateral_pf. Qed.
Print Assumptions C49_quadrilateral.

(** For a convex quadrilateral in the plane this is the quadrilateral itself. *)
Theorem C49_convex_quadrilateral : forall p v0 v1 v2 v3, convex_quad v0 v1 v2 v3 ->
  exists y, closest_point_quadrilateral 2 p v0 v1 v2 v3 = Some (p, y) /\ nearest 2 p (in_hull 2 [v0; v1; v2; v3]) y.
Proof. exact C49_convex_quadrilateral_pf. Qed.
Print Assumptions C49_convex_quadrilateral.

Theorem C49_hexahedron : forall d p v0 v1 v2 v3 v4 v5 v6 v7,
  (forall c, In c (diagonal_tets [v0; v1; v2; v3; v4; v5; v6; v7]) -> independent d c) ->
  exists y, closest_point_hexahedron d p v0 v1 v2 v3 v4 v5 v6 v7 = Some (p, y) /\
    nearest d p (in_union d (diagonal_tets [v0; v1; v2; v3; v4; v5; v6; v7])) y.
Proof. exact C49_hexahedron_pf. Qed.
Print Assumptions C49_hexahedron.

(** For a parallelepiped this is the cell itself. *)
Theorem C49_parallelepiped : forall p o a b c v0 v1 v2 v3 v4 v5 v6 v7,
  independent 3 [o; padd o a; padd o b; padd o c] ->
  parallelepiped o a b c = [v0; v1; v2; v3; v4; v5; v6; v7] ->
  exists y, closest_point_hexahedron 3 p v0 v1 v2 v3 v4 v5 v6 v7 = Some (p, y) /\
    nearest 3 p (in_hull 3 (parallelepiped o a b c)) y.
Proof. exact C49_parallelepiped_pf. Qed.
Print Assumptions C49_parallelepiped.

(** A convex quadrilateral that is no parallelogram, and a box. *)
Example C49_witness_quad : convex_quad (pt2 0 0) (pt2 2 0) (pt2 0 1) (pt2 1 2).
Proof. unfold convex_quad, signed_area, pt2. cbn. lra. Qed.
Example C49_witness_box : independent 3 [vec3 0 0 0; padd (vec3 0 0 0) (vec3 1 0 0); padd (vec3 0 0 0) (vec3 0 2 0); padd (vec3 0 0 0) (vec3 0 0 3)].
Proof.
  apply SpannedProofs.indep4_lin. intros x y z C. pose proof (C 0%nat ltac:(auto)) as A. pose proof (C 1%nat ltac:(auto)) as B. pose proof (C 2%nat ltac:(auto)) as E.
  unfold psub, padd, vec3 in *. cbn in *. lra.
Qed.

Theorem C48_lines_partial : forall d v0 v1 w0 w1,
  ~ same_point d v0 v1 -> ~ same_point d w0 w1 ->
  parallel d v0 v1 w0 w1 \/ ~ nearly_parallel d v0 v1 w0 w1 ->
  exists x y, closest_line_line d v0 v1 w0 w1 = Some (x, y) /\
    (nearest_pair d (in_hull d [v0; v1]) (in_hull d [w0; w1]) x y \/
     nearest_pair d (in_hull d [w0; w1]) (in_hull d [v0; v1]) x y).
Proof. exact C48_lines_partial_pf. Qed.
Print Assumptions C48_lines_partial.

(** Whatever the directions, the result is a pair of points, one on each line,
    and no end point of one line is nearer to the other line. *)
Theorem C48_end_points : forall d v0 v1 w0 w1,
  ~ same_point d v0 v1 -> ~ same_point d w0 w1 ->
  exists x y, closest_line_line d v0 v1 w0 w1 = Some (x, y) /\
    (in_hull d [v0; v1] x /\ in_hull d [w0; w1] y \/ in_hull d [w0; w1] x /\ in_hull d [v0; v1] y) /\
    (forall e z, In e [v0; v1] -> in_hull d [w0; w1] z -> dist d x y <= dist d e z) /\
    (forall e z, In e [w0; w1] -> in_hull d [v0; v1] z -> dist d x y <= dist d e z).
Proof. exact C48_end_points_pf. Qed.
Print Assumptions C48_end_points.

(** Two lines that cross at an angle below about 1/1000 are taken for parallel:
    although they have a point in common, the returned points differ. *)
Theorem C48_nearly_parallel_refuted : forall h, 0 < h <= 1 / 1000 ->
  let v0 := pt2 (-1) 0 in let v1 := pt2 1 0 in
  let w0 := pt2 (-1) (- h) in let w1 := pt2 1 h in
  (exists z, in_hull 2 [v0; v1] z /\ in_hull 2 [w0; w1] z) /\
  exists x y, closest_line_line 2 v0 v1 w0 w1 = Some (x, y) /\ 0 < dist 2 x y.
Proof. exact C48_nearly_parallel_refuted_pf. Qed.
Print Assumptions C48_nearly_parallel_refuted.

(** The first of the returned points can lie on the second line. *)
Theorem C48_order_refuted :
  let v0 := pt2 0 0 in let v1 := pt2 2 0 in let w0 := pt2 1 1 in let w1 := pt2 1 2 in
  exists x y, closest_line_line 2 v0 v1 w0 w1 = Some (x, y) /\ ~ in_hull 2 [v0; v1] x /\ ~ in_hull 2 [w0; w1] y.
Proof. exact C48_order_refuted_pf. Qed.
Print Assumptions C48_order_refuted.

(** Skew lines in space, and parallel ones. *)
Example C48_witness : 
  ~ same_point 3 (vec3 0 0 0) (vec3 1 0 0) /\ ~ same_point 3 (vec3 0 0 1) (vec3 0 2 1) /\
  ~ nearly_parallel 3 (vec3 0 0 0) (vec3 1 0 0) (vec3 0 0 1) (vec3 0 2 1) /\
  parallel 3 (vec3 0 0 0) (vec3 1 0 0) (vec3 5 0 1) (vec3 3 0 1).
Proof.
  split; [|split; [|split]].
  - intros H. specialize (H 0%nat ltac:(auto)). unfold vec3 in H. lra.
  - intros H. specialize (H 1%nat ltac:(auto)). unfold vec3 in H. lra.
  - unfold nearly_parallel, dot, vec3. cbn. lra.
  - exists (-2). intros [|[|[|i]]] Hi; unfold vec3; try lra.
Qed.
