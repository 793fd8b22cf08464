(** C51: bounding boxes and the size of a mesh; C52: orthogonalisation;
    C53: normal vectors and determinants. *)
From Coq Require Import Reals List Arith Lia Lra Permutation.
From Verif Require Import ModelTopo ModelMesh ModelErase ModelQuery ModelGeom ModelGeometry SpecMesh SpecErase SpecQuery SpecRefine SpecGeom SpecClosest SpecDistance SpecGeometry MeshDemo EraseDemo GeometryProofs.
Import ListNotations.
Local Open Scope R_scope.
(** The bounding box of a range of points is the smallest box that holds them. *)
Theorem C51_points : forall d big ps, ps <> [] -> representable d big ps ->
  smallest_box d ps (fst (bounding_box big ps)) (snd (bounding_box big ps)).
Proof. exact C51_points_pf. Qed.
Print Assumptions C51_points.

(** The bounding box of a mesh, after any history: the smallest box around its
    vertices; it holds the whole region of every cell; its diagonal is the size
    of the mesh, no two vertices are further apart, and the size is zero only if
    all vertices are at one point. *)
Theorem C51_mesh : forall cfg d big (m : @mesh point) ps, ereach cfg m -> mesh_points m ps -> ps <> [] -> representable d big ps ->
  exists lo hi s, mesh_bounding_box big m = Some (lo, hi) /\ mesh_size d big m = Some s /\
    smallest_box d ps lo hi /\
    (forall t a cps x, has_points m t a cps -> in_hull d cps x -> in_box d lo hi x) /\
    s = dist d lo hi /\
    (forall p q, In p ps -> In q ps -> dist d p q <= s) /\
    (s = 0 <-> forall p q, In p ps -> In q ps -> same_point d p q).
Proof. exact C51_mesh_pf. Qed.
Print Assumptions C51_mesh.

(** Of a mesh without vertices the box is inside out and the size is not zero. *)
Theorem C51_empty_refuted : forall cfg d big (m : @mesh point), ereach cfg m -> (forall v ev, deref m Vertex v <> Some ev) -> (0 < d)%nat -> 0 < big ->
  exists lo hi s, mesh_bounding_box big m = Some (lo, hi) /\ (forall x, ~ in_box d lo hi x) /\ mesh_size d big m = Some s /\ 2 * big <= s.
Proof. exact C51_empty_refuted_pf. Qed.
Print Assumptions C51_empty_refuted.

(** orthogonalize: the first [count] vectors of the result are orthogonal to
    each other and none of them is smaller than the tolerance, all others are;
    the given vectors are, up to the tolerance, linear combinations of the first
    [count], and all results are linear combinations of the given vectors. *)
Theorem C52_orthogonalize : forall d tol vs, 0 < tol ->
  exists indep rest, orthogonalize d tol vs = Some (indep ++ rest, length indep) /\
    length (indep ++ rest) = length vs /\
    pairwise_orthogonal d indep /\
    Forall (fun v => tol <= taxicab d v) indep /\ Forall (fun v => taxicab d v < tol) rest /\
    (forall v, In v vs -> exists w, in_span d indep w /\ taxicab d (fun i => v i - w i) < tol) /\
    (forall v, In v (indep ++ rest) -> in_span d vs v).
Proof. exact C52_orthogonalize_pf. Qed.
Print Assumptions C52_orthogonalize.

(** The count tells whether the vectors are independent: if all are counted they
    are linearly independent, and if none of them is within the tolerance of a
    linear combination of the others all are counted. *)
Theorem C52_count : forall d tol vs, 0 < tol ->
  (forall out, orthogonalize d tol vs = Some (out, length vs) -> lin_independent d vs) /\
  ((forall l1 v l2 w, vs = l1 ++ v :: l2 -> in_span d (l1 ++ l2) w -> tol <= taxicab d (fun i => v i - w i)) ->
   exists out, orthogonalize d tol vs = Some (out, length vs)).
Proof. exact C52_count_pf. Qed.
Print Assumptions C52_count.

Theorem C53_line : forall p0 p1, exists n, normal_vector 2 Line [p0; p1] = Some n /\
  orthogonal_to 2 [p0; p1] n /\ dot 2 n n = dist_sq 2 p0 p1 /\ det (columns 2 [fun i => p1 i - p0 i; n]) = dist_sq 2 p0 p1.
Proof. exact C53_line_pf. Qed.
Print Assumptions C53_line.

(** The normal of a triangle in space: orthogonal to its plane, its squared length
    is the square of twice the area (the Gram determinant of the edges), the edges
    0-1, 0-2 and the normal form a right-handed system, and it is not zero exactly
    if the triangle is not degenerate. *)
Theorem C53_triangle : forall p0 p1 p2, exists n, normal_vector 3 Triangle [p0; p1; p2] = Some n /\
  orthogonal_to 3 [p0; p1; p2] n /\
  dot 3 n n = det (gram 3 (edge_vectors [p0; p1; p2])) /\
  det (columns 3 [fun i => p1 i - p0 i; fun i => p2 i - p0 i; n]) = dot 3 n n /\
  (dot 3 n n <> 0 <-> independent 3 [p0; p1; p2]).
Proof. exact C53_triangle_pf. Qed.
Print Assumptions C53_triangle.

(** The normal of a quadrilateral whose corners lie in one plane is orthogonal to
    that plane; it is the normal of the triangle 0-1-2. *)
Theorem C53_quadrilateral : forall p0 p1 p2 p3 x y, same_point 3 p3 (fun i => p0 i + x * (p1 i - p0 i) + y * (p2 i - p0 i)) ->
  exists n, normal_vector 3 Quad [p0; p1; p2; p3] = Some n /\ normal_vector 3 Triangle [p0; p1; p2] = Some n /\
    orthogonal_to 3 [p0; p1; p2; p3] n.
Proof. exact C53_quadrilateral_pf. Qed.
Print Assumptions C53_quadrilateral.

(** The determinant of one, two or three columns is the determinant of the matrix
    with these columns, and it is not zero exactly if they are linearly independent. *)
Theorem C53_determinant : forall a b c,
  (determinant1 a = det (columns 1 [a]) /\ (determinant1 a <> 0 <-> lin_independent 1 [a])) /\
  (determinant2 a b = det (columns 2 [a; b]) /\ (determinant2 a b <> 0 <-> lin_independent 2 [a; b])) /\
  (determinant3 a b c = det (columns 3 [a; b; c]) /\ (determinant3 a b c <> 0 <-> lin_independent 3 [a; b; c])).
Proof. exact C53_determinant_pf. Qed.
Print Assumptions C53_determinant.

(** A triangle with corners (1,2), (-1,5), (0,0): the box and the hypotheses of
    C51_points. *)
Example C51_points_witness :
  [pt2 1 2; pt2 (-1) 5; pt2 0 0] <> [] /\ representable 2 100 [pt2 1 2; pt2 (-1) 5; pt2 0 0] /\
  (let bb := bounding_box 100 [pt2 1 2; pt2 (-1) 5; pt2 0 0] in
   fst bb 0%nat = -1 /\ fst bb 1%nat = 0 /\ snd bb 0%nat = 1 /\ snd bb 1%nat = 5).
Proof.
  split; [discriminate|]. split.
  - intros p i [<-|[<-|[<-|[]]]] Hi; (destruct i as [|[|i]]; [| |lia]); cbn; lra.
  - cbn. unfold pmin, pmax, pt2. repeat split; repeat destruct (Rlt_dec _ _); lra.
Qed.

(** A mesh with a triangle and a fourth vertex, after clearing an earlier one. *)
Definition box_ops : list (op point) :=
  [OVertex (pt2 7 7); OClear; OVertex (pt2 1 2); OVertex (pt2 (-1) 5); OVertex (pt2 0 0); OVertex (pt2 0 3); OElement Triangle [1; 2; 3]%nat].
Example C51_mesh_witness : exists m ps, run (full_config Triangle) box_ops empty_mesh = Some m /\ ereach (full_config Triangle) m /\
  mesh_points m ps /\ ps <> [] /\ representable 2 100 ps.
Proof.
  destruct (demo_eok (full_config Triangle) box_ops) as [E HR]; [cbv -[pt2]; reflexivity|].
  exists (mesh_of (full_config Triangle) box_ops), [pt2 1 2; pt2 (-1) 5; pt2 0 0; pt2 0 3]. split; [exact E|]. split; [exact HR|]. split; [|split; [discriminate|]].
  - apply (vertex_points_mesh (full_config Triangle)); [exact HR|]. cbv -[pt2]. reflexivity.
  - intros p i [<-|[<-|[<-|[<-|[]]]]] Hi; (destruct i as [|[|i]]; [| |lia]); cbn; lra.
Qed.
(** Two dependent and one independent vector: two are counted. *)
Example C52_witness : exists out, orthogonalize 2 (1/10) [pt2 1 0; pt2 2 0; pt2 1 1] = Some (out, 2%nat).
Proof.
  unfold orthogonalize. cbn [length orthogonalize_loop orthogonalize_vector app rev].
  assert (N1 : ~ norm_1 2 (pt2 1 0) < 1 / 10) by (unfold norm_1; cbn; rewrite Rabs_R1, Rabs_R0; lra).
  destruct (Rlt_dec (norm_1 2 (pt2 1 0)) (1 / 10)) as [|_]; [contradiction|]. cbn [length orthogonalize_loop orthogonalize_vector app rev].
  assert (I1 : inner_prod 2 (pt2 1 0) (pt2 1 0) = 1) by (unfold inner_prod; cbn; lra). rewrite I1.
  destruct (Req_EM_T 1 0) as [|_]; [lra|].
  assert (N2 : norm_1 2 (psub (pt2 2 0) (pscale (inner_prod 2 (pt2 2 0) (pt2 1 0) / 1) (pt2 1 0))) < 1 / 10).
  { unfold norm_1, psub, pscale, inner_prod. cbn. match goal with |- 0 + Rabs ?x + Rabs ?y < _ => replace x with 0 by field; replace y with 0 by field end. rewrite Rabs_R0. lra. }
  destruct (Rlt_dec (norm_1 2 (psub (pt2 2 0) (pscale (inner_prod 2 (pt2 2 0) (pt2 1 0) / 1) (pt2 1 0)))) (1 / 10)) as [_|]; [|contradiction].
  cbn [length orthogonalize_loop orthogonalize_vector app rev]. rewrite ?I1. destruct (Req_EM_T 1 0) as [|_]; [lra|].
  assert (N3 : ~ norm_1 2 (psub (pt2 1 1) (pscale (inner_prod 2 (pt2 1 1) (pt2 1 0) / 1) (pt2 1 0))) < 1 / 10).
  { unfold norm_1, psub, pscale, inner_prod. cbn. match goal with |- ~ (0 + Rabs ?x + Rabs ?y < _) => replace x with 0 by field; replace y with 1 by field end. rewrite Rabs_R0, Rabs_R1. lra. }
  destruct (Rlt_dec (norm_1 2 (psub (pt2 1 1) (pscale (inner_prod 2 (pt2 1 1) (pt2 1 0) / 1) (pt2 1 0)))) (1 / 10)) as [|_]; [contradiction|].
  cbn [length orthogonalize_loop orthogonalize_vector app rev]. eexists. reflexivity.
Qed.

(** A right triangle in space has a normal along the third axis. *)
Example C53_triangle_witness : independent 3 [vec3 0 0 0; vec3 2 0 0; vec3 0 3 0] /\
  exists n, normal_vector 3 Triangle [vec3 0 0 0; vec3 2 0 0; vec3 0 3 0] = Some n /\ n 0%nat = 0 /\ n 1%nat = 0 /\ n 2%nat = 6.
Proof.
  assert (X : exists n, normal_vector 3 Triangle [vec3 0 0 0; vec3 2 0 0; vec3 0 3 0] = Some n /\ n 0%nat = 0 /\ n 1%nat = 0 /\ n 2%nat = 6).
  { eexists. split; [reflexivity|]. cbn. unfold psub, vec3. repeat split; lra. }
  split; [|exact X]. destruct (C53_triangle (vec3 0 0 0) (vec3 2 0 0) (vec3 0 3 0)) as (n & E & _ & _ & _ & I). apply I.
  destruct X as (n' & E' & A & B & C). rewrite E in E'. injection E' as <-. cbn. rewrite A, B, C. lra.
Qed.
