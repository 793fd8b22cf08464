(** Properties C44 (make_unique_vertex) and C45 (hyperplane marking). *)
From Coq Require Import Reals List Arith Lra Lia.
From Verif Require Import ModelTopo ModelMesh ModelErase ModelGeom ModelVolume SpecMesh SpecRefine SpecGeom MeshDemo UniqueProofs.
Import ListNotations.

(** A positive tolerance: the call returns an existing vertex closer than the
    tolerance and leaves the mesh alone, or there is none and it creates exactly
    one vertex, at the given point, leaving everything else alone. *)
Theorem C44_merges_or_creates : forall d cfg (m : @mesh point) p tol, reach cfg m -> (0 < tol)%R ->
  exists m' a, make_unique_vertex d cfg m p tol = Some (m', a) /\ reach cfg m' /\
    ((m' = m /\ exists e q, deref m Vertex a = Some e /\ e_pt e = Some q /\ (sqrt (dist_sq d p q) < tol)%R) \/
     ((forall b e q, deref m Vertex b = Some e -> e_pt e = Some q -> (tol <= sqrt (dist_sq d p q))%R) /\
      ~ is_live m Vertex a /\ range m' Vertex = range m Vertex ++ [a] /\
      (exists e, deref m' Vertex a = Some e /\ e_pt e = Some p) /\
      (forall t b e, deref m t b = Some e -> deref m' t b = Some e) /\
      (forall t, t <> Vertex -> range m' t = range m t))).
Proof. exact C44_merges_or_creates_pf. Qed.
Print Assumptions C44_merges_or_creates.

(** Calling it again with the same point and tolerance returns the same vertex
    and changes nothing. *)
Theorem C44_idempotent : forall d cfg (m m' : @mesh point) p tol a, (0 < tol)%R ->
  make_unique_vertex d cfg m p tol = Some (m', a) -> make_unique_vertex d cfg m' p tol = Some (m', a).
Proof. exact C44_idempotent_pf. Qed.
Print Assumptions C44_idempotent.

(** Without a tolerance argument the tolerance is |p| / 10^6.  At the origin it
    is zero and nothing is ever merged: two calls in a row make two vertices at
    the same place, in every mesh. *)
Theorem C44_default_at_origin_refuted : forall d cfg (m : @mesh point) (p : point), reach cfg m -> (forall i, (i < d)%nat -> p i = 0%R) ->
  exists m1 a1 m2 a2, make_unique_vertex_default d cfg m p = Some (m1, a1) /\
    make_unique_vertex_default d cfg m1 p = Some (m2, a2) /\ a1 <> a2 /\
    (exists e1, deref m2 Vertex a1 = Some e1 /\ e_pt e1 = Some p) /\
    (exists e2, deref m2 Vertex a2 = Some e2 /\ e_pt e2 = Some p).
Proof. exact C44_default_at_origin_refuted_pf. Qed.
Print Assumptions C44_default_at_origin_refuted.

(** Away from the origin the default tolerance is positive. *)
Theorem C44_default_elsewhere : forall d cfg (m m' : @mesh point) (p : point) a, (exists i, (i < d)%nat /\ p i <> 0%R) ->
  make_unique_vertex_default d cfg m p = Some (m', a) -> make_unique_vertex_default d cfg m' p = Some (m', a).
Proof. exact C44_default_elsewhere_pf. Qed.
Print Assumptions C44_default_elsewhere.

(** An edge is marked exactly if its end points lie strictly on different sides
    of the hyperplane, both beyond the tolerance max(eps * length, |eps|). *)
Theorem C45_marked_iff_crossing : forall d eps o n p0 p1,
  hyperplane_edge d eps o n p0 p1 <> None <-> crosses d (Rmax (eps * sqrt (dist_sq d p0 p1)) (Rabs eps)) o n p0 p1.
Proof. exact C45_marked_iff_crossing_pf. Qed.
Print Assumptions C45_marked_iff_crossing.

(** The new point lies on the hyperplane, strictly between the end points; it
    does not depend on the order of the end points. *)
Theorem C45_new_point : forall d eps o n p0 p1 x, hyperplane_edge d eps o n p0 p1 = Some x ->
  crossing_point d o n p0 p1 x /\
  exists y, hyperplane_edge d eps o n p1 p0 = Some y /\ same_point d x y.
Proof. exact C45_new_point_pf. Qed.
Print Assumptions C45_new_point.

(** The whole loop, over the lines of a mesh (pairwise different ids): it always
    terminates normally; a line is flagged exactly if it crosses; each flagged
    line has a vertex of the destination mesh assigned that is its crossing
    point, or an older vertex not further from it than 10^-6 times the distance
    of the crossing point from the origin; existing vertices are not touched. *)
Theorem C45_marking_loop : forall d eps o n cfg lines (dst : @mesh point) flags handles,
  reach cfg dst -> NoDup (map fst lines) ->
  exists dst' flags' handles', mark_hyperplane d eps o n cfg lines dst flags handles = Some (dst', flags', handles') /\
    reach cfg dst' /\
    (forall t a e, deref dst t a = Some e -> deref dst' t a = Some e) /\
    (forall l, ~ In l (map fst lines) -> flags' l = flags l /\ handles' l = handles l) /\
    forall l p0 p1, In (l, (p0, p1)) lines ->
      (flags' l = true <-> crosses d (Rmax (eps * sqrt (dist_sq d p0 p1)) (Rabs eps)) o n p0 p1) /\
      (flags' l = true -> exists a e q x, handles' l = Some a /\ deref dst' Vertex a = Some e /\ e_pt e = Some q /\
         crossing_point d o n p0 p1 x /\ (q = x \/ sqrt (dist_sq d x q) < sqrt (dot d x x) / 10 ^ 6)%R).
Proof. exact C45_marking_loop_pf. Qed.
Print Assumptions C45_marking_loop.

(** So the assigned vertex is not always on the hyperplane: for every gap there
    are two crossing points that far apart which share one vertex, if they are
    far from the origin. *)
Theorem C45_vertex_off_hyperplane_refuted : forall g cfg, (0 < g)%R ->
  exists p0 p1 o n (dst dst' : @mesh point) flags handles a e q, reach cfg dst /\
    mark_hyperplane 2 0 o n cfg [(0%nat, (p0, p1))] dst (fun _ => false) (fun _ => None) = Some (dst', flags, handles) /\
    handles 0%nat = Some a /\ deref dst' Vertex a = Some e /\ e_pt e = Some q /\
    dot 2 n (fun i => q i - o i)%R = (- g)%R.
Proof. exact C45_vertex_off_hyperplane_refuted_pf. Qed.
Print Assumptions C45_vertex_off_hyperplane_refuted.

(** Reachable meshes with several vertices exist, and edges that cross. *)
Example C44_witness : exists m : @mesh point, reach (full_config Triangle) m /\ length (range m Vertex) = 3%nat.
Proof.
  set (ops := [OVertex (pt2 0 0); OVertex (pt2 1 0); OVertex (pt2 0 1)]).
  destruct (demo_ok (full_config Triangle) ops eq_refl) as [_ R]. eexists. split; [exact R|reflexivity].
Qed.
Example C45_witness : crosses 2 (1 / 10)%R (pt2 0 0) (pt2 1 0) (pt2 (-1) 5) (pt2 2 3).
Proof. left. unfold dot, pt2. cbn. lra. Qed.
