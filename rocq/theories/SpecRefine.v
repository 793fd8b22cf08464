(** Specification vocabulary for the refinement properties C33-C37.
    Nothing here is used by the model. *)
From Coq Require Import Reals List.
From Verif Require Import ModelGeom.
Import ListNotations.
Local Open Scope R_scope.

(** Sum of a list of real numbers. *)
Definition Rsum (l : list R) : R := fold_right Rplus 0 l.

(** [wps] is a list of weighted points. *)
Definition weight_sum (wps : list (R * point)) : R := Rsum (map fst wps).
Definition weighted_coord (wps : list (R * point)) (i : nat) : R := Rsum (map (fun wp => fst wp * snd wp i) wps).

(** [x] lies in the convex hull of the points [ps] (the closed simplex). *)
Definition in_hull (d : nat) (ps : list point) (x : point) : Prop :=
  exists wps, map snd wps = ps /\ Forall (fun wp => 0 <= fst wp) wps /\ weight_sum wps = 1 /\
    forall i, (i < d)%nat -> x i = weighted_coord wps i.

(** [x] lies in the interior of the simplex with the vertices [ps]. *)
Definition in_interior (d : nat) (ps : list point) (x : point) : Prop :=
  exists wps, map snd wps = ps /\ Forall (fun wp => 0 < fst wp) wps /\ weight_sum wps = 1 /\
    forall i, (i < d)%nat -> x i = weighted_coord wps i.

(** The simplex is not degenerate: its vertices are affinely independent. *)
Definition independent (d : nat) (ps : list point) : Prop :=
  forall wps, map snd wps = ps -> weight_sum wps = 0 ->
    (forall i, (i < d)%nat -> weighted_coord wps i = 0) -> Forall (fun wp => fst wp = 0) wps.

(** The cells [children] cover the cell [parent] and stay inside it. *)
Definition covers (d : nat) (parent : list point) (children : list (list point)) : Prop :=
  forall x, in_hull d parent x <-> exists c, In c children /\ in_hull d c x.

(** No two of the cells overlap. *)
Definition no_overlap (d : nat) (children : list (list point)) : Prop :=
  forall i j ci cj x, nth_error children i = Some ci -> nth_error children j = Some cj ->
    in_interior d ci x -> in_interior d cj x -> i = j.

(** [m] is the midpoint of [p] and [q]. *)
Definition is_midpoint (d : nat) (m p q : point) : Prop := forall i, (i < d)%nat -> m i = (p i + q i) / 2.

(** The edges of a tetrahedron and of a triangle, in the library's order. *)
Definition tet_edge (k : nat) : nat * nat :=
  match k with
  | 0 => (0, 1) | 1 => (0, 2) | 2 => (0, 3) | 3 => (1, 2) | 4 => (1, 3) | _ => (2, 3)
  end%nat.
Definition tri_edge (k : nat) : nat * nat :=
  match k with 0 => (0, 1) | 1 => (0, 2) | _ => (1, 2) end%nat.

(** Six times the signed volume of a tetrahedron in space, twice the signed
    area of a triangle in the plane. *)
Definition signed_volume (p0 p1 p2 p3 : point) : R :=
  let a i := p1 i - p0 i in let b i := p2 i - p0 i in let c i := p3 i - p0 i in
    a 0%nat * (b 1%nat * c 2%nat - b 2%nat * c 1%nat)
  - a 1%nat * (b 0%nat * c 2%nat - b 2%nat * c 0%nat)
  + a 2%nat * (b 0%nat * c 1%nat - b 1%nat * c 0%nat).
Definition signed_area (p0 p1 p2 : point) : R :=
  (p1 0%nat - p0 0%nat) * (p2 1%nat - p0 1%nat) - (p1 1%nat - p0 1%nat) * (p2 0%nat - p0 0%nat).

(** The vertices of a cell have different ids. *)
Definition corner_ids_distinct {V} (vid : V -> nat) (n : nat) (vtx : nat -> V) : Prop :=
  forall i j, (i < n)%nat -> (j < n)%nat -> vid (vtx i) = vid (vtx j) -> i = j.

(** The corners of a tetrahedron and the new vertices of its flagged edges are
    different vertices. *)
Definition vertices_distinct {V} (vtx mid : nat -> V) (fl : nat -> bool) : Prop :=
  (forall i j, (i < 4)%nat -> (j < 4)%nat -> vtx i = vtx j -> i = j) /\
  (forall i k, (i < 4)%nat -> (k < 6)%nat -> fl k = true -> vtx i <> mid k) /\
  (forall k l, (k < 6)%nat -> (l < 6)%nat -> fl k = true -> fl l = true -> mid k = mid l -> k = l).

(** [u] lies on the face of the tetrahedron opposite to its vertex [i]. *)
Definition on_face_opposite {V} (vtx mid : nat -> V) (fl : nat -> bool) (i : nat) (u : V) : Prop :=
  (exists j, (j < 4)%nat /\ j <> i /\ u = vtx j) \/
  (exists k, (k < 6)%nat /\ fl k = true /\ fst (tet_edge k) <> i /\ snd (tet_edge k) <> i /\ u = mid k).

(** The facet [t] (three vertices) belongs to the cell [c]. *)
Definition has_facet {V} (c t : list V) : Prop := incl t c.

(** [u] is one of the vertices of the triangle (x,y,z) after its flagged edges
    have been split. *)
Definition on_triangle {V} (flag : V -> V -> bool) (midp : V -> V -> V) (x y z u : V) : Prop :=
  u = x \/ u = y \/ u = z \/
  (flag x y = true /\ u = midp x y) \/ (flag x z = true /\ u = midp x z) \/ (flag y z = true /\ u = midp y z).

(** Three flagged edges u-v, v-w, u-x form a path w-v-u-x whose middle edge is
    longer than v-w but not longer than u-x; the six lists are the paths
    (u,v,w,x) of one handedness. *)
Definition turned_paths : list (nat * nat * nat * nat) :=
  [(2,0,1,3); (1,0,3,2); (3,1,0,2); (3,0,2,1); (1,2,0,3); (3,2,1,0)]%nat.
Definition edge_between (a b k : nat) : Prop := tet_edge k = (a, b) \/ tet_edge k = (b, a).
Definition turned_path {V} (longer : V -> V -> V -> V -> bool) (vtx : nat -> V) (fl : nat -> bool) : Prop :=
  exists u v w x, In (u, v, w, x) turned_paths /\
    (forall k, (k < 6)%nat -> (fl k = true <-> edge_between u v k \/ edge_between v w k \/ edge_between u x k)) /\
    longer (vtx u) (vtx v) (vtx v) (vtx w) = true /\ longer (vtx u) (vtx v) (vtx u) (vtx x) = false.

(** Flags and new vertices belong to the edges of the mesh, i.e. to the
    (unordered) pair of end points; this is what the cell [vtx] sees of them. *)
Definition tet_flags {V} (flag : V -> V -> bool) (vtx : nat -> V) (k : nat) : bool :=
  flag (vtx (fst (tet_edge k))) (vtx (snd (tet_edge k))).
Definition tet_mids {V} (midp : V -> V -> V) (vtx : nat -> V) (k : nat) : V :=
  midp (vtx (fst (tet_edge k))) (vtx (snd (tet_edge k))).
(** The tetrahedron [vtx] has the vertex [x]. *)
Definition has_corner {V} (vtx : nat -> V) (x : V) : Prop := exists i, (i < 4)%nat /\ vtx i = x.
