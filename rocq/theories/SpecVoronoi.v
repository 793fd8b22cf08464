(** Specification vocabulary for Voronoi quantities (C64-C66).  Nothing here is used
    by the model. *)
From Coq Require Import Reals List Permutation.
From Verif Require Import ModelTopo ModelMesh ModelErase ModelQuery ModelGeom ModelVolume ModelSurface ModelVoronoi
  SpecMesh SpecErase SpecQuery SpecRefine SpecGeom SpecDistance SpecSurface.
Import ListNotations.
Local Open Scope R_scope.

(** What a call has added to the value of an element. *)
Definition increase (s s' : store) (q : vquantity) (a : addr) : R := vo_val s' q a - vo_val s q a.

(** The value of every element is the sum of the contributions of the cells. *)
Definition consistent_for (s : store) (q : vquantity) : Prop := forall a, vo_val s q a = Rsum (map snd (vo_con s q a)).
Definition consistent (s : store) : Prop := forall q, consistent_for s q.
(** Every element has at most one contribution per cell. *)
Definition one_entry_each (s : store) : Prop := forall q a, NoDup (map fst (vo_con s q a)).

(** The cell [c] has the edge [h] with the end points [a] and [b], and [p] is its
    third point. *)
Definition edge_of_cell (m : @mesh point) (h c : addr) (a b p : point) : Prop :=
  bounded_by m Triangle c Line h /\ has_points m Line h [a; b] /\ exists ps, has_points m Triangle c ps /\ Permutation ps [a; b; p].
(** The edges at the vertex [v]. *)
Definition line_at_vertex (m : @mesh point) (v h : addr) : Prop := exists e, deref m Line h = Some e /\ In v (e_verts e).
(** [z] is the centre of the circle through the three points. *)
Definition circle_centre (z a b p : point) : Prop := dist_sq 2 z a = dist_sq 2 z p /\ dist_sq 2 z b = dist_sq 2 z p.
(** The distance of [z] from the line through [a] and [b], with a negative sign if
    [z] is not on the side of [p]: [n] is the unit normal that points to [p]. *)
Definition signed_distance (a b p z : point) (y : R) : Prop :=
  exists n, dot 2 n n = 1 /\ dot 2 n (psub b a) = 0 /\ 0 < dot 2 n (psub p a) /\ y = dot 2 n (psub z a).
(** [h] belongs to the cell [c] only. *)
Definition only_cell (m : @mesh point) (h c : addr) : Prop := forall x, bounded_by m Triangle x Line h <-> x = c.
(** No cell has its circumcenter behind one of its edges at the boundary. *)
Definition centres_covered (m : @mesh point) : Prop :=
  forall h c a b p z y, edge_of_cell m h c a b p -> circle_centre z a b p -> signed_distance a b p z y -> only_cell m h c -> 0 <= y.

(** No cell has an obtuse angle. *)
Definition no_obtuse_angle (m : @mesh point) : Prop :=
  forall c ps a b p, has_points m Triangle c ps -> Permutation ps [a; b; p] -> 0 <= dot 2 (psub a p) (psub b p).
(** No cell is degenerate. *)
Definition proper_cells (d : nat) (m : @mesh point) (t : tag) : Prop := forall c, is_live m t c -> ~ has_volume d m t c 0.

(** Twice the signed area of a triangle in the plane, and convex quadrilaterals with
    the corners a, b, c, d in this order around. *)
Definition turn (a b c : point) : R :=
  (b 0%nat - a 0%nat) * (c 1%nat - a 1%nat) - (b 1%nat - a 1%nat) * (c 0%nat - a 0%nat).
Definition convex_quad (a b c d : point) : Prop :=
  (0 <= turn a b c /\ 0 <= turn b c d /\ 0 <= turn c d a /\ 0 <= turn d a b) \/
  (turn a b c <= 0 /\ turn b c d <= 0 /\ turn c d a <= 0 /\ turn d a b <= 0).
(** The area of a polygon (shoelace formula); the vertices of a quadrilateral of the
    library are in the order 0, 1, 3, 2 around. *)
Definition quad_area (m : @mesh point) (c : addr) (x : R) : Prop :=
  exists p0 p1 p2 p3, has_points m Quad c [p0; p1; p2; p3] /\ convex_quad p0 p1 p3 p2 /\
    x = Rabs (p0 0%nat * p1 1%nat - p1 0%nat * p0 1%nat + (p1 0%nat * p3 1%nat - p3 0%nat * p1 1%nat)
              + (p3 0%nat * p2 1%nat - p2 0%nat * p3 1%nat) + (p2 0%nat * p0 1%nat - p0 0%nat * p2 1%nat)) / 2.

(** The determinant of three vectors. *)
Definition determinant (a b c : point) : R :=
  a 0%nat * (b 1%nat * c 2%nat - b 2%nat * c 1%nat) + a 1%nat * (b 2%nat * c 0%nat - b 0%nat * c 2%nat)
  + a 2%nat * (b 0%nat * c 1%nat - b 1%nat * c 0%nat).
(** The same point in space. *)
Definition same_in_space (p q : point) : Prop := forall i, (i < 3)%nat -> p i = q i.
(** The hexahedron [c] is the parallelepiped that is spanned by three vectors, and
    [x] is its volume. *)
Definition parallelepiped_volume (m : @mesh point) (c : addr) (x : R) : Prop :=
  exists ps o a b d, has_points m Hex c ps /\ Forall2 same_in_space ps (parallelepiped o a b d) /\ x = Rabs (determinant a b d).
(** The quadrilateral [f] is a parallelogram: its diagonals, from the first to the
    last vertex and between the others, have the same midpoint. *)
Definition parallelogram (m : @mesh point) (f : addr) : Prop :=
  exists p0 p1 p2 p3, has_points m Quad f [p0; p1; p2; p3] /\ forall i, (i < 3)%nat -> p0 i + p3 i = p1 i + p2 i.

(** A point in space. *)
Definition space (x y z : R) : point := fun i => match i with O => x | S O => y | S (S O) => z | _ => 0 end.
