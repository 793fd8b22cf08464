(** Specification vocabulary for the Comsol writer (C71, C72).
    Nothing here is used by the model. *)
From Coq Require Import Reals List Arith ZArith Relations Permutation.
From Verif Require Import ModelTopo ModelMesh ModelErase ModelGeom ModelSegmentation ModelSegment
  SpecMesh SpecErase SpecQuery SpecSegmentation SpecSegment SpecCopy SpecCopySeg SpecGeom SpecInterface.
Import ListNotations.

(** The triangle [x] is on the hull of the segment [a]: it is in the segment, and
    exactly one tetrahedron of the segment has it. *)
Definition on_hull (cfg : config) (s : sstate point) (a : nat) (x : addr) : Prop :=
  in_segment s a Triangle x /\ on_one_cell_of cfg s a x.

(** [a] is the first segment on whose hull [x] is. *)
Definition first_hull (cfg : config) (s : sstate point) (a : nat) (x : addr) : Prop :=
  exists l r, segment_range (st_segs s) = l ++ a :: r /\ on_hull cfg s a x /\ forall b, In b l -> ~ on_hull cfg s b x.

(** The points of the corners of an element. *)
Definition has_corners (m : @mesh point) (t : tag) (x : addr) (ps : list point) : Prop :=
  exists vs, vertices_at m t x = Some vs /\ map (point_at m) vs = map Some ps.

(** A vector orthogonal to the triangle with the corners [ps]. *)
Definition normal_of (ps : list point) (n : point) : Prop :=
  exists p0 p1 p2, ps = [p0; p1; p2] /\
  let u := fun i => (p1 i - p0 i)%R in let v := fun i => (p2 i - p0 i)%R in
  (n 0%nat = u 1%nat * v 2%nat - u 2%nat * v 1%nat)%R /\ (n 1%nat = u 2%nat * v 0%nat - u 0%nat * v 2%nat)%R /\ (n 2%nat = u 0%nat * v 1%nat - u 1%nat * v 0%nat)%R.

(** The cosine of the angle between the planes of two triangles is nearer to 1 than a millionth
    (which is false if one of them is degenerate). *)
Definition coplanar (m : @mesh point) (x y : addr) : Prop :=
  exists ps qs n k, has_corners m Triangle x ps /\ has_corners m Triangle y qs /\ normal_of ps n /\ normal_of qs k /\
    (Rabs (dot 3 n k) > (1 - / 10 ^ 6) * sqrt (dot 3 n n) * sqrt (dot 3 k k))%R.

(** Two triangles on the hull of a segment, the first for both, with a common
    vertex, in the same segments and coplanar. *)
Definition adjoining (cfg : config) (s : sstate point) (x y : addr) : Prop :=
  (exists a, first_hull cfg s a x /\ first_hull cfg s a y) /\
  share (st_mesh s) Triangle Vertex x y /\
  (forall b, is_segment s b -> (in_segment s b Triangle x <-> in_segment s b Triangle y)) /\
  coplanar (st_mesh s) x y.

(** They are joined by a chain of such triangles. *)
Definition patch (cfg : config) (s : sstate point) : addr -> addr -> Prop := clos_refl_trans addr (adjoining cfg s).

(** The numbers [ix] are the positions, counted from 0, of the vertices of an element in
    the list of the vertices of the mesh. *)
Definition at_positions (m : @mesh point) (t : tag) (x : addr) (ix : list nat) : Prop :=
  exists vs, vertices_at m t x = Some vs /\ map (nth_error (range m Vertex)) ix = map Some vs.

(** The tetrahedron of the segment [a] at the hull triangle [x] lies on the side of the
    triangle its normal vector points away from, or not: [q] is the corner opposite to [x]. *)
Definition segment_side (behind : bool) (cfg : config) (s : sstate point) (x : addr) (a : nat) : Prop :=
  on_hull cfg s a x /\ exists c cs ps q n,
    in_segment s a Tet c /\ bounded_by (st_mesh s) Tet c Triangle x /\
    has_corners (st_mesh s) Tet c cs /\ has_corners (st_mesh s) Triangle x ps /\ Permutation cs (q :: ps) /\ normal_of ps n /\
    forall p, In p ps -> if behind then (dot 3 n (fun i => q i - p i) < 0)%R else (dot 3 n (fun i => q i - p i) >= 0)%R.

(** The number of a segment with the property [P], plus one; zero if there is none. *)
Definition some_segment (s : sstate point) (P : nat -> Prop) (v : Z) : Prop :=
  (v = 0%Z /\ forall a, is_segment s a -> ~ P a) \/ exists a z, segment_has_id s a z /\ P a /\ v = (z + 1)%Z.

(** Every triangle of a segment belongs to a tetrahedron of it, no tetrahedron is in two
    segments, and no triangle belongs to more than two tetrahedra. *)
Definition separate_segments (cfg : config) (s : sstate point) : Prop :=
  (forall a, is_segment s a -> facets_of_cells cfg s a) /\
  (forall a b c, is_segment s a -> is_segment s b -> in_segment s a (cfg_cell cfg) c -> in_segment s b (cfg_cell cfg) c -> a = b) /\
  at_most_two_cells cfg (st_mesh s).
