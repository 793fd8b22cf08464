(** Specification vocabulary for the geometric properties C26-C32, C44, C45.
    Nothing here is used by the model.  [independent], [in_hull],
    [in_interior], [covers] and [no_overlap] come from SpecRefine. *)
From Coq Require Import Reals List Arith.
From Verif Require Import ModelGeom ModelVolume SpecRefine.
Import ListNotations.
Local Open Scope R_scope.

(** Equality of points of dimension [d], the square of the distance. *)
Definition same_point (d : nat) (p q : point) : Prop := forall i, (i < d)%nat -> p i = q i.
Definition dist_sq (d : nat) (p q : point) : R := Rsum (map (fun i => (p i - q i) ^ 2) (seq 0 d)).

(** Determinant of a square matrix (list of rows), expanded along the first
    row. *)
Fixpoint remove_nth {A} (k : nat) (l : list A) : list A :=
  match l, k with
  | [], _ => []
  | _ :: l', O => l'
  | x :: l', S k' => x :: remove_nth k' l'
  end.
Fixpoint det_n (n : nat) (rows : list (list R)) : R :=
  match n, rows with
  | S n', r :: rows' =>
      Rsum (map (fun k => (-1) ^ k * nth k r 0 * det_n n' (map (remove_nth k) rows')) (seq 0 (length r)))
  | _, _ => 1
  end.
Definition det (rows : list (list R)) : R := det_n (length rows) rows.

(** The edge vectors of a simplex from its first vertex, and their Gram
    matrix: its determinant is (k! * volume)^2 for a k-simplex. *)
Definition edge_vectors (ps : list point) : list point :=
  match ps with
  | [] => []
  | p0 :: ps' => map (fun p i => p i - p0 i) ps'
  end.
Definition dot (d : nat) (p q : point) : R := Rsum (map (fun i => p i * q i) (seq 0 d)).
Definition gram (d : nat) (vs : list point) : list (list R) := map (fun v => map (dot d v) vs) vs.

(** An affine map of d-dimensional space and its determinant. *)
Definition is_affine (d : nat) (A : nat -> nat -> R) (t : point) (f : point -> point) : Prop :=
  forall p i, (i < d)%nat -> f p i = t i + Rsum (map (fun j => A i j * p j) (seq 0 d)).
Definition matrix_rows (d : nat) (A : nat -> nat -> R) : list (list R) :=
  map (fun i => map (A i) (seq 0 d)) (seq 0 d).

(** [N] is a norm on d-dimensional vectors. *)
Definition is_norm (d : nat) (N : point -> R) : Prop :=
  (forall p, 0 <= N p) /\
  (forall p, N p = 0 <-> forall i, (i < d)%nat -> p i = 0) /\
  (forall c p, N (fun i => c * p i) = Rabs c * N p) /\
  (forall p q, N (fun i => p i + q i) <= N p + N q).

(** The edges of a closed polygon. *)
Definition closed_edges {A} (ps : list A) : list (A * A) :=
  match ps with
  | [] => []
  | p0 :: ps' => combine ps (ps' ++ [p0])
  end.
(** Twice the signed area enclosed by a closed polygon in the plane. *)
Definition shoelace (ps : list point) : R :=
  Rsum (map (fun e => fst e 0%nat * snd e 1%nat - snd e 0%nat * fst e 1%nat) (closed_edges ps)).

(** The corners 0,1,2,3 of a quadrilateral in the library's numbering (the
    boundary runs 0-1-3-2) form a strictly convex quadrilateral. *)
Definition convex_quad (p0 p1 p2 p3 : point) : Prop :=
  0 < signed_area p0 p1 p3 /\ 0 < signed_area p1 p3 p2 /\ 0 < signed_area p3 p2 p0 /\ 0 < signed_area p2 p0 p1.
(** The corners of a parallelepiped in the library's numbering: corner
    4z+2y+x sits at o + x a + y b + z c. *)
Definition parallelepiped (o a b c : point) : list point :=
  map (fun xyz i => o i + fst (fst xyz) * a i + snd (fst xyz) * b i + snd xyz * c i)
      [(0,0,0); (1,0,0); (0,1,0); (1,1,0); (0,0,1); (1,0,1); (0,1,1); (1,1,1)].

(** The mean of the points [ps] with weights [ws]. *)
Definition weighted_mean (d : nat) (ws : list R) (ps : list point) (x : point) : Prop :=
  forall i, (i < d)%nat -> x i * Rsum ws = Rsum (map (fun wp => fst wp * snd wp i) (combine ws ps)).
(** The six tetrahedra along the diagonal 0-7 of a hexahedron. *)
Definition diagonal_tets (ps : list point) : list (list point) :=
  map (map (fun k => nth k ps (fun _ => 0)))
      [[0;1;3;7]; [0;1;5;7]; [0;2;3;7]; [0;2;6;7]; [0;4;5;7]; [0;4;6;7]]%nat.
(** [vol] gives the values [vs] for the cells. *)
Definition volumes_are {C} (vol : C -> option R) (cells : list C) (vs : list R) : Prop :=
  Forall2 (fun c v => vol c = Some v) cells vs.
(** The plane polygon [qs] placed in space: o + x a + y b with orthonormal a, b. *)
Definition orthonormal (a b : point) : Prop := dot 3 a a = 1 /\ dot 3 b b = 1 /\ dot 3 a b = 0.
Definition place (o a b : point) (q : point) : point := fun i => o i + q 0%nat * a i + q 1%nat * b i.
(** Concrete points, and the cells of the counterexamples of C28. *)
Definition pt2 (x y : R) : point := fun i => match i with O => x | S O => y | _ => 0 end.
Definition vec3 (x y z : R) : point := fun i => match i with O => x | S O => y | S (S O) => z | _ => 0 end.
Definition slanted_hex : list point :=
  map (fun xyz => vec3 (fst (fst xyz)) (snd (fst xyz) * (1 + fst (fst xyz))) (snd xyz))
      [(0,0,0); (1,0,0); (0,1,0); (1,1,0); (0,0,1); (1,0,1); (0,1,1); (1,1,1)].
Definition box_hex : list point := parallelepiped (vec3 0 0 0) (vec3 1 0 0) (vec3 0 2 0) (vec3 0 0 1).
Definition missed_tet : list point := [vec3 0 1 0; vec3 0 2 0; vec3 1 2 0; vec3 0 2 1].

(** [x] has the barycentric coordinates [ws] with respect to [ps]. *)
Definition barycentric (d : nat) (ps : list point) (ws : list R) (x : point) : Prop :=
  length ws = length ps /\ Rsum ws = 1 /\
  forall i, (i < d)%nat -> x i = Rsum (map (fun wp => fst wp * snd wp i) (combine ws ps)).
(** [q] is the foot of the perpendicular from [p] to the plane through [ps]. *)
Definition is_foot (d : nat) (ps : list point) (p q : point) : Prop :=
  (exists ws, barycentric d ps ws q) /\
  forall v, In v (edge_vectors ps) -> dot d (fun i => p i - q i) v = 0.

(** The dimension of the cells of a shape. *)
Definition shape_dim (s : cell_shape) : nat :=
  match s with
  | ShVertex => 0
  | ShLine => 1
  | ShTriangle | ShQuad | ShPolygon => 2
  | ShTet | ShHex => 3
  end.

(** The end points lie on different sides of the hyperplane through [o] with
    the normal [n], both further than [tol] (in units of the length of [n]). *)
Definition crosses (d : nat) (tol : R) (o n p0 p1 : point) : Prop :=
  (dot d n (fun i => p0 i - o i) < - tol /\ tol < dot d n (fun i => p1 i - o i)) \/
  (dot d n (fun i => p1 i - o i) < - tol /\ tol < dot d n (fun i => p0 i - o i)).
(** [x] lies on that hyperplane, strictly between [p0] and [p1]. *)
Definition crossing_point (d : nat) (o n p0 p1 x : point) : Prop :=
  dot d n (fun i => x i - o i) = 0 /\
  exists s, 0 < s < 1 /\ forall i, (i < d)%nat -> x i = p0 i + s * (p1 i - p0 i).
