(** Specification vocabulary for bounding boxes, orthogonalisation, normal
    vectors and angles (C51-C55).  Nothing here is used by the model. *)
From Coq Require Import Reals List.
From Verif Require Import ModelGeom ModelTopo ModelMesh SpecRefine SpecGeom.
Import ListNotations.
Local Open Scope R_scope.

(** [x] lies in the box with the corners [lo] and [hi]. *)
Definition in_box (d : nat) (lo hi x : point) : Prop := forall i, (i < d)%nat -> lo i <= x i <= hi i.
(** The smallest box around the points: it holds all of them, and every other
    box that does holds this one. *)
Definition smallest_box (d : nat) (ps : list point) (lo hi : point) : Prop :=
  (forall p, In p ps -> in_box d lo hi p) /\
  forall lo' hi', (forall p, In p ps -> in_box d lo' hi' p) ->
    forall i, (i < d)%nat -> lo' i <= lo i /\ hi i <= hi' i.
(** All coordinates are numbers the type can hold. *)
Definition representable (d : nat) (big : R) (ps : list point) : Prop :=
  forall p i, In p ps -> (i < d)%nat -> - big <= p i <= big.
(** The points of the vertices of a mesh. *)
Definition mesh_points (m : @mesh point) (ps : list point) : Prop :=
  forall p, In p ps <-> exists v ev, deref m Vertex v = Some ev /\ e_pt ev = Some p.

(** [x] is a linear combination of the vectors [vs]. *)
Definition combination (cs : list R) (vs : list point) (i : nat) : R :=
  Rsum (map (fun cv => fst cv * snd cv i) (combine cs vs)).
Definition in_span (d : nat) (vs : list point) (x : point) : Prop :=
  exists cs, length cs = length vs /\ forall i, (i < d)%nat -> x i = combination cs vs i.
Definition lin_independent (d : nat) (vs : list point) : Prop :=
  forall cs, length cs = length vs -> (forall i, (i < d)%nat -> combination cs vs i = 0) -> Forall (fun c => c = 0) cs.
(** The sum of the absolute values of the coordinates. *)
Definition taxicab (d : nat) (p : point) : R := Rsum (map (fun i => Rabs (p i)) (seq 0 d)).
(** The vectors are orthogonal to each other. *)
Definition pairwise_orthogonal (d : nat) (vs : list point) : Prop :=
  forall i j u v, i <> j -> nth_error vs i = Some u -> nth_error vs j = Some v -> dot d u v = 0.

(** The matrix whose columns are the vectors [vs]. *)
Definition columns (d : nat) (vs : list point) : list (list R) := map (fun i => map (fun v => v i) vs) (seq 0 d).
(** The vector is orthogonal to the plane or line through the points [ps]. *)
Definition orthogonal_to (d : nat) (ps : list point) (n : point) : Prop :=
  forall p q, In p ps -> In q ps -> dot d n (fun i => p i - q i) = 0.

(** [x] is the angle between the vectors [u] and [v]. *)
Definition is_angle (d : nat) (u v : point) (x : R) : Prop :=
  0 <= x <= PI /\ dot d u v = sqrt (dot d u u) * sqrt (dot d v v) * cos x.
Definition is_zero (d : nat) (u : point) : Prop := forall i, (i < d)%nat -> u i = 0.
(** [v] without its component along [a]. *)
Definition away_from (d : nat) (a v : point) : point := fun i => v i - dot d v a / dot d a a * a i.
Definition shift (o v : point) : point := fun i => o i + v i.
