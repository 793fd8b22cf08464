(** Specification vocabulary for the refinement along a hyperplane (C34, C69).
    Nothing here is used by the model. *)
From Coq Require Import Reals List Arith.
From Verif Require Import ModelTopo ModelMesh ModelErase ModelGeom SpecMesh SpecErase SpecCopy SpecGeom.
Import ListNotations.
Local Open Scope R_scope.

(** [m] is the centre of the masses [r] at [p] and [s] at [q]. *)
Definition mass_centre (d : nat) (r : R) (p : point) (s : R) (q m : point) : Prop :=
  forall i, (i < d)%nat -> m i = (r * p i + s * q i) / (r + s).

(** The line from [p] to [q] crosses the hyperplane through [o] with the normal
    [n]: both end points are further from it than the tolerance, which is relative
    to the length of the line. *)
Definition line_crosses (d : nat) (eps : R) (o n p q : point) : Prop :=
  crosses d (Rmax (eps * sqrt (dist_sq d p q)) (Rabs eps)) o n p q.

(** [p] and [q] are too near for vertices to be made at both: [q] is nearer to [p] than a
    millionth of the distance of [p] from the origin. *)
Definition too_near (d : nat) (p q : point) : Prop := sqrt (dist_sq d p q) < sqrt (dot d p p) / 10 ^ 6.

(** The points [p] and [q] of the two vertices of the line [a]. *)
Definition ends_at (m : @mesh point) (a : addr) (p q : point) : Prop :=
  exists v w, vertices_at m Line a = Some [v; w] /\ point_at m v = Some p /\ point_at m w = Some q.

(** The hyperplane cuts the lines of [src] in points that are not too near to
    each other or to vertices of [out]. *)
Definition no_merge (d : nat) (eps : R) (o n : point) (src out : @mesh point) : Prop :=
  forall a p q x, ends_at src a p q -> line_crosses d eps o n p q -> crossing_point d o n p q x ->
    (forall v y, point_at out v = Some y -> ~ too_near d x y) /\
    (forall b p' q' y, ends_at src b p' q' -> line_crosses d eps o n p' q' -> crossing_point d o n p' q' y -> b <> a -> ~ too_near d x y).
