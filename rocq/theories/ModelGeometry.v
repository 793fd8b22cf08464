(** Bounding boxes, orthogonalisation, normal vectors, determinants and angles:
    viennagrid/algorithm/geometry.hpp, viennagrid/algorithm/angle.hpp.
    Definitions only.  Coordinates are exact real numbers. *)
From Coq Require Import Reals List.
From Verif Require Import ModelTopo ModelMesh ModelGeom ModelVolume.
Import ListNotations.
Local Open Scope R_scope.

(** point.hpp 692-700, viennagrid::min; std::min(x, y) is [y < x ? y : x]. *)
Definition pmin (p q : point) : point := fun i => if Rlt_dec (q i) (p i) then q i else p i.
(** point.hpp 702-710, viennagrid::max; std::max(x, y) is [x < y ? y : x]. *)
Definition pmax (p q : point) : point := fun i => if Rlt_dec (p i) (q i) then q i else p i.

(** geometry.hpp 170-193, bounding_box of a range of points; [big] is
    std::numeric_limits<NumericType>::max(). *)
Definition bounding_box (big : R) (ps : list point) : point * point :=
  fold_left (fun bb p => (pmin (fst bb) p, pmax (snd bb) p)) ps (fun _ => big, fun _ => - big).

(** The points read by the loop over the vertices of a mesh; [None]: a vertex
    without a point. *)
Definition vertex_points (m : @mesh point) : option (list point) :=
  omap (fun v => obind (deref m Vertex v) e_pt) (range m Vertex).
(** geometry.hpp 196-227, bounding_box of a mesh. *)
Definition mesh_bounding_box (big : R) (m : @mesh point) : option (point * point) :=
  option_map (bounding_box big) (vertex_points m).
(** geometry.hpp 229-242, mesh_size. *)
Definition mesh_size (d : nat) (big : R) (m : @mesh point) : option R :=
  option_map (fun bb => norm_2 d (psub (snd bb) (fst bb))) (mesh_bounding_box big m).

(** geometry.hpp 244-257, orthogonalize_vector; [None]: division by zero. *)
Fixpoint orthogonalize_vector (d : nat) (basis : list point) (v : point) : option point :=
  match basis with
  | [] => Some v
  | b :: basis' =>
      if Req_EM_T (inner_prod d b b) 0 then None
      else orthogonalize_vector d basis' (psub v (pscale (inner_prod d v b / inner_prod d b b) b))
  end.

(** geometry.hpp 260-293, orthogonalize with the tolerance [tol].  The sequence
    is kept in three parts: [start..n), [n..end) and what has been moved behind
    [end]; [k] is the number of vectors between n and end, which decreases in
    every round.  When a dependent vector is swapped with the last one, that one
    comes to position n. *)
Fixpoint orthogonalize_loop (d : nat) (tol : R) (k : nat) (done rest moved : list point) : option (list point * nat) :=
  match k, rest with
  | S k', v :: rest' =>
      match orthogonalize_vector d done v with
      | None => None
      | Some v' =>
          if Rlt_dec (norm_1 d v') tol then
            match rev rest' with
            | [] => orthogonalize_loop d tol k' done [] (v' :: moved)
            | l :: rinit => orthogonalize_loop d tol k' done (l :: rev rinit) (v' :: moved)
            end
          else orthogonalize_loop d tol k' (done ++ [v']) rest' moved
      end
  | _, _ => Some (done ++ moved, length done)
  end.
Definition orthogonalize (d : nat) (tol : R) (vs : list point) : option (list point * nat) :=
  orthogonalize_loop d tol (length vs) [] vs [].

(** geometry.hpp 33-98, normal_vector_impl: a vertex in 1D, a line in 2D (the
    coordinates of p1 - p0 swapped and the first one negated), a triangle and a
    quadrilateral in 3D.  [None]: no overload. *)
Definition normal_vector (d : nat) (t : tag) (ps : list point) : option point :=
  match d, t, ps with
  | 1%nat, Vertex, [_] => Some (fun _ => 1)
  | 2%nat, Line, [p0; p1] => Some (fun i => match i with O => - (p1 1%nat - p0 1%nat) | S O => p1 0%nat - p0 0%nat | _ => 0 end)
  | 3%nat, Triangle, [p0; p1; p2] => Some (cross_prod (psub p1 p0) (psub p2 p0))
  | 3%nat, Quad, [p0; p1; p2; _] => Some (cross_prod (psub p1 p0) (psub p2 p0))
  | _, _, _ => None
  end.

(** geometry.hpp 126-160, determinant with one, two and three columns. *)
Definition determinant1 (p0 : point) : R := p0 0%nat.
Definition determinant2 (p0 p1 : point) : R := p0 0%nat * p1 1%nat - p0 1%nat * p1 0%nat.
Definition determinant3 (p0 p1 p2 : point) : R :=
  p0 0%nat * p1 1%nat * p2 2%nat + p1 0%nat * p2 1%nat * p0 2%nat + p2 0%nat * p0 1%nat * p1 2%nat
  - p0 2%nat * p1 1%nat * p2 0%nat - p1 2%nat * p2 1%nat * p0 0%nat - p2 2%nat * p0 1%nat * p1 0%nat.

(** angle.hpp 27-43, the angle between two vectors.  [None]: 0 / 0. *)
Definition angle (d : nat) (v0 v1 : point) : option R :=
  let num := inner_prod d v0 v1 in
  let den := norm_2 d v0 * norm_2 d v1 in
  if Rgt_dec num den then Some 0
  else if Rlt_dec num (- den) then Some (acos (-1))
  else if Req_EM_T den 0 then None
  else Some (acos (num / den)).
(** angle.hpp 46-53, the angle at [origin]. *)
Definition angle_at (d : nat) (p0 p1 origin : point) : option R := angle d (psub p0 origin) (psub p1 origin).

(** std::atan2; [None]: both arguments are zero, where the result depends on
    the sign of the zeros. *)
Definition atan2 (y x : R) : option R :=
  if Rlt_dec 0 x then Some (atan (y / x))
  else if Rlt_dec x 0 then if Rle_dec 0 y then Some (atan (y / x) + PI) else Some (atan (y / x) - PI)
  else if Rlt_dec 0 y then Some (PI / 2)
  else if Rlt_dec y 0 then Some (- (PI / 2))
  else None.

(** angle.hpp 57-84, solid_angle of three vectors, of three points from an origin. *)
Definition solid_angle (a b c : point) : option R :=
  let det := a 0%nat * b 1%nat * c 2%nat + b 0%nat * c 1%nat * a 2%nat + c 0%nat * a 1%nat * b 2%nat
             - a 2%nat * b 1%nat * c 0%nat - b 2%nat * c 1%nat * a 0%nat - c 2%nat * a 1%nat * b 0%nat in
  let al := norm_2 3 a in let bl := norm_2 3 b in let cl := norm_2 3 c in
  let div := al * bl * cl + inner_prod 3 a b * cl + inner_prod 3 a c * bl + inner_prod 3 b c * al in
  option_map (fun t => Rabs (2 * t)) (atan2 det div).
Definition solid_angle_at (p0 p1 p2 origin : point) : option R :=
  solid_angle (psub p0 origin) (psub p1 origin) (psub p2 origin).

(** angle.hpp 87-95, dihedral_angle of two planes given by three points each. *)
Definition dihedral_angle (p0 p1 p2 q0 q1 q2 : point) : option R :=
  angle 3 (cross_prod (psub p1 p0) (psub p2 p0)) (cross_prod (psub q1 q0) (psub q2 q0)).
