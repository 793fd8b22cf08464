(** Closest points: viennagrid/algorithm/closest_points.hpp and the distance of
    algorithm/distance.hpp.  Definitions only. *)
From Coq Require Import Reals List.
From Verif Require Import ModelGeom.
Import ListNotations.
Local Open Scope R_scope.

Section Closest.
Variable d : nat.               (* geometric dimension *)

(** distance.hpp 41-55, the distance of the two points of a pair. *)
Definition pair_distance (pq : point * point) : R := norm_2 d (psub (fst pq) (snd pq)).

(** closest_points.hpp 40-53, point_pair_with_shortest_distance of two pairs, *)
Definition shorter2 (a b : point * point) : point * point :=
  if Rle_dec (pair_distance a) (pair_distance b) then a else b.
(** 54-78, of three pairs, *)
Definition shorter3 (a b c : point * point) : point * point :=
  if Rle_dec (pair_distance a) (pair_distance b) then
    if Rle_dec (pair_distance a) (pair_distance c) then a
    else if Rle_dec (pair_distance b) (pair_distance a) then
           if Rle_dec (pair_distance b) (pair_distance c) then b else c
         else c
  else if Rle_dec (pair_distance b) (pair_distance a) then
         if Rle_dec (pair_distance b) (pair_distance c) then b else c
       else c.
(** 80-95, of four pairs, and 116-135, of six. *)
Definition shorter4 (a b c e : point * point) : point * point := shorter2 (shorter2 a b) (shorter2 c e).
Definition shorter6 (a b c e f g : point * point) : point * point := shorter2 (shorter3 a b c) (shorter3 e f g).

(** closest_points.hpp 194-214, closest_points_point_line.  When the end points
    of the line coincide, the quotient is 0/0; in the code the result is
    [a + 1 * 0] (NaN < 1 is false), and here [a + t * 0] for some t. *)
Definition closest_point_line (p a b : point) : point * point :=
  let t := inner_prod d (psub p a) (psub b a) / inner_prod d (psub b a) (psub b a) in
  (p, padd a (pscale (Rmax 0 (Rmin 1 t)) (psub b a))).

(** closest_points.hpp 268-327, closest_points_line_line.  [None]: a division by
    zero, after which the code returns infinite or NaN coordinates. *)
Definition end_points_case (v0 v1 w0 w1 : point) : point * point :=
  shorter4 (closest_point_line w0 v0 v1) (closest_point_line w1 v0 v1)
           (closest_point_line v0 w0 w1) (closest_point_line v1 w0 w1).
Definition closest_line_line (v0 v1 w0 w1 : point) : option (point * point) :=
  let dir_v := psub v1 v0 in
  let dir_w := psub w1 w0 in
  let v_in_v := inner_prod d dir_v dir_v in
  let v_in_w := inner_prod d dir_v dir_w in
  let w_in_w := inner_prod d dir_w dir_w in
  let denominator := v_in_v * w_in_w - v_in_w * v_in_w in
  if Rlt_dec denominator (/ 1000000 * v_in_v * w_in_w) then Some (end_points_case v0 v1 w0 w1)
  else if Req_EM_T denominator 0 then None
  else
    let dir_distance := psub v0 w0 in
    let v_in_dir := inner_prod d dir_v dir_distance in
    let w_in_dir := inner_prod d dir_w dir_distance in
    let s := (v_in_w * w_in_dir - w_in_w * v_in_dir) / denominator in
    let t := (v_in_v * w_in_dir - v_in_w * v_in_dir) / denominator in
    if Rlt_dec s 0 then Some (end_points_case v0 v1 w0 w1)
    else if Rgt_dec s 1 then Some (end_points_case v0 v1 w0 w1)
    else if Rlt_dec t 0 then Some (end_points_case v0 v1 w0 w1)
    else if Rgt_dec t 1 then Some (end_points_case v0 v1 w0 w1)
    else Some (padd v0 (pscale s dir_v), padd w0 (pscale t dir_w)).

(** [(x < 0 || x > 1)] *)
Definition outside01 (x : R) : bool :=
  if Rlt_dec x 0 then true else if Rgt_dec x 1 then true else false.
Definition above1 (x : R) : bool := if Rgt_dec x 1 then true else false.

(** closest_points.hpp 387-451, closest_points_point_triangle; the warning about
    thin triangles has no effect on the result.  [None] as above. *)
Definition closest_point_triangle (p v0 v1 v2 : point) : option (point * point) :=
  let u0 := psub v1 v0 in
  let u1 := psub v2 v0 in
  let u := psub p v0 in
  let a := inner_prod d u0 u0 in
  let b := inner_prod d u0 u1 in
  let e := inner_prod d u1 u1 in
  let u_in_u0 := inner_prod d u u0 in
  let u_in_u1 := inner_prod d u u1 in
  let denominator := a * e - b * b in
  if Req_EM_T denominator 0 then None
  else
    let s := (e * u_in_u0 - b * u_in_u1) / denominator in
    let t := (- b * u_in_u0 + a * u_in_u1) / denominator in
    let p' := padd (padd v0 (pscale s u0)) (pscale t u1) in
    if (outside01 s || outside01 t || above1 (s + t))%bool then
      Some (shorter3 (p, snd (closest_point_line p' v0 v1)) (p, snd (closest_point_line p' v0 v2))
                     (p, snd (closest_point_line p' v1 v2)))
    else Some (p, p').

(** closest_points.hpp 481-511, a point and a quadrilateral. *)
Definition closest_point_quadrilateral (p v0 v1 v2 v3 : point) : option (point * point) :=
  match closest_point_triangle p v0 v1 v2, closest_point_triangle p v1 v3 v2 with
  | Some a, Some b => Some (shorter2 a b)
  | _, _ => None
  end.

(** closest_points.hpp 530-613, closest_points_point_tetrahedron; the warning has
    no effect on the result.  [None] as above. *)
Definition closest_point_tetrahedron (p v0 v1 v2 v3 : point) : option (point * point) :=
  let u0 := psub v1 v0 in
  let u1 := psub v2 v0 in
  let u2 := psub v3 v0 in
  let u := psub p v0 in
  let a_00 := inner_prod d u0 u0 in
  let a_01 := inner_prod d u1 u0 in
  let a_02 := inner_prod d u2 u0 in
  let a_10 := a_01 in
  let a_11 := inner_prod d u1 u1 in
  let a_12 := inner_prod d u2 u1 in
  let a_20 := a_02 in
  let a_21 := a_12 in
  let a_22 := inner_prod d u2 u2 in
  let b0 := inner_prod d u u0 in
  let b1 := inner_prod d u u1 in
  let b2 := inner_prod d u u2 in
  let det_A := a_00 * a_11 * a_22 + a_01 * a_12 * a_20 + a_02 * a_10 * a_21
             - a_20 * a_11 * a_02 - a_21 * a_12 * a_00 - a_22 * a_10 * a_01 in
  if Req_EM_T det_A 0 then None
  else
    let r := (b0 * a_11 * a_22 + a_01 * a_12 * b2 + a_02 * b1 * a_21
            - b2 * a_11 * a_02 - a_21 * a_12 * b0 - a_22 * b1 * a_01) / det_A in
    let s := (a_00 * b1 * a_22 + b0 * a_12 * a_20 + a_02 * a_10 * b2
            - a_20 * b1 * a_02 - b2 * a_12 * a_00 - a_22 * a_10 * b0) / det_A in
    let t := (a_00 * a_11 * b2 + a_01 * b1 * a_20 + b0 * a_10 * a_21
            - a_20 * a_11 * b0 - a_21 * b1 * a_00 - b2 * a_10 * a_01) / det_A in
    let p' := padd (padd (padd v0 (pscale r u0)) (pscale s u1)) (pscale t u2) in
    if (outside01 r || outside01 s || outside01 t || above1 (r + s + t))%bool then
      match closest_point_triangle p' v0 v1 v2, closest_point_triangle p' v0 v1 v3,
            closest_point_triangle p' v0 v2 v3, closest_point_triangle p' v1 v2 v3 with
      | Some x0, Some x1, Some x2, Some x3 => Some (shorter4 (p, snd x0) (p, snd x1) (p, snd x2) (p, snd x3))
      | _, _, _, _ => None
      end
    else Some (p, p').

(** closest_points.hpp 643-683, a point and a hexahedron. *)
Definition closest_point_hexahedron (p v0 v1 v2 v3 v4 v5 v6 v7 : point) : option (point * point) :=
  match closest_point_tetrahedron p v0 v1 v3 v7, closest_point_tetrahedron p v0 v1 v7 v5,
        closest_point_tetrahedron p v0 v2 v6 v7, closest_point_tetrahedron p v0 v3 v2 v7,
        closest_point_tetrahedron p v0 v5 v7 v4, closest_point_tetrahedron p v0 v6 v4 v7 with
  | Some a, Some b, Some c, Some e, Some f, Some g => Some (shorter6 a b c e f g)
  | _, _, _, _, _, _ => None
  end.
End Closest.
