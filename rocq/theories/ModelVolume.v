(** Model of the geometric algorithms on simplices and cells:
    algorithm/{spanned_volume,volume,circumcenter,centroid,inclusion,geometric_transform}.hpp,
    and the hyperplane marking of algorithm/refine.hpp.  Definitions only.

    Points are exact ([ModelGeom.point]); all points are Cartesian.  [None]
    stands for a call that does not compile (no overload), for a division by
    zero (the code then returns infinities or NaNs), or for a thrown exception;
    the comment of each definition says which. *)
From Coq Require Import Reals List.
From Verif Require Import ModelTopo ModelMesh ModelGeom.
Import ListNotations.
Local Open Scope R_scope.

(** The zero vector: spatial_point() / PointT(0,0), point.hpp:528-572. *)
Definition pzero : point := fun _ => 0.

(** algorithm/spanned_volume.hpp:38-121, detail::signed_spanned_volume_impl for
    one, two and three dimensions; [None]: there is no such overload. *)
Definition signed_spanned_volume (d : nat) (ps : list point) : option R :=
  match d, ps with
  | 1%nat, [p1; p2] => Some (p2 0%nat - p1 0%nat)
  | 2%nat, [p1; p2] =>
      Some (sqrt ((p2 0%nat - p1 0%nat) * (p2 0%nat - p1 0%nat) + (p2 1%nat - p1 1%nat) * (p2 1%nat - p1 1%nat)))
  | 2%nat, [A; B; C] =>
      Some ((A 0%nat * (B 1%nat - C 1%nat) + B 0%nat * (C 1%nat - A 1%nat) + C 0%nat * (A 1%nat - B 1%nat)) / 2)
  | 3%nat, [p1; p2] =>
      Some (sqrt ((p2 0%nat - p1 0%nat) * (p2 0%nat - p1 0%nat) + (p2 1%nat - p1 1%nat) * (p2 1%nat - p1 1%nat)
                  + (p2 2%nat - p1 2%nat) * (p2 2%nat - p1 2%nat)))
  | 3%nat, [p1; p2; p3] =>
      let v1 := psub p2 p1 in let v2 := psub p3 p1 in
      Some (norm_2 3 (cross_prod v1 v2) / 2)
  | 3%nat, [p1; p2; p3; p4] =>
      let v1 := psub p2 p1 in let v2 := psub p3 p1 in let v3 := psub p4 p1 in
      Some (inner_prod 3 v1 (cross_prod v2 v3) / 6)
  | _, _ => None
  end.

(** algorithm/spanned_volume.hpp:272-298, spanned_volume: the absolute value. *)
Definition spanned_volume (d : nat) (ps : list point) : option R :=
  option_map Rabs (signed_spanned_volume d ps).

(** Sum of several results that may be undefined (the + chains of volume.hpp). *)
Fixpoint osum (l : list (option R)) : option R :=
  match l with
  | [] => Some 0
  | o :: l' => obind o (fun x => obind (osum l') (fun y => Some (x + y)))
  end.

(** Consecutive pairs (x0,x1), (x1,x2), ... of a list. *)
Fixpoint pairs {A} (l : list A) : list (A * A) :=
  match l with
  | x :: (y :: _) as l' => (x, y) :: pairs l'
  | _ => []
  end.

(** algorithm/volume.hpp:100-127, polygon.  The loop adds the triangles
    (origin, p_i, p_i+1), then the one of the closing edge; [origin] is
    [it1->point()], the point stored at the first vertex, whereas all other
    points come from the accessor. *)
Definition polygon_volume (d : nat) (origin : point) (ps : list point) : option R :=
  match ps with
  | p0 :: _ =>
      if Nat.ltb (length ps) 3 then Some 0 else
      option_map Rabs (osum (map (fun e => signed_spanned_volume d [origin; fst e; snd e])
                                 (pairs ps ++ [(last ps p0, p0)])))
  | [] => Some 0
  end.

(** algorithm/volume.hpp:36-170, volume_impl for all cell types; [ps] are the
    points of the vertices of the cell in reference order.  (For a polygon the
    accessor is the default one here; [polygon_volume] has the general case.) *)
Inductive cell_shape := ShVertex | ShLine | ShTriangle | ShQuad | ShPolygon | ShTet | ShHex.
Definition volume_cell (d : nat) (s : cell_shape) (ps : list point) : option R :=
  match s, ps with
  | ShVertex, [_] => Some 1
  | ShLine, [p0; p1] => Some (norm_2 d (psub p0 p1))
  | ShTriangle, [p0; p1; p2] => spanned_volume d [p0; p1; p2]
  | ShQuad, [p0; p1; p2; p3] =>
      osum [spanned_volume d [p0; p1; p3]; spanned_volume d [p1; p2; p3]]
  | ShPolygon, _ => match ps with [] => Some 0 | p0 :: _ => polygon_volume d p0 ps end
  | ShTet, [p0; p1; p2; p3] => spanned_volume d [p0; p1; p2; p3]
  | ShHex, [p0; p1; p2; p3; p4; p5; p6; p7] =>
      osum [spanned_volume d [p0; p1; p3; p4]; spanned_volume d [p4; p1; p3; p7];
            spanned_volume d [p4; p1; p7; p5]; spanned_volume d [p1; p2; p3; p7];
            spanned_volume d [p1; p2; p7; p5]; spanned_volume d [p5; p2; p7; p6]]
  | _, _ => None
  end.

(** algorithm/volume.hpp:175-191, volume_mesh: the loop over the cells of a
    mesh or segment, each given by the points of its vertices. *)
Fixpoint volume_loop (d : nat) (s : cell_shape) (cells : list (list point)) (acc : R) : option R :=
  match cells with
  | [] => Some acc
  | c :: cells' => obind (volume_cell d s c) (fun v => volume_loop d s cells' (acc + v))
  end.
Definition volume_mesh (d : nat) (s : cell_shape) (cells : list (list point)) : option R :=
  volume_loop d s cells 0.

(** algorithm/centroid.hpp:37-59 (used for lines, triangles, tetrahedra,
    quadrilaterals and hexahedra): sum of the points of the vertices, divided
    by their number.  A vertex returns its own point (107-111). *)
Fixpoint points_sum (ps : list point) (acc : point) : point :=
  match ps with
  | [] => acc
  | p :: ps' => points_sum ps' (padd acc p)
  end.
Definition centroid (ps : list point) : point :=
  pdiv (points_sum ps pzero) (INR (length ps)).

(** algorithm/centroid.hpp:116-146, centroid_mesh; [None]: a cell has no volume
    overload, or the total volume is zero (the result is then NaN). *)
Fixpoint centroid_loop (d : nat) (s : cell_shape) (cells : list (list point)) (acc : point) (vol : R)
  : option (point * R) :=
  match cells with
  | [] => Some (acc, vol)
  | c :: cells' =>
      obind (volume_cell d s c) (fun v =>
      centroid_loop d s cells' (padd acc (pscale v (centroid c))) (vol + v))
  end.
Definition centroid_mesh (d : nat) (s : cell_shape) (cells : list (list point)) : option point :=
  obind (centroid_loop d s cells pzero 0) (fun r =>
  let '(acc, vol) := r in
  if Req_EM_T vol 0 then None else Some (pdiv acc vol)).

(** algorithm/circumcenter.hpp:58-71, line. *)
Definition circumcenter_line (A B : point) : point := pdiv (padd A B) 2.

(** algorithm/circumcenter.hpp:85-113, triangle in the plane; [None]: D = 0. *)
Definition circumcenter_tri2 (A B C : point) : option point :=
  let D := 2 * (A 0%nat * (B 1%nat - C 1%nat) + B 0%nat * (C 1%nat - A 1%nat) + C 0%nat * (A 1%nat - B 1%nat)) in
  if Req_EM_T D 0 then None else
  let x := ((A 1%nat * A 1%nat + A 0%nat * A 0%nat) * (B 1%nat - C 1%nat)
            + (B 1%nat * B 1%nat + B 0%nat * B 0%nat) * (C 1%nat - A 1%nat)
            + (C 1%nat * C 1%nat + C 0%nat * C 0%nat) * (A 1%nat - B 1%nat)) / D in
  let y := ((A 1%nat * A 1%nat + A 0%nat * A 0%nat) * (C 0%nat - B 0%nat)
            + (B 1%nat * B 1%nat + B 0%nat * B 0%nat) * (A 0%nat - C 0%nat)
            + (C 1%nat * C 1%nat + C 0%nat * C 0%nat) * (B 0%nat - A 0%nat)) / D in
  Some (fun i => match i with O => x | S O => y | _ => 0 end).

(** algorithm/circumcenter.hpp:151-171, triangle in space; [None]: the
    denominator is zero. *)
Definition circumcenter_tri3 (A B C : point) : option point :=
  let n := cross_prod (psub A B) (psub B C) in
  let denominator := 2 * inner_prod 3 n n in
  if Req_EM_T denominator 0 then None else
  let alpha := inner_prod 3 (psub B C) (psub B C) * inner_prod 3 (psub A B) (psub A C) in
  let beta  := inner_prod 3 (psub A C) (psub A C) * inner_prod 3 (psub B A) (psub B C) in
  let gamma := inner_prod 3 (psub A B) (psub A B) * inner_prod 3 (psub C A) (psub C B) in
  Some (padd (padd (pscale (alpha / denominator) A) (pscale (beta / denominator) B)) (pscale (gamma / denominator) C)).

(** algorithm/circumcenter.hpp:208-240, tetrahedron.  [CThrow]: the
    runtime_error of line 237; [CNaN]: division by zero without exception. *)
Inductive cresult := CPoint (c : point) | CThrow | CNaN.
Definition circumcenter_tet (P0 P1 P2 P3 : point) : cresult :=
  let A := psub P1 P0 in let B := psub P2 P0 in let C := psub P3 P0 in
  let den := inner_prod 3 A (cross_prod B C) * 2 in
  let cprodBC := cross_prod B C in
  if Rlt_dec (Rabs (inner_prod 3 A cprodBC)) (/ 10 ^ 10 * norm_2 3 cprodBC) then CThrow else
  if Req_EM_T den 0 then CNaN else
  CPoint (padd (pdiv (padd (padd (pscale (inner_prod 3 C C) (cross_prod A B))
                                 (pscale (inner_prod 3 B B) (cross_prod C A)))
                           (pscale (inner_prod 3 A A) (cross_prod B C))) den) P0).

(** algorithm/circumcenter.hpp:120-143, 178-201, 246-269, quadrilaterals and
    hexahedra: the mean of the vertices, as [centroid]. *)
Definition circumcenter_mean (ps : list point) : point := centroid ps.

(** algorithm/inclusion.hpp:33-62, triangle in [d] dimensions; [eps] is the
    absolute tolerance (detail/numeric.hpp:60-65: its absolute value is used).
    [None]: division by zero. *)
Definition is_inside_tri (d : nat) (eps : R) (a b c p : point) : option bool :=
  let v0 := psub c a in let v1 := psub b a in let v2 := psub p a in
  let dot00 := inner_prod d v0 v0 in let dot01 := inner_prod d v0 v1 in let dot02 := inner_prod d v0 v2 in
  let dot11 := inner_prod d v1 v1 in let dot12 := inner_prod d v1 v2 in
  let den := dot00 * dot11 - dot01 * dot01 in
  if Req_EM_T den 0 then None else
  let denom := 1 / den in
  let u := (dot11 * dot02 - dot01 * dot12) * denom in
  let v := (dot00 * dot12 - dot01 * dot02) * denom in
  let abs_eps := Rabs eps in
  Some (if Rle_dec (- abs_eps) u then if Rle_dec (- abs_eps) v then
          if Rle_dec (u + v) (1 + 2 * abs_eps) then true else false else false else false).

(** algorithm/inclusion.hpp:66-90, tetrahedron; [None]: division by zero. *)
Definition is_inside_tet (eps : R) (a b c d p : point) : option bool :=
  obind (spanned_volume 3 [a; b; c; d]) (fun vol =>
  if Req_EM_T vol 0 then None else
  let denom := 1 / vol in
  obind (spanned_volume 3 [p; b; c; d]) (fun vA =>
  obind (spanned_volume 3 [a; p; c; d]) (fun vB =>
  obind (spanned_volume 3 [a; b; p; d]) (fun vC =>
  obind (spanned_volume 3 [a; b; c; p]) (fun vD =>
  let A := vA * denom in let B := vB * denom in let C := vC * denom in let D := vD * denom in
  let abs_eps := Rabs eps in
  Some (if Rle_dec (- abs_eps) A then if Rle_dec (- abs_eps) B then
        if Rle_dec (- abs_eps) C then if Rle_dec (- abs_eps) D then
        if Rle_dec (A + B + C + D) (1 + 2 * abs_eps) then true else false
        else false else false else false else false)))))).

(** algorithm/geometric_transform.hpp:61-81, scale_functor. *)
Definition scale_functor (factor : R) (center p : point) : point :=
  padd (pscale factor (psub p center)) center.

(** algorithm/geometric_transform.hpp:113-141, affine_transform_functor in [d]
    dimensions; [M] is the matrix pointer, row major. *)
Definition affine_functor (d : nat) (M : nat -> R) (translation p : point) : point :=
  fun row => if Nat.ltb row d
             then translation row + sum_upto d (fun column => p column * M (row * d + column)%nat)
             else translation row.

(** algorithm/geometric_transform.hpp:31-43, geometric_transform: the loop
    over the vertices assigns func(point) to each of them. *)
Definition transform_element (f : point -> point) (e : @element point) : @element point :=
  mkE (e_id e) (e_verts e) (e_bnd e) (option_map f (e_pt e)).
Definition geometric_transform (f : point -> point) (m : @mesh point) : @mesh point :=
  mkM (upd (m_nodes m) Vertex (map (fun n => mkN (n_addr n) (n_key n) (transform_element f (n_el n)))
                                   (m_nodes m Vertex)))
      (m_next m) (m_idgen m) (m_cc m) (m_log m).
Definition scale_mesh (factor : R) (center : point) (m : @mesh point) : @mesh point :=
  geometric_transform (scale_functor factor center) m.
Definition affine_transform (d : nat) (M : nat -> R) (translation : point) (m : @mesh point) : @mesh point :=
  geometric_transform (affine_functor d M translation) m.

(** mesh/element_creation.hpp:199-219, make_unique_vertex with a tolerance. *)
Fixpoint find_near (d : nat) (p : point) (tol : R) (l : list (@node point)) : option addr :=
  match l with
  | [] => None
  | n :: l' =>
      match e_pt (n_el n) with
      | Some q => if Rlt_dec (norm_2 d (psub p q)) tol then Some (n_addr n) else find_near d p tol l'
      | None => find_near d p tol l'
      end
  end.
Definition make_unique_vertex (d : nat) (cfg : config) (m : @mesh point) (p : point) (tol : R)
  : option (@mesh point * addr) :=
  match (if Rlt_dec 0 tol then find_near d p tol (m_nodes m Vertex) else None) with
  | Some a => Some (m, a)
  | None => make_vertex cfg m p
  end.
(** mesh/element_creation.hpp:222-228, the default tolerance. *)
Definition make_unique_vertex_default (d : nat) (cfg : config) (m : @mesh point) (p : point)
  : option (@mesh point * addr) :=
  make_unique_vertex d cfg m p (norm_2 d p / 10 ^ 6).

(** algorithm/detail/numeric.hpp:60-75, relative_tolerance of a double. *)
Definition relative_tolerance (eps base : R) : R := Rmax (eps * base) (Rabs eps).

(** algorithm/refine.hpp:374-412, the body of the loop of
    mark_edges_for_hyperplane_refine for the edge pt0-pt1: [Some q] when the
    edge is marked, with the new point [q]. *)
Definition hyperplane_edge (d : nat) (eps : R) (hp normal pt0 pt1 : point) : option point :=
  let d0 := inner_prod d normal (psub pt0 hp) in
  let d1 := inner_prod d normal (psub pt1 hp) in
  let tolerance := relative_tolerance eps (norm_2 d (psub pt0 pt1)) in
  let '(distance0, distance1) := if Rlt_dec d1 d0 then (d1, d0) else (d0, d1) in
  if Rlt_dec distance0 (- tolerance) then
    if Rlt_dec tolerance distance1 then
      let qd := inner_prod d normal (psub pt0 hp) in
      let pd := inner_prod d normal (psub pt1 hp) in
      Some (psub pt1 (pscale (pd / (pd - qd)) (psub pt1 pt0)))
    else None
  else None.

(** algorithm/refine.hpp:376-412, mark_edges_for_hyperplane_refine: the loop
    over the lines of the source mesh, each given by its id and the points of
    its two vertices.  [flags] and [handles] are the two accessors (indexed by
    the id of the line), [dst] is the destination mesh. *)
Definition nupd {A} (f : nat -> A) (k : nat) (x : A) : nat -> A := fun j => if Nat.eqb j k then x else f j.
Fixpoint mark_hyperplane (d : nat) (eps : R) (hp normal : point) (cfg : config)
    (lines : list (nat * (point * point))) (dst : @mesh point) (flags : nat -> bool) (handles : nat -> option addr)
  : option (@mesh point * (nat -> bool) * (nat -> option addr)) :=
  match lines with
  | [] => Some (dst, flags, handles)
  | (l, (pt0, pt1)) :: lines' =>
      match hyperplane_edge d eps hp normal pt0 pt1 with
      | Some new_pt =>
          obind (make_unique_vertex_default d cfg dst new_pt) (fun r =>
          mark_hyperplane d eps hp normal cfg lines' (fst r) (nupd flags l true) (nupd handles l (Some (snd r))))
      | None => mark_hyperplane d eps hp normal cfg lines' dst (nupd flags l false) handles
      end
  end.

(** The points of the vertices of the elements of one type, in iteration order
    (the loops of volume.hpp:183-189 and centroid.hpp:134-140 with the default
    point accessor); [None]: a dangling vertex handle. *)
Definition cell_points (m : @mesh point) (e : @element point) : option (list point) :=
  omap (fun a => obind (deref m Vertex a) e_pt) (e_verts e).
Definition mesh_cells (m : @mesh point) (t : tag) : option (list (list point)) :=
  omap (fun n => cell_points m (n_el n)) (m_nodes m t).
