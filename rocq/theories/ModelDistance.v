(** Distances to and between boundaries: the loops of
    viennagrid/algorithm/closest_points.hpp and viennagrid/algorithm/distance.hpp.
    Definitions only. *)
From Coq Require Import Reals List.
From Verif Require Import ModelTopo ModelMesh ModelQuery ModelGeom ModelVolume ModelClosest.
Import ListNotations.
Local Open Scope R_scope.

(** closest_points_impl(accessor, p, element) for the element types,
    closest_points.hpp 163-170 (vertex), 228-236, 453-461, 493-511, 615-624, 647-683. *)
Definition closest_to_element (d : nat) (t : tag) (p : point) (ps : list point) : option (point * point) :=
  match t, ps with
  | Vertex, [a] => Some (p, a)
  | Line, [a; b] => Some (closest_point_line d p a b)
  | Triangle, [a; b; c] => closest_point_triangle d p a b c
  | Quad, [a; b; c; e] => closest_point_quadrilateral d p a b c e
  | Tet, [a; b; c; e] => closest_point_tetrahedron d p a b c e
  | Hex, [v0; v1; v2; v3; v4; v5; v6; v7] => closest_point_hexahedron d p v0 v1 v2 v3 v4 v5 v6 v7
  | _, _ => None
  end.

(** The points of an element: its own for a vertex, otherwise those of its vertices. *)
Definition element_points (m : @mesh point) (t : tag) (a : addr) : option (list point) :=
  obind (deref m t a) (fun e =>
    match t with Vertex => option_map (fun p => [p]) (e_pt e) | _ => cell_points m e end).

(** closest_points.hpp 776-781 and 878-883: keep the new pair if it is strictly
    shorter than the best one so far.  [None]: the pair is still the default
    constructed one and shortest_distance is the largest double; the code would
    also skip a pair whose distance is not below that number. *)
Definition keep_shorter (d : nat) (best : option (point * point)) (pq : point * point) : option (point * point) :=
  match best with
  | None => Some pq
  | Some b => if Rlt_dec (pair_distance d pq) (pair_distance d b) then Some pq else Some b
  end.

(** closest_points.hpp 751-785, closest_points_on_boundary_point_to_any for a
    mesh (796-804).  Outer [None]: undefined behaviour; inner [None]: no boundary
    facet, the default constructed pair is returned. *)
Definition boundary_facet_step (cfg : config) (d : nat) (p : point) (st : qstate point * option (point * point)) (f : addr)
  : option (qstate point * option (point * point)) :=
  let ft := facet_tag (cfg_cell cfg) in
  obind (query_bnd cfg ft (fst st) f) (fun r =>
  if snd r then
    obind (element_points (q_mesh (fst r)) ft f) (fun ps =>
    option_map (fun pq => (fst r, keep_shorter d (snd st) pq)) (closest_to_element d ft p ps))
  else Some (fst r, snd st)).
Definition closest_on_boundary (cfg : config) (d : nat) (p : point) (q : qstate point)
  : option (qstate point * option (point * point)) :=
  ofold (boundary_facet_step cfg d p) (range (q_mesh q) (facet_tag (cfg_cell cfg))) (q, None).

(** closest_points.hpp 838-890, closest_points_on_boundary_generic when the
    facets are lines; the arguments are the end points of the boundary lines of
    the two objects in iteration order. *)
Definition closest_between_lines (d : nat) (ls1 ls2 : list (point * point)) : option (option (point * point)) :=
  ofold (fun best l1 =>
    ofold (fun best l2 =>
      option_map (keep_shorter d best) (closest_line_line d (fst l1) (snd l1) (fst l2) (snd l2)))
      ls2 best)
    ls1 None.

(** distance.hpp 36-55, 93-106: the distance of two lines is the norm of the
    difference of the closest points. *)
Definition distance_lines (d : nat) (l1 l2 : point * point) : option R :=
  option_map (pair_distance d) (closest_line_line d (fst l1) (snd l1) (fst l2) (snd l2)).

(** distance.hpp 241-262, distance(line, segment); [ls]: the lines of the
    segment.  The iterators of ranges return the new position from the postfix
    operator++ (storage/view.hpp 91-95), so [*(lit++)] is the second line; for a
    segment with one line it dereferences the end iterator ([None]). *)
Definition distance_line_segment (d : nat) (l : point * point) (ls : list (point * point)) : option R :=
  match ls with
  | [] => Some (-1)
  | _ :: rest =>
      match rest with
      | [] => None
      | l1 :: _ =>
          obind (distance_lines d l l1) (fun min =>
          ofold (fun min l' => option_map (fun cur => if Rlt_dec cur min then cur else min) (distance_lines d l l')) rest min)
      end
  end.
