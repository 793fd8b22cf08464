(** Voronoi quantities: viennagrid/algorithm/voronoi.hpp, for lines, triangles (in
    the plane), quadrilaterals, tetrahedra and hexahedra.  Definitions only.

    The six accessors are functions on handles.  Every statement of the code that
    changes them is an [update]: [accessor(element) += value] (or [= value]),
    mostly followed by the entry of the same value for a cell in the list of cell
    contributions of the element. *)
From Coq Require Import Reals List Arith.
From Verif Require Import ModelTopo ModelMesh ModelErase ModelQuery ModelGeom ModelVolume ModelDistance ModelSurface.
Import ListNotations.
Local Open Scope R_scope.

(** interface_area_accessor (of edges), vertex_box_volume_accessor and
    edge_box_volume_accessor, each with its ..._cell_contribution_accessor. *)
Inductive vquantity := InterfaceArea | VertexBox | EdgeBox.
Record store := mkStore {
  vo_val : vquantity -> addr -> R;
  vo_con : vquantity -> addr -> list (addr * R)
}.
(** Fresh accessors. *)
Definition no_voronoi : store := mkStore (fun _ _ => 0) (fun _ _ => []).

(** One update; [u_set]: assignment instead of addition; [u_cell]: the cell the
    value is entered for, if it is. *)
Record update := mkUpd { u_q : vquantity; u_el : addr; u_val : R; u_cell : option addr; u_set : bool }.
Notation add q e x c := (mkUpd q e x (Some c) false).

(** voronoi.hpp 53-77, voronoi_unique_quantity_update. *)
Fixpoint unique_update (c : addr) (x : R) (l : list (addr * R)) : list (addr * R) :=
  match l with
  | [] => [(c, x)]
  | (k, y) :: r => if Nat.eqb k c then (k, y + x) :: r else (k, y) :: unique_update c x r
  end.
Definition vquantity_eqb (p q : vquantity) : bool :=
  match p, q with InterfaceArea, InterfaceArea | VertexBox, VertexBox | EdgeBox, EdgeBox => true | _, _ => false end.
(** [unique]: contributions are entered by voronoi_unique_quantity_update and not
    by push_back. *)
Definition apply_update (unique : bool) (s : store) (u : update) : store :=
  let here q a := andb (vquantity_eqb q (u_q u)) (Nat.eqb a (u_el u)) in
  mkStore
    (fun q a => if here q a then (if u_set u then u_val u else vo_val s q a + u_val u) else vo_val s q a)
    (match u_cell u with
     | None => vo_con s
     | Some c => fun q a => if here q a then (if unique then unique_update c (u_val u) (vo_con s q a) else vo_con s q a ++ [(c, u_val u)]) else vo_con s q a
     end).
Definition apply_updates (unique : bool) (us : list update) (s : store) : store := fold_left (apply_update unique) us s.

(** Handles and points of the vertices of an element. *)
Definition corners_of (m : @mesh point) (e : @element point) : option (list (addr * point)) :=
  option_map (combine (e_verts e)) (cell_points m e).
(** The edges of an element with their vertices. *)
Definition edges_of (m : @mesh point) (e : @element point) : option (list (addr * list (addr * point))) :=
  omap (fun h => obind (deref m Line h) (fun f => option_map (pair h) (corners_of m f))) (boundary_of e Line).

(** circumcenter.hpp 58-71 of an edge. *)
Definition midpoint (vs : list (addr * point)) : option point :=
  match vs with [(_, p); (_, q)] => Some (circumcenter_line p q) | _ => None end.

(** ** Lines *)

(** voronoi.hpp 112-137 (the same for hypercube_tag<1>, 138-165), the body of the loop over the cells. *)
Definition line_updates (c : addr) (vs : list addr) (vol : R) : list update :=
  [mkUpd InterfaceArea c 1 (Some c) true] ++
  map (fun v => add VertexBox v (vol / 2) c) vs ++
  [mkUpd EdgeBox c (fold_left (fun x _ => x + vol / 2) vs 0) (Some c) true].
Definition line_step (d : nat) (m : @mesh point) (s : store) (c : addr) : option store :=
  obind (deref m Line c) (fun e =>
  option_map (fun vol => apply_updates false (line_updates c (e_verts e) vol) s) (element_volume d m Line c)).
Definition voronoi_lines (d : nat) (m : @mesh point) (s : store) : option store :=
  ofold (line_step d m) (range m Line) s.

(** ** Cells with one centre: quadrilaterals, triangles that contain their
    circumcenter, hexahedra *)

(** voronoi.hpp 214-243 (quadrilaterals), 535-564 (triangles) and 857-883
    (hexahedra), the body of the loop over the edges.  [base]: the centre, or the
    centres of the cell and of the facet ([None] only if spanned_volume has no such
    overload). *)
Definition edge_updates (d : nat) (c : addr) (base : list point) (he : addr * list (addr * point)) : option (list update) :=
  obind (midpoint (snd he)) (fun mid =>
  obind (spanned_volume d (base ++ [mid])) (fun i =>
  option_map (fun l => [add InterfaceArea (fst he) i c] ++ map (fun vx => add VertexBox (fst vx) (snd vx) c) l ++
                       [add EdgeBox (fst he) (fold_left Rplus (map snd l) 0) c])
    (omap (fun v => option_map (pair (fst v)) (spanned_volume d (base ++ [mid; snd v]))) (snd he)))).
Definition center_updates (d : nat) (c : addr) (base : list point) (es : list (addr * list (addr * point))) : option (list update) :=
  option_map (@List.concat update) (omap (edge_updates d c base) es).

(** voronoi.hpp 205-245, quadrilaterals. *)
Definition quad_step (d : nat) (m : @mesh point) (s : store) (c : addr) : option store :=
  obind (deref m Quad c) (fun e =>
  obind (cell_points m e) (fun ps =>
  obind (edges_of m e) (fun es =>
  option_map (fun us => apply_updates false us s) (center_updates d c [circumcenter_mean ps] es)))).
Definition voronoi_quads (d : nat) (m : @mesh point) (s : store) : option store :=
  ofold (quad_step d m) (range m Quad) s.

(** voronoi.hpp 840-887, hexahedra: the loop over the facets of the cell. *)
Definition hex_step (m : @mesh point) (s : store) (c : addr) : option store :=
  obind (deref m Hex c) (fun e =>
  obind (cell_points m e) (fun ps =>
  ofold (fun s f =>
    obind (deref m Quad f) (fun g =>
    obind (cell_points m g) (fun qs =>
    obind (edges_of m g) (fun es =>
    option_map (fun us => apply_updates false us s) (center_updates 3 c [circumcenter_mean ps; circumcenter_mean qs] es)))))
    (boundary_of e Quad) s)).
Definition voronoi_hexes (m : @mesh point) (s : store) : option store :=
  ofold (hex_step m) (range m Hex) s.

(** ** Triangles in the plane *)

Notation X p := (p 0%nat) (only parsing).
Notation Y p := (p 1%nat) (only parsing).

(** voronoi.hpp 250-274, point_to_local_coordinates; [None]: division by zero. *)
Definition local_coordinates (p a b c : point) : option (R * R) :=
  let v0 := psub b a in let v1 := psub c a in let vp := psub p a in
  let det := X v0 * Y v1 - Y v0 * X v1 in
  if Req_EM_T det 0 then None
  else Some ((Y v1 * X vp - X v1 * Y vp) / det, (X v0 * Y vp - Y v0 * X vp) / det).

(** voronoi.hpp 278-294, line_intersection; [None]: division by zero. *)
Definition line_intersection (a b c d : point) : option point :=
  let det := (X a - X b) * (Y c - Y d) - (Y a - Y b) * (X c - X d) in
  if Req_EM_T det 0 then None
  else
    let px := (X a * Y b - Y a * X b) * (X c - X d) - (X a - X b) * (X c * Y d - Y c * X d) in
    let py := (X a * Y b - Y a * X b) * (Y c - Y d) - (Y a - Y b) * (X c * Y d - Y c * X d) in
    Some (fun i => match i with O => px / det | S O => py / det | _ => 0 end).

(** voronoi.hpp 394-527, Steps 2 and 3 for one edge.  [other]: the cell behind the cut edge
    [cut] with the end points [a] and [b]; [opp]: the vertex opposite to it; [across]:
    where the line from it to the circumcenter meets the cut edge. *)
Definition vertex_updates (c : addr) (other : option addr) (center across x mid : point) (h opp : addr) (v : addr * point) : option (list update) :=
  let entry vol := option_map (fun o => [add VertexBox (fst v) vol o; add EdgeBox h vol o]) other in
  let entries vol := match entry vol with Some l => l | None => [] end in
  obind (spanned_volume 2 [x; mid; snd v]) (fun own =>
  if negb (Nat.eqb (fst v) opp) then
    option_map (fun far => add VertexBox (fst v) own c :: entries far) (spanned_volume 2 [center; x; snd v])
  else
    obind (spanned_volume 2 [across; x; snd v]) (fun near =>
    option_map (fun far => [add VertexBox (fst v) own c; add VertexBox (fst v) near c; add EdgeBox h near c] ++ entries far)
      (spanned_volume 2 [center; x; across]))).
Definition cut_edge_updates (c : addr) (other : option addr) (center : point) (cut : addr) (a b across : point) (opp : addr)
    (he : addr * list (addr * point)) : option (list update) :=
  let h := fst he in
  obind (midpoint (snd he)) (fun mid =>
  if negb (Nat.eqb cut h) then
    obind (line_intersection mid center a b) (fun x =>
    obind (spanned_volume 2 [x; mid]) (fun i =>
    obind (spanned_volume 2 [x; center]) (fun j =>
    obind (omap (vertex_updates c other center across x mid h opp) (snd he)) (fun l =>
    option_map (fun own =>
      [add InterfaceArea h i c; mkUpd InterfaceArea h j other false] ++ List.concat l ++ [add EdgeBox h (fold_left Rplus own 0) c])
      (omap (fun v => spanned_volume 2 [x; mid; snd v]) (snd he))))))
  else
    match other with
    | Some o =>
        obind (spanned_volume 2 [center; mid]) (fun i =>
        option_map (fun l => [add InterfaceArea h (- i) o] ++ map (fun vx => add VertexBox (fst vx) (- snd vx) o) l ++
                             [add EdgeBox h (- fold_left Rplus (map snd l) 0) o])
          (omap (fun v => option_map (pair (fst v)) (spanned_volume 2 [center; mid; snd v])) (snd he)))
    | None => Some []
    end).
Definition cut_updates (c : addr) (other : option addr) (center : point) (cut : addr * list (addr * point)) (opp : addr * point)
    (es : list (addr * list (addr * point))) : option (list update) :=
  match snd cut with
  | [(_, a); (_, b)] =>
      obind (line_intersection (snd opp) center a b) (fun across =>
      option_map (@List.concat update) (omap (cut_edge_updates c other center (fst cut) a b across (fst opp)) es))
  | _ => None
  end.

(** voronoi.hpp 348-374, Step 1: which edge separates the circumcenter from the
    triangle, by its local coordinates; [None]: the circumcenter is inside. *)
Definition cut_edge (l1 l2 : R) : option nat :=
  if Rlt_dec l2 0 then Some 0%nat
  else if Rlt_dec l1 0 then Some 1%nat
  else if Rlt_dec 1 (l1 + l2) then Some 2%nat
  else None.
(** voronoi.hpp 376-392, the first cell at the edge with another id. *)
Definition other_cell (m : @mesh point) (e : @element point) (cells : list addr) : option (option addr) :=
  option_map (fun l => option_map fst (find (fun x => negb (Nat.eqb (snd x) (e_id e))) l))
    (omap (fun x => option_map (fun f => (x, e_id f)) (deref m Triangle x)) cells).

(** voronoi.hpp 338-568, the body of the loop over the cells.  The mesh is const, so
    the query of the cells at the edge is the const one. *)
Definition triangle_step (st : qstate point * store) (c : addr) : option (qstate point * store) :=
  let m := q_mesh (fst st) in
  obind (deref m Triangle c) (fun e =>
  obind (corners_of m e) (fun vs =>
  obind (edges_of m e) (fun es =>
  match vs with
  | [v0; v1; v2] =>
      obind (circumcenter_tri2 (snd v0) (snd v1) (snd v2)) (fun center =>
      obind (local_coordinates center (snd v0) (snd v1) (snd v2)) (fun l =>
      match cut_edge (fst l) (snd l) with
      | Some k =>
          obind (nth_error es k) (fun cut =>
          obind (nth_error vs (2 - k)) (fun opp =>
          obind (query_cob true Line Triangle (fst st) (fst cut)) (fun r =>
          obind (other_cell m e (snd r)) (fun other =>
          option_map (fun us => (fst r, apply_updates true us (snd st))) (cut_updates c other center cut opp es)))))
      | None => option_map (fun us => (fst st, apply_updates true us (snd st))) (center_updates 2 c [center] es)
      end))
  | _ => None
  end))).
Definition voronoi_triangles (q : qstate point) (s : store) : option (qstate point * store) :=
  ofold triangle_step (range (q_mesh q) Triangle) (q, s).

(** ** Tetrahedra *)

(** voronoi.hpp 639-668, Step one: the circumcenters of the cells at every facet;
    [None]: circumcenter throws. *)
Definition tet_center (m : @mesh point) (c : addr) : option point :=
  obind (element_points m Tet c) (fun ps =>
  match ps with
  | [p0; p1; p2; p3] => match circumcenter_tet p0 p1 p2 p3 with CPoint x => Some x | _ => None end
  | _ => None
  end).
Definition facet_centers (m : @mesh point) : option (addr -> list (point * addr)) :=
  ofold (fun f c =>
    obind (deref m Tet c) (fun e =>
    option_map (fun x => fold_left (fun f h a => if Nat.eqb a h then f a ++ [(x, c)] else f a) (boundary_of e Triangle) f) (tet_center m c)))
    (range m Tet) (fun _ => []).

(** voronoi.hpp 671-719, Step two: the segments that bound the interface of every
    edge.  [None] also for the exception if a facet has not one or two cells. *)
Definition facet_center (m : @mesh point) (f : addr) : option point :=
  obind (element_points m Triangle f) (fun ps => match ps with [a; b; c] => circumcenter_tri3 a b c | _ => None end).
Definition edge_center (m : @mesh point) (h : addr) : option point :=
  obind (element_points m Line h) (fun ps => match ps with [a; b] => Some (circumcenter_line a b) | _ => None end).
Definition bound := ((point * point) * addr)%type.
Definition edge_bounds (m : @mesh point) (centers : list (point * addr)) (f h : addr) : option (list bound) :=
  match centers with
  | [(x, c)] =>
      obind (facet_center m f) (fun y => option_map (fun z => [((x, y), c); ((z, y), c)]) (edge_center m h))
  | [(x, c); (y, d)] => let mid := pdiv (padd x y) 2 in Some [((x, mid), c); ((mid, y), d)]
  | _ => None
  end.
Definition interface_bounds (m : @mesh point) (fc : addr -> list (point * addr)) : option (addr -> list bound) :=
  ofold (fun g f =>
    obind (deref m Triangle f) (fun e =>
    ofold (fun g h => option_map (fun l a => if Nat.eqb a h then g a ++ l else g a) (edge_bounds m (fc f) f h)) (boundary_of e Line) g))
    (range m Triangle) (fun _ => []).

(** voronoi.hpp 745-753, the inner point of the interface; [None]: the first of no
    segments is read. *)
Definition inner_point (l : list bound) : option point :=
  match l with
  | [] => None
  | b :: r =>
      let half (b : bound) := pdiv (padd (fst (fst b)) (snd (fst b))) 2 in
      Some (pdiv (fold_left (fun p b => padd p (half b)) r (half b)) (INR (List.length l)))
  end.
(** voronoi.hpp 722-789, Step three for one edge. *)
Definition tet_edge_updates (h v0 v1 : addr) (len : R) (l : list (R * addr)) : list update :=
  let area := fold_left (fun x ic => if Rlt_dec 0 (fst ic) then x + fst ic else x) l 0 in
  [mkUpd InterfaceArea h area None true;
   mkUpd EdgeBox h (2 * (area * len / 6)) None true;
   mkUpd VertexBox v0 (area * len / 6) None false;
   mkUpd VertexBox v1 (area * len / 6) None false].
(** The contributions of the cells, entered by the loop before that (their
    accessors are not the ones above). *)
Definition enter (q : vquantity) (a : addr) (c : addr) (x : R) (s : store) : store :=
  mkStore (vo_val s) (fun q' a' => if (vquantity_eqb q' q && Nat.eqb a' a)%bool then unique_update c x (vo_con s q' a') else vo_con s q' a').
Definition tet_entries (h v0 v1 : addr) (len : R) (l : list (R * addr)) (s : store) : store :=
  fold_left (fun s ic =>
    if Rlt_dec 0 (fst ic) then
      let vol := fst ic * len / 6 in
      enter VertexBox v1 (snd ic) vol (enter VertexBox v0 (snd ic) vol (enter EdgeBox h (snd ic) (2 * vol) (enter InterfaceArea h (snd ic) (fst ic) s)))
    else s) l s.
Definition tet_edge_step (m : @mesh point) (bounds : addr -> list bound) (s : store) (h : addr) : option store :=
  obind (deref m Line h) (fun e =>
  obind (corners_of m e) (fun vs =>
  match vs with
  | [(v0, p0); (v1, p1)] =>
      obind (spanned_volume 3 [p0; p1]) (fun len =>
      obind (inner_point (bounds h)) (fun x =>
      option_map (fun l => apply_updates true (tet_edge_updates h v0 v1 len l) (tet_entries h v0 v1 len l s))
        (omap (fun b : bound => option_map (fun i => (i, snd b)) (spanned_volume 3 [fst (fst b); snd (fst b); x])) (bounds h))))
  | _ => None
  end)).
(** voronoi.hpp 593-793.  (The two std::maps are ordered by the ids of the facets and edges;
    here they are functions of the handles.) *)
Definition voronoi_tets (m : @mesh point) (s : store) : option store :=
  obind (facet_centers m) (fun fc =>
  obind (interface_bounds m fc) (fun bounds =>
  ofold (tet_edge_step m bounds) (range m Line) s)).
