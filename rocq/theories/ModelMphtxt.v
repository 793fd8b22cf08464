(** Model of the Comsol writer (io/mphtxt_writer.hpp): the contacts and the
    contents of the file.  Definitions only. *)
From Coq Require Import Reals List Arith ZArith Bool.
From Verif Require Import ModelTopo ModelMesh ModelErase ModelGeom ModelVolume ModelQuery ModelView ModelSegmentation ModelSegment.
Import ModelSegmentation ListNotations.
Open Scope nat_scope.

(** segmentation.hpp 1156-1171, segment_info_t::is_equal: the sorted lists of
    segment ids are the same. *)
Fixpoint insert_id (z : Z) (l : list Z) : list Z :=
  match l with [] => [z] | y :: r => if (z <=? y)%Z then z :: l else y :: insert_id z r end.
Definition sort_ids (l : list Z) : list Z := fold_right insert_id [] l.
Fixpoint eq_ids (a b : list Z) : bool :=
  match a, b with [], [] => true | x :: a, y :: b => (x =? y)%Z && eq_ids a b | _, _ => false end.
Definition ids_equal (a b : list Z) : bool := (length a =? length b) && eq_ids (sort_ids a) (sort_ids b).

Section Mphtxt.
Notation mesh := (@mesh point).
Notation sstate := (sstate point).

Definition zupd (f : addr -> Z) (x : addr) (k : Z) : addr -> Z := fun y => if y =? x then k else f y.

(** The points of the vertices of an element. *)
Definition corner_points (m : mesh) (t : tag) (a : addr) : option (list point) := obind (deref m t a) (cell_points m).

(** algorithm/geometry.hpp 67-82, normal_vector of a triangle in space. *)
Definition triangle_normal (m : mesh) (x : addr) : option point :=
  obind (corner_points m Triangle x) (fun ps =>
  match ps with p0 :: p1 :: p2 :: _ => Some (cross_prod (psub p1 p0) (psub p2 p0)) | _ => None end).

(** mphtxt_writer.hpp 84-92, the test of mark_planar_neighbors. *)
Definition planar (n n' : point) : bool :=
  if Rgt_dec (Rabs (inner_prod 3 n n')) ((1 - / 10 ^ 6) * norm_2 3 n * norm_2 3 n')%R then true else false.

(** The field of contact indices: one entry per triangle; it is written for all
    triangles in segments before it is read (106-108). *)
Definition contacts := addr -> Z.

(** mphtxt_writer.hpp 60-94, mark_planar_neighbors on the segment [a].  The range of
    neighbours is taken once; the queries refresh the caches of the segment.  The
    recursion ends because every call marks a triangle; [fuel] bounds its depth and
    running out of it is [None], as undefined behaviour is. *)
Fixpoint mark_planar (cfg : config) (a : nat) (k : Z) (sids : list Z) (fuel : nat) (x : addr) (st : sstate * contacts) : option (sstate * contacts) :=
  match fuel with
  | O => None
  | S n =>
      obind (triangle_normal (st_mesh (fst st)) x) (fun normal =>
      obind (seg_nb true Triangle Vertex (st_mesh (fst st)) (st_con (fst st) a) x) (fun q =>
      ofold (fun (st : sstate * contacts) y =>
          let '(s, f) := st in
          if (f y =? -1)%Z then
            obind (seg_bnd cfg Triangle (st_mesh s) (st_con s a) y) (fun b =>
            let s := set_con s a (fst b) in
            if snd b then
              obind (segment_ids s Triangle y) (fun ids =>
              if ids_equal sids ids then
                obind (triangle_normal (st_mesh s) y) (fun normal' =>
                if planar normal normal' then mark_planar cfg a k sids n y (s, zupd f y k) else Some (s, f))
              else Some (s, f))
            else Some (s, f))
          else Some (s, f))
        (snd q) (set_con (fst st) a (fst q), snd st)))
  end.

(** mphtxt_writer.hpp 112-137, the loop of mark_segment_hull_contacts over the
    triangles of one segment; the number is the next contact index. *)
Definition hull_step (cfg : config) (a : nat) (st : sstate * contacts * Z) (x : addr) : option (sstate * contacts * Z) :=
  let '(s, f, k) := st in
  obind (seg_bnd cfg Triangle (st_mesh s) (st_con s a) x) (fun b =>
  let s := set_con s a (fst b) in
  if snd b && (f x =? -1)%Z then
    obind (segment_ids s Triangle x) (fun sids =>
    option_map (fun r => (r, (k + 1)%Z)) (mark_planar cfg a k sids (S (length (k_view (st_con s a) Triangle))) x (s, zupd f x k)))
  else Some (s, f, k)).
Definition hull_contacts (cfg : config) (a : nat) (st : sstate * contacts * Z) : option (sstate * contacts * Z) :=
  ofold (hull_step cfg a) (k_view (st_con (fst (fst st)) a) Triangle) st.

(** mphtxt_writer.hpp 99-140, mark_segment_hull_contacts. *)
Definition mark_contacts (cfg : config) (s : sstate) : option (sstate * contacts * Z) :=
  ofold (fun st a => hull_contacts cfg a st) (segment_range (st_segs s)) (s, fun _ => (-1)%Z, 0%Z).

(** mphtxt_writer.hpp 38-50, triangle_information. *)
Record tri_info := mkTI { ti_handle : addr; ti_up : Z; ti_down : Z }.

(** std::map<TriangleIDType, TriInfoType>, by increasing id. *)
Fixpoint info_put (i : nat) (v : tri_info) (l : list (nat * tri_info)) : list (nat * tri_info) :=
  match l with
  | [] => [(i, v)]
  | (j, w) :: r => if i <? j then (i, v) :: l else if i =? j then (i, v) :: r else (j, w) :: info_put i v r
  end.
Fixpoint info_get (i : nat) (l : list (nat * tri_info)) : option tri_info :=
  match l with [] => None | (j, w) :: r => if i =? j then Some w else info_get i r end.

(** mphtxt_writer.hpp 262-311, one triangle of the segment [a] with the id [z]; the
    messages are left out. *)
Definition side_step (cfg : config) (a : nat) (z : Z) (st : sstate * list (nat * tri_info)) (x : addr) : option (sstate * list (nat * tri_info)) :=
  let '(s, used) := st in
  obind (seg_bnd cfg Triangle (st_mesh s) (st_con s a) x) (fun b =>
  let s := set_con s a (fst b) in
  let m := st_mesh s in
  if snd b then
    obind (deref m Triangle x) (fun e =>
    let info := match info_get (e_id e) used with Some i => i | None => mkTI x 0 0 end in
    obind (triangle_normal m x) (fun normal =>
    obind (corner_points m Triangle x) (fun ps =>
    obind (seg_cob true Triangle Tet m (st_con s a) x) (fun q =>
    obind (nth_error (snd q) 0) (fun c =>
    obind (corner_points m Tet c) (fun cs =>
    let info' := if Rgt_dec (inner_prod 3 (psub (centroid ps) (centroid cs)) normal) 0
                 then mkTI (ti_handle info) (z + 1) (ti_down info) else mkTI (ti_handle info) (ti_up info) (z + 1) in
    Some (set_con s a (fst q), info_put (e_id e) info' used)))))))
  else Some (s, used)).
Definition side_segment (cfg : config) (st : sstate * list (nat * tri_info)) (a : nat) : option (sstate * list (nat * tri_info)) :=
  obind (id_of_seg (st_segs (fst st)) a) (fun z =>
  ofold (side_step cfg a z) (k_view (st_con (fst st) a) Triangle) st).
Definition used_triangles (cfg : config) (s : sstate) : option (sstate * list (nat * tri_info)) :=
  ofold (side_segment cfg) (segment_range (st_segs s)) (s, []).

(** The contents of the file, in the order in which they are written; the text around the
    numbers is left out. *)
Record mphtxt := mkMp {
  mp_points : list point;
  mp_triangles : list (list nat);
  mp_contacts : list Z;
  mp_sides : list (Z * Z);
  mp_tets : list (list nat);
  mp_domains : list Z
}.

(** mphtxt_writer.hpp 225-237: the index of a vertex by its id; [operator[]] of the
    map makes an entry 0 for a missing key. *)
Fixpoint index_of (i : nat) (ids : list nat) : option nat :=
  match ids with [] => None | j :: r => if i =? j then Some 0 else option_map S (index_of i r) end.
Definition vertex_ids (m : mesh) : list nat := map (fun n => e_id (n_el n)) (m_nodes m Vertex).
Definition vertex_index (m : mesh) (a : addr) : option nat :=
  option_map (fun e => match index_of (e_id e) (vertex_ids m) with Some i => i | None => 0 end) (deref m Vertex a).
Definition corner_indices (m : mesh) (t : tag) (a : addr) : option (list nat) :=
  obind (deref m t a) (fun e => omap (vertex_index m) (e_verts e)).

(** mphtxt_writer.hpp 398-408: the first segment of a tetrahedron; [None]: it has no
    segment, and *begin() of an empty range is read. *)
Definition domain (s : sstate) (c : addr) : option Z :=
  obind (segment_ids s Tet c) (fun ids => match ids with z :: _ => Some (z + 1)%Z | [] => None end).

(** mphtxt_writer.hpp 158-410, mphtxt_writer::operator(). *)
Definition write_mphtxt (cfg : config) (s : sstate) : option (sstate * mphtxt) :=
  obind (omap (fun n => e_pt (n_el n)) (m_nodes (st_mesh s) Vertex)) (fun pts =>
  obind (used_triangles cfg s) (fun u =>
  obind (mark_contacts cfg (fst u)) (fun c =>
  let m := st_mesh (fst (fst c)) in
  let hs := map (fun i => ti_handle (snd i)) (snd u) in
  obind (omap (corner_indices m Triangle) hs) (fun tris =>
  obind (omap (corner_indices m Tet) (range m Tet)) (fun tets =>
  obind (omap (domain (fst (fst c))) (range m Tet)) (fun doms =>
  Some (fst (fst c), mkMp pts tris (map (snd (fst c)) hs) (map (fun i => (ti_up (snd i), ti_down (snd i))) (snd u)) tets doms))))))).

End Mphtxt.
