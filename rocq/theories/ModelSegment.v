(** What the segments of a segmentation contain: adding, erasing, membership,
    creating elements inside a segment, and the topological queries on a segment.
    Models mesh/segmentation.hpp 151-157, 544-556, 1550-1719, 1825-1937, 2053-2192,
    storage/inserter.hpp 159-242 and the view part of mesh/mesh.hpp.

    Segments are identified by their address of ModelSegmentation.v. *)
From Coq Require Import List Arith ZArith Bool.
From Verif Require Import ModelTopo ModelMesh ModelErase ModelAccessor ModelQuery ModelView ModelSegmentation.
Import ListNotations.

Section Segment.
Context {Pt : Type}.
Notation mesh := (@mesh Pt).
Notation element := (@element Pt).
Notation node := (@node Pt).
Notation mesh_view := (tag -> list addr) (only parsing).

(** The view of one segment (a mesh of handle sets with a change counter and
    caches of its own).  [k_linked] is false after clear(segment): then the
    inserter of the view no longer leads to the mesh. *)
Record content := mkK {
  k_view : mesh_view;
  k_cc : nat;
  k_linked : bool;
  k_cob : tag -> tag -> cache (list (list addr));
  k_nb : tag -> tag -> cache (list (list addr));
  k_bnd : tag -> cache (list (nat * bool))
}.

(** segmentation.hpp 680, 546: the view is built empty with change counter 0 and
    copied into the deque; mesh.hpp 265-271, copying increments the counter. *)
Definition fresh_content : content :=
  mkK empty_view 1 true (fun _ _ => mkCache 0 []) (fun _ _ => mkCache 0 []) (fun _ => mkCache 0 []).

(** A mesh with one segmentation: the mesh, the segments, what they contain,
    the dense containers from element ids to the ids of the segments containing
    the element (segmentation.hpp 1100-1175), and all_elements() (928). *)
Record sstate := mkS {
  st_mesh : mesh;
  st_segs : segs;
  st_con : nat -> content;
  st_map : tag -> list (list Z);
  st_all : mesh_view
}.

Definition new_sstate (m : mesh) : sstate :=
  mkS m new_segmentation (fun _ => fresh_content) (fun _ => []) empty_view.

Definition upd_con (f : nat -> content) (a : nat) (k : content) : nat -> content :=
  fun b => if Nat.eqb a b then k else f b.
Definition set_con (s : sstate) (a : nat) (k : content) : sstate :=
  mkS (st_mesh s) (st_segs s) (upd_con (st_con s) a k) (st_map s) (st_all s).

Definition all_tags : list tag := [Vertex; Line; Triangle; Quad; Tet; Hex].

(** ** The queries on a segment *)

(** The elements a view iterates over.  The keys are not used by the queries;
    the id, by which the sets of handles are ordered (container.hpp 530-546), is put there. *)
Definition view_nodes (m : mesh) (t : tag) (l : list addr) : list node :=
  flat_map (fun a => match deref m t a with Some e => [mkN a [e_id e] e] | None => [] end) l.

(** The view of a segment seen as a mesh; undefined when a handle in it dangles. *)
Definition view_mesh (m : mesh) (v : mesh_view) (cc : nat) : option mesh :=
  if forallb (fun t => forallb (fun a => match deref m t a with Some _ => true | None => false end) (v t)) all_tags
  then Some (mkM (fun t => view_nodes m t (v t)) (m_next m) (m_idgen m) cc [])
  else None.

(** A segment with its caches, as the queries of ModelQuery.v need it. *)
Definition seg_q (m : mesh) (k : content) : option (qstate Pt) :=
  option_map (fun v => mkQ v (k_cob k) (k_nb k) (k_bnd k)) (view_mesh m (k_view k) (k_cc k)).

(** The caches after a query. *)
Definition with_caches (k : content) (q : qstate Pt) : content :=
  mkK (k_view k) (k_cc k) (k_linked k) (q_cob q) (q_nb q) (q_bnd q).

(** coboundary_iteration.hpp 398-440, neighbor_iteration.hpp 378-420, boundary.hpp
    265-273: the queries on a segment are the queries on its view. *)
Definition seg_cob (const : bool) (bt ct : tag) (m : mesh) (k : content) (b : addr) : option (content * list addr) :=
  obind (seg_q m k) (fun q =>
  option_map (fun r => (with_caches k (fst r), snd r)) (query_cob_in m const bt ct q b)).
Definition seg_nb (const : bool) (t c : tag) (m : mesh) (k : content) (a : addr) : option (content * list addr) :=
  obind (seg_q m k) (fun q =>
  option_map (fun r => (with_caches k (fst r), snd r)) (query_nb_in m const t c q a)).
Definition seg_bnd (cfg : config) (t : tag) (m : mesh) (k : content) (a : addr) : option (content * bool) :=
  obind (seg_q m k) (fun q =>
  option_map (fun r => (with_caches k (fst r), snd r)) (query_bnd_in cfg m t q a)).

(** ** Membership *)

(** segmentation.hpp 1557-1594, is_in_segment: a const dense accessor, whose
    assertion fails when the id is beyond the container (accessor.hpp 236-242). *)
Definition is_in_segment (s : sstate) (a : nat) (t : tag) (h : addr) : option bool :=
  obind (deref (st_mesh s) t h) (fun e =>
  obind (find_seg a (g_segs (st_segs s))) (fun sg =>
  option_map (fun info => existsb (Z.eqb (s_id sg)) info) (nth_error (st_map s t) (e_id e)))).

(** segmentation.hpp 1667-1673, segment_ids.  When the id is beyond the container
    the field returns its own default value by reference, and the range keeps a
    pointer to it after the field is gone: undefined when used. *)
Definition segment_ids (s : sstate) (t : tag) (h : addr) : option (list Z) :=
  obind (deref (st_mesh s) t h) (fun e => nth_error (st_map s t) (e_id e)).

(** ** Adding *)

(** segmentation.hpp 1829-1844, detail::add. *)
Definition info_add (z : Z) (info : list Z) : list Z * bool :=
  if existsb (Z.eqb z) info then (info, false) else (info ++ [z], true).

Definition bump (k : content) (n : nat) : content :=
  mkK (k_view k) (k_cc k + n) (k_linked k) (k_cob k) (k_nb k) (k_bnd k).
Definition with_view (k : content) (v : mesh_view) : content :=
  mkK v (k_cc k) (k_linked k) (k_cob k) (k_nb k) (k_bnd k).

(** segmentation.hpp 1859-1867, simple_add: into the view, into all_elements, and
    into the list of the element (the dense accessor grows). *)
Definition simple_add (a : nat) (s : sstate) (th : tag * addr) : option sstate :=
  let '(t, h) := th in
  let m := st_mesh s in
  obind (find_seg a (g_segs (st_segs s))) (fun sg =>
  obind (deref m t h) (fun e =>
  obind (view_insert m t (k_view (st_con s a)) h) (fun v =>
  obind (view_insert m t (st_all s) h) (fun all =>
  let d := dense_grow [] (st_map s t) (e_id e) in
  obind (nth_error d (e_id e)) (fun info =>
  let '(info', new) := info_add (s_id sg) info in
  let k := bump (with_view (st_con s a) v) (if new then 1 else 0) in
  Some (mkS m (st_segs s) (upd_con (st_con s) a k) (upd (st_map s) t (list_set d (e_id e) info')) all)))))).

(** The stored boundary elements of an element, as for_each_boundary_element
    visits them (mesh.hpp 1225-1323).  The order of the types has no effect here. *)
Definition boundary_handles (e : element) : list (tag * addr) :=
  flat_map (fun bt => map (pair bt) (boundary_of e bt)) [Vertex; Line; Triangle; Quad].

(** segmentation.hpp 1923-1937, add(segment, element). *)
Definition seg_add (a : nat) (t : tag) (h : addr) (s : sstate) : option sstate :=
  obind (simple_add a s (t, h)) (fun s1 =>
  obind (deref (st_mesh s1) t h) (fun e =>
  ofold (simple_add a) (boundary_handles e) s1)).

(** storage/inserter.hpp 185-192, handle_insert of the view of a segment: the
    handle is inserted (view.hpp 495-503) and the counter of the view goes up. *)
Definition handle_inserts (m : mesh) (k : content) (l : list (tag * addr)) : option content :=
  ofold (fun k th => option_map (fun v => bump (with_view k v) 1) (view_insert m (fst th) (k_view k) (snd th))) l k.

(** segmentation.hpp 2172-2192, push_element on a segment, as called by
    make_vertex/make_element with a segment (element_creation.hpp): the mesh
    operation with the callbacks going to the segment's view, then add.  The
    callbacks are the ones recorded in the log of the mesh.  The ids by which
    the view is ordered are final at the time of each callback. *)
Definition seg_create (cfg : config) (a : nat) (o : op Pt) (s : sstate) : option sstate :=
  let m := st_mesh s in
  if k_linked (st_con s a) then
    obind (match o with
           | OVertex p => option_map (fun r => (fst r, (Vertex, snd r))) (make_vertex cfg m p)
           | OVertexId i p => option_map (fun r => (fst r, (Vertex, snd r))) (make_vertex_with_id cfg m i p)
           | OElement t vs => option_map (fun r => (fst r, (t, snd r))) (make_element cfg t m vs)
           | _ => None
           end) (fun r =>
    let '(m', (t, h)) := r in
    obind (handle_inserts m' (st_con s a) (skipn (length (m_log m)) (m_log m'))) (fun k =>
    seg_add a t h (mkS m' (st_segs s) (upd_con (st_con s) a k) (st_map s) (st_all s))))
  else None.

(** ** Erasing *)

(** segmentation.hpp 2061-2077, detail::erase: the first entry with this segment id. *)
Fixpoint info_erase (z : Z) (info : list Z) : list Z * bool :=
  match info with
  | [] => ([], false)
  | x :: r => if Z.eqb x z then (r, true) else let '(r', b) := info_erase z r in (x :: r', b)
  end.

(** segmentation.hpp 2095-2113, non_recursive_erase_functor. *)
Definition simple_erase (a : nat) (s : sstate) (th : tag * addr) : option sstate :=
  let '(t, h) := th in
  let m := st_mesh s in
  obind (find_seg a (g_segs (st_segs s))) (fun sg =>
  obind (deref m t h) (fun e =>
  let v := upd (k_view (st_con s a)) t (seq_erase h (k_view (st_con s a) t)) in
  let d := dense_grow [] (st_map s t) (e_id e) in
  obind (nth_error d (e_id e)) (fun info =>
  let '(info', found) := info_erase (s_id sg) info in
  let k := bump (with_view (st_con s a) v) (if found then 1 else 0) in
  let all := match info' with [] => upd (st_all s) t (seq_erase h (st_all s t)) | _ => st_all s end in
  Some (mkS m (st_segs s) (upd_con (st_con s) a k) (upd (st_map s) t (list_set d (e_id e) info')) all)))).

(** mesh_operations.hpp 167-224 with a segment as the mesh. *)
Definition seg_mark_type (m : mesh) (t : tag) (h : addr) (kv : content * mesh_view) (ct : tag) : option (content * mesh_view) :=
  let '(k, v) := kv in
  obind (seg_cob false t ct m k h) (fun r =>
  let '(k1, l) := r in
  option_map (fun v' => (k1, v'))
    (ofold (fun v a => if view_has (v ct) a then Some v else view_insert m ct v a) l v)).

(** segmentation.hpp 2156-2165, erase(segment, element): the marked elements are
    visited type by type in iteration order. *)
Definition seg_erase (a : nat) (t : tag) (h : addr) (s : sstate) : option sstate :=
  obind (ofold (seg_mark_type (st_mesh s) t h) (referencing_types t) (st_con s a, empty_view)) (fun r =>
  let '(k, marked) := r in
  ofold (simple_erase a) (flat_map (fun ct => map (pair ct) (marked ct)) all_tags) (set_con s a k)).

(** segmentation.hpp 153-157, clear(segment), mesh.hpp 278-300: the view is
    replaced by a default constructed one, whose counter the assignment
    increments; nothing else is told. *)
Definition seg_clear (a : nat) (s : sstate) : sstate :=
  set_con s a (mkK empty_view 1 false (fun _ _ => mkCache 0 []) (fun _ _ => mkCache 0 []) (fun _ => mkCache 0 [])).

(** ** Histories *)

(** The calls on a mesh with a segmentation.  [SManage] are the calls of
    ModelSegmentation.v; an exception leaves the state described there. *)
Inductive sop :=
| SMesh (o : op Pt)                          (* creation on the mesh, not on a segment *)
| SManage (o : sgop)
| SCreate (a : nat) (o : op Pt)              (* creation on a segment *)
| SAdd (a : nat) (t : tag) (h : addr)
| SErase (a : nat) (t : tag) (h : addr)
| SCob (a : nat) (const : bool) (bt ct : tag) (b : addr)
| SNb (a : nat) (const : bool) (t c : tag) (x : addr)
| SBnd (a : nat) (t : tag) (x : addr).

Definition sstep (cfg : config) (s : sstate) (o : sop) : option sstate :=
  match o with
  | SMesh o => option_map (fun m' => mkS m' (st_segs s) (st_con s) (st_map s) (st_all s)) (step cfg (st_mesh s) o)
  | SManage o =>
      match sgstep o (st_segs s) with
      | SRet g _ | SThrow g => Some (mkS (st_mesh s) g (st_con s) (st_map s) (st_all s))
      | SUndef => None
      end
  | SCreate a o => seg_create cfg a o s
  | SAdd a t h => seg_add a t h s
  | SErase a t h => seg_erase a t h s
  | SCob a c bt ct b => option_map (fun r => set_con s a (fst r)) (seg_cob c bt ct (st_mesh s) (st_con s a) b)
  | SNb a c t k x => option_map (fun r => set_con s a (fst r)) (seg_nb c t k (st_mesh s) (st_con s a) x)
  | SBnd a t x => option_map (fun r => set_con s a (fst r)) (seg_bnd cfg t (st_mesh s) (st_con s a) x)
  end.

Definition srun (cfg : config) (ops : list sop) (s : sstate) : option sstate := ofold (sstep cfg) ops s.

End Segment.
Arguments sop : clear implicits.
Arguments sstate : clear implicits.
