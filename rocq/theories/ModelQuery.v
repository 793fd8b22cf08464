(** Model of the topological queries and their caches:
    viennagrid/mesh/coboundary_iteration.hpp, viennagrid/mesh/neighbor_iteration.hpp,
    viennagrid/algorithm/boundary.hpp, with the cache wrappers of
    viennagrid/mesh/mesh.hpp:64-92.  Definitions only. *)
From Coq Require Import List Arith Bool.
From Verif Require Import ModelTopo ModelMesh ModelErase ModelAccessor.
Import ListNotations.

(** mesh/mesh.hpp:64-92: a container with the value of the mesh's change
    counter at the time it was filled. *)
Record cache (A : Type) := mkCache { c_count : nat; c_data : A }.
Arguments mkCache {A}. Arguments c_count {A}. Arguments c_data {A}.

Section Query.
Context {Pt : Type}.
Notation mesh := (@mesh Pt).
Notation element := (@element Pt).
Notation node := (@node Pt).

(** The queries work on a mesh and, with the same code, on a view of a mesh
    (a segment): [dm] is the mesh in which handles are dereferenced, [m] and
    [q_mesh s] supply the elements that are iterated over.  For a query on a
    mesh the two are the same; for views see ModelSegment.v. *)

(** A mesh with the caches of its appendix (config/mesh_config.hpp:386-600):
    coboundary lists per (element type, coboundary type) and neighbour lists per
    (element type, connector type) in a std::vector indexed by id, boundary
    flags per type in a std::map from id to bool. *)
Record qstate := mkQ {
  q_mesh : mesh;
  q_cob : tag -> tag -> cache (list (list addr));
  q_nb : tag -> tag -> cache (list (list addr));
  q_bnd : tag -> cache (list (nat * bool))
}.

(** Default constructed wrappers: counter 0, empty container (mesh.hpp:64-92). *)
Definition fresh_caches (m : mesh) : qstate :=
  mkQ m (fun _ _ => mkCache 0 []) (fun _ _ => mkCache 0 []) (fun _ => mkCache 0 []).

Definition upd2 {A} (f : tag -> tag -> A) (t1 t2 : tag) (x : A) : tag -> tag -> A :=
  fun a b => if tag_eqb t1 a && tag_eqb t2 b then x else f a b.

(** [accessor(element).clear()] for every element of a type
    (coboundary_iteration.hpp:188-192, neighbor_iteration.hpp:187-191): the
    dense accessor grows when the id is too large. [set_base_container] has no
    effect in the model. *)
Definition clear_entry (d : list (list addr)) (i : nat) : list (list addr) :=
  list_set (dense_grow [] d i) i [].
Definition clear_entries (m : mesh) (t : tag) (d : list (list addr)) : list (list addr) :=
  fold_left (fun d n => clear_entry d (e_id (n_el n))) (m_nodes m t) d.

(** coboundary_iteration.hpp:206, [accessor.at( *jt ).insert_handle(h)]:
    [None] is the exception of [at]. The view is a std::vector of handles. *)
Definition append_at (d : list (list addr)) (i : nat) (h : addr) : option (list (list addr)) :=
  option_map (fun v => list_set d i (v ++ [h])) (nth_error d i).

(** coboundary_iteration.hpp:175-208 (view: 210-248), create_coboundary_information. *)
Definition create_cob (dm : mesh) (bt ct : tag) (m : mesh) (d : list (list addr)) : option (list (list addr)) :=
  ofold (fun d n =>
    ofold (fun d b => obind (deref dm bt b) (fun e => append_at d (e_id e) (n_addr n)))
      (boundary_of (n_el n) bt) d)
    (m_nodes m ct) (clear_entries m bt d).

(** coboundary_iteration.hpp:255-274 and 351-352: refill and remember the
    change counter when the cache is obsolete (mesh.hpp:319-320). *)
Definition ensure_cob (dm : mesh) (bt ct : tag) (s : qstate) : option qstate :=
  let c := q_cob s bt ct in
  if c_count c =? m_cc (q_mesh s) then Some s
  else option_map (fun d => mkQ (q_mesh s) (upd2 (q_cob s) bt ct (mkCache (m_cc (q_mesh s)) d)) (q_nb s) (q_bnd s))
         (create_cob dm bt ct (q_mesh s) (c_data c)).

(** Reading one entry of a dense cache.  On a non-const mesh the accessor is
    not const and grows the container (accessor.hpp:228-233); on a const mesh
    an id out of range is a failed assertion (accessor.hpp:236-242), here [None]. *)
Definition read_entry (const : bool) (d : list (list addr)) (i : nat) : list (list addr) * option (list addr) :=
  let d' := if const then d else dense_grow [] d i in (d', nth_error d' i).

(** coboundary_iteration.hpp:335-395, coboundary_elements<bt, ct>(mesh, b). *)
Definition query_cob_in (dm : mesh) (const : bool) (bt ct : tag) (s : qstate) (b : addr) : option (qstate * list addr) :=
  obind (ensure_cob dm bt ct s) (fun s1 =>
  obind (deref dm bt b) (fun e =>
  let c := q_cob s1 bt ct in
  let '(d, r) := read_entry const (c_data c) (e_id e) in
  option_map (fun l => (mkQ (q_mesh s1) (upd2 (q_cob s1) bt ct (mkCache (c_count c) d)) (q_nb s1) (q_bnd s1), l)) r)).

Definition query_cob (const : bool) (bt ct : tag) (s : qstate) (b : addr) := query_cob_in (q_mesh s) const bt ct s b.

(** neighbor_iteration.hpp:212-227, the body of the innermost loop: unless an
    element with the id of [a1] is already in the list of [a0], add each to the
    list of the other. *)
Definition nb_pair (t : tag) (m : mesh) (a1 : addr) (d : list (list addr)) (a0 : addr) : option (list (list addr)) :=
  obind (deref m t a0) (fun e0 =>
  obind (deref m t a1) (fun e1 =>
  let d0 := dense_grow [] d (e_id e0) in
  obind (nth_error d0 (e_id e0)) (fun v =>
  obind (omap (fun a => option_map e_id (deref m t a)) v) (fun is =>
  if existsb (Nat.eqb (e_id e1)) is then Some d0
  else obind (append_at d0 (e_id e0) a1) (fun d1 =>
       append_at (dense_grow [] d1 (e_id e1)) (e_id e1) a0))))).

(** neighbor_iteration.hpp:206-211, the two loops: [jt1] runs from the second
    entry, [jt0] from the first to the one before [jt1]. [pre] is what [jt1]
    has passed. *)
Fixpoint nb_pairs (t : tag) (m : mesh) (pre rest : list addr) (d : list (list addr)) : option (list (list addr)) :=
  match rest with
  | [] => Some d
  | a1 :: r => obind (ofold (nb_pair t m a1) pre d) (nb_pairs t m (pre ++ [a1]) r)
  end.

(** neighbor_iteration.hpp:198-229, one connector element.  The coboundary query
    is the cached one on the same mesh, so it may refill the coboundary cache. *)
Definition nb_connector (dm : mesh) (t c : tag) (sd : qstate * list (list addr)) (n : node) : option (qstate * list (list addr)) :=
  let '(s, d) := sd in
  obind (query_cob_in dm false c t s (n_addr n)) (fun r =>
  let '(s1, l) := r in
  match l with
  | [] => Some (s1, d)
  | a :: rest => option_map (fun d' => (s1, d')) (nb_pairs t dm [a] rest d)
  end).

(** neighbor_iteration.hpp:175-228, create_neighbor_information. *)
Definition create_nb (dm : mesh) (t c : tag) (s : qstate) (d : list (list addr)) : option (qstate * list (list addr)) :=
  ofold (nb_connector dm t c) (m_nodes (q_mesh s) c) (s, clear_entries (q_mesh s) t d).

(** neighbor_iteration.hpp:232-251 and 318-319. *)
Definition ensure_nb (dm : mesh) (t c : tag) (s : qstate) : option qstate :=
  let ca := q_nb s t c in
  if c_count ca =? m_cc (q_mesh s) then Some s
  else option_map (fun r => let '(s1, d) := r in
         mkQ (q_mesh s1) (q_cob s1) (upd2 (q_nb s1) t c (mkCache (m_cc (q_mesh s1)) d)) (q_bnd s1))
         (create_nb dm t c s (c_data ca)).

(** neighbor_iteration.hpp:302-360, neighbor_elements<t, c>(mesh, a). *)
Definition query_nb_in (dm : mesh) (const : bool) (t c : tag) (s : qstate) (a : addr) : option (qstate * list addr) :=
  obind (ensure_nb dm t c s) (fun s1 =>
  obind (deref dm t a) (fun e =>
  let ca := q_nb s1 t c in
  let '(d, r) := read_entry const (c_data ca) (e_id e) in
  option_map (fun l => (mkQ (q_mesh s1) (q_cob s1) (upd2 (q_nb s1) t c (mkCache (c_count ca) d)) (q_bnd s1), l)) r)).

Definition query_nb (const : bool) (t c : tag) (s : qstate) (a : addr) := query_nb_in (q_mesh s) const t c s a.

(** The facet type of a cell type (topology: facet_tag). *)
Definition facet_tag (c : tag) : tag :=
  match c with Vertex => Vertex | Line => Vertex | Triangle => Line | Quad => Line | Tet => Triangle | Hex => Quad end.

(** boundary.hpp:52-56 and 88-91: [field( *it ) = false] for every element. *)
Definition reset_flags (m : mesh) (t : tag) (d : list (nat * bool)) : list (nat * bool) :=
  fold_left (fun d n => map_set d (e_id (n_el n)) false) (m_nodes m t) d.

(** boundary.hpp:68, [field( *focit ) = !field( *focit )]; reading through the
    non-const field is std::map::operator[]. *)
Definition toggle_flag (d : list (nat * bool)) (i : nat) : list (nat * bool) :=
  let '(d1, v) := map_index false d i in map_set d1 i (negb v).

(** boundary.hpp:34-71, detect_boundary: toggle the flag of every facet of every
    cell. *)
Definition detect_facets (dm : mesh) (ct ft : tag) (m : mesh) (d : list (nat * bool)) : option (list (nat * bool)) :=
  ofold (fun d n =>
    ofold (fun d b => option_map (fun e => toggle_flag d (e_id e)) (deref dm ft b)) (boundary_of (n_el n) ft) d)
    (m_nodes m ct) (reset_flags m ft d).

(** Reading a flag through a const field: default false (accessor.hpp:838-846). *)
Definition read_flag (d : list (nat * bool)) (i : nat) : bool :=
  match map_find d i with Some v => v | None => false end.

(** boundary.hpp:76-113, transfer_boundary_information. *)
Definition transfer_flags (dm : mesh) (ft t : tag) (m : mesh) (src d : list (nat * bool)) : option (list (nat * bool)) :=
  ofold (fun d n =>
    if read_flag src (e_id (n_el n)) then
      ofold (fun d b => option_map (fun e => map_set d (e_id e) true) (deref dm t b)) (boundary_of (n_el n) t) d
    else Some d)
    (m_nodes m ft) (reset_flags m t d).

(** The types with boundary information besides the facets: all types of the
    configuration except the cell and the facet (mesh_config.hpp:588-600,
    boundary.hpp:176-184). *)
Definition bnd_types (cfg : config) : list tag :=
  filter (fun t => (dim t <? dim (facet_tag (cfg_cell cfg))) && (tag_eqb t Vertex || cfg_keep cfg t))
    [Vertex; Line; Triangle; Quad; Tet; Hex].

(** boundary.hpp:201-222, detect_boundary(mesh): facets, then the other types
    (their counters are set in boundary_setter_functor, line 158), then the
    counter of the facets. *)
Definition detect_boundary (cfg : config) (dm : mesh) (s : qstate) : option qstate :=
  let ft := facet_tag (cfg_cell cfg) in
  let m := q_mesh s in
  obind (detect_facets dm (cfg_cell cfg) ft m (c_data (q_bnd s ft))) (fun src =>
  let s0 := mkQ m (q_cob s) (q_nb s) (upd (q_bnd s) ft (mkCache (c_count (q_bnd s ft)) src)) in
  obind (ofold (fun s t =>
      option_map (fun d => mkQ (q_mesh s) (q_cob s) (q_nb s) (upd (q_bnd s) t (mkCache (m_cc (q_mesh s)) d)))
        (transfer_flags dm ft t (q_mesh s) (c_data (q_bnd s ft)) (c_data (q_bnd s t))))
    (bnd_types cfg) s0) (fun s1 =>
  Some (mkQ (q_mesh s1) (q_cob s1) (q_nb s1)
         (upd (q_bnd s1) ft (mkCache (m_cc (q_mesh s1)) (c_data (q_bnd s1 ft))))))).

(** boundary.hpp:243-262, is_boundary(mesh, element). *)
Definition query_bnd_in (cfg : config) (dm : mesh) (t : tag) (s : qstate) (a : addr) : option (qstate * bool) :=
  obind (if c_count (q_bnd s t) =? m_cc (q_mesh s) then Some s else detect_boundary cfg dm s) (fun s1 =>
  option_map (fun e => (s1, read_flag (c_data (q_bnd s1 t)) (e_id e))) (deref dm t a)).
Definition query_bnd (cfg : config) (t : tag) (s : qstate) (a : addr) := query_bnd_in cfg (q_mesh s) t s a.

(** A mesh operation leaves the caches alone, except that clear replaces the
    appendix by a fresh one (mesh.hpp:278-300). *)
Definition mesh_op (cfg : config) (s : qstate) (o : op Pt) : option qstate :=
  option_map (fun m' =>
    match o with
    | OClear => fresh_caches m'
    | _ => mkQ m' (q_cob s) (q_nb s) (q_bnd s)
    end) (step cfg (q_mesh s) o).

(** Modifications and queries. *)
Inductive qop :=
| QMesh (o : op Pt)
| QCob (const : bool) (bt ct : tag) (b : addr)
| QNb (const : bool) (t c : tag) (a : addr)
| QBnd (t : tag) (a : addr).

Definition qstep (cfg : config) (s : qstate) (o : qop) : option qstate :=
  match o with
  | QMesh o => mesh_op cfg s o
  | QCob c bt ct b => option_map fst (query_cob c bt ct s b)
  | QNb c t k a => option_map fst (query_nb c t k s a)
  | QBnd t a => option_map fst (query_bnd cfg t s a)
  end.

Definition qrun (cfg : config) (ops : list qop) (s : qstate) : option qstate := ofold (qstep cfg) ops s.

End Query.
Arguments qop : clear implicits.
Arguments qstate : clear implicits.
