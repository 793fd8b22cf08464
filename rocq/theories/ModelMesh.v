(** Model of the mesh storage and of element creation.
    Sources: viennagrid/storage/{id_generator,container,hidden_key_map,inserter,view}.hpp,
    viennagrid/element/{element,element_key,element_orientation}.hpp,
    viennagrid/mesh/{mesh,element_creation}.hpp, viennagrid/config/mesh_config.hpp.
    Definitions only; no proofs in this file. *)
From Coq Require Import List Arith Bool.
From Verif Require Import ModelTopo.
Import ListNotations.

(** A pointer handle (storage/handle.hpp, pointer_handle_tag) is an abstract
    address.  Simplification: a freed address is never handed out again, so a
    dangling handle is always recognised (look-up gives [None] = undefined
    behaviour). *)
Notation addr := nat (only parsing).

(** config/mesh_config.hpp:140-228: the cell tag, and which intermediate
    elements are kept (all of them in full_topology_config, none in
    thin_topology_config). *)
Record config := mkConfig { cfg_cell : tag; cfg_keep : tag -> bool }.

Definition full_config (cell : tag) : config := mkConfig cell (fun _ => true).
Definition thin_config (cell : tag) : config := mkConfig cell (fun _ => false).

(** config/mesh_config.hpp:70-93: vertices and cells are stored in a std::deque,
    every other element in a hidden_key_map<element_key_tag>. *)
Definition keyed (cfg : config) (t : tag) : bool :=
  negb (tag_eqb t Vertex) && negb (tag_eqb t (cfg_cell cfg)).

(** The boundary elements of an element that the configuration stores
    (config/element_config.hpp:290-300). *)
Definition btab (cfg : config) (t : tag) : list (tag * list nat) :=
  filter (fun e => cfg_keep cfg (fst e)) (btable t).

(** element/element_key.hpp:60, std::sort of the vertex ids (result only). *)
Fixpoint insert_sorted (x : nat) (l : list nat) : list nat :=
  match l with
  | [] => [x]
  | y :: l' => if x <=? y then x :: l else y :: insert_sorted x l'
  end.
Fixpoint isort (l : list nat) : list nat :=
  match l with [] => [] | x :: l' => insert_sorted x (isort l') end.

(** element/element_key.hpp:69-82, the loop of operator<. *)
Fixpoint lex_less (a b : list nat) : bool :=
  match a, b with
  | x :: a', y :: b' =>
      if y <? x then false else if x <? y then true else lex_less a' b'
  | _, _ => false
  end.

(** element/element_key.hpp:69-82, operator<: sizes first, then lexicographic. *)
Definition key_less (a b : list nat) : bool :=
  if negb (length a =? length b) then length a <? length b else lex_less a b.

(** Equivalence of keys as std::map uses it: neither is less. *)
Definition key_equiv (a b : list nat) : bool := negb (key_less a b) && negb (key_less b a).

Section Mesh.
Context {Pt : Type}.

(** A stored boundary element: its type, its handle and the orientation
    permutation (element/element.hpp:180-182); [None] entries of the
    permutation are array slots that were never written. *)
Record bentry := mkB { b_tag : tag; b_addr : addr; b_orient : list (option nat) }.

(** element/element.hpp:530-611: id, vertex handles, boundary elements in
    creation order, appendix (the point of a vertex, mesh_config.hpp:252-258). *)
Record element := mkE { e_id : nat; e_verts : list addr; e_bnd : list bentry; e_pt : option Pt }.

(** A slot of a container: for a hidden_key_map the std::map node with its key
    (storage/hidden_key_map.hpp:113), for a deque the key is unused ([[]]). *)
Record node := mkN { n_addr : addr; n_key : list nat; n_el : element }.

(** mesh/mesh.hpp:225-313: one container and one id generator per element type,
    the change counter, and (bookkeeping) the next fresh address per type.
    [m_log] records the calls of [inserter.handle_insert]
    (storage/inserter.hpp:131) in order; a mesh ignores them (line 137), a
    segment adds the element to its view (lines 185-192). *)
Record mesh := mkM {
  m_nodes : tag -> list node;
  m_next  : tag -> addr;
  m_idgen : tag -> nat;
  m_cc    : nat;
  m_log   : list (tag * addr)
}.

(** mesh/mesh.hpp:240, default constructor. *)
Definition empty_mesh : mesh := mkM (fun _ => []) (fun _ => 0) (fun _ => 0) 0 [].

(** Function update at one tag. *)
Definition upd {A} (f : tag -> A) (t : tag) (x : A) : tag -> A :=
  fun t' => if tag_eqb t t' then x else f t'.

(** Dereferencing a handle (mesh/mesh.hpp:847-869). *)
Definition find_node (l : list node) (a : addr) : option node :=
  find (fun n => n_addr n =? a) l.
Definition deref (m : mesh) (t : tag) (a : addr) : option element :=
  option_map n_el (find_node (m_nodes m t) a).

(** Sequencing of partial results; [None] is undefined behaviour. *)
Definition obind {A B} (o : option A) (f : A -> option B) : option B :=
  match o with Some x => f x | None => None end.
Fixpoint omap {A B} (f : A -> option B) (l : list A) : option (list B) :=
  match l with
  | [] => Some []
  | x :: l' => obind (f x) (fun y => obind (omap f l') (fun ys => Some (y :: ys)))
  end.
Fixpoint ofold {A S} (f : S -> A -> option S) (l : list A) (s : S) : option S :=
  match l with
  | [] => Some s
  | x :: l' => obind (f s x) (ofold f l')
  end.

(** element/element_key.hpp:46-61, the key of an element: sorted vertex ids. *)
Definition key_of (m : mesh) (vs : list addr) : option (list nat) :=
  option_map isort (omap (fun a => option_map e_id (deref m Vertex a)) vs).

(** storage/hidden_key_map.hpp:136-144, std::map::find by key. *)
Definition find_key (l : list node) (k : list nat) : option node :=
  find (fun n => key_equiv (n_key n) k) l.

(** Position of a new node in a std::map: before the first larger key. *)
Fixpoint insert_keyed (n : node) (l : list node) : list node :=
  match l with
  | [] => [n]
  | x :: l' => if key_less (n_key n) (n_key x) then n :: l else x :: insert_keyed n l'
  end.

(** storage/id_generator.hpp:109-127. *)
Definition gen_id (g : nat) : nat * nat := (g, g + 1).
Definition set_max_id (x g : nat) : nat := if g <? x then x + 1 else g.

Definition set_id (i : nat) (e : element) : element := mkE i (e_verts e) (e_bnd e) (e_pt e).

(** storage/inserter.hpp:30-49 and 103-135 without the callback: id
    assignment, container insert, change counter.  [gen] is the template
    parameter generate_id.  Deque: container.hpp:397-437 (always inserts at the
    end).  Key map: hidden_key_map.hpp:147-151 (never overwrites). *)
Definition push (cfg : config) (t : tag) (gen : bool) (m : mesh) (e : element)
  : option (mesh * (addr * bool)) :=
  if keyed cfg t then
    obind (key_of m (e_verts e)) (fun k =>
    match find_key (m_nodes m t) k with
    | Some n =>
        let g := if gen then m_idgen m t else set_max_id (e_id e) (m_idgen m t) in
        Some (mkM (m_nodes m) (m_next m) (upd (m_idgen m) t g) (m_cc m + 1) (m_log m),
              (n_addr n, false))
    | None =>
        let '(i, g) := if gen then gen_id (m_idgen m t)
                       else (e_id e, set_max_id (e_id e) (m_idgen m t)) in
        let a := m_next m t in
        Some (mkM (upd (m_nodes m) t (insert_keyed (mkN a k (set_id i e)) (m_nodes m t)))
                  (upd (m_next m) t (a + 1)) (upd (m_idgen m) t g) (m_cc m + 1) (m_log m),
              (a, true))
    end)
  else
    let '(i, g) := if gen then gen_id (m_idgen m t)
                   else (e_id e, set_max_id (e_id e) (m_idgen m t)) in
    let a := m_next m t in
    Some (mkM (upd (m_nodes m) t (m_nodes m t ++ [mkN a [] (set_id i e)]))
              (upd (m_next m) t (a + 1)) (upd (m_idgen m) t g) (m_cc m + 1) (m_log m),
          (a, true)).

(** storage/inserter.hpp:131, [inserter.handle_insert(ret.first, ...)]. *)
Definition log_insert (t : tag) (a : addr) (m : mesh) : mesh :=
  mkM (m_nodes m) (m_next m) (m_idgen m) (m_cc m) (m_log m ++ [(t, a)]).

(** Overwrite the element stored at an address. *)
Definition set_el (l : list node) (a : addr) (e : element) : list node :=
  map (fun n => if n_addr n =? a then mkN (n_addr n) (n_key n) e else n) l.
Definition put (m : mesh) (t : tag) (a : addr) (e : element) : mesh :=
  mkM (upd (m_nodes m) t (set_el (m_nodes m t) a e)) (m_next m) (m_idgen m) (m_cc m) (m_log m).

(** First index at which [x] occurs (inner loop of element.hpp:135-146). *)
Fixpoint index_of (x : nat) (l : list nat) : option nat :=
  match l with
  | [] => None
  | y :: l' => if x =? y then Some 0 else option_map S (index_of x l')
  end.

(** Array write (out of range writes do not occur: the index comes from
    [index_of]). *)
Fixpoint set_nth {A} (l : list A) (i : nat) (x : A) : list A :=
  match l, i with
  | [], _ => []
  | _ :: l', 0 => x :: l'
  | y :: l', S i' => y :: set_nth l' i' x
  end.

(** element/element_orientation.hpp:75-80, setDefaultOrientation. *)
Definition default_orient (n : nat) : list (option nat) := map Some (seq 0 n).

(** element/element.hpp:121-150: for the i-th vertex of the stored boundary
    element find the first j with to_insert.vertex(j) equal, then
    setPermutation(j, i). *)
Fixpoint match_orient (stored : list addr) (i : nat) (wanted : list addr)
         (o : list (option nat)) : list (option nat) :=
  match stored with
  | [] => o
  | v :: rest =>
      match_orient rest (i + 1) wanted
        (match index_of v wanted with Some j => set_nth o j (Some i) | None => o end)
  end.
Definition compute_orient (stored wanted : list addr) : list (option nat) :=
  match_orient stored 0 wanted (repeat None (length wanted)).

(** One step of a boundary_element_generator (e.g. topology/simplex.hpp:100-107):
    build the prototype from the host's vertex handles, insert it, then
    element.set_boundary_element (element/element.hpp:113-151). [ins] is the
    recursive insertion. *)
Definition boundary_step
  (ins : tag -> mesh -> element -> option (mesh * (addr * bool)))
  (t : tag) (a : addr) (m : mesh) (ent : tag * list nat) : option mesh :=
  let '(bt, idx) := ent in
  obind (deref m t a) (fun host =>
  obind (omap (nth_error (e_verts host)) idx) (fun vs =>
  obind (ins bt m (mkE 0 vs [] None)) (fun r =>
  let '(m1, (h, fresh)) := r in
  obind (deref m1 bt h) (fun stored =>
  obind (deref m1 t a) (fun host1 =>
  let o := if fresh then default_orient (length vs)
           else compute_orient (e_verts stored) vs in
  Some (put m1 t a (mkE (e_id host1) (e_verts host1)
                        (e_bnd host1 ++ [mkB bt h o]) (e_pt host1)))))))).

(** storage/inserter.hpp:103-135 with the callback: element.hpp:575-582 creates
    the boundary elements only when the element was really inserted.
    [depth] bounds the nesting of boundary element types (their dimension
    strictly decreases); running out of depth is reported as [None]. *)
Fixpoint insert (depth : nat) (cfg : config) (gen : bool) (t : tag) (m : mesh) (e : element)
  : option (mesh * (addr * bool)) :=
  obind (push cfg t gen m e) (fun r =>
  let '(m1, (a, fresh)) := r in
  if fresh then
    match depth with
    | 0 => match btab cfg t with
           | [] => Some (log_insert t a m1, (a, true))
           | _ :: _ => None
           end
    | S d =>
        obind (ofold (boundary_step (insert d cfg true) t a) (btab cfg t) m1) (fun m2 =>
        Some (log_insert t a m2, (a, true)))
    end
  else Some (log_insert t a m1, (a, false))).

(** mesh/element_creation.hpp:163-196, make_vertex / make_vertex_with_id (the
    point is assigned right after the push). *)
Definition make_vertex (cfg : config) (m : mesh) (p : Pt) : option (mesh * addr) :=
  option_map (fun r => (fst r, fst (snd r)))
    (insert 0 cfg true Vertex m (mkE 0 [] [] (Some p))).
Definition make_vertex_with_id (cfg : config) (m : mesh) (i : nat) (p : Pt)
  : option (mesh * addr) :=
  option_map (fun r => (fst r, fst (snd r)))
    (insert 0 cfg false Vertex m (mkE i [] [] (Some p))).

(** mesh/element_creation.hpp:28-46, make_element: set the vertex handles, push
    with a generated id.  The static number of vertices is part of the element
    type; a wrong number of handles is outside the model ([None]). *)
Definition make_element (cfg : config) (t : tag) (m : mesh) (vs : list addr)
  : option (mesh * addr) :=
  if length vs =? nverts t then
    option_map (fun r => (fst r, fst (snd r)))
      (insert (dim t) cfg true t m (mkE 0 vs [] None))
  else None.

(** mesh/mesh.hpp:297-300 and 278-292, clear: assignment of a default mesh
    followed by one change counter increment. Addresses are not reused. *)
Definition clear_mesh (m : mesh) : mesh :=
  mkM (fun _ => []) (m_next m) (fun _ => 0) 1 [].

(** elements<t>(mesh): the range of a type in iteration order. *)
Definition range (m : mesh) (t : tag) : list addr := map n_addr (m_nodes m t).

(** elements<bt>(element): handles of the boundary elements of one type. *)
Definition boundary_of (e : element) (bt : tag) : list addr :=
  match bt with
  | Vertex => e_verts e
  | _ => map b_addr (filter (fun b => tag_eqb (b_tag b) bt) (e_bnd e))
  end.

(** element/element.hpp:159-168, global_to_local_orientation: orientation of
    the first boundary element with that handle. *)
Definition orientation_of (e : element) (bt : tag) (h : addr) : option (list (option nat)) :=
  option_map b_orient
    (find (fun b => tag_eqb (b_tag b) bt && (b_addr b =? h)) (e_bnd e)).

(** mesh/mesh.hpp:915-947, local_vertex; [None] = undefined behaviour. *)
Definition local_vertex (m : mesh) (host : element) (bt : tag) (h : addr) (i : nat) : option addr :=
  obind (deref m bt h) (fun f =>
  obind (orientation_of host bt h) (fun o =>
  obind (nth_error o i) (fun oj =>
  obind oj (fun j => nth_error (e_verts f) j)))).

(** mesh/mesh.hpp:830-835, id_upper_bound. *)
Definition id_upper_bound (m : mesh) (t : tag) : nat := m_idgen m t.

End Mesh.
