(** Model of handle views and of marking elements for deletion:
    viennagrid/storage/view.hpp, viennagrid/element/element_view.hpp,
    viennagrid/mesh/mesh_operations.hpp:167-224, viennagrid/mesh/element_deletion.hpp:162-220.
    Definitions only. *)
From Coq Require Import List Arith Bool.
From Verif Require Import ModelTopo ModelMesh ModelErase ModelAccessor ModelQuery.
Import ListNotations.

(** ** Views that keep their handles in a sequence (std::deque, std::vector,
    std::list), storage/view.hpp:203-281. *)

(** view.hpp:264, insert_handle: push_back (storage/container.hpp:36-46). *)
Definition seq_insert (h : addr) (v : list addr) : list addr := v ++ [h].

(** view.hpp:256-262, insert_unique_handle: linear scan, then insert_handle. *)
Definition seq_insert_unique (h : addr) (v : list addr) : list addr :=
  if existsb (fun x => h =? x) v then v else seq_insert h v.

(** view.hpp:270-278, erase_handle: the first occurrence. *)
Fixpoint seq_erase (h : addr) (v : list addr) : list addr :=
  match v with
  | [] => []
  | x :: v' => if x =? h then v' else x :: seq_erase h v'
  end.

(** The operations of a view. *)
Inductive vop := VInsert (h : addr) | VInsertUnique (h : addr) | VErase (h : addr) | VClear.
Definition seq_step (v : list addr) (o : vop) : list addr :=
  match o with
  | VInsert h => seq_insert h v
  | VInsertUnique h => seq_insert_unique h v
  | VErase h => seq_erase h v
  | VClear => []
  end.
Definition seq_run (ops : list vop) (v : list addr) : list addr := fold_left seq_step ops v.

Section View.
Context {Pt : Type}.
Notation mesh := (@mesh Pt).
Notation element := (@element Pt).

(** element_view.hpp:67-112, element_view(mesh, predicate): the handles of the
    elements satisfying the predicate are inserted in the order of iteration. *)
Definition element_view (m : mesh) (t : tag) (f : element -> bool) : list addr :=
  fold_left (fun v n => if f (n_el n) then seq_insert (n_addr n) v else v) (m_nodes m t) [].

(** ** Mesh views (make_view): std::set ordered by the ids of the elements
    (storage/forwards.hpp:94-97, storage/container.hpp:530-546, view.hpp:301-547).
    A set is represented by its sequence in iteration order; this describes the
    container as long as the ids of its members are increasing. [None]: a
    comparison dereferences a dangling handle. *)
Fixpoint set_insert (m : mesh) (t : tag) (h : addr) (v : list addr) : option (list addr) :=
  match v with
  | [] => option_map (fun _ => [h]) (deref m t h)
  | x :: v' =>
      obind (deref m t h) (fun eh =>
      obind (deref m t x) (fun ex =>
      if e_id eh <? e_id ex then Some (h :: v)
      else if e_id ex <? e_id eh then option_map (cons x) (set_insert m t h v')
      else Some v))
  end.

(** mesh.hpp:1430-1452, find_by_handle on a view: linear search by handle. *)
Definition view_has (v : list addr) (h : addr) : bool := existsb (fun x => x =? h) v.

(** A mesh view: one handle container per element type. *)
Notation mesh_view := (tag -> list nat) (only parsing).
(** make_view(mesh): all containers empty (mesh.hpp:247-256). *)
Definition empty_view : mesh_view := fun _ => [].

(** view.hpp:495-503 of the container of one type: insert_unique_handle of a set view. *)
Definition view_insert (m : mesh) (t : tag) (v : mesh_view) (h : addr) : option mesh_view :=
  option_map (upd v t) (set_insert m t h (v t)).

(** mesh.hpp:577-610 with 563-573, referencing_element_typelist: the element
    types whose elements may have boundary elements of type [t], in ascending
    dimension. Simplification: types outside the configuration, and types that
    store no boundary elements of type [t], are visited too; they have no
    coboundary elements, so nothing is marked for them. *)
Definition referencing_types (t : tag) : list tag :=
  filter (fun ct => dim t <? dim ct) [Line; Triangle; Quad; Tet; Hex].

(** mesh_operations.hpp:167-207, mark_referencing_elements_impl for one type:
    the cached coboundary query, then each element that is not yet there. *)
Definition mark_type (t : tag) (h : addr) (sv : qstate Pt * mesh_view) (ct : tag) : option (qstate Pt * mesh_view) :=
  let '(s, v) := sv in
  obind (query_cob false t ct s h) (fun r =>
  let '(s1, l) := r in
  option_map (fun v' => (s1, v'))
    (ofold (fun v a => if view_has (v ct) a then Some v else view_insert (q_mesh s1) ct v a) l v)).

(** mesh_operations.hpp:219-223. *)
Definition mark_referencing (t : tag) (h : addr) (sv : qstate Pt * mesh_view) : option (qstate Pt * mesh_view) :=
  ofold (mark_type t h) (referencing_types t) sv.

(** element_deletion.hpp:197-203, mark_erase_elements. *)
Definition mark_erase (t : tag) (h : addr) (sv : qstate Pt * mesh_view) : option (qstate Pt * mesh_view) :=
  obind (view_insert (q_mesh (fst sv)) t (snd sv) h) (fun v' => mark_referencing t h (fst sv, v')).

(** element_deletion.hpp:214-220, erase_element. *)
Definition erase_element (cfg : config) (t : tag) (h : addr) (s : qstate Pt) : option (qstate Pt) :=
  obind (mark_erase t h (s, empty_view)) (fun r =>
  let '(s1, v) := r in mesh_op cfg s1 (OErase v)).

End View.
