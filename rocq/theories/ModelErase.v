(** Model of element deletion: viennagrid/mesh/element_deletion.hpp, and of the
    user-visible operations on a mesh.  Definitions only. *)
From Coq Require Import List Arith Bool.
From Verif Require Import ModelTopo ModelMesh.
Import ListNotations.

Section Erase.
Context {Pt : Type}.
Notation mesh := (@mesh Pt).
Notation element := (@element Pt).
Notation node := (@node Pt).

(** Replace one handle by another. *)
Definition rename (old new x : addr) : addr := if x =? old then new else x.

(** element_deletion.hpp:42-62: in one parent element replace the handle of a
    boundary element of type [t]. *)
Definition switch_in_element (t : tag) (old new : addr) (e : element) : element :=
  match t with
  | Vertex => mkE (e_id e) (map (rename old new) (e_verts e)) (e_bnd e) (e_pt e)
  | _ => mkE (e_id e) (e_verts e)
             (map (fun b => if tag_eqb (b_tag b) t
                            then mkB (b_tag b) (rename old new (b_addr b)) (b_orient b) else b)
                  (e_bnd e)) (e_pt e)
  end.

(** element_deletion.hpp:36-82, switch_handle: in all elements of all
    referencing types (elements of other types have no entry of type [t], so
    visiting them changes nothing). *)
Definition switch_handle (t : tag) (old new : addr) (m : mesh) : mesh :=
  mkM (fun t' => map (fun n => mkN (n_addr n) (n_key n) (switch_in_element t old new (n_el n)))
                     (m_nodes m t'))
      (m_next m) (m_idgen m) (m_cc m) (m_log m).

(** storage/container.hpp:50-55, find by id (std::find_if). *)
Definition find_id (l : list node) (i : nat) : option node :=
  find (fun n => e_id (n_el n) =? i) l.

(** The last node ([--elements.end()]); [None] = undefined behaviour on an
    empty container. *)
Definition last_node (l : list node) : option node :=
  match l with [] => None | n :: l' => Some (last l' n) end.

Definition set_nodes (m : mesh) (t : tag) (l : list node) : mesh :=
  mkM (upd (m_nodes m) t l) (m_next m) (m_idgen m) (m_cc m) (m_log m).

(** element_deletion.hpp:110-126, one iteration: find by id, swap the *values*
    of the last slot and the found slot (std::swap of the two elements): in
    a hidden_key_map the key of the slot stays), switch handles, drop the last
    slot. *)
Definition erase_one (t : tag) (m : mesh) (i : nat) : option mesh :=
  obind (find_id (m_nodes m t) i) (fun te =>
  obind (last_node (m_nodes m t)) (fun back =>
  let m1 :=
    if n_addr back =? n_addr te then m
    else switch_handle t (n_addr back) (n_addr te)
           (put (put m t (n_addr te) (n_el back)) t (n_addr back) (n_el te)) in
  Some (set_nodes m1 t (removelast (m_nodes m1 t))))).

(** element_deletion.hpp:92-127, erase_functor for one type: first collect the
    ids of the marked elements, then erase one by one. *)
Definition erase_type (t : tag) (view : list addr) (m : mesh) : option mesh :=
  obind (omap (fun a => option_map e_id (deref m t a)) view) (fun ids =>
  ofold (erase_one t) ids m).

(** element_deletion.hpp:144-158, erase_elements: types in descending
    dimension, then one change counter increment. *)
Definition erase_order : list tag := [Hex; Tet; Quad; Triangle; Line; Vertex].
Definition erase_elements (m : mesh) (view : tag -> list addr) : option mesh :=
  option_map (fun m' => mkM (m_nodes m') (m_next m') (m_idgen m') (m_cc m' + 1) (m_log m'))
    (ofold (fun m t => erase_type t (view t) m) erase_order m).

(** The mesh-changing operations of the public interface. *)
Inductive op :=
| OVertex (p : Pt)                      (* make_vertex *)
| OVertexId (i : nat) (p : Pt)          (* make_vertex_with_id *)
| OElement (t : tag) (vs : list addr)   (* make_line, make_triangle, ... *)
| OErase (view : tag -> list addr)      (* erase_elements *)
| OClear.                               (* clear *)

Definition step (cfg : config) (m : mesh) (o : op) : option mesh :=
  match o with
  | OVertex p => option_map fst (make_vertex cfg m p)
  | OVertexId i p => option_map fst (make_vertex_with_id cfg m i p)
  | OElement t vs => option_map fst (make_element cfg t m vs)
  | OErase view => erase_elements m view
  | OClear => Some (clear_mesh m)
  end.

Definition run (cfg : config) (ops : list op) (m : mesh) : option mesh := ofold (step cfg) ops m.

End Erase.
Arguments op : clear implicits.
