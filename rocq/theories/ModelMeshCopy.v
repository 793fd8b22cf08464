(** Copying and assigning a mesh: viennagrid/mesh/mesh.hpp 258-292 and 1621-1742.
    Definitions only. *)
From Coq Require Import List Arith Bool.
From Verif Require Import ModelTopo ModelMesh ModelErase ModelQuery.
Import ListNotations.

Section MeshCopy.
Context {Pt : Type}.
Notation mesh := (@mesh Pt).
Notation element := (@element Pt).
Notation node := (@node Pt).

(** mesh.hpp 265-268 and 281-288: the containers are copied element by element,
    so the handles in the elements still point to the elements of the source.
    The memory for the copies is obtained from the outside: [f t a] is the
    address of the copy of the element of type [t] at [a], [nx] what is free
    afterwards.  The id generators and the change counter are copied and the
    counter is incremented; the log is bookkeeping of the model. *)
Definition copy_containers (f : tag -> addr -> addr) (nx : tag -> addr) (src : mesh) : mesh :=
  mkM (fun t => map (fun n => mkN (f t (n_addr n)) (n_key n) (n_el n)) (m_nodes src t)) nx (m_idgen src) (m_cc src + 1) [].

(** mesh.hpp 1646-1649, the writes [dit.handle() = ...]: the first handles of one
    type are replaced; [None]: the destination has fewer of them. *)
Fixpoint write_handles (hs vs : list addr) : option (list addr) :=
  match hs, vs with
  | [], _ => Some vs
  | h :: hs', _ :: vs' => option_map (cons h) (write_handles hs' vs')
  | _ :: _, [] => None
  end.
Fixpoint write_entries (bt : tag) (hs : list addr) (l : list bentry) : option (list bentry) :=
  match l with
  | [] => match hs with [] => Some [] | _ => None end
  | b :: l' =>
      if tag_eqb (b_tag b) bt then
        match hs with
        | [] => Some l
        | h :: hs' => option_map (cons (mkB (b_tag b) h (b_orient b))) (write_entries bt hs' l')
        end
      else option_map (cons b) (write_entries bt hs l')
  end.

(** mesh.hpp 1626-1656, copy_element_setters: the handle of a boundary element
    becomes that of the element of the destination with the same id.  [None]:
    dangling handle or no such element.  Simplification: all look-ups of one
    type are done before the writes; the writes do not change ids. *)
Definition copy_setter (src dst : mesh) (es : element) (ed : element) (bt : tag) : option element :=
  obind (omap (fun h => obind (deref src bt h) (fun e => option_map n_addr (find_id (m_nodes dst bt) (e_id e)))) (boundary_of es bt)) (fun hs =>
  match bt with
  | Vertex => option_map (fun vs => mkE (e_id ed) vs (e_bnd ed) (e_pt ed)) (write_handles hs (e_verts ed))
  | _ => option_map (fun l => mkE (e_id ed) (e_verts ed) l (e_pt ed)) (write_entries bt hs (e_bnd ed))
  end).

(** All types; those that are not in the typelists have empty ranges. *)
Definition all_types : list tag := [Vertex; Line; Triangle; Quad; Tet; Hex].

(** mesh.hpp 1693-1717, the body of the loop; different ids: message and continue. *)
Definition fix_element (src dst : mesh) (es ed : element) : option element :=
  if e_id es =? e_id ed then ofold (copy_setter src dst es) all_types ed else Some ed.

(** mesh.hpp 1690-1718, the loop over the elements of one type; [None]: the
    destination has fewer elements. *)
Fixpoint fix_nodes (src dst : mesh) (ls ld : list node) : option (list node) :=
  match ls, ld with
  | [], _ => Some ld
  | s :: ls', d :: ld' =>
      obind (fix_element src dst (n_el s) (n_el d)) (fun e =>
      option_map (cons (mkN (n_addr d) (n_key d) e)) (fix_nodes src dst ls' ld'))
  | _ :: _, [] => None
  end.

(** mesh.hpp 1671-1740, fix_handles. *)
Definition fix_handles (src dst : mesh) : option mesh :=
  ofold (fun d t => option_map (set_nodes d t) (fix_nodes src d (m_nodes src t) (m_nodes d t))) all_types dst.

(** mesh.hpp 265-271, copy constructor, and 278-292, operator=. *)
Definition copy_mesh (f : tag -> addr -> addr) (nx : tag -> addr) (src : mesh) : option mesh :=
  fix_handles src (copy_containers f nx src).

(** The same with the appendix: the caches are copied, with their handles. *)
Definition copy_state (f : tag -> addr -> addr) (nx : tag -> addr) (s : qstate Pt) : option (qstate Pt) :=
  option_map (fun m => mkQ m (q_cob s) (q_nb s) (q_bnd s)) (copy_mesh f nx (q_mesh s)).

End MeshCopy.
