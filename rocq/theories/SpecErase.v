(** Specification vocabulary for views and deletion (C11-C13).
    Nothing here is used by the model. *)
From Coq Require Import List Arith Bool Permutation.
From Verif Require Import ModelTopo ModelMesh ModelErase SpecMesh.
Import ListNotations.

Section SpecErase.
Context {Pt : Type}.
Notation mesh := (@mesh Pt).
Notation element := (@element Pt).
Notation node := (@node Pt).

(** The id of the element behind a handle ([None]: dangling). *)
Definition id_at (m : mesh) (t : tag) (a : addr) : option nat := option_map e_id (deref m t a).

(** An element as a user sees it, without handles: its id, the ids of its
    vertices, the types, ids and orientations of its boundary elements, its point. *)
Record described := mkD {
  d_id : nat;
  d_verts : list (option nat);
  d_bnd : list (tag * option nat * list (option nat));
  d_pt : option Pt
}.
Definition describe (m : mesh) (e : element) : described :=
  mkD (e_id e) (map (id_at m Vertex) (e_verts e))
      (map (fun b => (b_tag b, id_at m (b_tag b) (b_addr b), b_orient b)) (e_bnd e)) (e_pt e).

(** The elements of a mesh without those of a set of handles. *)
Definition memb (a : addr) (l : list addr) : bool := existsb (Nat.eqb a) l.
Definition elements_except (m : mesh) (t : tag) (view : list addr) : list element :=
  map n_el (filter (fun n => negb (memb (n_addr n) view)) (m_nodes m t)).
Definition elements_of (m : mesh) (t : tag) : list element := map n_el (m_nodes m t).

(** A set of handles of live elements, each once. *)
Definition valid_view (m : mesh) (view : tag -> list addr) : Prop :=
  forall t, NoDup (view t) /\ Forall (is_live m t) (view t).

(** Element [e] has the element of type [bt] with handle [b] in its boundary. *)
Definition has_boundary (e : element) (bt : tag) (b : addr) : Prop := In b (boundary_of e bt).

(** Whatever refers to a member is a member. *)
Definition reference_closed (m : mesh) (view : tag -> list addr) : Prop :=
  forall bt b t a e, In b (view bt) -> deref m t a = Some e -> has_boundary e bt b -> In a (view t).

(** No element refers to something that is not in the mesh. *)
Definition no_dangling (m : mesh) : Prop :=
  forall t a e bt b, deref m t a = Some e -> has_boundary e bt b -> is_live m bt b.

(** Correct use of all operations of the public interface, deletion included:
    what is erased is a reference-closed set of live elements. *)
Definition valid_eop (cfg : config) (m : mesh) (o : op Pt) : Prop :=
  match o with
  | OErase view => valid_view m view /\ reference_closed m view
  | _ => valid_op cfg m o
  end.

(** Meshes obtained from an empty mesh by correct use of creation, deletion
    and clear, in any order. *)
Inductive ereach (cfg : config) : mesh -> Prop :=
| ereach_empty : ereach cfg empty_mesh
| ereach_step m o m' : ereach cfg m -> valid_eop cfg m o -> step cfg m o = Some m' -> ereach cfg m'.

End SpecErase.

(** The set consisting of one element. *)
Definition single (t : tag) (a : addr) : tag -> list addr :=
  fun t' => if tag_eqb t' t then [a] else [].
(** No element of the mesh has the given one in its boundary. *)
Definition unreferenced {Pt} (m : @mesh Pt) (t : tag) (a : addr) : Prop :=
  forall t' b e, deref m t' b = Some e -> ~ has_boundary e t a.

(** A history: two triangles sharing an edge, all edges stored; then the first
    triangle and the edge only it has are erased. *)
Definition erase_demo : list (op unit) :=
  [OVertex tt; OVertex tt; OVertex tt; OVertex tt; OElement Triangle [0;1;2]; OElement Triangle [1;2;3];
   OErase (fun t => match t with Line => [0] | Triangle => [0] | _ => [] end)].
