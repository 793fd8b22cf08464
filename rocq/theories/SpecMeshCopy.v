(** Specification vocabulary for copied meshes (C22).
    Nothing here is used by the model. *)
From Coq Require Import List Arith Bool.
From Verif Require Import ModelTopo ModelMesh ModelErase SpecMesh SpecErase.
Import ListNotations.

Section SpecMeshCopy.
Context {Pt : Type}.
Notation mesh := (@mesh Pt).

(** What an allocator does: different elements get different addresses, and
    what is handed out is not free any more. *)
Definition allocator (src : mesh) (f : tag -> addr -> addr) (nx : tag -> addr) : Prop :=
  forall t, (forall a b, a < m_next src t -> b < m_next src t -> f t a = f t b -> a = b) /\
            (forall a, a < m_next src t -> f t a < nx t).

(** The memory of the copies is not that of the source. *)
Definition apart (src : mesh) (f : tag -> addr -> addr) : Prop :=
  forall t a b, In a (range src t) -> In b (range src t) -> f t a <> b.

(** The same elements in the same order: ids, vertices, boundary elements,
    orientations, points. *)
Definition same_elements (m m' : mesh) : Prop :=
  forall t, map (describe m') (elements_of m' t) = map (describe m) (elements_of m t).

(** The handle in the copy that belongs to a handle of the source: the copy's
    address, and for elements created after the copying the one created by the
    same operation. *)
Definition counterpart (src : mesh) (f : tag -> addr -> addr) (nx : tag -> addr) (t : tag) (a : addr) : addr :=
  if a <? m_next src t then f t a else nx t + (a - m_next src t).
Definition translated (g : tag -> addr -> addr) (o : op Pt) : op Pt :=
  match o with
  | OVertex p => OVertex p
  | OVertexId i p => OVertexId i p
  | OElement t vs => OElement t (map (g Vertex) vs)
  | OErase view => OErase (fun t => map (g t) (view t))
  | OClear => OClear
  end.

End SpecMeshCopy.
