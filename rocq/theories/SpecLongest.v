(** Specification vocabulary for the longest-edge closure (C38).
    Nothing here is used by the model. *)
From Coq Require Import Reals List Arith Bool.
From Verif Require Import ModelTopo ModelMesh ModelErase ModelGeom SpecMesh SpecErase.
Import ListNotations.

Section SpecLongest.
Variable d : nat.
Notation mesh := (@mesh point).

(** [l] is the distance of the two end points of the edge [a]. *)
Definition has_length (m : mesh) (a : addr) (l : R) : Prop :=
  exists e v w ev ew p q, deref m Line a = Some e /\ e_verts e = [v; w] /\
    deref m Vertex v = Some ev /\ e_pt ev = Some p /\ deref m Vertex w = Some ew /\ e_pt ew = Some q /\
    l = norm_2 d (psub p q).

(** [a] is edge number [k] of the cell [c]. *)
Definition edge_no_of (m : mesh) (t : tag) (c : addr) (k : nat) (a : addr) : Prop :=
  exists e, deref m t c = Some e /\ nth_error (boundary_of e Line) k = Some a.
Definition edge_of (m : mesh) (t : tag) (c a : addr) : Prop := exists k, edge_no_of m t c k a.

(** [a] is the longest edge of the cell [c]: none is longer; of several longest
    edges it is the first. *)
Definition longest_edge_of (m : mesh) (t : tag) (c a : addr) : Prop :=
  exists k l, edge_no_of m t c k a /\ has_length m a l /\
    forall k' a' l', edge_no_of m t c k' a' -> has_length m a' l' -> (l' <= l)%R /\ (k' < k -> (l' < l)%R).

(** Every cell with a marked edge has its longest edge marked. *)
Definition closed_flags (m : mesh) (t : tag) (f : addr -> bool) : Prop :=
  forall c b a, edge_of m t c b -> f b = true -> longest_edge_of m t c a -> f a = true.

Definition no_flag_lost (f g : addr -> bool) : Prop := forall a, f a = true -> g a = true.

End SpecLongest.
