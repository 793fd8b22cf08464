(** Specification vocabulary for the queries (C14-C16).
    Nothing here is used by the model. *)
From Coq Require Import List Arith Bool.
From Verif Require Import ModelTopo ModelMesh ModelErase ModelQuery SpecMesh SpecErase.
Import ListNotations.

Section SpecQuery.
Context {Pt : Type}.

(** Correct use: modifications as in [valid_eop]; queries about live elements;
    boundary queries about facets or the element types below them. *)
Definition valid_qop (cfg : config) (m : @mesh Pt) (o : qop Pt) : Prop :=
  match o with
  | QMesh o => valid_eop cfg m o
  | QCob _ bt _ b => is_live m bt b
  | QNb _ t _ a => is_live m t a
  | QBnd t a => (t = facet_tag (cfg_cell cfg) \/ In t (bnd_types cfg)) /\ is_live m t a
  end.

(** Meshes with caches obtained from an empty mesh by correct use of creation,
    deletion, clear and queries in any order. *)
Inductive qreach (cfg : config) : qstate Pt -> Prop :=
| qreach_empty : qreach cfg (fresh_caches empty_mesh)
| qreach_step s o s' : qreach cfg s -> valid_qop cfg (q_mesh s) o -> qstep cfg s o = Some s' -> qreach cfg s'.

(** The element with handle [a] of type [ct] has the element [b] of type [bt] in
    its boundary. *)
Definition bounded_by (m : @mesh Pt) (ct : tag) (a : addr) (bt : tag) (b : addr) : Prop :=
  exists e, deref m ct a = Some e /\ has_boundary e bt b.

(** [l] lists the elements satisfying [P], each once. *)
Definition lists_exactly (l : list addr) (P : addr -> Prop) : Prop :=
  NoDup l /\ forall a, In a l <-> P a.

(** Two different elements of type [t] with a common boundary element of type [c]. *)
Definition share (m : @mesh Pt) (t c : tag) (a b : addr) : Prop :=
  a <> b /\ exists k, bounded_by m t a c k /\ bounded_by m t b c k.

(** Exactly one cell has the facet [f] in its boundary. *)
Definition on_one_cell (cfg : config) (m : @mesh Pt) (f : addr) : Prop :=
  exists c, forall a, bounded_by m (cfg_cell cfg) a (facet_tag (cfg_cell cfg)) f <-> a = c.

(** The number of cells with the facet [f] in their boundary is [n]. *)
Definition cell_count (cfg : config) (m : @mesh Pt) (f : addr) (n : nat) : Prop :=
  exists l, lists_exactly l (fun a => bounded_by m (cfg_cell cfg) a (facet_tag (cfg_cell cfg)) f) /\ length l = n.

(** Every facet belongs to at most two cells. *)
Definition at_most_two (cfg : config) (m : @mesh Pt) : Prop :=
  forall f n, cell_count cfg m f n -> n <= 2.

(** An element of type [t] is on the boundary: a facet of exactly one cell, or
    an element of the boundary of such a facet. *)
Definition on_boundary (cfg : config) (m : @mesh Pt) (t : tag) (a : addr) : Prop :=
  if tag_eqb t (facet_tag (cfg_cell cfg)) then on_one_cell cfg m a
  else exists f, on_one_cell cfg m f /\ bounded_by m (facet_tag (cfg_cell cfg)) f t a.

End SpecQuery.
