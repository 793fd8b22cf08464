(** Specification vocabulary for interfaces (C17).
    Nothing here is used by the model. *)
From Coq Require Import List Arith ZArith Bool.
From Verif Require Import ModelTopo ModelMesh ModelErase ModelQuery ModelSegmentation ModelSegment ModelInterface
  SpecMesh SpecQuery SpecSegment.
Import ListNotations.
Open Scope nat_scope.

Section SpecInterface.
Context {Pt : Type}.

(** A facet is an interface facet of the segments [a] and [b]: it is on the
    boundary of [a] and lies in [b]. *)
Definition interface_facet (cfg : config) (s : sstate Pt) (a b : nat) (f : addr) : Prop :=
  on_one_cell_of cfg s a f /\ in_segment s b (facet_tag (cfg_cell cfg)) f.

(** An element is on the interface: an interface facet or in the boundary of one. *)
Definition on_interface (cfg : config) (s : sstate Pt) (a b : nat) (t : tag) (x : addr) : Prop :=
  if tag_eqb t (facet_tag (cfg_cell cfg)) then interface_facet cfg s a b x
  else exists f, interface_facet cfg s a b f /\ bounded_by (st_mesh s) (facet_tag (cfg_cell cfg)) f t x.

(** No facet belongs to more than two cells of the segment. *)
Definition two_cells (cfg : config) (s : sstate Pt) (a : nat) : Prop := forall f n, cell_count_of cfg s a f n -> n <= 2.

(** No facet belongs to more than two cells of the mesh. *)
Definition at_most_two_cells (cfg : config) (m : @mesh Pt) : Prop := forall f c1 c2 c3,
  let on c := bounded_by m (cfg_cell cfg) c (facet_tag (cfg_cell cfg)) f in
  on c1 -> on c2 -> on c3 -> c1 = c2 \/ c1 = c3 \/ c2 = c3.

(** Every facet in the segment belongs to one of its cells. *)
Definition facets_of_cells (cfg : config) (s : sstate Pt) (a : nat) : Prop := forall f, in_segment s a (facet_tag (cfg_cell cfg)) f ->
  exists c, in_segment s a (cfg_cell cfg) c /\ bounded_by (st_mesh s) (cfg_cell cfg) c (facet_tag (cfg_cell cfg)) f.

(** Correct use: two different segments, a live element with interface information. *)
Definition valid_iop (cfg : config) (S : istate Pt) (o : iop Pt) : Prop :=
  match o with
  | ISeg o => valid_sop cfg (is_seg S) o
  | IAsk a b t x => is_segment (is_seg S) a /\ is_segment (is_seg S) b /\ a <> b /\ is_live (st_mesh (is_seg S)) t x /\
      (t = facet_tag (cfg_cell cfg) \/ In t (bnd_types cfg)) /\ two_cells cfg (is_seg S) a
  end.

(** Histories with what happened so far: each call with the state it was made
    in, the latest first. *)
Inductive history (cfg : config) : list (istate Pt * iop Pt) -> istate Pt -> Prop :=
| h_new m : reach cfg m -> history cfg [] (new_istate m)
| h_step H S o S' : history cfg H S -> valid_iop cfg S o -> istep cfg S o = Some S' -> history cfg ((S, o) :: H) S'.

(** The interface of [a] and [b] was asked for, in this order, when the state was [S]. *)
Definition asked (H : list (istate Pt * iop Pt)) (S : istate Pt) (a b : nat) : Prop :=
  exists t x, In (S, IAsk a b t x) H.

(** The interface of two segments is the same in both directions. *)
Definition symmetric_interface (cfg : config) (s : sstate Pt) (a b : nat) : Prop :=
  forall f, interface_facet cfg s a b f <-> interface_facet cfg s b a f.

End SpecInterface.
