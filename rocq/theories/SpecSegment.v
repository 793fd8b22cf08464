(** Specification vocabulary for the contents of segments (C20, C21, C46).
    Nothing here is used by the model. *)
From Coq Require Import List Arith ZArith Bool.
From Verif Require Import ModelTopo ModelMesh ModelErase ModelQuery ModelView ModelSegmentation ModelSegment
  SpecMesh SpecErase SpecQuery SpecView SpecSegmentation.
Import ListNotations.

Section SpecSegment.
Context {Pt : Type}.

(** [a] is a segment; [z] is its id; iterating over the elements of type [t] of
    the segment visits [h]. *)
Definition is_segment (s : sstate Pt) (a : nat) : Prop := In a (segment_range (st_segs s)).
Definition segment_has_id (s : sstate Pt) (a : nat) (z : Z) : Prop := is_segment s a /\ id_of_seg (st_segs s) a = Some z.
Definition in_segment (s : sstate Pt) (a : nat) (t : tag) (h : addr) : Prop := In h (k_view (st_con s a) t).

(** Creating a vertex or an element. *)
Definition creation (o : op Pt) : Prop :=
  match o with OVertex _ | OVertexId _ _ | OElement _ _ => True | _ => False end.

(** Correct use: existing segments; live elements are added; members are erased
    and queried.  Segmentations and meshes are not cleared and no elements are
    deleted from the mesh. *)
Definition valid_sop (cfg : config) (s : sstate Pt) (o : sop Pt) : Prop :=
  match o with
  | SMesh o => creation o /\ valid_op cfg (st_mesh s) o
  | SManage o => valid_sgop (st_segs s) o /\ o <> SgClear /\ o <> SgInit
  | SCreate a o => is_segment s a /\ creation o /\ valid_op cfg (st_mesh s) o
  | SAdd a t h => is_segment s a /\ is_live (st_mesh s) t h
  | SErase a t h => is_segment s a /\ in_segment s a t h
  | SCob a _ bt _ b => is_segment s a /\ in_segment s a bt b
  | SNb a _ t _ x => is_segment s a /\ in_segment s a t x
  | SBnd a t x => is_segment s a /\ in_segment s a t x /\ (t = facet_tag (cfg_cell cfg) \/ In t (bnd_types cfg))
  end.

(** Histories: a mesh is built, gets a segmentation, and all of the calls follow
    in any order. *)
Inductive sreach (cfg : config) : sstate Pt -> Prop :=
| sr_new m : reach cfg m -> sreach cfg (new_sstate m)
| sr_step s o s' : sreach cfg s -> valid_sop cfg s o -> sstep cfg s o = Some s' -> sreach cfg s'.

(** With an element the view contains the stored elements of its boundary. *)
Definition boundary_closed (m : @mesh Pt) (v : tag -> list addr) : Prop :=
  forall t x bt b, In x (v t) -> bounded_by m t x bt b -> In b (v bt).

(** [x] is [h] or in the boundary of [h]. *)
Definition part_of (m : @mesh Pt) (t : tag) (x : addr) (ht : tag) (h : addr) : Prop :=
  (t = ht /\ x = h) \/ bounded_by m ht h t x.

(** Nothing about the other segments has changed. *)
Definition other_segments_same (s s' : sstate Pt) (a : nat) : Prop :=
  forall b, b <> a -> st_con s' b = st_con s b.

(** The elements of one segment seen as a mesh of its own: exactly one cell of
    the segment has the facet [f]. *)
Definition on_one_cell_of (cfg : config) (s : sstate Pt) (a : nat) (f : addr) : Prop :=
  exists c, forall x, in_segment s a (cfg_cell cfg) x /\
    bounded_by (st_mesh s) (cfg_cell cfg) x (facet_tag (cfg_cell cfg)) f <-> x = c.
Definition cell_count_of (cfg : config) (s : sstate Pt) (a : nat) (f : addr) (n : nat) : Prop :=
  exists l, lists_exactly l (fun x => in_segment s a (cfg_cell cfg) x /\
    bounded_by (st_mesh s) (cfg_cell cfg) x (facet_tag (cfg_cell cfg)) f) /\ length l = n.
Definition on_boundary_of (cfg : config) (s : sstate Pt) (a : nat) (t : tag) (x : addr) : Prop :=
  if tag_eqb t (facet_tag (cfg_cell cfg)) then on_one_cell_of cfg s a x
  else exists f, in_segment s a (facet_tag (cfg_cell cfg)) f /\ on_one_cell_of cfg s a f /\
         bounded_by (st_mesh s) (facet_tag (cfg_cell cfg)) f t x.

End SpecSegment.
