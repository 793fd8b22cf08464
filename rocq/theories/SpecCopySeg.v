(** Specification vocabulary for copying segments (C24, C40).
    Nothing here is used by the model. *)
From Coq Require Import List Arith ZArith.
From Verif Require Import ModelTopo ModelMesh ModelErase ModelSegmentation ModelSegment ModelCopySeg
  SpecMesh SpecErase SpecQuery SpecSegmentation SpecSegment.
Import ListNotations.

Section SpecCopySeg.
Context {Pt : Type}.

(** The element [h] of type [t] is in the segment with the id [z]. *)
Definition in_segment_id (s : sstate Pt) (z : Z) (t : tag) (h : addr) : Prop :=
  exists a, segment_has_id s a z /\ in_segment s a t h.

(** The names taken are the decimal notations of the ids of the segments: so it
    is as long as no segment is given a name. *)
Definition numbered (g : segs) : Prop := forall z, find_name (decimal z) (g_names g) = None <-> forall a, ~ In (z, a) (g_ids g).

(** Two elements of two meshes are in the segments with the same ids. *)
Definition same_segments (src dst : sstate Pt) (t : tag) (c c' : addr) : Prop :=
  forall z, in_segment_id src z t c <-> in_segment_id dst z t c'.

(** Every element of [dst] has an element with its id in [src], and the same
    for the elements of its boundary: [dst] looks like (a part of) [src]. *)
Definition same_id (src dst : @mesh Pt) (t : tag) (x y : addr) : Prop :=
  exists i, id_at src t x = Some i /\ id_at dst t y = Some i.
Definition same_structure (src dst : @mesh Pt) : Prop :=
  (forall t y, is_live dst t y -> exists x, same_id src dst t x y) /\
  (forall t y bt b x, bounded_by dst t y bt b -> same_id src dst t x y ->
     exists a, bounded_by src t x bt a /\ same_id src dst bt a b).

End SpecCopySeg.
