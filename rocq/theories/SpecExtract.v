(** Specification vocabulary for boundary extraction with segments (C57).
    Nothing here is used by the model. *)
From Coq Require Import List Arith ZArith.
From Verif Require Import ModelTopo ModelMesh ModelErase ModelSegmentation ModelSegment SpecMesh SpecErase SpecSegmentation SpecSegment.

Section SpecExtract.
Context {Pt : Type}.

(** The element [f] of type [t] is on the boundary of the segment with the id [z]. *)
Definition on_boundary_of_id (cfg : config) (s : sstate Pt) (z : Z) (t : tag) (f : addr) : Prop :=
  exists a, segment_has_id s a z /\ on_boundary_of cfg s a t f.

(** No facet belongs to more than two cells of the same segment. *)
Definition segments_at_most_two (cfg : config) (s : sstate Pt) : Prop :=
  forall a f n, is_segment s a -> cell_count_of cfg s a f n -> (n <= 2)%nat.

End SpecExtract.
