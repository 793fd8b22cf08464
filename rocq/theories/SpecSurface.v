(** Specification vocabulary for surfaces (C56).  Nothing here is used by the
    model.  Volumes are those of the library; C27 and C28 are about them. *)
From Coq Require Import Reals List ZArith.
From Verif Require Import ModelTopo ModelMesh ModelErase ModelQuery ModelSegment ModelGeom ModelVolume ModelSurface SpecMesh SpecQuery SpecSegment SpecDistance.
Local Open Scope R_scope.

(** The geometric dimensions in which volume() exists for an element type. *)
Definition measured (d : nat) (t : tag) : Prop :=
  match t with
  | Vertex | Line => True
  | Triangle | Quad => d = 2%nat \/ d = 3%nat
  | Tet | Hex => d = 3%nat
  end.

(** The element [a] of type [t] has the volume [v]. *)
Definition has_volume (d : nat) (m : @mesh point) (t : tag) (a : addr) (v : R) : Prop :=
  exists ps, has_points m t a ps /\ volume_cell d (shape_of t) ps = Some v.

(** [f] is a facet of two cells that are in different segments. *)
Definition between_segments (cfg : config) (s : sstate point) (f : addr) : Prop :=
  exists a b x y, is_segment s a /\ is_segment s b /\ a <> b /\
    in_segment s a (cfg_cell cfg) x /\ in_segment s b (cfg_cell cfg) y /\
    bounded_by (st_mesh s) (cfg_cell cfg) x (facet_tag (cfg_cell cfg)) f /\
    bounded_by (st_mesh s) (cfg_cell cfg) y (facet_tag (cfg_cell cfg)) f.
