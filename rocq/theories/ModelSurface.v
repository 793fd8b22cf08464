(** The surface of elements, meshes and segments: viennagrid/algorithm/surface.hpp
    30-119 (the rest of that file cannot be instantiated).  Definitions only. *)
From Coq Require Import Reals List.
From Verif Require Import ModelTopo ModelMesh ModelErase ModelQuery ModelSegment ModelGeom ModelVolume ModelDistance.
Import ListNotations.
Local Open Scope R_scope.

(** The element types as the overloads of volume_impl see them, volume.hpp 36-170. *)
Definition shape_of (t : tag) : cell_shape :=
  match t with
  | Vertex => ShVertex | Line => ShLine | Triangle => ShTriangle | Quad => ShQuad | Tet => ShTet | Hex => ShHex
  end.

(** volume.hpp 196-212, volume(element) with the default point accessor. *)
Definition element_volume (d : nat) (m : @mesh point) (t : tag) (a : addr) : option R :=
  obind (element_points m t a) (volume_cell d (shape_of t)).

(** surface.hpp 62-82, surface(element): the loop over the facets. *)
Definition surface_element (d : nat) (m : @mesh point) (t : tag) (a : addr) : option R :=
  obind (deref m t a) (fun e =>
  ofold (fun result f => option_map (fun v => result + v) (element_volume d m (facet_tag t) f)) (boundary_of e (facet_tag t)) 0).

(** surface.hpp 33-53, surface_meshsegment for a mesh (96-111): the loop over the
    facets; the cached boundary query may update the caches of the mesh. *)
Definition surface_mesh (cfg : config) (d : nat) (q : qstate point) : option (qstate point * R) :=
  let ft := facet_tag (cfg_cell cfg) in
  ofold (fun st f =>
    obind (query_bnd cfg ft (fst st) f) (fun r =>
    if snd r then option_map (fun v => (fst r, snd st + v)) (element_volume d (q_mesh (fst r)) ft f)
    else Some (fst r, snd st)))
    (range (q_mesh q) ft) (q, 0).

(** surface.hpp 33-53 and 113-119, the same for a segment. *)
Definition surface_segment (cfg : config) (d : nat) (s : sstate point) (a : nat) : option (sstate point * R) :=
  let ft := facet_tag (cfg_cell cfg) in
  ofold (fun st f =>
    let s1 := fst st in
    obind (seg_bnd cfg ft (st_mesh s1) (st_con s1 a) f) (fun r =>
    let s2 := set_con s1 a (fst r) in
    if snd r then option_map (fun v => (s2, snd st + v)) (element_volume d (st_mesh s2) ft f)
    else Some (s2, snd st)))
    (k_view (st_con s a) ft) (s, 0).
