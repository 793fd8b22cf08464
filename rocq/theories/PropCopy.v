(** Properties C23 and C41: copying accepted cells into another mesh, and
    extracting the boundary of a mesh. *)
From Coq Require Import List Arith Bool.
From Verif Require Import ModelTopo ModelMesh ModelErase ModelQuery ModelCopy SpecMesh SpecErase SpecQuery SpecCopy
  MeshDemo EraseDemo QueryDemo CopyProofs.
Import ListNotations.

(** copy(src, dst, functor): for every source mesh, destination mesh and
    predicate on cells the copy is defined and yields one cell for each accepted
    source cell, in order, under an injective vertex map defined on exactly the
    used vertices, with their points; nothing of the former destination is left.
    The destination can be used further: it is again a mesh in correct use. *)
Theorem C23_copy : forall Pt cfgs cfgd (src dst : @mesh Pt) (accept : addr -> bool),
  cfg_cell cfgs = cfg_cell cfgd -> cfg_cell cfgd <> Vertex -> ereach cfgs src -> ereach cfgd dst ->
  exists dst' phi, copy cfgd src dst accept = Some dst' /\ ereach cfgd dst' /\
    is_copy src dst' (cfg_cell cfgs) (filter accept (range src (cfg_cell cfgs))) phi.
Proof. exact C23_copy_pf. Qed.
Print Assumptions C23_copy.

(** If nothing was ever erased from the destination, all properties of meshes
    built by creation alone (C01-C10) hold for it after the copy. *)
Theorem C23_copy_reach : forall Pt cfgs cfgd (src dst : @mesh Pt) (accept : addr -> bool),
  cfg_cell cfgs = cfg_cell cfgd -> cfg_cell cfgd <> Vertex -> ereach cfgs src -> reach cfgd dst ->
  exists dst', copy cfgd src dst accept = Some dst' /\ reach cfgd dst'.
Proof. exact C23_copy_reach_pf. Qed.
Print Assumptions C23_copy_reach.

(** Two triangles, a hole left by an erased one, and a functor rejecting one: the
    copy into a mesh with old contents has the accepted cells in order and only
    the vertices they use. *)
Definition copy_src_ops : list (op (nat * nat)) :=
  [OVertex (0,0); OVertex (1,0); OVertex (0,1); OVertex (1,1); OVertex (5,5); OVertex (6,6);
   OElement Triangle [0;1;2]; OElement Triangle [3;2;4]; OElement Triangle [5;3;1]].
Definition copy_dst_ops : list (op (nat * nat)) :=
  [OVertex (7,7); OVertex (8,7); OVertex (7,8); OElement Triangle [2;1;0]].
Example C23_example :
  valid_runb (full_config Triangle) copy_src_ops empty_mesh = true /\
  valid_runb (thin_config Triangle) copy_dst_ops empty_mesh = true /\
  let src := mesh_of (full_config Triangle) copy_src_ops in
  let cells := range src Triangle in
  option_map (fun d : @mesh (nat * nat) =>
      (map (point_at d) (range d Vertex),
       map (fun c => option_map (map (point_at d)) (vertices_at d Triangle c)) (range d Triangle)))
    (copy (thin_config Triangle) src (mesh_of (thin_config Triangle) copy_dst_ops)
       (fun c => negb (c =? nth 1 cells 0)))
  = Some ([Some (0,0); Some (1,0); Some (0,1); Some (6,6); Some (1,1)],
          [Some [Some (0,0); Some (1,0); Some (0,1)]; Some [Some (6,6); Some (1,1); Some (1,0)]]).
Proof. split; [|split]; vm_compute; reflexivity. Qed.

(** extract_boundary: for every history of modifications and queries on the volume
    mesh in which each facet has at most two cells, and every element type [t]
    of dimension at least one below the cells, the result is defined, leaves the
    volume mesh alone and is the copy of exactly the elements of type [t] on the
    boundary, in order, one hull element each. *)
Theorem C41_extract_boundary : forall Pt cfgv cfgh (q : qstate Pt) (hull : @mesh Pt), let t := cfg_cell cfgh in
  t = facet_tag (cfg_cell cfgv) \/ In t (bnd_types cfgv) -> t <> Vertex ->
  qreach cfgv q -> at_most_two cfgv (q_mesh q) -> ereach cfgh hull ->
  exists q' hull' fs phi, extract_boundary cfgv cfgh q hull = Some (q', hull') /\
    q_mesh q' = q_mesh q /\ ereach cfgh hull' /\
    (exists onb, fs = filter onb (range (q_mesh q) t)) /\
    (forall f, In f fs <-> In f (range (q_mesh q) t) /\ on_boundary cfgv (q_mesh q) t f) /\
    is_copy (q_mesh q) hull' t fs phi.
Proof. exact C41_extract_boundary_pf. Qed.
Print Assumptions C41_extract_boundary.

(** Two tetrahedra on a common triangle: the hull has the six outer triangles. *)
Definition hull_ops : list (qop (nat * nat)) :=
  map (fun o => QMesh o)
  [OVertex (0,0); OVertex (1,0); OVertex (0,1); OVertex (1,1); OVertex (5,5); OVertex (6,6);
   OElement Tet [0;1;2;3]; OElement Tet [3;2;1;4]].
Example C41_example :
  valid_qrunb (full_config Tet) hull_ops (fresh_caches empty_mesh) = true /\
  at_most_twob (full_config Tet) (q_mesh (qstate_of (full_config Tet) hull_ops)) = true /\
  option_map (fun r : qstate (nat * nat) * @mesh (nat * nat) => let d := snd r in
      (length (range (q_mesh (fst r)) Triangle), map (point_at d) (range d Vertex),
       map (fun c => option_map (map (point_at d)) (vertices_at d Triangle c)) (range d Triangle)))
    (extract_boundary (full_config Tet) (full_config Triangle) (qstate_of (full_config Tet) hull_ops)
       (mesh_of (full_config Triangle) copy_dst_ops))
  = Some (7, [Some (0,0); Some (1,0); Some (0,1); Some (1,1); Some (5,5)],
     [Some [Some (0,0); Some (1,0); Some (0,1)]; Some [Some (0,0); Some (1,0); Some (1,1)];
      Some [Some (0,0); Some (0,1); Some (1,1)];
      Some [Some (0,1); Some (1,0); Some (5,5)]; Some [Some (1,1); Some (1,0); Some (5,5)];
      Some [Some (1,1); Some (0,1); Some (5,5)]]).
Proof. split; [|split]; vm_compute; reflexivity. Qed.
Example C41_hypotheses_met : qreach (full_config Tet) (qstate_of (full_config Tet) hull_ops) /\
  at_most_two (full_config Tet) (q_mesh (qstate_of (full_config Tet) hull_ops)).
Proof. split; [apply qdemo_ok|apply at_most_twob_sound]; vm_compute; reflexivity. Qed.

(** Without the bound on the number of cells at a facet: a facet is copied exactly
    when its number of cells is odd. *)
Theorem C41_extract_facets_parity : forall Pt cfgv cfgh (q : qstate Pt) (hull : @mesh Pt), let t := cfg_cell cfgh in
  t = facet_tag (cfg_cell cfgv) -> t <> Vertex -> qreach cfgv q -> ereach cfgh hull ->
  exists q' hull' fs phi, extract_boundary cfgv cfgh q hull = Some (q', hull') /\
    (exists onb, fs = filter onb (range (q_mesh q) t)) /\
    (forall f n, In f (range (q_mesh q) t) -> cell_count cfgv (q_mesh q) f n -> (In f fs <-> Nat.odd n = true)) /\
    is_copy (q_mesh q) hull' t fs phi.
Proof. exact C41_extract_facets_parity_pf. Qed.
Print Assumptions C41_extract_facets_parity.
