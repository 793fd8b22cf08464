(** Property C57: boundary extraction with segments. *)
From Coq Require Import List Arith ZArith Bool.
From Verif Require Import ModelTopo ModelMesh ModelErase ModelQuery ModelView ModelSegmentation ModelSegment ModelCopy ModelCopySeg ModelExtract
  SpecMesh SpecErase SpecQuery SpecView SpecSegmentation SpecSegment SpecCopy SpecCopySeg SpecExtract ExtractProofs MeshDemo QueryDemo SegmentDemo.
Import ModelSegmentation ListNotations.
Open Scope nat_scope.
(** extract_boundary of a mesh with a segmentation that has segments, into a mesh
    with a new segmentation, for every element type of dimension at least one
    below the cells.  The volume mesh and the contents of its segments stay.
    The hull mesh is the copy of exactly the elements that lie on the boundary of
    some segment, one hull element each, in order of the segments' ids and of
    the iteration in each segment.  The segmentations have the same ids, and a
    hull element is in the segment with some id exactly if the element it was
    made from lies on the boundary of the volume segment with this id; so
    elements between two segments are in both of their hulls. *)
Theorem C57_segments : forall Pt cfgv cfgh (q : qstate Pt) (s : sstate Pt) (hull : @mesh Pt), let t := cfg_cell cfgh in
  t = facet_tag (cfg_cell cfgv) \/ In t (bnd_types cfgv) -> t <> Vertex -> cfg_cell cfgv <> Hex ->
  sreach cfgv s -> segments_at_most_two cfgv s -> segment_count (st_segs s) <> 0 -> reach cfgh hull ->
  exists s' h' fs phi, extract_boundary_seg cfgv cfgh q s (new_sstate hull) = Done (q, s', h') /\
    sreach cfgv s' /\ st_mesh s' = st_mesh s /\ st_segs s' = st_segs s /\ (forall a t x, in_segment s' a t x <-> in_segment s a t x) /\
    sreach cfgh h' /\ is_copy (st_mesh s) (st_mesh h') t fs phi /\
    (exists onb, (forall a f, is_segment s a -> In f (k_view (st_con s a) t) -> (onb a f = true <-> on_boundary_of cfgv s a t f)) /\
       fs = first_uses (flat_map (fun a => filter (onb a) (k_view (st_con s a) t)) (segment_range (st_segs s)))) /\
    (forall f, In f fs <-> exists z, on_boundary_of_id cfgv s z t f) /\
    Forall2 (fun f g => forall z, in_segment_id h' z t g <-> on_boundary_of_id cfgv s z t f) fs (range (st_mesh h') t) /\
    (forall z, has_id (st_segs h') z <-> has_id (st_segs s) z).
Proof. exact C57_segments_pf. Qed.
Print Assumptions C57_segments.

(** Without segments the hull is that of the mesh and gets no segments. *)
Theorem C57_no_segments : forall Pt cfgv cfgh (q : qstate Pt) (s : sstate Pt) (hull : @mesh Pt), let t := cfg_cell cfgh in
  t = facet_tag (cfg_cell cfgv) \/ In t (bnd_types cfgv) -> t <> Vertex ->
  qreach cfgv q -> q_mesh q = st_mesh s -> at_most_two cfgv (q_mesh q) -> segment_count (st_segs s) = 0 -> reach cfgh hull ->
  exists q' h' fs phi, extract_boundary_seg cfgv cfgh q s (new_sstate hull) = Done (q', s, h') /\
    q_mesh q' = q_mesh q /\ is_copy (st_mesh s) (st_mesh h') t fs phi /\
    (exists onb, fs = filter onb (range (st_mesh s) t)) /\
    (forall f, In f fs <-> In f (range (st_mesh s) t) /\ on_boundary cfgv (st_mesh s) t f) /\
    (forall z, ~ has_id (st_segs h') z).
Proof. exact C57_no_segments_pf. Qed.
Print Assumptions C57_no_segments.

(** Extracting again into the same hull throws: clear() leaves the names of the
    segments behind. *)
Theorem C57_again_refuted : forall Pt cfgv cfgh (q : qstate Pt) (s : sstate Pt) (hull : @mesh Pt), let t := cfg_cell cfgh in
  t = facet_tag (cfg_cell cfgv) \/ In t (bnd_types cfgv) -> t <> Vertex -> cfg_cell cfgv <> Hex ->
  sreach cfgv s -> segments_at_most_two cfgv s -> segment_count (st_segs s) <> 0 -> reach cfgh hull ->
  exists s' h', extract_boundary_seg cfgv cfgh q s (new_sstate hull) = Done (q, s', h') /\
    extract_boundary_seg cfgv cfgh q s' h' = Thrown.
Proof. exact C57_again_refuted_pf. Qed.
Print Assumptions C57_again_refuted.

(** Two tetrahedra with a common face, in the segments 7 and 3: the hull has
    seven triangles, four in each segment, one of them in both. *)
Definition ex_cfg := full_config Tet.
Definition ex_hcfg := full_config Triangle.
Definition ex_ops : list (op nat) :=
  [OVertex 10; OVertex 11; OVertex 12; OVertex 13; OVertex 14; OElement Tet [0;1;2;3]; OElement Tet [1;2;3;4]].
Definition ex_s : sstate nat := sstate_of ex_cfg (map (fun o => SMesh o) ex_ops ++
  [SManage (SgId 7); SManage (SgId 3); SAdd 0 Tet 0; SAdd 1 Tet 1]).
Definition ex_q : qstate nat := qstate_of ex_cfg (map (fun o => QMesh o) ex_ops).
Definition ex_hull : @mesh nat := mesh_of ex_hcfg [OVertex 99].
Example C57_hypotheses_met : sreach ex_cfg ex_s /\ segments_at_most_two ex_cfg ex_s /\ segment_count (st_segs ex_s) <> 0 /\ reach ex_hcfg ex_hull.
Proof.
  assert (R : sreach ex_cfg ex_s) by (apply sdemo_ok; vm_compute; reflexivity).
  split; [exact R|]. split; [|split; [vm_compute; discriminate|apply demo_ok; vm_compute; reflexivity]].
  apply mesh_at_most_two; [discriminate|exact R|]. apply at_most_twob_sound. vm_compute. reflexivity.
Qed.
Example C57_example :
  match extract_boundary_seg ex_cfg ex_hcfg ex_q ex_s (new_sstate ex_hull) with
  | Done (_, _, h) =>
      (map (fun f => option_map (map (point_at (st_mesh h))) (vertices_at (st_mesh h) Triangle f)) (range (st_mesh h) Triangle),
       map (fun za => (fst za, k_view (st_con h (snd za)) Triangle, k_view (st_con h (snd za)) Vertex)) (g_ids (st_segs h)))
  | _ => ([], [])
  end
  = ([Some [Some 11; Some 12; Some 13]; Some [Some 11; Some 12; Some 14]; Some [Some 11; Some 13; Some 14]; Some [Some 12; Some 13; Some 14];
      Some [Some 10; Some 11; Some 12]; Some [Some 10; Some 11; Some 13]; Some [Some 10; Some 12; Some 13]],
     [(3%Z, [0; 1; 2; 3], [1; 2; 3; 4]); (7%Z, [0; 4; 5; 6], [1; 2; 3; 5])]).
Proof. vm_compute. reflexivity. Qed.
Example C57_again_example :
  match extract_boundary_seg ex_cfg ex_hcfg ex_q ex_s (new_sstate ex_hull) with
  | Done (q, s, h) => match extract_boundary_seg ex_cfg ex_hcfg q s h with Thrown => true | _ => false end
  | _ => false
  end = true.
Proof. vm_compute. reflexivity. Qed.
