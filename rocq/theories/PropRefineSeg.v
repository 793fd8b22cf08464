(** Property C40: refinement and segments. *)
From Coq Require Import Reals List Arith ZArith Bool.
From Verif Require Import ModelTopo ModelMesh ModelErase ModelGeom ModelSegmentation ModelSegment ModelCopySeg ModelLongest ModelRefineMesh ModelRefineSeg
  SpecMesh SpecErase SpecGeom SpecCopy SpecSegmentation SpecSegment SpecCopySeg SpecRefineMesh SegmentDemo MeshDemo RefineSegDemo RefineSegProofs.
Import ModelSegmentation ListNotations.
Open Scope nat_scope.
(** C40. Refining a mesh together with its segments, when every cell has an entry
    in the segmentation and the segments of the destination have no names of their
    own: the meshes are as in C39, and every part of a cell is in the segments
    with the ids of the segments of the cell, and in no others.  The cells that
    were in the destination stay in their segments, its segments stay, and no
    segments are made but those needed.
    Partial: without entries the call is undefined (C40_unrecorded_refuted), and with
    names it may throw (C40_named_refuted). *)
Theorem C40_refine_partial : forall d cfgs cfg (src dst : sstate point) (fl : addr -> bool),
  let t := cfg_cell cfgs in
  t = Triangle \/ t = Tet -> cfg_keep cfgs Line = true -> cfg_cell cfg = t ->
  sreach cfgs src -> sreach cfg dst -> numbered (st_segs dst) ->
  (forall c, In c (range (st_mesh src) t) -> segment_ids src t c <> None) ->
  exists dst' phi mu, refine_seg d cfg src t fl dst = Done dst' /\ sreach cfg dst' /\ numbered (st_segs dst') /\
    is_refinement d (st_mesh src) (st_mesh dst) (st_mesh dst') t fl phi mu /\
    (exists parts, range (st_mesh dst') t = range (st_mesh dst) t ++ concat parts /\
      Forall2 (fun c ps => Forall (same_segments src dst' t c) ps /\
        exists cs, is_split d (st_mesh src) (st_mesh dst') t fl phi mu c cs /\ map (vertices_at (st_mesh dst') t) ps = map Some cs)
        (range (st_mesh src) t) parts) /\
    (forall z x, In x (range (st_mesh dst) t) -> (in_segment_id dst' z t x <-> in_segment_id dst z t x)) /\
    (forall z, has_id (st_segs dst) z -> has_id (st_segs dst') z) /\
    (forall z, has_id (st_segs dst') z -> has_id (st_segs dst) z \/ exists c, In c (range (st_mesh src) t) /\ in_segment_id src z t c).
Proof. exact C40_refine_partial_pf. Qed.
Print Assumptions C40_refine_partial.

(** Two triangles with a common edge, the flagged one; the second is in segments 7
    and 3, the first in none. *)
Example C40_hypotheses_met : sreach rs_cfg rs_src /\ sreach rs_cfg (new_sstate empty_mesh : sstate point) /\ numbered (st_segs (new_sstate empty_mesh : sstate point)) /\
  map (segment_ids rs_src Triangle) (range (st_mesh rs_src) Triangle) = [Some []; Some [7; 3]]%Z.
Proof. split; [apply rs_src_reach|]. split; [apply rs_new_reach|]. split; [apply rs_new_numbered|]. cbv -[pt2]. reflexivity. Qed.
Example C40_example :
  match refine_seg 2 rs_cfg rs_src Triangle rs_fl (new_sstate empty_mesh) with
  | Done s => Some (map (vertices_at (st_mesh s) Triangle) (range (st_mesh s) Triangle), map (segment_ids s Triangle) (range (st_mesh s) Triangle))
  | _ => None
  end = Some ([Some [2; 0; 1]; Some [0; 3; 1]; Some [2; 0; 4]; Some [0; 3; 4]], [Some []; Some []; Some [7; 3]; Some [7; 3]]%Z).
Proof. cbv -[pt2 Rplus Rminus Rmult Rdiv Rinv IZR]. reflexivity. Qed.

(** A cell without an entry in the segmentation makes the call undefined, whatever
    the flags: so it is for every mesh whose segmentation was never used. *)
Theorem C40_unrecorded_refuted : forall d cfgs cfg (src dst : sstate point) (fl : addr -> bool) c,
  let t := cfg_cell cfgs in
  t = Triangle \/ t = Tet -> cfg_keep cfgs Line = true -> cfg_cell cfg = t ->
  sreach cfgs src -> sreach cfg dst -> numbered (st_segs dst) ->
  In c (range (st_mesh src) t) -> segment_ids src t c = None ->
  refine_seg d cfg src t fl dst = Undefined.
Proof. exact C40_unrecorded_refuted_pf. Qed.
Print Assumptions C40_unrecorded_refuted.

(** The second triangle was made before the segmentation was used. *)
Example C40_unrecorded_met : sreach rs_cfg rs_bare /\ range (st_mesh rs_bare) Triangle = [0; 1] /\ segment_ids rs_bare Triangle 1 = None.
Proof. split; [apply rs_bare_reach|]. split; cbv -[pt2]; reflexivity. Qed.

(** A destination with a segment whose name is the number of a segment of the
    source that it does not have: the call throws. *)
Theorem C40_named_refuted : exists cfg (src dst : sstate point) (fl : addr -> bool),
  sreach cfg src /\ sreach cfg dst /\ cfg_cell cfg = Triangle /\ cfg_keep cfg Line = true /\
  (forall c, In c (range (st_mesh src) Triangle) -> segment_ids src Triangle c <> None) /\
  refine_seg 2 cfg src Triangle fl dst = Thrown.
Proof. exact C40_named_refuted_pf. Qed.
Print Assumptions C40_named_refuted.
