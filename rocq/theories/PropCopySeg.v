(** Property C24: copying cells together with their segments. *)
From Coq Require Import List Arith ZArith Bool.
From Verif Require Import ModelTopo ModelMesh ModelErase ModelQuery ModelSegmentation ModelSegment ModelCopy ModelCopySeg
  SpecMesh SpecErase SpecSegmentation SpecSegment SpecCopy SpecCopySeg MeshDemo SegmentDemo CopySegProofs.
Import ModelSegmentation ListNotations.
Open Scope nat_scope.

(** copy(src_mesh, src_segmentation, dst_mesh, dst_segmentation, functor) into a
    destination whose segmentation is new, when all accepted cells have entries
    in the source segmentation: the cells are copied as by C23 and the copy of a
    cell is in exactly the segments, by id, the cell was in; no other segments
    are made.  Missing for C24: other destinations and cells without entries. *)
Theorem C24_copy_partial : forall Pt cfgs cfgd (src : sstate Pt) (dm : @mesh Pt) (accept : addr -> bool),
  cfg_cell cfgs = cfg_cell cfgd -> cfg_cell cfgs <> Hex -> cfg_cell cfgs <> Vertex ->
  let t := cfg_cell cfgs in let cs := filter accept (range (st_mesh src) t) in
  sreach cfgs src -> reach cfgd dm -> (forall c, In c cs -> segment_ids src t c <> None) ->
  exists dst phi, copy_seg cfgd src (new_sstate dm) accept = Done dst /\ sreach cfgd dst /\
    is_copy (st_mesh src) (st_mesh dst) t cs phi /\
    Forall2 (same_segments src dst t) cs (range (st_mesh dst) t) /\
    (forall z, has_id (st_segs dst) z <-> exists c, In c cs /\ in_segment_id src z t c).
Proof. exact C24_copy_partial_pf. Qed.
Print Assumptions C24_copy_partial.

(** An accepted cell that has no entry in the source segmentation (it was in no
    segment, nor was any cell with a larger id): undefined behaviour. *)
Theorem C24_unrecorded_refuted : forall Pt cfgs cfgd (src : sstate Pt) (dm : @mesh Pt) (accept : addr -> bool) c,
  cfg_cell cfgs = cfg_cell cfgd -> cfg_cell cfgs <> Hex -> cfg_cell cfgs <> Vertex ->
  sreach cfgs src -> reach cfgd dm ->
  In c (range (st_mesh src) (cfg_cell cfgs)) -> accept c = true -> segment_ids src (cfg_cell cfgs) c = None ->
  copy_seg cfgd src (new_sstate dm) accept = Undefined.
Proof. exact C24_unrecorded_refuted_pf. Qed.
Print Assumptions C24_unrecorded_refuted.

(** The function cannot be used twice with the same destination: the second time
    it throws, whenever a copied cell is in some segment, because the names of
    the old segments are still taken. *)
Theorem C24_twice_refuted : forall Pt cfgs cfgd (src : sstate Pt) (dm : @mesh Pt) (accept : addr -> bool),
  cfg_cell cfgs = cfg_cell cfgd -> cfg_cell cfgs <> Hex -> cfg_cell cfgs <> Vertex ->
  let t := cfg_cell cfgs in let cs := filter accept (range (st_mesh src) t) in
  sreach cfgs src -> reach cfgd dm -> (forall c, In c cs -> segment_ids src t c <> None) ->
  (exists c z, In c cs /\ in_segment_id src z t c) ->
  exists dst, copy_seg cfgd src (new_sstate dm) accept = Done dst /\ copy_seg cfgd src dst accept = Thrown.
Proof. exact C24_twice_refuted_pf. Qed.
Print Assumptions C24_twice_refuted.

(** clear(segmentation): there are no segments and no element is recorded in one. *)
Theorem C24_clear : forall Pt (s : sstate Pt),
  (forall a, ~ is_segment (clear_segmentation s) a) /\ (forall z, ~ has_id (st_segs (clear_segmentation s)) z) /\
  (forall t h, segment_ids (clear_segmentation s) t h = None) /\ st_mesh (clear_segmentation s) = st_mesh s.
Proof. exact C24_clear_pf. Qed.
Print Assumptions C24_clear.

(** But all_elements() still goes over the elements of the former segments. *)
Theorem C24_clear_all_elements_refuted : forall Pt cfg (s : sstate Pt) a t h, cfg_cell cfg <> Hex -> sreach cfg s -> is_segment s a -> in_segment s a t h ->
  In h (st_all (clear_segmentation s) t).
Proof. exact C24_clear_all_elements_refuted_pf. Qed.
Print Assumptions C24_clear_all_elements_refuted.

(** Three triangles, the second and third in segments, the first in none but with
    an entry: copied without the second. *)
Definition cs_cfg := full_config Triangle.
Definition cs_ops : list (sop nat) :=
  map (fun o => SMesh o) [OVertex 10; OVertex 11; OVertex 12; OVertex 13; OVertex 14;
    OElement Triangle [0;1;2]; OElement Triangle [1;2;3]; OElement Triangle [2;3;4]] ++
  [SManage (SgId 7); SManage (SgId 3); SAdd 0 Triangle 1; SAdd 1 Triangle 2; SAdd 0 Triangle 2].
Example C24_hypotheses_met : sreach cs_cfg (sstate_of cs_cfg cs_ops) /\
  map (segment_ids (sstate_of cs_cfg cs_ops) Triangle) [0; 1; 2] = [Some []; Some [7]; Some [3; 7]]%Z.
Proof. split; [apply sdemo_ok|]; vm_compute; reflexivity. Qed.
Example C24_example :
  match copy_seg cs_cfg (sstate_of cs_cfg cs_ops) (new_sstate empty_mesh) (fun c => negb (c =? 1)) with
  | Done s => Some (length (range (st_mesh s) Vertex), map (segment_ids s Triangle) (range (st_mesh s) Triangle), length (segment_range (st_segs s)))
  | _ => None
  end = Some (5, [Some []; Some [3; 7]]%Z, 2).
Proof. vm_compute. reflexivity. Qed.

(** copy_segmentation(src_mesh, src_segmentation, dst_mesh, dst_segmentation) with a
    new destination segmentation, when the elements of the destination mesh
    correspond by id to elements of the source mesh that have entries: every
    element is put in exactly the segments of its counterpart. *)
Theorem C24_copy_segmentation_partial : forall Pt cfgs cfgd (src : sstate Pt) (dm : @mesh Pt),
  cfg_cell cfgs <> Hex -> cfg_cell cfgd <> Hex -> sreach cfgs src -> reach cfgd dm -> same_structure (st_mesh src) dm ->
  (forall t x y, same_id (st_mesh src) dm t x y -> segment_ids src t x <> None) ->
  exists dst, copy_segmentation src (new_sstate dm) = Done dst /\ sreach cfgd dst /\ st_mesh dst = dm /\
    forall t x y, same_id (st_mesh src) dm t x y -> same_segments src dst t x y.
Proof. exact C24_copy_segmentation_partial_pf. Qed.
Print Assumptions C24_copy_segmentation_partial.

(** The same mesh built again (elements without entries would make the call
    undefined, so the first triangle is put into a segment too). *)
Definition cs_ops2 : list (sop nat) := cs_ops ++ [SAdd 1 Triangle 0].
Example C24_copy_segmentation_example :
  valid_srunb cs_cfg cs_ops2 (new_sstate empty_mesh) = true /\
  match copy_segmentation (sstate_of cs_cfg cs_ops2) (new_sstate (st_mesh (sstate_of cs_cfg cs_ops2))) with
  | Done s => Some (map (segment_ids s Triangle) [0;1;2], map (segment_ids s Line) [2;3;4])
  | _ => None
  end = Some ([Some [3]; Some [7]; Some [3; 7]], [Some [7; 3]; Some [7]; Some [7; 3]])%Z.
Proof. split; vm_compute; reflexivity. Qed.
Example C24_structure_met : same_structure (st_mesh (sstate_of cs_cfg cs_ops2)) (st_mesh (sstate_of cs_cfg cs_ops2)).
Proof. apply (same_structure_refl nat cs_cfg). apply (srun_mesh_reach cs_cfg); [discriminate|]. apply sdemo_ok. vm_compute. reflexivity. Qed.
