(** Property C42: seed points. *)
From Coq Require Import Reals List Arith ZArith Bool Relations.
From Verif Require Import ModelTopo ModelMesh ModelErase ModelGeom ModelVolume ModelQuery ModelSegmentation ModelSegment ModelSeeds
  SpecMesh SpecErase SpecGeom SpecQuery SpecSegmentation SpecSegment SpecSeeds QueryDemo SegmentDemo SeedsProofs.
Import ModelSegmentation ListNotations.
Open Scope nat_scope.
(** The seed points of a mesh in any state: the call ends and adds to the
    container, in this order, the centroids of the first cells, in the iteration
    order of the mesh, of the components of the mesh: of every component exactly one. *)
Theorem C42_mesh : forall cfg (q : qstate point) points, qreach cfg q ->
  let t := cfg_cell cfg in let m := q_mesh q in
  exists N, forall fuel, N <= fuel -> exists q' seeds new,
    mesh_seeds fuel t q points = Finished (q', points ++ new) /\ q_mesh q' = m /\
    one_per_component (share m t (facet_tag t)) (range m t) seeds /\ map Some new = map (cell_center m t) seeds.
Proof. exact C42_mesh_pf. Qed.
Print Assumptions C42_mesh.

(** The same for a segment; the components are those of the segment: chains of
    neighbours inside the segment. *)
Theorem C42_segment : forall cfg (s : sstate point) a points, cfg_cell cfg <> Hex -> sreach cfg s -> is_segment s a ->
  let t := cfg_cell cfg in let m := st_mesh s in
  exists N, forall fuel, N <= fuel -> exists k seeds new,
    segment_seeds fuel t s a points = Finished (k, points ++ new) /\ k_view k = k_view (st_con s a) /\
    one_per_component (fun x y => in_segment s a t y /\ share m t (facet_tag t) x y) (k_view (st_con s a) t) seeds /\
    map Some new = map (cell_center m t) seeds.
Proof. exact C42_segment_pf. Qed.
Print Assumptions C42_segment.

(** For a segmentation every segment is treated in this way, in the order of the
    segments, and its points are labelled with its id. *)
Theorem C42_segmentation : forall cfg (s : sstate point) points, cfg_cell cfg <> Hex -> sreach cfg s ->
  let t := cfg_cell cfg in let m := st_mesh s in
  exists N, forall fuel, N <= fuel -> exists s' parts,
    segmentation_seeds fuel t s points = Finished (s', points ++ concat parts) /\
    st_mesh s' = m /\ st_segs s' = st_segs s /\ (forall a, k_view (st_con s' a) = k_view (st_con s a)) /\
    Forall2 (fun a part => exists z seeds new, segment_has_id s a z /\ part = map (fun p => (p, z)) new /\ map Some new = map (cell_center m t) seeds /\
      one_per_component (fun x y => in_segment s a t y /\ share m t (facet_tag t) x y) (k_view (st_con s a) t) seeds) (segment_range (st_segs s)) parts.
Proof. exact C42_segmentation_pf. Qed.
Print Assumptions C42_segmentation.

(** Four triangles: 0 and 2 share an edge, 1 and 3 share an edge, nothing else does. *)
Definition sd_ops : list (op point) :=
  [OVertex (pt2 0 0); OVertex (pt2 1 0); OVertex (pt2 0 1); OVertex (pt2 1 1); OVertex (pt2 5 0); OVertex (pt2 6 0); OVertex (pt2 5 1); OVertex (pt2 6 1);
   OElement Triangle [0;1;2]; OElement Triangle [4;5;6]; OElement Triangle [1;2;3]; OElement Triangle [5;6;7]].
Definition sd_mesh : qstate point := qstate_of (full_config Triangle) (map (fun o => QMesh o) sd_ops).
Definition sd_seg : sstate point :=
  sstate_of (full_config Triangle) (map (fun o => SMesh o) sd_ops ++ [SManage (SgId 7); SManage (SgId 3); SAdd 0 Triangle 3; SAdd 0 Triangle 2; SAdd 0 Triangle 1; SAdd 1 Triangle 0]).
Example C42_hypotheses_met : qreach (full_config Triangle) sd_mesh /\ cfg_cell (full_config Triangle) <> Hex /\ sreach (full_config Triangle) sd_seg /\
  segment_range (st_segs sd_seg) = [1; 0] /\ k_view (st_con sd_seg 0) Triangle = [1; 2; 3].
Proof.
  split; [apply qdemo_ok; cbv -[pt2]; reflexivity|]. split; [discriminate|]. split; [apply sdemo_ok; cbv -[pt2]; reflexivity|].
  split; cbv -[pt2]; reflexivity.
Qed.
Example C42_example_mesh :
  (match mesh_seeds 9 Triangle sd_mesh [pt2 9 9] with Finished r => map Some (snd r) | _ => [] end) =
  [Some (pt2 9 9); cell_center (q_mesh sd_mesh) Triangle 0; cell_center (q_mesh sd_mesh) Triangle 1].
Proof. cbv -[pt2 centroid]. reflexivity. Qed.
Example C42_example_segments :
  (match segmentation_seeds 9 Triangle sd_seg [] with Finished r => map (fun p => (Some (fst p), snd p)) (snd r) | _ => [] end) =
  [(cell_center (st_mesh sd_seg) Triangle 0, 3%Z); (cell_center (st_mesh sd_seg) Triangle 1, 7%Z); (cell_center (st_mesh sd_seg) Triangle 2, 7%Z)].
Proof. cbv -[pt2 centroid]. reflexivity. Qed.
