(** C56: surfaces of elements, meshes and segments. *)
From Coq Require Import Reals List Arith Lia Lra.
From Verif Require Import ModelTopo ModelMesh ModelErase ModelQuery ModelSegmentation ModelSegment ModelGeom ModelVolume ModelSurface
  SpecMesh SpecErase SpecQuery SpecSegmentation SpecSegment SpecRefine SpecGeom SpecDistance SpecSurface QueryDemo SegmentDemo SurfaceProofs.
Import ModelSegmentation ListNotations.
Local Open Scope R_scope.
(** surface(mesh) leaves the mesh alone and is the sum of the volumes of the
    facets that belong to exactly one cell, whatever changes and queries came
    before. *)
Theorem C56_mesh : forall cfg d q, qreach cfg q -> at_most_two cfg (q_mesh q) -> measured d (facet_tag (cfg_cell cfg)) ->
  exists q' r fs vs, surface_mesh cfg d q = Some (q', r) /\ q_mesh q' = q_mesh q /\ qreach cfg q' /\
    lists_exactly fs (on_one_cell cfg (q_mesh q)) /\
    Forall2 (has_volume d (q_mesh q) (facet_tag (cfg_cell cfg))) fs vs /\ r = Rsum vs.
Proof. exact C56_mesh_pf. Qed.
Print Assumptions C56_mesh.

(** surface(element) is the sum of the volumes of its stored facets. *)
Theorem C56_element : forall cfg d (m : @mesh point) t a e, ereach cfg m -> deref m t a = Some e -> measured d (facet_tag t) ->
  exists vs, surface_element d m t a = Some (Rsum vs) /\ Forall2 (has_volume d m (facet_tag t)) (boundary_of e (facet_tag t)) vs.
Proof. exact C56_element_pf. Qed.
Print Assumptions C56_element.

(** The surfaces of the cells add up to the surface of the mesh and twice the
    volumes of the inner facets. *)
Theorem C56_cells : forall cfg d q, qreach cfg q -> at_most_two cfg (q_mesh q) -> measured d (facet_tag (cfg_cell cfg)) ->
  exists q' r ss fs vs, surface_mesh cfg d q = Some (q', r) /\
    Forall2 (fun c s => surface_element d (q_mesh q) (cfg_cell cfg) c = Some s) (range (q_mesh q) (cfg_cell cfg)) ss /\
    lists_exactly fs (fun f => cell_count cfg (q_mesh q) f 2) /\
    Forall2 (has_volume d (q_mesh q) (facet_tag (cfg_cell cfg))) fs vs /\
    Rsum ss = r + 2 * Rsum vs.
Proof. exact C56_cells_pf. Qed.
Print Assumptions C56_cells.

(** surface(segment) is the sum of the volumes of the facets that belong to
    exactly one cell of the segment. *)
Theorem C56_segment : forall cfg d (s : sstate point) a, cfg_cell cfg <> Hex -> sreach cfg s -> is_segment s a ->
  measured d (facet_tag (cfg_cell cfg)) -> (forall f n, cell_count_of cfg s a f n -> (n <= 2)%nat) ->
  exists s' r fs vs, surface_segment cfg d s a = Some (s', r) /\ sreach cfg s' /\ st_mesh s' = st_mesh s /\
    lists_exactly fs (on_one_cell_of cfg s a) /\
    Forall2 (has_volume d (st_mesh s) (facet_tag (cfg_cell cfg))) fs vs /\ r = Rsum vs.
Proof. exact C56_segment_pf. Qed.
Print Assumptions C56_segment.

(** If every cell is in exactly one segment, the surfaces of the segments add up
    to the surface of the mesh and twice the volumes of the facets between
    different segments. *)
Theorem C56_segments : forall cfg d (s : sstate point) q, cfg_cell cfg <> Hex -> sreach cfg s -> qreach cfg q -> q_mesh q = st_mesh s ->
  at_most_two cfg (q_mesh q) -> measured d (facet_tag (cfg_cell cfg)) ->
  (forall c, is_live (st_mesh s) (cfg_cell cfg) c -> exists a, forall b, is_segment s b /\ in_segment s b (cfg_cell cfg) c <-> b = a) ->
  exists q' r ss fs vs, surface_mesh cfg d q = Some (q', r) /\
    Forall2 (fun a x => exists s', surface_segment cfg d s a = Some (s', x)) (segment_range (st_segs s)) ss /\
    lists_exactly fs (between_segments cfg s) /\
    Forall2 (has_volume d (st_mesh s) (facet_tag (cfg_cell cfg))) fs vs /\
    Rsum ss = r + 2 * Rsum vs.
Proof. exact C56_segments_pf. Qed.
Print Assumptions C56_segments.

(** Two triangles in the plane in two segments; the square has the circumference
    4, the line between the segments is counted in both of them. *)
Definition su_cfg := full_config Triangle.
Definition su_ops : list (op point) :=
  [OVertex (pt2 0 0); OVertex (pt2 1 0); OVertex (pt2 0 1); OVertex (pt2 1 1); OElement Triangle [0;1;2]%nat; OElement Triangle [1;2;3]%nat].
Definition su_q : qstate point := qstate_of su_cfg (map (fun o => QMesh o) su_ops).
Definition su_extra : list (sop point) := [SManage (SgId 7); SManage (SgId 3); SAdd 0 Triangle 0%nat; SAdd 1 Triangle 1%nat].
Definition su_s : sstate point := sstate_of su_cfg (map (fun o => SMesh o) su_ops ++ su_extra).
Example C56_hypotheses_met : qreach su_cfg su_q /\ at_most_two su_cfg (q_mesh su_q) /\ measured 2 (facet_tag (cfg_cell su_cfg)).
Proof.
  split; [apply qdemo_ok; cbv -[pt2]; reflexivity|]. split; [|exact Logic.I].
  apply at_most_twob_sound. cbv -[pt2]. reflexivity.
Qed.
Example C56_segments_met : sreach su_cfg su_s /\ q_mesh su_q = st_mesh su_s /\ segment_range (st_segs su_s) = [1; 0]%nat /\
  forall c, is_live (st_mesh su_s) Triangle c -> exists a, forall b, is_segment su_s b /\ in_segment su_s b Triangle c <-> b = a.
Proof.
  split; [apply sdemo_ok; cbv -[pt2]; reflexivity|]. split.
  { unfold su_s, su_q. rewrite qmesh_of, smesh_eq; [reflexivity|reflexivity|cbv -[pt2]; reflexivity]. }
  split; [cbv -[pt2]; reflexivity|].
  assert (L : range (st_mesh su_s) Triangle = [0; 1]%nat) by (cbv -[pt2]; reflexivity).
  assert (V : forall b, b = 0%nat \/ b = 1%nat -> k_view (st_con su_s b) Triangle = [b]) by (intros b [-> | ->]; cbv -[pt2]; reflexivity).
  assert (S : forall b, is_segment su_s b <-> b = 0%nat \/ b = 1%nat).
  { intros b. unfold is_segment. replace (segment_range (st_segs su_s)) with [1; 0]%nat by (cbv -[pt2]; reflexivity). cbn. intuition. }
  intros c Lc. pose proof (proj2 (SurfaceProofs.range_iff (st_mesh su_s) Triangle c) Lc) as Hc. rewrite L in Hc. clear Lc.
  exists c. intros b. rewrite S. unfold in_segment. split.
  - intros [Hb Hi]. rewrite (V b Hb) in Hi. destruct Hi as [->|[]]. reflexivity.
  - intros ->. assert (Hb : c = 0%nat \/ c = 1%nat) by (destruct Hc as [<-|[<-|[]]]; [left|right]; reflexivity). split; [exact Hb|]. rewrite (V c Hb). left. reflexivity.
Qed.
