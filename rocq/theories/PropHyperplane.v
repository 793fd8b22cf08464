(** Properties C34 (tetrahedra cut at other points) and C69 (hyperplane_refine). *)
From Coq Require Import Reals List Arith ZArith Bool Lra Lia.
From Verif Require Import ModelTopo ModelMesh ModelErase ModelGeom ModelRefine ModelVolume ModelSegmentation ModelSegment ModelCopySeg ModelRefineMesh ModelRefineSeg ModelHyperplane
  SpecMesh SpecErase SpecCopy SpecRefine SpecGeom SpecTri SpecSegmentation SpecSegment SpecCopySeg SpecRefineMesh SpecHyperplane MeshDemo SegmentDemo RefineSegDemo HyperplaneDemo HyperplaneProofs.
Import ModelSegmentation ListNotations.
Open Scope nat_scope.
(** C34. An edge of a tetrahedron is an edge of one of its parts exactly if it is
    not flagged. *)
Theorem C34_edges_kept_iff_not_flagged :
  forall V d (pos : V -> point) (vid : V -> nat) (vtx mid : nat -> V) (fl : nat -> bool),
  corner_ids_distinct vid 4 vtx -> vertices_distinct vtx mid fl ->
  exists cells, tet_children d pos vid vtx mid fl = Some cells /\
    forall k, k < 6 -> (fl k = false <-> exists c, In c cells /\ In (vtx (fst (tet_edge k))) c /\ In (vtx (snd (tet_edge k))) c).
Proof. exact C34_edges_kept_iff_not_flagged_pf. Qed.
Print Assumptions C34_edges_kept_iff_not_flagged.

(** C34. The parts cover a tetrahedron without overlap also when its edges are not
    split in the middle: if there are masses at the corners such that each edge is
    split at the centre of the masses at its ends. *)
Theorem C34_mass_centres_cover_without_overlap :
  forall V d (pos : V -> point) (vid : V -> nat) (vtx mid : nat -> V) (fl : nat -> bool) (r : nat -> R),
  corner_ids_distinct vid 4 vtx -> (forall i, i < 4 -> (0 < r i)%R) ->
  (forall k, k < 6 -> fl k = true ->
     let a := fst (tet_edge k) in let b := snd (tet_edge k) in mass_centre d (r a) (pos (vtx a)) (r b) (pos (vtx b)) (pos (mid k))) ->
  let tet := map (fun i => pos (vtx i)) [0; 1; 2; 3] in
  exists cells, tet_children d pos vid vtx mid fl = Some cells /\
    covers d tet (map (map pos) cells) /\
    (independent d tet -> no_overlap d (map (map pos) cells)).
Proof. exact C34_mass_centres_cover_without_overlap_pf. Qed.
Print Assumptions C34_mass_centres_cover_without_overlap.

(** C69. hyperplane_refine of a triangle or tetrahedron mesh, when the points where
    the hyperplane cuts lines are not too near to each other or to vertices of the
    destination: the call is defined, the lines that cross the hyperplane are
    exactly those that are split, each at its crossing point, and the rest is as in
    C39.
    Partial: crossing points that are too near share a vertex
    (C69_merged_refuted). *)
Theorem C69_refine_partial : forall d eps o n cfgs cfg (src out : @mesh point),
  reach cfgs src -> cfg_keep cfgs Line = true -> cfg_cell cfgs = Triangle \/ cfg_cell cfgs = Tet ->
  reach cfg out -> cfg_cell cfg = cfg_cell cfgs -> no_merge d eps o n src out ->
  exists out' fl phi mu, hyperplane_refine d eps o n cfg src (cfg_cell cfgs) out = Some out' /\ reach cfg out' /\
    (forall a p q, ends_at src a p q -> (fl a = true <-> line_crosses d eps o n p q)) /\
    is_refinement_at d (crossing_point d o n) src out out' (cfg_cell cfgs) fl phi mu.
Proof. exact C69_refine_partial_pf. Qed.
Print Assumptions C69_refine_partial.

(** C69. After the refinement no new cell crosses the hyperplane any more: no line
    between two of its vertices does, by the criterion by which lines are split. *)
Theorem C69_nothing_crosses : forall d eps o n cfgs cfg (src out out' : @mesh point) fl phi mu,
  reach cfgs src -> cfg_keep cfgs Line = true -> cfg_cell cfgs = Triangle \/ cfg_cell cfgs = Tet -> reach cfg out' ->
  (forall a p q, ends_at src a p q -> (fl a = true <-> line_crosses d eps o n p q)) ->
  is_refinement_at d (crossing_point d o n) src out out' (cfg_cell cfgs) fl phi mu ->
  forall c vs u v p q, In c (range out' (cfg_cell cfgs)) -> ~ In c (range out (cfg_cell cfgs)) -> vertices_at out' (cfg_cell cfgs) c = Some vs ->
    In u vs -> In v vs -> point_at out' u = Some p -> point_at out' v = Some q -> ~ line_crosses d eps o n p q.
Proof. exact C69_nothing_crosses_pf. Qed.
Print Assumptions C69_nothing_crosses.

(** C69 with C33 and C34: the parts of a cell fill it, inside it, and if the cell
    is not degenerate no two of them overlap. *)
Theorem C69_parts_cover : forall d eps o n cfgs cfg (src out out' : @mesh point) fl phi mu,
  reach cfgs src -> cfg_keep cfgs Line = true -> cfg_cell cfgs = Triangle \/ cfg_cell cfgs = Tet -> reach cfg out' ->
  (forall a p q, ends_at src a p q -> (fl a = true <-> line_crosses d eps o n p q)) ->
  is_refinement_at d (crossing_point d o n) src out out' (cfg_cell cfgs) fl phi mu ->
  forall c vs cs ps ids pos ids', vertices_at src (cfg_cell cfgs) c = Some vs -> is_split d src out' (cfg_cell cfgs) fl phi mu c cs ->
    reads src ps ids -> reads out' pos ids' ->
    covers d (map ps vs) (map (map pos) cs) /\ (independent d (map ps vs) -> no_overlap d (map (map pos) cs)).
Proof. exact C69_parts_cover_pf. Qed.
Print Assumptions C69_parts_cover.

(** C69: the parts of cells that share a face fit together at it, as in C39. *)
Theorem C69_conforming : forall d o n cfgs cfg (src out out' : @mesh point) (fl : addr -> bool) phi mu,
  reach cfgs src -> cfg_keep cfgs Line = true -> cfg_cell cfgs = Triangle \/ cfg_cell cfgs = Tet -> reach cfg out' ->
  is_refinement_at d (crossing_point d o n) src out out' (cfg_cell cfgs) fl phi mu ->
  forall c1 vs1 cs1 c2 vs2 cs2 face f,
    vertices_at src (cfg_cell cfgs) c1 = Some vs1 -> is_split d src out' (cfg_cell cfgs) fl phi mu c1 cs1 ->
    vertices_at src (cfg_cell cfgs) c2 = Some vs2 -> is_split d src out' (cfg_cell cfgs) fl phi mu c2 cs2 ->
    NoDup face -> length face = dim (cfg_cell cfgs) -> incl face vs1 -> incl face vs2 ->
    NoDup f -> length f = dim (cfg_cell cfgs) -> (forall u, In u f -> on_face src fl phi mu face u) ->
    ((exists ws, In ws cs1 /\ incl f ws) <-> (exists ws, In ws cs2 /\ incl f ws)).
Proof. exact C69_conforming_pf. Qed.
Print Assumptions C69_conforming.

(** C69 with segments, as in C40: every part of a cell is in the segments with the
    ids of the segments of the cell, and in no others.
    Partial: as C69_refine_partial and C40_refine_partial. *)
Theorem C69_segments_partial : forall d eps o n cfgs cfg (src dst : sstate point),
  let t := cfg_cell cfgs in
  t = Triangle \/ t = Tet -> cfg_keep cfgs Line = true -> cfg_cell cfg = t ->
  sreach cfgs src -> sreach cfg dst -> numbered (st_segs dst) ->
  (forall c, In c (range (st_mesh src) t) -> segment_ids src t c <> None) ->
  no_merge d eps o n (st_mesh src) (st_mesh dst) ->
  exists dst' fl phi mu, hyperplane_refine_seg d eps o n cfg src t dst = Done dst' /\ sreach cfg dst' /\ numbered (st_segs dst') /\
    (forall a p q, ends_at (st_mesh src) a p q -> (fl a = true <-> line_crosses d eps o n p q)) /\
    is_refinement_at d (crossing_point d o n) (st_mesh src) (st_mesh dst) (st_mesh dst') t fl phi mu /\
    (exists parts, range (st_mesh dst') t = range (st_mesh dst) t ++ concat parts /\
      Forall2 (fun c ps => Forall (same_segments src dst' t c) ps /\
        exists cs, is_split d (st_mesh src) (st_mesh dst') t fl phi mu c cs /\ map (vertices_at (st_mesh dst') t) ps = map Some cs)
        (range (st_mesh src) t) parts) /\
    (forall z x, In x (range (st_mesh dst) t) -> (in_segment_id dst' z t x <-> in_segment_id dst z t x)) /\
    (forall z, has_id (st_segs dst) z -> has_id (st_segs dst') z) /\
    (forall z, has_id (st_segs dst') z -> has_id (st_segs dst) z \/ exists c, In c (range (st_mesh src) t) /\ in_segment_id src z t c).
Proof. exact C69_segments_partial_pf. Qed.
Print Assumptions C69_segments_partial.

(** C69 fails if crossing points are too near: a triangle with a corner at a
    distance of 10^-7 from the hyperplane (and not degenerate) is cut at two points that share a
    vertex, and one of its parts has this vertex twice. *)
Theorem C69_merged_refuted : exists o n p0 p1 p2 cfg (src out' : @mesh point) c v w,
  reach cfg src /\ cfg_keep cfg Line = true /\ cfg_cell cfg = Triangle /\
  src = mesh_of cfg [OVertex p0; OVertex p1; OVertex p2; OElement Triangle [0; 1; 2]] /\ independent 2 [p0; p1; p2] /\
  hyperplane_refine 2 0 o n cfg src Triangle empty_mesh = Some out' /\
  In c (range out' Triangle) /\ vertices_at out' Triangle c = Some [v; w; v].
Proof. exact C69_merged_refuted_pf. Qed.
Print Assumptions C69_merged_refuted.

(** A triangle that a hyperplane cuts at (1, 0) and (1, 1), and the same triangle
    in a segment, meet the hypotheses. *)
Example C69_hypotheses_met : reach hp_cfg hp_good /\ cfg_keep hp_cfg Line = true /\ cfg_cell hp_cfg = Triangle /\
  no_merge 2 0 (pt2 1 0) (pt2 1 0) hp_good empty_mesh /\
  ends_at hp_good 0 (pt2 0 0) (pt2 2 0) /\ line_crosses 2 0 (pt2 1 0) (pt2 1 0) (pt2 0 0) (pt2 2 0).
Proof. split; [apply hp_src_reach|]. split; [reflexivity|]. split; [reflexivity|]. apply hp_no_merge; cbv -[pt2]; reflexivity. Qed.
Example C69_segments_hypotheses_met : sreach hp_cfg hp_seg /\ no_merge 2 0 (pt2 1 0) (pt2 1 0) (st_mesh hp_seg) (st_mesh (new_sstate empty_mesh : sstate point)) /\
  numbered (st_segs (new_sstate empty_mesh : sstate point)) /\ range (st_mesh hp_seg) Triangle = [0] /\ segment_ids hp_seg Triangle 0 = Some [7%Z].
Proof.
  split; [apply hp_seg_reach|]. split; [apply hp_no_merge; cbv -[pt2]; reflexivity|]. split; [apply rs_new_numbered|]. split; cbv -[pt2]; reflexivity.
Qed.

(** Masses 1, 3, 2, 5 at the corners of a tetrahedron, all edges flagged: the
    hypotheses of the theorems about tetrahedra are met. *)
Definition hx_mass (i : nat) : R := match i with 0 => 1 | 1 => 3 | 2 => 2 | _ => 5 end%R.
Definition hx_corner (i : nat) : point := match i with 0 => vec3 0 0 0 | 1 => vec3 1 0 0 | 2 => vec3 0 2 0 | _ => vec3 0 0 1 end%R.
Definition hx_pos (v : nat) : point :=
  if v <? 4 then hx_corner v
  else let a := fst (tet_edge (v - 4)) in let b := snd (tet_edge (v - 4)) in
    fun i => ((hx_mass a * hx_corner a i + hx_mass b * hx_corner b i) / (hx_mass a + hx_mass b))%R.
Example C34_masses_met : corner_ids_distinct (fun v : nat => v) 4 (fun i => i) /\ vertices_distinct (fun i => i) (fun k => 4 + k) (fun _ => true) /\
  (forall i, i < 4 -> (0 < hx_mass i)%R) /\
  (forall k, k < 6 -> let a := fst (tet_edge k) in let b := snd (tet_edge k) in
     mass_centre 3 (hx_mass a) (hx_pos a) (hx_mass b) (hx_pos b) (hx_pos (4 + k))) /\
  hx_pos 4 0 = (3 / 4)%R.
Proof.
  split; [intros i j _ _ E; exact E|]. split; [repeat split; intros; simpl in *; lia|].
  split; [intros i _; unfold hx_mass; repeat (destruct i as [|i]; try lra)|]. split.
  - intros k Hk a b i _. do 6 (destruct k as [|k]; [reflexivity|]). lia.
  - unfold hx_pos. cbn. lra.
Qed.
