(** C50: distance to the boundary of a mesh and between lines. *)
From Coq Require Import Reals List Arith Lia Lra Permutation.
From Verif Require Import ModelTopo ModelMesh ModelErase ModelQuery ModelGeom ModelClosest ModelDistance SpecMesh SpecErase SpecQuery SpecRefine SpecGeom SpecClosest SpecDistance QueryDemo DistanceProofs.
Import ListNotations.
Local Open Scope R_scope.
(** closest_points_on_boundary(point, mesh) leaves the mesh alone and returns
    the point and the nearest point of the boundary of the mesh; only if the
    mesh has no boundary facet, it returns an unrelated pair. *)
Theorem C50_mesh_boundary : forall cfg d p (s : qstate point), qreach cfg s -> at_most_two cfg (q_mesh s) ->
  (forall f ps, on_one_cell cfg (q_mesh s) f -> has_points (q_mesh s) (facet_tag (cfg_cell cfg)) f ps -> solid d (facet_tag (cfg_cell cfg)) ps) ->
  exists s' r, closest_on_boundary cfg d p s = Some (s', r) /\ q_mesh s' = q_mesh s /\
    match r with
    | Some (x, y) => x = p /\ nearest d p (on_mesh_boundary cfg d (q_mesh s)) y
    | None => forall f, ~ on_one_cell cfg (q_mesh s) f
    end.
Proof. exact C50_mesh_boundary_pf. Qed.
Print Assumptions C50_mesh_boundary.

(** The boundary distance of two objects whose facets are lines (triangle and
    quadrilateral meshes): one of the points lies on the boundary of each
    object, and no pair of such points is nearer.  What is missing: degenerate
    and nearly parallel lines, and objects whose facets are not lines. *)
Theorem C50_between_lines_partial : forall d ls1 ls2,
  (forall l1 l2, In l1 ls1 -> In l2 ls2 -> comparable d l1 l2) ->
  exists r, closest_between_lines d ls1 ls2 = Some r /\
    match r with
    | Some (x, y) => nearest_pair d (on_lines d ls1) (on_lines d ls2) x y \/ nearest_pair d (on_lines d ls2) (on_lines d ls1) x y
    | None => ls1 = [] \/ ls2 = []
    end.
Proof. exact C50_between_lines_partial_pf. Qed.
Print Assumptions C50_between_lines_partial.

(** distance(line, line) is the distance of the two lines. *)
Theorem C50_lines : forall d l1 l2, comparable d l1 l2 -> exists r, distance_lines d l1 l2 = Some r /\
  set_distance d (in_hull d [fst l1; snd l1]) (in_hull d [fst l2; snd l2]) r.
Proof. exact C50_lines_pf. Qed.
Print Assumptions C50_lines.

(** distance(line, segment) never looks at the first line of the segment: the
    result is the distance to the others ... *)
Theorem C50_first_line_refuted : forall d l l0 l1 ls,
  (forall k, In k (l1 :: ls) -> comparable d l k) ->
  exists r, distance_line_segment d l (l0 :: l1 :: ls) = Some r /\
    set_distance d (in_hull d [fst l; snd l]) (on_lines d (l1 :: ls)) r.
Proof. exact C50_first_line_refuted_pf. Qed.
Print Assumptions C50_first_line_refuted.

(** ... so that a line of the segment can have a positive distance from the
    segment, and a segment with one line has none. *)
Theorem C50_segment_refuted :
  (let l := (pt2 0 0, pt2 1 0) in let k := (pt2 0 2, pt2 1 2) in
   exists r, distance_line_segment 2 l [l; k] = Some r /\ 0 < r) /\
  forall d l l0, distance_line_segment d l [l0] = None.
Proof. exact C50_segment_refuted_pf. Qed.
Print Assumptions C50_segment_refuted.

(** A negative distance means that there are no lines, and nothing else. *)
Theorem C50_no_lines : forall d l ls r, distance_line_segment d l ls = Some r -> (r < 0 <-> ls = []).
Proof. exact C50_no_lines_pf. Qed.
Print Assumptions C50_no_lines.

(** With at least one line before the others the result is right if the first
    line is not the nearest one. *)
Theorem C50_segment_partial : forall d l l0 l1 ls,
  (forall k, In k (l1 :: ls) -> comparable d l k) ->
  (forall x y, in_hull d [fst l; snd l] x -> in_hull d [fst l0; snd l0] y ->
     exists x' y', in_hull d [fst l; snd l] x' /\ on_lines d (l1 :: ls) y' /\ dist d x' y' <= dist d x y) ->
  exists r, distance_line_segment d l (l0 :: l1 :: ls) = Some r /\
    set_distance d (in_hull d [fst l; snd l]) (on_lines d (l0 :: l1 :: ls)) r.
Proof. exact C50_segment_partial_pf. Qed.
Print Assumptions C50_segment_partial.

(** A square of two triangles, after deletions and queries; all facets but the
    diagonal are on the boundary. *)
Definition bd_cfg := full_config Triangle.
Definition bd_ops : list (qop point) :=
  [QMesh (OVertex (pt2 0 0)); QMesh (OVertex (pt2 2 0)); QMesh (OVertex (pt2 0 2)); QMesh (OVertex (pt2 2 2));
   QMesh (OElement Triangle [0;1;2]%nat); QBnd Line 1%nat; QMesh (OElement Triangle [1;2;3]%nat)].
Example C50_witness_mesh : qreach bd_cfg (qstate_of bd_cfg bd_ops) /\ at_most_two bd_cfg (q_mesh (qstate_of bd_cfg bd_ops)) /\
  (forall f ps, on_one_cell bd_cfg (q_mesh (qstate_of bd_cfg bd_ops)) f ->
     has_points (q_mesh (qstate_of bd_cfg bd_ops)) (facet_tag (cfg_cell bd_cfg)) f ps -> solid 2 (facet_tag (cfg_cell bd_cfg)) ps) /\
  length (range (q_mesh (qstate_of bd_cfg bd_ops)) Line) = 5%nat.
Proof.
  split; [apply qdemo_ok; cbv -[pt2]; reflexivity|].
  split; [apply at_most_twob_sound; cbv -[pt2]; reflexivity|].
  split; [|cbv -[pt2]; reflexivity].
  generalize (q_mesh (qstate_of bd_cfg bd_ops)). intros m f ps _ _. exact I.
Qed.
(** The first line is not the nearest. *)
Example C50_witness_segment : let l := (pt2 0 0, pt2 1 0) in let l0 := (pt2 0 5, pt2 1 5) in let l1 := (pt2 0 2, pt2 1 2) in
  comparable 2 l l1 /\
  forall x y, in_hull 2 [fst l; snd l] x -> in_hull 2 [fst l0; snd l0] y ->
     exists x' y', in_hull 2 [fst l; snd l] x' /\ on_lines 2 [l1] y' /\ dist 2 x' y' <= dist 2 x y.
Proof.
  cbv zeta. split.
  - split; [|split].
    + intros H. specialize (H 0%nat ltac:(auto)). cbn in H. lra.
    + intros H. specialize (H 0%nat ltac:(auto)). cbn in H. lra.
    + left. exists 1. intros [|[|i]] Hi; cbn; lra.
  - intros x y X Y. cbn [fst snd] in *. apply ClosestProofs.hull2 in X. apply ClosestProofs.hull2 in Y. destruct X as (s & S & X), Y as (t & T & Y).
    exists (pt2 s 0), (pt2 t 2). split; [|split].
    + apply ClosestProofs.hull2. exists s. split; [exact S|]. intros [|[|i]] Hi; cbn; lra.
    + exists (pt2 0 2, pt2 1 2). split; [now left|]. apply ClosestProofs.hull2. exists t. split; [exact T|]. intros [|[|i]] Hi; cbn; lra.
    + apply ClosestProofs.dist_le. pose proof (X 0%nat ltac:(auto)) as X0. pose proof (X 1%nat ltac:(auto)) as X1. pose proof (Y 0%nat ltac:(auto)) as Y0. pose proof (Y 1%nat ltac:(auto)) as Y1.
      unfold ClosestProofs.D2, inner_prod, psub. cbn in *. rewrite X0, X1, Y0, Y1. nra.
Qed.
