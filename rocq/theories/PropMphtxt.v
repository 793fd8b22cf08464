(** Properties C71 and C72: contacts and files of the Comsol writer. *)
From Coq Require Import Reals List Arith ZArith Bool.
From Verif Require Import ModelTopo ModelMesh ModelErase ModelGeom ModelSegmentation ModelSegment ModelMphtxt
  SpecMesh SpecErase SpecQuery SpecView SpecSegmentation SpecSegment SpecInterface SpecCopy SpecGeom SpecMphtxt
  SegmentDemo InterfaceDemo MphtxtDemo MphtxtProofs.
Import ModelSegmentation ListNotations.
Open Scope nat_scope.

(** The contacts of the Comsol writer are exactly the patches of the hulls: a triangle on no
    hull has none (-1), the contacts are numbered 0, 1, ... without gaps, and two triangles
    have the same contact iff a chain of adjoining triangles joins them.  The segments are not changed. *)
Theorem C71_contacts : forall cfg s, cfg_cell cfg = Tet -> sreach cfg s -> (forall a, is_segment s a -> two_cells cfg s a) ->
  exists s' f n, mark_contacts cfg s = Some (s', f, n) /\
    (st_mesh s' = st_mesh s /\ st_segs s' = st_segs s /\ forall b, k_view (st_con s' b) = k_view (st_con s b)) /\
    (forall x, (f x = -1)%Z <-> forall a, is_segment s a -> ~ on_hull cfg s a x) /\
    (forall x a, is_segment s a -> on_hull cfg s a x -> (0 <= f x < n)%Z) /\
    (forall k, (0 <= k < n)%Z -> exists x, f x = k) /\
    (forall x y, (f x <> -1)%Z -> (f x = f y <-> patch cfg s x y)).
Proof. exact C71_contacts_pf. Qed.
Print Assumptions C71_contacts.

(** If the segments do not overlap, two triangles of the hulls adjoin iff they have a common
    vertex, are in the same segments and are coplanar. *)
Theorem C71_separate_segments : forall cfg s x y, cfg_cell cfg = Tet -> sreach cfg s -> separate_segments cfg s ->
  (adjoining cfg s x y <-> (exists a, is_segment s a /\ on_hull cfg s a x) /\ (exists b, is_segment s b /\ on_hull cfg s b y) /\
    share (st_mesh s) Triangle Vertex x y /\
    (forall b, is_segment s b -> (in_segment s b Triangle x <-> in_segment s b Triangle y)) /\
    coplanar (st_mesh s) x y).
Proof. exact C71_separate_segments_pf. Qed.
Print Assumptions C71_separate_segments.

(** Not so: the triangles of one contact lie in one plane.  The tolerance is for neighbours;
    along a chain the directions may differ by any amount. *)
Theorem C71_one_plane_refuted : exists cfg s s' f n x y, cfg_cell cfg = Tet /\ sreach cfg s /\ (forall a, is_segment s a -> two_cells cfg s a) /\
  mark_contacts cfg s = Some (s', f, n) /\ f x <> (-1)%Z /\ f x = f y /\ ~ coplanar (st_mesh s) x y.
Proof. exact C71_one_plane_refuted_pf. Qed.
Print Assumptions C71_one_plane_refuted.

(** Two tetrahedra in two segments: the hypotheses hold, and the common triangle is on both hulls. *)
Example C71_hypotheses_met : forall p, cfg_cell mp_cfg = Tet /\ sreach mp_cfg (pair_mesh p) /\
  (forall a, is_segment (pair_mesh p) a -> two_cells mp_cfg (pair_mesh p) a) /\
  on_one_cell_of mp_cfg (pair_mesh p) 0 3 /\ in_segment (pair_mesh p) 1 Triangle 3 /\
  separate_segments mp_cfg (pair_mesh p).
Proof.
  intros p. split; [reflexivity|]. split; [apply pair_reach|]. split; [apply pair_two_cells|].
  split; [exact (proj1 (one_cellb_spec mp_cfg (pair_mesh p) 0 3) (pair_hull p))|].
  split; [exact (in_segmentb_in (pair_mesh p) 1 Triangle 3 (pair_shared p))|apply pair_separate].
Qed.

(** What the writer puts into the file: the points of the vertices in order; the tetrahedra in
    order, by the positions of their vertices, each with the number of a segment it is in plus
    one; and each triangle on a hull once, in order of the ids, with its contact and with
    the numbers plus one of the segments behind it and before it. *)
Theorem C72_file_partial : forall cfg s, cfg_cell cfg = Tet -> cfg_keep cfg Triangle = true -> sreach cfg s ->
  (forall a, is_segment s a -> two_cells cfg s a) ->
  (forall c, In c (range (st_mesh s) Tet) -> exists a, is_segment s a /\ in_segment s a Tet c) ->
  exists s' F, write_mphtxt cfg s = Some (s', F) /\
    (st_mesh s' = st_mesh s /\ st_segs s' = st_segs s /\ forall b, k_view (st_con s' b) = k_view (st_con s b)) /\
    map (point_at (st_mesh s)) (range (st_mesh s) Vertex) = map Some (mp_points F) /\
    Forall2 (at_positions (st_mesh s) Tet) (range (st_mesh s) Tet) (mp_tets F) /\
    Forall2 (fun c d => exists a z, segment_has_id s a z /\ in_segment s a Tet c /\ d = (z + 1)%Z) (range (st_mesh s) Tet) (mp_domains F) /\
    exists hs, lists_exactly hs (fun x => exists a, is_segment s a /\ on_hull cfg s a x) /\ id_increasing (st_mesh s) Triangle hs /\
      Forall2 (at_positions (st_mesh s) Triangle) hs (mp_triangles F) /\
      Forall2 (fun x v => some_segment s (segment_side true cfg s x) (fst v) /\ some_segment s (segment_side false cfg s x) (snd v)) hs (mp_sides F) /\
      exists f, mp_contacts F = map f hs /\ (forall x, In x hs -> (0 <= f x)%Z) /\
        forall x y, In x hs -> In y hs -> (f x = f y <-> patch cfg s x y).
Proof. exact C72_file_partial_pf. Qed.
Print Assumptions C72_file_partial.

(** Not so: segmented meshes with tetrahedra in no segment are written, with number 0.  The
    list of the segments of the tetrahedron is empty and its first entry is read. *)
Theorem C72_no_segment_refuted : forall cfg s c, cfg_cell cfg = Tet -> cfg_keep cfg Triangle = true -> sreach cfg s -> (forall a, is_segment s a -> two_cells cfg s a) ->
  In c (range (st_mesh s) Tet) -> (forall a, is_segment s a -> ~ in_segment s a Tet c) -> write_mphtxt cfg s = None.
Proof. exact C72_no_segment_refuted_pf. Qed.
Print Assumptions C72_no_segment_refuted.

(** The two tetrahedra in two segments: the hypotheses of [C72_file_partial] hold. *)
Example C72_hypotheses_met : forall p, cfg_keep mp_cfg Triangle = true /\
  forall c, In c (range (st_mesh (pair_mesh p)) Tet) -> exists a, is_segment (pair_mesh p) a /\ in_segment (pair_mesh p) a Tet c.
Proof.
  intros p. split; [reflexivity|]. intros c Hc. rewrite pair_tets in Hc.
  destruct Hc as [<-|[<-|[]]].
  - exists 0. split; [|exact (in_segmentb_in (pair_mesh p) 0 Tet 0 (pair_in0 p))]. unfold is_segment. rewrite pair_range. simpl. auto.
  - exists 1. split; [|exact (in_segmentb_in (pair_mesh p) 1 Tet 1 (pair_in1 p))]. unfold is_segment. rewrite pair_range. simpl. auto.
Qed.
(** A tetrahedron in no segment. *)
Example C72_no_segment_case : forall p, sreach mp_cfg (lone p) /\ In 0 (range (st_mesh (lone p)) Tet) /\ write_mphtxt mp_cfg (lone p) = None.
Proof. intros p. split; [apply lone_reach|]. split; [rewrite lone_tets; now left|apply lone_write]. Qed.
