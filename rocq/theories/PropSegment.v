(** Properties C20, C21 and C46: the contents of segments. *)
From Coq Require Import List Arith ZArith Bool.
From Verif Require Import ModelTopo ModelMesh ModelErase ModelAccessor ModelQuery ModelView ModelSegmentation ModelSegment
  SpecMesh SpecErase SpecQuery SpecView SpecSegmentation SpecSegment SegmentDemo SegmentProofs.
Import ModelSegmentation ListNotations.
Open Scope nat_scope.

(** Every correct call is defined, in every history. *)
Theorem C20_always_defined : forall Pt cfg (s : sstate Pt) o, cfg_cell cfg <> Hex -> sreach cfg s -> valid_sop cfg s o ->
  exists s', sstep cfg s o = Some s' /\ sreach cfg s'.
Proof. exact C20_always_defined_pf. Qed.
Print Assumptions C20_always_defined.

(** In every history the answer of is_in_segment, when there is one, is whether
    the element is iterated; and there is an answer for every element that is
    in some segment. *)
Theorem C20_membership : forall Pt cfg (s : sstate Pt) a t h, cfg_cell cfg <> Hex -> sreach cfg s -> is_segment s a ->
  (forall r, is_in_segment s a t h = Some r -> (r = true <-> in_segment s a t h)) /\
  (forall b, is_segment s b -> in_segment s b t h -> is_in_segment s a t h <> None).
Proof. exact C20_membership_pf. Qed.
Print Assumptions C20_membership.

(** Every segment contains the boundary of each of its elements; it iterates
    over live elements, each once, by increasing id. *)
Theorem C20_closure : forall Pt cfg (s : sstate Pt) a, cfg_cell cfg <> Hex -> sreach cfg s -> is_segment s a ->
  boundary_closed (st_mesh s) (k_view (st_con s a)) /\ good_view (st_mesh s) (k_view (st_con s a)) /\
  forall t, NoDup (k_view (st_con s a) t).
Proof. exact C20_closure_pf. Qed.
Print Assumptions C20_closure.

(** segment_ids lists exactly the ids of the segments containing the element. *)
Theorem C20_segment_ids : forall Pt cfg (s : sstate Pt) t h, cfg_cell cfg <> Hex -> sreach cfg s ->
  (forall l, segment_ids s t h = Some l -> NoDup l /\ forall z, In z l <-> exists a, segment_has_id s a z /\ in_segment s a t h) /\
  (forall a, is_segment s a -> in_segment s a t h -> segment_ids s t h <> None).
Proof. exact C20_segment_ids_pf. Qed.
Print Assumptions C20_segment_ids.

(** all_elements() is the union of the segments. *)
Theorem C20_all_elements : forall Pt cfg (s : sstate Pt) t h, cfg_cell cfg <> Hex -> sreach cfg s ->
  (In h (st_all s t) <-> exists a, is_segment s a /\ in_segment s a t h) /\ NoDup (st_all s t).
Proof. exact C20_all_elements_pf. Qed.
Print Assumptions C20_all_elements.

(** add(segment, h) adds h and its boundary to the segment and changes nothing else. *)
Theorem C20_add : forall Pt cfg (s : sstate Pt) a t h, cfg_cell cfg <> Hex -> sreach cfg s -> is_segment s a -> is_live (st_mesh s) t h ->
  exists s', seg_add a t h s = Some s' /\ st_mesh s' = st_mesh s /\ st_segs s' = st_segs s /\ other_segments_same s s' a /\
    forall bt b, in_segment s' a bt b <-> in_segment s a bt b \/ part_of (st_mesh s) bt b t h.
Proof. exact C20_add_pf. Qed.
Print Assumptions C20_add.

(** Creating an element in a segment does to the mesh what creating it in the
    mesh does, and adds the element returned and its boundary to the segment. *)
Theorem C20_create : forall Pt cfg (s : sstate Pt) a t vs, cfg_cell cfg <> Hex -> sreach cfg s -> is_segment s a ->
  valid_op cfg (st_mesh s) (OElement t vs) ->
  exists s' m' h, make_element cfg t (st_mesh s) vs = Some (m', h) /\ seg_create cfg a (OElement t vs) s = Some s' /\
    st_mesh s' = m' /\ st_segs s' = st_segs s /\ other_segments_same s s' a /\
    forall bt b, in_segment s' a bt b <-> in_segment s a bt b \/ part_of m' bt b t h.
Proof. exact C20_create_pf. Qed.
Print Assumptions C20_create.

(** An element that was never in a segment: is_in_segment fails an assertion
    instead of returning false, and segment_ids is undefined. *)
Theorem C20_never_added_refuted : exists cfg (s : sstate unit) a t h, cfg_cell cfg <> Hex /\ sreach cfg s /\ is_segment s a /\ is_live (st_mesh s) t h /\
  is_in_segment s a t h = None /\ segment_ids s t h = None.
Proof. exact C20_never_added_refuted_pf. Qed.
Print Assumptions C20_never_added_refuted.

(** clear(segment) empties the iteration and leaves is_in_segment and
    segment_ids as they were. *)
Theorem C20_clear_refuted : forall Pt cfg (s : sstate Pt) a t h, cfg_cell cfg <> Hex -> sreach cfg s -> is_segment s a -> in_segment s a t h ->
  let s' := seg_clear a s in
  ~ in_segment s' a t h /\ is_in_segment s' a t h = Some true /\ segment_ids s' t h = segment_ids s t h.
Proof. exact C20_clear_refuted_pf. Qed.
Print Assumptions C20_clear_refuted.

(** Hexahedra (edge 6 of the table is wrong): after creating a hexahedron in a
    segment the segment iterates over a line it is asked about in vain, and
    after adding one the segment lacks a line of one of its quadrilaterals. *)
Theorem C20_hexahedron_refuted : exists (s : sstate unit), sreach (full_config Hex) s /\
  (exists h, in_segment s 0 Line h /\ is_in_segment s 0 Line h = None) /\
  (exists q b, in_segment s 1 Quad q /\ bounded_by (st_mesh s) Quad q Line b /\ ~ in_segment s 1 Line b).
Proof. exact C20_hexahedron_refuted_pf. Qed.
Print Assumptions C20_hexahedron_refuted.

(** erase(segment, h) removes exactly the elements of the segment that have h in
    their boundary; the other segments, the mesh and h itself stay, and the
    segment stays closed.  Missing for C21: h should be removed as well. *)
Theorem C21_erase_partial : forall Pt cfg (s : sstate Pt) a t h, cfg_cell cfg <> Hex -> sreach cfg s -> is_segment s a -> in_segment s a t h ->
  exists s', seg_erase a t h s = Some s' /\ st_mesh s' = st_mesh s /\ st_segs s' = st_segs s /\ other_segments_same s s' a /\
    (forall t' x, in_segment s' a t' x <-> in_segment s a t' x /\ ~ bounded_by (st_mesh s) t' x t h) /\
    boundary_closed (st_mesh s') (k_view (st_con s' a)).
Proof. exact C21_erase_partial_pf. Qed.
Print Assumptions C21_erase_partial.

(** erase(segment, h) never removes h, neither from the iteration nor for is_in_segment. *)
Theorem C21_element_stays_refuted : forall Pt cfg (s : sstate Pt) a t h, cfg_cell cfg <> Hex -> sreach cfg s -> is_segment s a -> in_segment s a t h ->
  exists s', seg_erase a t h s = Some s' /\ in_segment s' a t h /\ is_in_segment s' a t h = Some true.
Proof. exact C21_element_stays_refuted_pf. Qed.
Print Assumptions C21_element_stays_refuted.

(** At any point of any history the coboundary elements of a member, asked on
    the segment, are exactly the elements of the segment that have it in their
    boundary, each once. *)
Theorem C46_coboundary : forall Pt cfg (s : sstate Pt) a const bt ct b, cfg_cell cfg <> Hex -> sreach cfg s -> is_segment s a -> in_segment s a bt b ->
  exists k l, seg_cob const bt ct (st_mesh s) (st_con s a) b = Some (k, l) /\ k_view k = k_view (st_con s a) /\
    lists_exactly l (fun x => in_segment s a ct x /\ bounded_by (st_mesh s) ct x bt b).
Proof. exact C46_coboundary_pf. Qed.
Print Assumptions C46_coboundary.

(** Likewise the neighbours of a member. *)
Theorem C46_neighbors : forall Pt cfg (s : sstate Pt) a const t c x, cfg_cell cfg <> Hex -> sreach cfg s -> is_segment s a -> in_segment s a t x ->
  exists k l, seg_nb const t c (st_mesh s) (st_con s a) x = Some (k, l) /\ k_view k = k_view (st_con s a) /\
    lists_exactly l (fun y => in_segment s a t y /\ share (st_mesh s) t c x y).
Proof. exact C46_neighbors_pf. Qed.
Print Assumptions C46_neighbors.

(** is_boundary(segment, x) is true exactly for the facets of exactly one cell of
    the segment and the elements of such facets, provided no facet belongs to
    more than two cells of the segment. *)
Theorem C46_boundary : forall Pt cfg (s : sstate Pt) a t x, cfg_cell cfg <> Hex -> sreach cfg s -> is_segment s a -> in_segment s a t x ->
  t = facet_tag (cfg_cell cfg) \/ In t (bnd_types cfg) -> (forall f n, cell_count_of cfg s a f n -> n <= 2) ->
  exists k r, seg_bnd cfg t (st_mesh s) (st_con s a) x = Some (k, r) /\ k_view k = k_view (st_con s a) /\
    (r = true <-> on_boundary_of cfg s a t x).
Proof. exact C46_boundary_pf. Qed.
Print Assumptions C46_boundary.

(** clear(segment) breaks this: the elements that were in the segment before can
    be added again without the caches of the segment being refilled. *)
Theorem C46_clear_refuted : exists cfg (s s' : sstate unit), sreach cfg s /\
  srun cfg [SAdd 0 Triangle 0; SCob 0 true Line Triangle 0; SAdd 0 Triangle 1] (seg_clear 0 s) = Some s' /\
  in_segment s' 0 Triangle 1 /\ bounded_by (st_mesh s') Triangle 1 Line 0 /\
  option_map snd (seg_cob true Line Triangle (st_mesh s') (st_con s' 0) 0) = Some [0].
Proof. exact C46_clear_refuted_pf. Qed.
Print Assumptions C46_clear_refuted.

(** Two segments sharing an edge: a history that meets the hypotheses of all the
    theorems above, and some of the answers. *)
Definition sd_cfg := full_config Triangle.
Definition sd_ops : list (sop unit) :=
  map (fun o => SMesh o) [OVertex tt; OVertex tt; OVertex tt; OVertex tt] ++
  [SManage SgMake; SManage (SgId 7); SCreate 0 (OElement Triangle [0;1;2]); SMesh (OElement Triangle [1;2;3]);
   SCob 0 false Line Triangle 2; SBnd 0 Line 2; SAdd 1 Triangle 1; SAdd 0 Triangle 1; SNb 0 true Triangle Line 0].
Example C20_hypotheses_met : sreach sd_cfg (sstate_of sd_cfg sd_ops) /\ cfg_cell sd_cfg <> Hex.
Proof. split; [apply sdemo_ok; vm_compute; reflexivity|discriminate]. Qed.
Example C20_answers : let s := sstate_of sd_cfg sd_ops in
  segment_range (st_segs s) = [0; 1] /\
  map (k_view (st_con s 0)) [Vertex; Line; Triangle] = [[0;1;2;3]; [0;1;2;3;4]; [0;1]] /\
  map (k_view (st_con s 1)) [Vertex; Line; Triangle] = [[1;2;3]; [2;3;4]; [1]] /\
  map (is_in_segment s 1 Line) [0;1;2;3;4] = [Some false; Some false; Some true; Some true; Some true] /\
  segment_ids s Line 2 = Some [0; 7]%Z /\ segment_ids s Line 0 = Some [0%Z] /\
  option_map snd (seg_cob true Line Triangle (st_mesh s) (st_con s 0) 2) = Some [0;1] /\
  option_map snd (seg_cob true Line Triangle (st_mesh s) (st_con s 1) 2) = Some [1] /\
  option_map snd (seg_bnd sd_cfg Line (st_mesh s) (st_con s 0) 2) = Some false /\
  option_map snd (seg_bnd sd_cfg Line (st_mesh s) (st_con s 1) 2) = Some true /\
  option_map snd (seg_nb true Triangle Line (st_mesh s) (st_con s 0) 0) = Some [1].
Proof. vm_compute. repeat split. Qed.
(** Erasing the shared edge from the first segment. *)
Example C21_answers : let s := sstate_of sd_cfg (sd_ops ++ [SErase 0 Line 2]) in
  map (k_view (st_con s 0)) [Vertex; Line; Triangle] = [[0;1;2;3]; [0;1;2;3;4]; []] /\
  map (k_view (st_con s 1)) [Vertex; Line; Triangle] = [[1;2;3]; [2;3;4]; [1]].
Proof. vm_compute. repeat split. Qed.
