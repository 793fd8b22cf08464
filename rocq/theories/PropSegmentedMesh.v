(** Property C70: copying segmented meshes. *)
From Coq Require Import List Arith ZArith Bool.
From Verif Require Import ModelTopo ModelMesh ModelErase ModelSegmentation ModelSegment ModelCopy ModelCopySeg ModelSegmentedMesh
  SpecMesh SpecErase SpecSegmentation SpecSegment SpecCopy SpecCopySeg MeshDemo SegmentDemo SegmentedMeshProofs.
Import ModelSegmentation ListNotations.
Open Scope nat_scope.

(** A copy has one cell for each cell, in order, on vertices with the same points,
    and each in the segments with the same ids; the other variables keep their
    values.
    Partial: every cell must have an entry in the segmentation
    (C70_unrecorded_refuted). *)
Theorem C70_copy_partial : forall Pt cfg (st : @store Pt) x y, let src := st y in let t := cfg_cell cfg in
  x <> y -> t <> Hex -> t <> Vertex -> sreach cfg src -> (forall c, In c (range (st_mesh src) t) -> segment_ids src t c <> None) ->
  exists st' phi, sm_copy cfg x y st = Done st' /\ sreach cfg (st' x) /\ (forall z, z <> x -> st' z = st z) /\
    is_copy (st_mesh src) (st_mesh (st' x)) t (range (st_mesh src) t) phi /\
    Forall2 (same_segments src (st' x) t) (range (st_mesh src) t) (range (st_mesh (st' x)) t) /\
    (forall z, has_id (st_segs (st' x)) z <-> exists c, In c (range (st_mesh src) t) /\ in_segment_id src z t c).
Proof. exact C70_copy_partial_pf. Qed.
Print Assumptions C70_copy_partial.

(** If a cell has no entry in the segmentation, for instance if the segmentation was
    never used, making a copy is undefined. *)
Theorem C70_unrecorded_refuted : forall Pt cfg (st : @store Pt) x y c, let src := st y in let t := cfg_cell cfg in
  x <> y -> t <> Hex -> t <> Vertex -> sreach cfg src -> In c (range (st_mesh src) t) -> segment_ids src t c = None ->
  sm_copy cfg x y st = Undefined.
Proof. exact C70_unrecorded_refuted_pf. Qed.
Print Assumptions C70_unrecorded_refuted.

(** A vertex that is in no cell is not copied: the copy has fewer vertices. *)
Theorem C70_isolated_vertex_refuted : forall Pt cfg (st st' : @store Pt) x y v, let src := st y in let t := cfg_cell cfg in
  x <> y -> t <> Hex -> t <> Vertex -> sreach cfg src -> sm_copy cfg x y st = Done st' ->
  In v (range (st_mesh src) Vertex) -> (forall c vs, In c (range (st_mesh src) t) -> vertices_at (st_mesh src) t c = Some vs -> ~ In v vs) ->
  length (range (st_mesh (st' x)) Vertex) < length (range (st_mesh src) Vertex).
Proof. exact C70_isolated_vertex_refuted_pf. Qed.
Print Assumptions C70_isolated_vertex_refuted.

(** A segment without cells is not copied. *)
Theorem C70_empty_segment_refuted : forall Pt cfg (st st' : @store Pt) x y z, let src := st y in let t := cfg_cell cfg in
  x <> y -> t <> Hex -> t <> Vertex -> sreach cfg src -> sm_copy cfg x y st = Done st' ->
  has_id (st_segs src) z -> (forall c, ~ in_segment_id src z t c) -> ~ has_id (st_segs (st' x)) z.
Proof. exact C70_empty_segment_refuted_pf. Qed.
Print Assumptions C70_empty_segment_refuted.

(** Assigning once more throws, if some cell is in a segment. *)
Theorem C70_assign_again_refuted : forall Pt cfg (st : @store Pt) x y, let src := st y in let t := cfg_cell cfg in
  x <> y -> t <> Hex -> t <> Vertex -> sreach cfg src -> (forall c, In c (range (st_mesh src) t) -> segment_ids src t c <> None) ->
  (exists c z, In c (range (st_mesh src) t) /\ in_segment_id src z t c) ->
  exists st', sm_copy cfg x y st = Done st' /\ sm_assign cfg x y st' = Thrown.
Proof. exact C70_assign_again_refuted_pf. Qed.
Print Assumptions C70_assign_again_refuted.

(** Assigning a segmented mesh to itself empties it. *)
Theorem C70_self_refuted : forall Pt cfg (st : @store Pt) x, exists st', sm_assign cfg x x st = Done st' /\
  (forall t, range (st_mesh (st' x)) t = []) /\ (forall z, ~ has_id (st_segs (st' x)) z) /\ (forall y, y <> x -> st' y = st y).
Proof. exact C70_self_refuted_pf. Qed.
Print Assumptions C70_self_refuted.

(** Three triangles, two of them in segments, and a vertex in none. *)
Definition sm_cfg := full_config Triangle.
Definition sm_ops : list (sop nat) :=
  map (fun o => SMesh o) [OVertex 10; OVertex 11; OVertex 12; OVertex 13; OVertex 14; OVertex 15;
    OElement Triangle [0;1;2]; OElement Triangle [1;2;3]; OElement Triangle [2;3;4]] ++
  [SManage (SgId 7); SManage (SgId 3); SManage (SgId 9); SAdd 0 Triangle 1; SAdd 1 Triangle 2; SAdd 0 Triangle 2].
Definition sm_store : @store nat := fun _ => sstate_of sm_cfg sm_ops.
Example C70_hypotheses_met : sreach sm_cfg (sm_store 0) /\ range (st_mesh (sm_store 0)) Triangle = [0; 1; 2] /\
  map (segment_ids (sm_store 0) Triangle) [0; 1; 2] = [Some []; Some [7]; Some [3; 7]]%Z.
Proof. unfold sm_store. split; [apply sdemo_ok; vm_compute; reflexivity|]. split; vm_compute; reflexivity. Qed.
Example C70_example :
  match sm_copy sm_cfg 1 0 sm_store with
  | Done st => Some (map (vertices_at (st_mesh (st 1)) Triangle) (range (st_mesh (st 1)) Triangle), length (range (st_mesh (st 1)) Vertex),
                     map (segment_ids (st 1) Triangle) (range (st_mesh (st 1)) Triangle), map fst (g_ids (st_segs (st 1))))
  | _ => None
  end = Some ([Some [0; 1; 2]; Some [1; 2; 3]; Some [2; 3; 4]], 5, [Some []; Some [7]; Some [3; 7]]%Z, [3; 7]%Z).
Proof. vm_compute. reflexivity. Qed.
