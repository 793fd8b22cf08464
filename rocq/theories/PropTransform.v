(** Property C32: geometric transforms. *)
From Coq Require Import Reals List Arith Lra Lia.
From Verif Require Import ModelTopo ModelMesh ModelGeom ModelVolume SpecMesh SpecRefine SpecGeom MeshDemo TransformProofs.
Import ListNotations.

(** geometric_transform with any map [f] (scale and affine_transform are
    instances): every vertex keeps its handle, id, vertices and boundary, and
    its point p becomes f p; no other element changes, the iteration order and
    the ids still to be given are the same. *)
Theorem C32_only_points_move : forall f (m : @mesh point),
  (forall a e, deref m Vertex a = Some e ->
     exists e', deref (geometric_transform f m) Vertex a = Some e' /\ e_id e' = e_id e /\
       e_verts e' = e_verts e /\ e_bnd e' = e_bnd e /\ e_pt e' = option_map f (e_pt e)) /\
  (forall a, deref m Vertex a = None -> deref (geometric_transform f m) Vertex a = None) /\
  (forall t a, t <> Vertex -> deref (geometric_transform f m) t a = deref m t a) /\
  (forall t, range (geometric_transform f m) t = range m t) /\
  (forall t, id_upper_bound (geometric_transform f m) t = id_upper_bound m t).
Proof. exact C32_only_points_move_pf. Qed.
Print Assumptions C32_only_points_move.

(** The cells of the transformed mesh are the images of the cells of the mesh,
    in the same order. *)
Theorem C32_cells : forall f (m : @mesh point) t,
  mesh_cells (geometric_transform f m) t = option_map (map (map f)) (mesh_cells m t).
Proof. exact C32_cells_pf. Qed.
Print Assumptions C32_cells.

(** scale and affine_transform apply the affine maps they are named for. *)
Theorem C32_maps : forall d factor center M translation,
  is_affine d (fun i j => if Nat.eqb i j then factor else 0%R) (fun i => ((1 - factor) * center i)%R) (scale_functor factor center) /\
  is_affine d (fun i j => M (i * d + j)%nat) translation (affine_functor d M translation).
Proof. exact C32_maps_pf. Qed.
Print Assumptions C32_maps.

(** An affine map of the d-dimensional space multiplies the volume of every
    d-dimensional cell (lines in 1D; triangles, quadrilaterals and polygons in
    2D; tetrahedra and hexahedra in 3D) by the absolute value of its
    determinant. *)
Theorem C32_affine_volume : forall d s A t f ps, is_affine d A t f -> shape_dim s = d ->
  volume_cell d s (map f ps) = option_map (Rmult (Rabs (det (matrix_rows d A)))) (volume_cell d s ps).
Proof. exact C32_affine_volume_pf. Qed.
Print Assumptions C32_affine_volume.

(** scale multiplies the volume of every cell of dimension k, in a space of any
    dimension, by |factor|^k. *)
Theorem C32_scale_volume : forall d s factor center ps,
  volume_cell d s (map (scale_functor factor center) ps) = option_map (Rmult (Rabs factor ^ shape_dim s)) (volume_cell d s ps).
Proof. exact C32_scale_volume_pf. Qed.
Print Assumptions C32_scale_volume.

(** The same for whole meshes. *)
Theorem C32_mesh_volume : forall (m : @mesh point) t d s cells v,
  mesh_cells m t = Some cells -> volume_mesh d s cells = Some v ->
  (forall A tr f, is_affine d A tr f -> shape_dim s = d ->
     exists cells', mesh_cells (geometric_transform f m) t = Some cells' /\
       volume_mesh d s cells' = Some (Rabs (det (matrix_rows d A)) * v)%R) /\
  (forall factor center,
     exists cells', mesh_cells (scale_mesh factor center m) t = Some cells' /\
       volume_mesh d s cells' = Some (Rabs factor ^ shape_dim s * v)%R).
Proof. exact C32_mesh_volume_pf. Qed.
Print Assumptions C32_mesh_volume.

(** The centroid of the transformed mesh is the image of the centroid. *)
Theorem C32_mesh_centroid : forall d s A t f cells c, is_affine d A t f -> shape_dim s = d ->
  det (matrix_rows d A) <> 0%R -> Forall (fun ps => ps <> []) cells ->
  centroid_mesh d s cells = Some c ->
  exists c', centroid_mesh d s (map (map f) cells) = Some c' /\ same_point d c' (f c).
Proof. exact C32_mesh_centroid_pf. Qed.
Print Assumptions C32_mesh_centroid.

(** The hypotheses are met: a reachable mesh with one triangle of area 1/2. *)
Definition demo_ops : list (ModelErase.op point) :=
  [ModelErase.OVertex (pt2 0 0); ModelErase.OVertex (pt2 1 0); ModelErase.OVertex (pt2 0 1); ModelErase.OElement Triangle [0; 1; 2]].
Example C32_witness : exists m cells, ModelErase.run (full_config Triangle) demo_ops empty_mesh = Some m /\ mesh_cells m Triangle = Some cells /\
  volume_mesh 2 ShTriangle cells = Some (1 / 2)%R.
Proof.
  destruct (demo_ok (full_config Triangle) demo_ops eq_refl) as [E _]. exists (mesh_of (full_config Triangle) demo_ops).
  exists [[pt2 0 0; pt2 1 0; pt2 0 1]]. split; [exact E|]. split; [cbv -[pt2]; reflexivity|].
  cbn. f_equal. unfold pt2. rewrite Rabs_pos_eq; lra.
Qed.
