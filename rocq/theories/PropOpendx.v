(** C77: what the OpenDX writer puts into a file. *)
From Coq Require Import Reals List Arith ZArith Bool String Lia Lra.
From Verif Require Import ModelTopo ModelMesh ModelErase ModelOpendx
  SpecMesh SpecErase SpecCopy SpecOpendx MeshDemo EraseDemo OpendxProofs.
Import ListNotations.
Open Scope nat_scope.
(** The values are never those of the quantity: each is larger by one unit of the last
    digit written, before it is rounded. *)
Theorem C77_values : forall v z, dx_number v = Some z -> (/ 200000 <= IZR z / 100000 - v <= 3 / 200000)%R.
Proof. exact C77_values_pf. Qed.
Print Assumptions C77_values.

(** Not so: numbers with five digits after the point are written as they are. *)
Theorem C77_values_refuted : forall k z, dx_number (IZR k / 100000) = Some z -> z = (k + 1)%Z.
Proof. exact C77_values_refuted_pf. Qed.
Print Assumptions C77_values_refuted.

(** Numbers whose multiple by 10000 is not too large for a long are written. *)
Theorem C77_values_defined : forall v, (Rabs v * 10000 < 2 ^ 63)%R -> exists z, dx_number v = Some z.
Proof. exact C77_values_defined_pf. Qed.
Print Assumptions C77_values_defined.

(** The points of the file are those of the vertices, in order, and the numbers of items
    are right.  The cells are right if the id of each vertex is its position. *)
Theorem C77_mesh_partial : forall (Pt : Type) cfg d w (m : @mesh Pt) f, ereach cfg m -> write_opendx cfg d w m = Some f ->
  map (point_at m) (range m Vertex) = map Some (dx_points f) /\ dx_dim f = d /\ dx_items f = List.length (dx_points f) /\
  dx_cell_items f = List.length (dx_cells f) /\
  (ids_are_positions m -> Forall2 (cell_at m (cfg_cell cfg)) (range m (cfg_cell cfg)) (dx_cells f)).
Proof. exact C77_mesh_partial_pf. Qed.
Print Assumptions C77_mesh_partial.

(** In a history without erasing and without ids of the user's choice the id of each
    vertex is its position. *)
Theorem C77_plain_history : forall (Pt : Type) cfg (m : @mesh Pt), plain_reach cfg m -> ereach cfg m /\ ids_are_positions m.
Proof. exact C77_plain_history_pf. Qed.
Print Assumptions C77_plain_history.

(** Not so: the cells are right after elements have been erased.  The line of a cell with a
    vertex whose id is not its position is wrong. *)
Theorem C77_positions_refuted : forall (Pt : Type) cfg d w (m : @mesh Pt) f c vs v k, ereach cfg m -> write_opendx cfg d w m = Some f ->
  In c (range m (cfg_cell cfg)) -> vertices_at m (cfg_cell cfg) c = Some vs -> In v vs ->
  id_at m Vertex v = Some k -> nth_error (range m Vertex) k <> Some v ->
  ~ Forall2 (cell_at m (cfg_cell cfg)) (range m (cfg_cell cfg)) (dx_cells f).
Proof. exact C77_positions_refuted_pf. Qed.
Print Assumptions C77_positions_refuted.

(** The cells of meshes of simplices whose dimension is that of the points are named and
    counted correctly: as many vertices in each line as the file says. *)
Theorem C77_element_type_partial : forall (Pt : Type) cfg d w (m : @mesh Pt) f, ereach cfg m -> write_opendx cfg d w m = Some f ->
  (d = 1 /\ cfg_cell cfg = Line) \/ (d = 2 /\ cfg_cell cfg = Triangle) \/ (d = 3 /\ cfg_cell cfg = Tet) ->
  dx_names (dx_type f) (cfg_cell cfg) /\ forall l, In l (dx_cells f) -> List.length l = dx_shape f.
Proof. exact C77_element_type_partial_pf. Qed.
Print Assumptions C77_element_type_partial.

(** Not so: the type of the cells is written for all meshes.  It is that of the dimension of
    the points, wrong for all other cells, and the file is written nevertheless. *)
Theorem C77_element_type_refuted : forall (Pt : Type) cfg d w (m : @mesh Pt) f, write_opendx cfg d w m = Some f ->
  ~ ((d = 1 /\ cfg_cell cfg = Line) \/ (d = 2 /\ cfg_cell cfg = Triangle) \/ (d = 3 /\ cfg_cell cfg = Tet)) ->
  ~ dx_names (dx_type f) (cfg_cell cfg).
Proof. exact C77_element_type_refuted_pf. Qed.
Print Assumptions C77_element_type_refuted.

(** The data of the file are the quantity on vertices that is first in alphabetic order, else
    that on cells: one number for each vertex or cell, in order. *)
Theorem C77_quantity : forall (Pt : Type) cfg d l (m : @mesh Pt) f, write_opendx cfg d (fold_left register l no_data) m = Some f ->
  (forall q, least OnVertices l q -> exists zs, dx_data f = Some (List.length zs, zs, OnVertices) /\
     Forall2 (fun v z => (/ 200000 <= IZR z / 100000 - snd q v <= 3 / 200000)%R) (range m Vertex) zs) /\
  (forall q, (forall r, ~ registered OnVertices l r) -> least OnCells l q -> exists zs, dx_data f = Some (List.length zs, zs, OnCells) /\
     Forall2 (fun c z => (/ 200000 <= IZR z / 100000 - snd q c <= 3 / 200000)%R) (range m (cfg_cell cfg)) zs) /\
  ((forall w r, ~ registered w l r) -> dx_data f = None).
Proof. exact C77_quantity_pf. Qed.
Print Assumptions C77_quantity.

(** Not so: of several quantities the first registered is written and the others are ignored,
    as the warning says. *)
Theorem C77_ignored_refuted : forall (Pt : Type) cfg d q r (m : @mesh Pt) f, String.compare (fst r) (fst q) = Lt ->
  write_opendx cfg d (fold_left register [(OnVertices, q); (OnVertices, r)] no_data) m = Some f ->
  exists zs, dx_data f = Some (List.length zs, zs, OnVertices) /\
    Forall2 (fun v z => (/ 200000 <= IZR z / 100000 - snd r v <= 3 / 200000)%R) (range m Vertex) zs.
Proof. exact C77_ignored_refuted_pf. Qed.
Print Assumptions C77_ignored_refuted.

(** Not so: a file without a quantity can be read.  It refers to data that are not in it. *)
Theorem C77_no_quantity_refuted : forall (Pt : Type) cfg d (m : @mesh Pt) f, write_opendx cfg d no_data m = Some f ->
  exists s, In s (dx_uses f) /\ ~ In s (dx_objects f).
Proof. exact C77_no_quantity_refuted_pf. Qed.
Print Assumptions C77_no_quantity_refuted.

(** Files are written in one to three dimensions if no value is too large. *)
Theorem C77_written : forall (Pt : Type) cfg d l (m : @mesh Pt), ereach cfg m -> 1 <= d <= 3 ->
  (forall w q x, registered w l q -> (Rabs (snd q x) * 10000 < 2 ^ 63)%R) -> exists f, write_opendx cfg d (fold_left register l no_data) m = Some f.
Proof. exact C77_written_pf. Qed.
Print Assumptions C77_written.

(** Not so: all values can be written.  With one of 2^63/10000 and more the conversion to long is undefined. *)
Theorem C77_large_value_refuted : forall (Pt : Type) cfg d q (m : @mesh Pt) v, In v (range m Vertex) -> (Rabs (snd q v) * 10000 >= 2 ^ 63 + 1)%R ->
  write_opendx cfg d (register no_data (OnVertices, q)) m = None.
Proof. exact C77_large_value_refuted_pf. Qed.
Print Assumptions C77_large_value_refuted.

(** A square of two triangles; then the first triangle and its own vertex are erased. *)
Definition dx_demo : list (op unit) :=
  [OVertex tt; OVertex tt; OVertex tt; OVertex tt; OElement Triangle [0; 1; 2]; OElement Triangle [1; 2; 3]].
Definition dx_erased : list (op unit) :=
  dx_demo ++ [OErase (fun t => match t with Vertex => [0] | Line => [0; 1] | Triangle => [0] | _ => [] end)].
Definition dx_cfg : config := full_config Triangle.
(** The first is a plain history with a file of two triangles; the hypotheses of
    [C77_mesh_partial], [C77_element_type_partial] and [C77_written] hold. *)
Example C77_square : plain_reach dx_cfg (mesh_of dx_cfg dx_demo) /\ cfg_cell dx_cfg = Triangle /\
  option_map (fun f => (dx_items f, dx_cells f, dx_shape f, dx_type f)) (write_opendx dx_cfg 2 no_data (mesh_of dx_cfg dx_demo)) =
  Some (4, [[0; 1; 2]; [1; 2; 3]], 3, "triangles"%string).
Proof.
  split; [|split; [reflexivity|vm_compute; reflexivity]].
  assert (P : forall ops m m', plain_reach dx_cfg m -> forallb (fun o => match o with OVertexId _ _ | OErase _ => false | _ => true end) ops = true ->
    valid_runb dx_cfg ops m = true -> run dx_cfg ops m = Some m' -> plain_reach dx_cfg (Pt := unit) m').
  { induction ops as [|o ops IH]; intros m m' R Q V E; [injection E as <-; exact R|]. cbn [forallb] in Q. apply andb_prop in Q as (Q1 & Q2).
    cbn [valid_runb] in V. apply andb_prop in V as (V1 & V2). unfold run in E. cbn [ofold] in E. destruct (step dx_cfg m o) as [m1|] eqn:S; [|discriminate].
    apply (IH m1 m'); auto. apply (plain_step dx_cfg m o m1); auto; [destruct o; try discriminate; exact I|]. now apply valid_opb_sound. }
  apply (P dx_demo empty_mesh); [constructor|reflexivity|vm_compute; reflexivity|vm_compute; reflexivity].
Qed.
(** After erasing, the remaining triangle refers to vertices with the ids 1, 2 and 3, but there
    are three points only: the hypotheses of [C77_positions_refuted] hold. *)
Example C77_erased : ereach dx_cfg (mesh_of dx_cfg dx_erased) /\
  option_map (fun f => (dx_items f, dx_cells f)) (write_opendx dx_cfg 2 no_data (mesh_of dx_cfg dx_erased)) = Some (3, [[1; 2; 3]]).
Proof. destruct (demo_eok dx_cfg dx_erased) as (_ & R); [vm_compute; reflexivity|]. split; [exact R|vm_compute; reflexivity]. Qed.
(** A quantity whose name comes first may be registered last. *)
Example C77_names : String.compare "charge" "potential" = Lt.
Proof. reflexivity. Qed.
