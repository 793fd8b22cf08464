(** C67, C68: a Netgen file is read as the mesh that it describes. *)
From Coq Require Import Ascii String List Arith ZArith Bool Lia.
From Verif Require Import ModelTopo ModelMesh ModelErase ModelSegmentation ModelSegment ModelCopySeg ModelXml ModelVtk ModelNetgen
  SpecMesh SpecErase SpecSegmentation SpecSegment SpecCopy SpecCopySeg SpecVtk SpecNetgen VtkDemo NetgenProofs.
Import ModelSegmentation ListNotations.
Open Scope nat_scope.
(** C67: whatever the blanks between the words, and whatever follows, a file that
    describes a mesh is read into an empty mesh as this mesh, and the state is that
    of a correct history but for the next automatic ids. *)
Theorem C67_read : forall (K : Type) (F : format K) (cfg : config) file ps cs ws tail,
  cfg_cell cfg <> Hex -> cfg_cell cfg <> Vertex -> file_words F ps cs ws -> words_of file = ws ++ tail ->
  points_ok F ps -> Forall (cell_ok cfg (List.length ps)) cs ->
  exists s, read_netgen F cfg (Some file) (new_sstate empty_mesh) = Done s /\ mesh_of_file cfg s ps cs /\
    exists s', sreach cfg s' /\ same_state_but_ids (cfg_cell cfg) s s'.
Proof. exact C67_read_pf. Qed.
Print Assumptions C67_read.

(** C68: a file that ends too early, with its last word, is rejected. *)
Theorem C68_truncated_partial : forall (K : Type) (F : format K) (cfg : config) file ps cs ws k,
  cfg_cell cfg <> Hex -> cfg_cell cfg <> Vertex -> file_words F ps cs ws -> 0 < k < List.length ws -> words_of file = firstn k ws -> ends_in_word file ->
  points_ok F ps -> Forall (cell_ok cfg (List.length ps)) cs -> read_netgen F cfg (Some file) (new_sstate empty_mesh) = Thrown.
Proof. exact C68_truncated_partial_pf. Qed.
Print Assumptions C68_truncated_partial.

(** But if there is a blank at the end, a file without the cells is a mesh without
    cells. *)
Theorem C68_no_cells_refuted : forall (K : Type) (F : format K) (cfg : config) file ps ws b,
  cfg_cell cfg <> Hex -> cfg_cell cfg <> Vertex -> vertices_part F ps ws -> points_ok F ps -> words_of file = ws -> ends_in_word file -> separator b = true ->
  exists s, read_netgen F cfg (Some (file ++ [b])) (new_sstate empty_mesh) = Done s /\ mesh_of_file cfg s ps [].
Proof. exact C68_no_cells_refuted_pf. Qed.
Print Assumptions C68_no_cells_refuted.

(** The numbers of the vertices are not checked. *)
Theorem C68_bad_number_refuted : forall (K : Type) (F : format K) (cfg : config) file ps pre c post ws tail,
  cfg_cell cfg <> Hex -> cfg_cell cfg <> Vertex -> file_words F ps (pre ++ c :: post) ws -> words_of file = ws ++ tail ->
  points_ok F ps -> Forall (cell_ok cfg (List.length ps)) pre -> List.length (snd c) = nverts (cfg_cell cfg) -> Exists (fun k => ~ (1 <= k <= Z.of_nat (List.length ps))%Z) (snd c) ->
  read_netgen F cfg (Some file) (new_sstate empty_mesh) = Undefined.
Proof. exact C68_bad_number_refuted_pf. Qed.
Print Assumptions C68_bad_number_refuted.

(** After a file with an odd number of vertices the next vertex gets the id of the last
    one; id_upper_bound is not above this id, and so it is with the cells. *)
Theorem C67_next_id_refuted : forall (K : Type) (F : format K) (cfg : config) file ps cs ws tail,
  cfg_cell cfg <> Hex -> cfg_cell cfg <> Vertex -> file_words F ps cs ws -> words_of file = ws ++ tail ->
  points_ok F ps -> Forall (cell_ok cfg (List.length ps)) cs ->
  exists s, read_netgen F cfg (Some file) (new_sstate empty_mesh) = Done s /\
    (Nat.odd (List.length ps) = true -> id_upper_bound (st_mesh s) Vertex = List.length ps - 1 /\
       forall p, exists m' v, make_vertex cfg (st_mesh s) p = Some (m', v) /\ id_at m' Vertex v = Some (List.length ps - 1)) /\
    (Nat.odd (List.length cs) = true -> id_upper_bound (st_mesh s) (cfg_cell cfg) = List.length cs - 1).
Proof. exact C67_next_id_refuted_pf. Qed.
Print Assumptions C67_next_id_refuted.

Definition ng_cfg : config := vtk_cfg.
Definition ng_head : string := "4
1 1
 2 1
1 2
2 2
".
(** A file that meets the hypotheses: two triangles in the segments 5 and 3, with a
    surface part at the end. *)
Definition ng_file : text := txt (ng_head ++ "2
5 1 2 3
3  2 3 4
0 ").
Definition ng_points : list (list nat) := [[1; 1]; [2; 1]; [1; 2]; [2; 2]].
Definition ng_cells : list (Z * list Z) := [(5, [1; 2; 3]); (3, [2; 3; 4])]%Z.
Example C67_hypotheses : cfg_cell ng_cfg <> Hex /\ cfg_cell ng_cfg <> Vertex /\
  (exists ws, file_words (nats false 2) ng_points ng_cells ws /\ words_of ng_file = ws ++ [txt "0"]) /\ points_ok (nats false 2) ng_points /\ Forall (cell_ok ng_cfg 4) ng_cells.
Proof.
  split; [discriminate|]. split; [discriminate|]. split; [|split].
  - eexists. split.
    + eexists. split; [|reflexivity]. exists (map (map (fun x => num (Z.of_nat x))) ng_points). split; [|reflexivity].
      repeat first [apply Forall2_nil | apply Forall2_cons]; reflexivity.
    + reflexivity.
  - split; [discriminate|]. repeat constructor.
  - repeat constructor; cbn; try lia; intuition congruence.
Qed.
Example C67_example : match read_netgen (nats false 2) ng_cfg (Some ng_file) (new_sstate empty_mesh) with
  | Done s => Some (map (point_at (st_mesh s)) (range (st_mesh s) Vertex), map (vertices_at (st_mesh s) Triangle) (range (st_mesh s) Triangle), g_ids (st_segs s),
                    map (fun a => k_view (st_con s a) Triangle) [0; 1], List.length (range (st_mesh s) Line))
  | _ => None end =
  Some ([Some [1; 1]; Some [2; 1]; Some [1; 2]; Some [2; 2]], [Some [0; 1; 2]; Some [1; 2; 3]], [(3%Z, 1); (5%Z, 0)], [[0]; [1]], 5).
Proof. vm_compute. reflexivity. Qed.
(** The files of C68_truncated_partial and C68_no_cells_refuted. *)
Example C68_truncated_example : let file := txt (ng_head ++ "2
5 1 2") in ends_in_word file /\ words_of file = firstn 13 (words_of ng_file) /\ read_netgen (nats false 2) ng_cfg (Some file) (new_sstate empty_mesh) = Thrown.
Proof. split; [exists (txt (ng_head ++ "2
5 1 ")), "2"%char; split; reflexivity|]. split; vm_compute; reflexivity. Qed.
Example C68_no_cells_example : let file := txt (ng_head) in exists f b, file = f ++ [b] /\ ends_in_word f /\ separator b = true /\
  words_of f = firstn 9 (words_of ng_file) /\
  match read_netgen (nats false 2) ng_cfg (Some file) (new_sstate empty_mesh) with Done s => Some (List.length (range (st_mesh s) Vertex), range (st_mesh s) Triangle) | _ => None end = Some (4, []).
Proof.
  exists (removelast (txt ng_head)), "010"%char. split; [reflexivity|]. split; [exists (removelast (removelast (txt ng_head))), "2"%char; split; reflexivity|]. split; [reflexivity|]. split; vm_compute; reflexivity.
Qed.

(** If the last vertex number is missing and there is a blank at the end, the cell is
    made with the vertex before it twice. *)
Theorem C68_last_vertex_refuted : exists (cfg : config) file s,
  read_netgen (nats false 2) cfg (Some file) (new_sstate empty_mesh) = Done s /\
  words_of file = map num [3; 1; 1; 2; 1; 1; 2; 1; 5; 1; 2]%Z /\ cfg_cell cfg = Triangle /\
  map (vertices_at (st_mesh s) Triangle) (range (st_mesh s) Triangle) = [Some [0; 1; 1]].
Proof. exact C68_last_vertex_refuted_pf. Qed.
Print Assumptions C68_last_vertex_refuted.

(** Read into a mesh that has vertices, the cells are made on the old ones. *)
Theorem C67_append_refuted : exists (cfg : config) file (m : @mesh (list nat)) s,
  reach cfg m /\ read_netgen (nats false 2) cfg (Some file) (new_sstate m) = Done s /\
  words_of file = map num [3; 1; 1; 2; 1; 1; 2; 1; 5; 1; 2; 3]%Z /\ cfg_cell cfg = Triangle /\
  map (vertices_at (st_mesh s) Triangle) (range (st_mesh s) Triangle) = [Some [0; 1; 2]] /\
  map (point_at (st_mesh s)) [0; 1; 2] = [Some [7; 7]; Some [8; 8]; Some [1; 1]].
Proof. exact C67_append_refuted_pf. Qed.
Print Assumptions C67_append_refuted.
