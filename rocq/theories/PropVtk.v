(** C61-C63: what is written to VTK files is read back. *)
From Coq Require Import Ascii String List Arith ZArith Bool Lia.
From Verif Require Import ModelTopo ModelMesh ModelErase ModelSegmentation ModelSegment ModelCopySeg ModelXml ModelVtk
  SpecMesh SpecErase SpecSegmentation SpecSegment SpecCopy SpecCopySeg SpecXml SpecVtk MeshDemo SegmentDemo VtkDemo VtkProofs.
Import ModelSegmentation ListNotations.
Open Scope nat_scope.
(** C61: the writer writes one file, and reading it into an empty mesh gives the
    used vertices at the rounded points and the cells on them, all in the one
    segment 0, and the state is that of a correct history but for the next id of a
    vertex. *)
Theorem C61_mesh_partial : forall (K : Type) (F : format K) (rnd : K -> K) (cfg : config) (m : @mesh (list K)) (vq cq : list quantity) (name : text),
  sane_format F rnd -> cfg_cell cfg <> Hex -> cfg_cell cfg <> Vertex -> reach cfg m -> Forall quantity_ok vq -> Forall quantity_ok cq ->
  writable F rnd m (cfg_cell cfg) (fun z c => z = 0%Z /\ is_live m (cfg_cell cfg) c) ->
  exists content, write_mesh F cfg m vq cq name = Some [(name ++ txt ".vtu", content)] /\
  forall fs reg, fs (name ++ txt ".vtu") = Some content -> (forall z b n, reg z b true n <> ForSegment) ->
  exists dst ds phi psi, read_vtk F cfg fs reg false (name ++ txt ".vtu") (new_sstate empty_mesh) = Done ((dst, ds), false) /\
    read_back rnd m (cfg_cell cfg) (fun z c => z = 0%Z /\ is_live m (cfg_cell cfg) c) dst phi psi /\
    (forall z, has_id (st_segs dst) z <-> z = 0%Z) /\
    exists T, sreach cfg T /\ same_state_but_generator dst T.
Proof. exact C61_mesh_partial_pf. Qed.
Print Assumptions C61_mesh_partial.

(** C62: with at least two segments the writer writes one file per segment and the
    collection, and reading the collection gives the vertices and cells of the
    segments, and the same segments. *)
Theorem C62_segments_partial : forall (K : Type) (F : format K) (rnd : K -> K) (cfg : config) (s : sstate (list K)) (vq cq : list quantity) (svq scq : Z -> list quantity) (name : text),
  sane_format F rnd -> cfg_cell cfg <> Hex -> cfg_cell cfg <> Vertex -> sreach cfg s -> 1 < segment_count (st_segs s) -> free_of [""""%char; ">"%char] name ->
  (forall z, has_id (st_segs s) z -> Forall quantity_ok (vq ++ svq z) /\ Forall quantity_ok (cq ++ scq z)) ->
  writable F rnd (st_mesh s) (cfg_cell cfg) (fun z c => in_segment_id s z (cfg_cell cfg) c) ->
  exists files, write_segmentation F cfg s vq cq svq scq name = Some files /\ NoDup (map fst files) /\
  forall fs reg, has_files fs files -> (forall z b n, reg z b true n <> ForSegment) ->
  exists dst ds phi psi, read_vtk F cfg fs reg false (name ++ txt "_main.pvd") (new_sstate empty_mesh) = Done ((dst, ds), false) /\
    read_back rnd (st_mesh s) (cfg_cell cfg) (fun z c => in_segment_id s z (cfg_cell cfg) c) dst phi psi /\
    (forall z, has_id (st_segs dst) z <-> has_id (st_segs s) z) /\
    exists T, sreach cfg T /\ same_state_but_generator dst T.
Proof. exact C62_segments_partial_pf. Qed.
Print Assumptions C62_segments_partial.

(** C63: the quantities of a mesh are delivered with the same names, one rounded
    value to the image of every used vertex or of every cell, and nothing else. *)
Theorem C63_mesh_data_partial : forall (K : Type) (F : format K) (rnd : K -> K) (cfg : config) (m : @mesh (list K)) (vq cq : list quantity) (name : text),
  sane_format F rnd -> cfg_cell cfg <> Hex -> cfg_cell cfg <> Vertex -> reach cfg m -> Forall quantity_ok vq -> Forall quantity_ok cq ->
  writable F rnd m (cfg_cell cfg) (fun z c => z = 0%Z /\ is_live m (cfg_cell cfg) c) ->
  exists content, write_mesh F cfg m vq cq name = Some [(name ++ txt ".vtu", content)] /\
  forall fs reg, fs (name ++ txt ".vtu") = Some content -> (forall z b n, reg z b true n <> ForSegment) ->
  exists dst ds phi psi, read_vtk F cfg fs reg false (name ++ txt ".vtu") (new_sstate empty_mesh) = Done ((dst, ds), false) /\
    read_back rnd m (cfg_cell cfg) (fun z c => z = 0%Z /\ is_live m (cfg_cell cfg) c) dst phi psi /\
    all_delivered rnd m (cfg_cell cfg) (fun z c => z = 0%Z /\ is_live m (cfg_cell cfg) c) [0%Z] (fun _ => vq) (fun _ => cq) phi psi ds.
Proof. exact C63_mesh_data_partial_pf. Qed.
Print Assumptions C63_mesh_data_partial.

(** C63: with segments, every segment gets the quantities of the mesh and its own. *)
Theorem C63_segment_data_partial : forall (K : Type) (F : format K) (rnd : K -> K) (cfg : config) (s : sstate (list K)) (vq cq : list quantity) (svq scq : Z -> list quantity) (name : text),
  sane_format F rnd -> cfg_cell cfg <> Hex -> cfg_cell cfg <> Vertex -> sreach cfg s -> 1 < segment_count (st_segs s) -> free_of [""""%char; ">"%char] name ->
  (forall z, has_id (st_segs s) z -> Forall quantity_ok (vq ++ svq z) /\ Forall quantity_ok (cq ++ scq z)) ->
  writable F rnd (st_mesh s) (cfg_cell cfg) (fun z c => in_segment_id s z (cfg_cell cfg) c) ->
  exists files, write_segmentation F cfg s vq cq svq scq name = Some files /\
  forall fs reg, has_files fs files -> (forall z b n, reg z b true n <> ForSegment) ->
  exists dst ds phi psi zs, read_vtk F cfg fs reg false (name ++ txt "_main.pvd") (new_sstate empty_mesh) = Done ((dst, ds), false) /\
    read_back rnd (st_mesh s) (cfg_cell cfg) (fun z c => in_segment_id s z (cfg_cell cfg) c) dst phi psi /\
    NoDup zs /\ (forall z, In z zs <-> has_id (st_segs s) z) /\
    all_delivered rnd (st_mesh s) (cfg_cell cfg) (fun z c => in_segment_id s z (cfg_cell cfg) c) zs (fun z => vq ++ svq z) (fun z => cq ++ scq z) phi psi ds.
Proof. exact C63_segment_data_partial_pf. Qed.
Print Assumptions C63_segment_data_partial.

(** Refuted: a vertex that belongs to no cell is not written, whatever the mesh. *)
Theorem C61_isolated_vertex_refuted : forall (K : Type) (F : format K) (rnd : K -> K) (cfg : config) (m : @mesh (list K)) (name : text) (v : addr),
  sane_format F rnd -> cfg_cell cfg <> Hex -> cfg_cell cfg <> Vertex -> reach cfg m ->
  writable F rnd m (cfg_cell cfg) (fun z c => z = 0%Z /\ is_live m (cfg_cell cfg) c) ->
  is_live m Vertex v -> (forall c vs, vertices_at m (cfg_cell cfg) c = Some vs -> ~ In v vs) ->
  exists content, write_mesh F cfg m [] [] name = Some [(name ++ txt ".vtu", content)] /\
  forall fs reg, fs (name ++ txt ".vtu") = Some content -> (forall z b n, reg z b true n <> ForSegment) ->
  exists dst ds, read_vtk F cfg fs reg false (name ++ txt ".vtu") (new_sstate empty_mesh) = Done ((dst, ds), false) /\
    List.length (range (st_mesh dst) Vertex) < List.length (range m Vertex).
Proof. exact C61_isolated_vertex_refuted_pf. Qed.
Print Assumptions C61_isolated_vertex_refuted.

(** Refuted: a cell that belongs to no segment is not written, whatever the mesh. *)
Theorem C62_lost_cell_refuted : forall (K : Type) (F : format K) (rnd : K -> K) (cfg : config) (s : sstate (list K)) (name : text) (c : addr),
  sane_format F rnd -> cfg_cell cfg <> Hex -> cfg_cell cfg <> Vertex -> sreach cfg s -> 1 < segment_count (st_segs s) -> free_of [""""%char; ">"%char] name ->
  writable F rnd (st_mesh s) (cfg_cell cfg) (fun z c => in_segment_id s z (cfg_cell cfg) c) ->
  is_live (st_mesh s) (cfg_cell cfg) c -> (forall z, ~ in_segment_id s z (cfg_cell cfg) c) ->
  exists files, write_segmentation F cfg s [] [] (fun _ => []) (fun _ => []) name = Some files /\
  forall fs reg, has_files fs files -> (forall z b n, reg z b true n <> ForSegment) ->
  exists dst ds, read_vtk F cfg fs reg false (name ++ txt "_main.pvd") (new_sstate empty_mesh) = Done ((dst, ds), false) /\
    List.length (range (st_mesh dst) (cfg_cell cfg)) < List.length (range (st_mesh s) (cfg_cell cfg)).
Proof. exact C62_lost_cell_refuted_pf. Qed.
Print Assumptions C62_lost_cell_refuted.

(** Refuted: with fewer than two segments the segmentation is not written.  After
    reading there is the segment 0 and no other, with all cells. *)
Theorem C62_single_segment_refuted : forall (K : Type) (F : format K) (rnd : K -> K) (cfg : config) (s : sstate (list K)) (svq scq : Z -> list quantity) (name : text),
  sane_format F rnd -> cfg_cell cfg <> Hex -> cfg_cell cfg <> Vertex -> sreach cfg s -> segment_count (st_segs s) <= 1 ->
  writable F rnd (st_mesh s) (cfg_cell cfg) (fun z c => z = 0%Z /\ is_live (st_mesh s) (cfg_cell cfg) c) ->
  exists content, write_segmentation F cfg s [] [] svq scq name = Some [(name ++ txt ".vtu", content)] /\
  forall fs reg, fs (name ++ txt ".vtu") = Some content -> (forall z b n, reg z b true n <> ForSegment) ->
  exists dst, read_vtk F cfg fs reg false (name ++ txt ".vtu") (new_sstate empty_mesh) = Done ((dst, []), false) /\
    (forall z, has_id (st_segs dst) z <-> z = 0%Z) /\
    forall c, is_live (st_mesh dst) (cfg_cell cfg) c -> in_segment_id dst 0 (cfg_cell cfg) c.
Proof. exact C62_single_segment_refuted_pf. Qed.
Print Assumptions C62_single_segment_refuted.

(** Refuted: a missing .vtu file is no error.  The mesh stays as it is. *)
Theorem C61_missing_file_refuted : forall (K : Type) (F : format K) (cfg : config) fs reg (name : text) (s : sstate (list K)),
  fs (name ++ txt ".vtu") = None -> read_vtk F cfg fs reg false (name ++ txt ".vtu") s = Done ((s, []), false).
Proof. exact C61_missing_file_refuted_pf. Qed.
Print Assumptions C61_missing_file_refuted.

(** Refuted: a reader whose stream was left open reads nothing and reports nothing,
    whatever the file contains. *)
Theorem C61_reuse_refuted : forall (K : Type) (F : format K) (cfg : config) fs reg (name : text) (s : sstate (list K)),
  read_vtk F cfg fs reg true (name ++ txt ".vtu") s = Done ((s, []), true).
Proof. exact C61_reuse_refuted_pf. Qed.
Print Assumptions C61_reuse_refuted.

(** Refuted: vectors for an accessor of a segment.  The loop runs over the
    components: it reads past the end of the array unless there is nothing to read. *)
Theorem C63_segment_vectors_refuted : forall (K : Type) (els : list addr) (l : list K),
  List.length l = 3 * List.length els -> els <> [] -> vector_values ForSegment els l = None.
Proof. exact C63_segment_vectors_refuted_pf. Qed.
Print Assumptions C63_segment_vectors_refuted.

(** Refuted: if rounding makes two points equal, the vertices become one. *)
Theorem C61_merged_points_refuted : exists (F : format nat) (rnd : nat -> nat) (cfg : config) (m : @mesh (list nat)) (name content : text),
  sane_format F rnd /\ reach cfg m /\ write_mesh F cfg m [] [] name = Some [(name ++ txt ".vtu", content)] /\
  (forall v, is_live m Vertex v -> exists c vs, vertices_at m (cfg_cell cfg) c = Some vs /\ In v vs) /\
  forall reg, exists res, read_vtk F cfg (fun _ => Some content) reg false (name ++ txt ".vtu") (new_sstate empty_mesh) = Done res /\
    List.length (range (st_mesh (fst (fst res))) Vertex) < List.length (range m Vertex).
Proof. exact C61_merged_points_refuted_pf. Qed.
Print Assumptions C61_merged_points_refuted.

(** Refuted: after reading, a new vertex can get the id of a vertex that is there. *)
Theorem C61_next_id_refuted : exists (F : format nat) (rnd : nat -> nat) (cfg : config) (m : @mesh (list nat)) (name content : text),
  sane_format F rnd /\ reach cfg m /\ writable F rnd m (cfg_cell cfg) (fun z c => z = 0%Z /\ is_live m (cfg_cell cfg) c) /\
  write_mesh F cfg m [] [] name = Some [(name ++ txt ".vtu", content)] /\
  forall reg p, exists res m' v w, read_vtk F cfg (fun _ => Some content) reg false (name ++ txt ".vtu") (new_sstate empty_mesh) = Done res /\
    make_vertex cfg (st_mesh (fst (fst res))) p = Some (m', v) /\ w <> v /\ is_live (st_mesh (fst (fst res))) Vertex w /\ is_live m' Vertex w /\ is_live m' Vertex v /\
    id_at m' Vertex v = id_at m' Vertex w.
Proof. exact C61_next_id_refuted_pf. Qed.
Print Assumptions C61_next_id_refuted.

(** Refuted: a file that was not written to the end can keep the reader in a loop
    without end. *)
Theorem C61_truncated_refuted : exists (F : format nat) (rnd : nat -> nat) (cfg : config) (m : @mesh (list nat)) (name content : text) (n : nat),
  sane_format F rnd /\ reach cfg m /\ writable F rnd m (cfg_cell cfg) (fun z c => z = 0%Z /\ is_live m (cfg_cell cfg) c) /\
  write_mesh F cfg m [] [] name = Some [(name ++ txt ".vtu", content)] /\
  forall reg, read_vtk F cfg (fun _ => Some (firstn n content)) reg false (name ++ txt ".vtu") (new_sstate empty_mesh) = Undefined.
Proof. exact C61_truncated_refuted_pf. Qed.
Print Assumptions C61_truncated_refuted.

(** Refuted: reading into a mesh that has vertices puts the cells on those vertices
    and not on the points of the file. *)
Theorem C61_nonempty_refuted : exists (F : format nat) (rnd : nat -> nat) (cfg : config) (m old : @mesh (list nat)) (name content : text) (c : addr) (vs : list addr),
  sane_format F rnd /\ reach cfg m /\ reach cfg old /\ writable F rnd m (cfg_cell cfg) (fun z c => z = 0%Z /\ is_live m (cfg_cell cfg) c) /\
  write_mesh F cfg m [] [] name = Some [(name ++ txt ".vtu", content)] /\ vertices_at m (cfg_cell cfg) c = Some vs /\
  forall reg, exists res, read_vtk F cfg (fun _ => Some content) reg false (name ++ txt ".vtu") (new_sstate old) = Done res /\
    forall d ws, vertices_at (st_mesh (fst (fst res))) (cfg_cell cfg) d = Some ws ->
      map (point_at (st_mesh (fst (fst res)))) ws <> map (fun v => option_map (map rnd) (point_at m v)) vs.
Proof. exact C61_nonempty_refuted_pf. Qed.
Print Assumptions C61_nonempty_refuted.

(** Refuted: a file that is not understood is no error either, and then the reader
    cannot read any other file (C61_reuse_refuted). *)
Theorem C61_bad_file_refuted : exists (content : text), forall (K : Type) (F : format K) cfg reg (name : text) (s : sstate (list K)),
  read_vtk F cfg (fun _ => Some content) reg false (name ++ txt ".vtu") s = Done ((s, []), true).
Proof. exact C61_bad_file_refuted_pf. Qed.
Print Assumptions C61_bad_file_refuted.

(** A mesh that meets the hypotheses of C61 and C63: two triangles with a common edge,
    written without the last digits. *)
Example C61_hypotheses : sane_format (nats true 2) (nats_rnd true) /\ cfg_cell vtk_cfg <> Hex /\ cfg_cell vtk_cfg <> Vertex /\ sreach vtk_cfg (sstate_of vtk_cfg (map (fun o => SMesh o) tri_ops)) /\
  List.length (range tri_mesh Triangle) = 2 /\ List.length (range tri_mesh Vertex) = 4 /\
  writable (nats true 2) (nats_rnd true) tri_mesh Triangle (fun z c => z = 0%Z /\ is_live tri_mesh Triangle c) /\
  Forall (@quantity_ok nat) [(txt "u", (3, fun a => [a; 1; 2]))] /\ Forall (@quantity_ok nat) [(txt "c", (1, fun a => [a + 50]))].
Proof.
  split; [apply nats_sane; lia|]. split; [discriminate|]. split; [discriminate|]. split; [apply sdemo_ok; vm_compute; reflexivity|].
  split; [vm_compute; reflexivity|]. split; [vm_compute; reflexivity|].
  split; [apply writableb_sound; [intros z x [_ L]; exact L|vm_compute; reflexivity]|].
  split; constructor; try constructor; try (split; [discriminate|intros c [<-|[]] [H|[H|[]]]; discriminate H]); split; auto.
Qed.
(** What is read. *)
Example C61_example : match read_vtk (nats true 2) vtk_cfg (fun _ => Some (content_of (write_mesh (nats true 2) vtk_cfg tri_mesh [(txt "u", (3, fun a => [10 * a; 10; 20]))] [(txt "c", (1, fun a => [a + 50]))] (txt "a"))))
    to_reader false (txt "a.vtu") (new_sstate empty_mesh) with
  | Done (d, ds, o) => Some (map (point_at (st_mesh d)) (range (st_mesh d) Vertex), map (vertices_at (st_mesh d) Triangle) (range (st_mesh d) Triangle), map fst (g_ids (st_segs d)), map (fun x => (dl_name x, dl_values x)) ds, o)
  | _ => None end =
  Some ([Some [1; 1]; Some [2; 1]; Some [1; 2]; Some [2; 2]], [Some [0; 1; 2]; Some [1; 2; 3]], [0%Z],
    [(txt "u", [(0, [0; 1; 2]); (1, [1; 1; 2]); (2, [2; 1; 2]); (3, [3; 1; 2])]); (txt "c", [(0, [5]); (1, [5])])], false).
Proof. vm_compute. reflexivity. Qed.
(** A segmentation that meets the hypotheses of C62: both triangles in segment 7, the
    second one in segment 3 also. *)
Example C62_hypotheses : sreach vtk_cfg tri_state /\ 1 < segment_count (st_segs tri_state) /\ free_of [""""%char; ">"%char] (txt "dir/b") /\
  writable (nats false 2) (nats_rnd false) (st_mesh tri_state) Triangle (fun z c => in_segment_id tri_state z Triangle c) /\
  k_view (st_con tri_state 0) Triangle = [0; 1] /\ k_view (st_con tri_state 1) Triangle = [1].
Proof.
  assert (R : sreach vtk_cfg tri_state) by (apply sdemo_ok; vm_compute; reflexivity).
  split; [exact R|]. split; [vm_compute; auto|].
  split; [intros c H I; repeat (destruct H as [<-|H]; [destruct I as [I|[I|[]]]; discriminate I|]); destruct H|].
  split; [apply writableb_sound; [intros z x I; exact (members_live vtk_cfg tri_state z Triangle x ltac:(discriminate) R I)|vm_compute; reflexivity]|].
  split; vm_compute; reflexivity.
Qed.
Example C62_example : option_map (map (fun f => (string_of_list_ascii (fst f)))) (write_segmentation (nats false 2) vtk_cfg tri_state [] [] (fun _ => []) (fun _ => []) (txt "dir/b")) =
  Some ["dir/b_main.pvd"; "dir/b_3.vtu"; "dir/b_7.vtu"]%string.
Proof. vm_compute. reflexivity. Qed.
