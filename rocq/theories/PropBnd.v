(** C75, C76: a .bnd file is read as the surfaces that it describes. *)
From Coq Require Import List Arith ZArith Bool Lia Sorted.
From Verif Require Import ModelTopo ModelMesh ModelErase ModelSegmentation ModelSegment ModelCopySeg ModelBnd
  SpecMesh SpecErase SpecSegmentation SpecSegment SpecCopy SpecCopySeg SpecBnd VtkDemo BndProofs.
Import ModelSegmentation ListNotations.
Open Scope nat_scope.
(** C75: a file of polyhedra with triangular faces, with contacts at the end, is read
    into an empty mesh of triangles as the surfaces that it describes. *)
Theorem C75_read : forall (K : Type) (cfg : config) (b : @bnd K) es segs k,
  cfg_cell cfg = Triangle -> b_elements b = es ++ repeat Contact k -> Forall2 (polyhedron_of b) es segs ->
  exists s vertex cell, read_bnd cfg (b_dim b) b (new_sstate empty_mesh) = Done s /\ surface_of b cfg s segs vertex cell.
Proof. exact C75_read_pf. Qed.
Print Assumptions C75_read.

(** C76: a face that is not a triangle is an error. *)
Theorem C76_not_a_triangle : forall (K : Type) (cfg : config) (b : @bnd K) es segs k,
  cfg_cell cfg = Triangle -> b_elements b = es ++ repeat Contact k -> Forall2 (solid_of b) es segs ->
  (exists vs, triangle_in segs vs /\ length vs <> 3) ->
  read_bnd cfg (b_dim b) b (new_sstate empty_mesh) = Thrown.
Proof. exact C76_not_a_triangle_pf. Qed.
Print Assumptions C76_not_a_triangle.

(** So is a file of another dimension than that of the mesh. *)
Theorem C76_dimension : forall (K : Type) (cfg : config) (b : @bnd K) d s es segs k,
  b_elements b = es ++ repeat Contact k -> Forall2 (solid_of b) es segs -> d <> b_dim b -> read_bnd cfg d b s = Thrown.
Proof. exact C76_dimension_pf. Qed.
Print Assumptions C76_dimension.

(** But plane files (elements of type 4) can never be read: every edge counts as a
    polygon that is not a triangle. *)
Theorem C76_plane_refuted : forall (K : Type) (cfg : config) (b : @bnd K) ess k,
  cfg_cell cfg = Triangle -> b_elements b = map Polygon ess ++ repeat Contact k ->
  (forall es e, In es ess -> In e es -> exists uv, refers (b_edges b) e uv) -> (exists es, In es ess /\ es <> []) ->
  read_bnd cfg (b_dim b) b (new_sstate empty_mesh) = Thrown.
Proof. exact C76_plane_refuted_pf. Qed.
Print Assumptions C76_plane_refuted.

(** Elements that are not supported are no error: the file is read as if it ended
    there, with empty segments for the elements that are left. *)
Theorem C76_unsupported_refuted : forall (K : Type) (cfg : config) (b : @bnd K) es segs post,
  cfg_cell cfg = Triangle -> b_elements b = es ++ Other :: post -> Forall2 (polyhedron_of b) es segs ->
  exists s vertex cell, read_bnd cfg (b_dim b) b (new_sstate empty_mesh) = Done s /\ surface_of b cfg s (segs ++ repeat [] (S (length post))) vertex cell.
Proof. exact C76_unsupported_refuted_pf. Qed.
Print Assumptions C76_unsupported_refuted.

(** If the last element is a polyhedron and there is a contact before it, the reader
    writes past the end of a vector. *)
Theorem C76_contact_first_refuted : forall (K : Type) (cfg : config) (b : @bnd K) d s pre f fs,
  b_elements b = pre ++ [Polyhedron (f :: fs)] -> In Contact pre -> Forall (fun e => e <> Other) pre -> read_bnd cfg d b s = Undefined.
Proof. exact C76_contact_first_refuted_pf. Qed.
Print Assumptions C76_contact_first_refuted.

(** Two tetrahedra with a common face, and a contact. *)
Definition bnd_demo (es : list element) : @bnd nat := mkBnd nat 3 [[0; 0; 0]; [1; 0; 0]; [0; 1; 0]; [0; 0; 1]; [1; 1; 1]; [9; 9; 9]]
  [(0, 1); (1, 2); (2, 0); (0, 3); (1, 3); (2, 3); (1, 4); (2, 4); (3, 4)]%Z
  [[0; 1; 2]; [0; 4; -4]; [1; 5; -5]; [2; 3; -6]; [1; 7; -7]; [4; 8; -7]; [5; 8; -8]; [0; 4; 5; 2]]%Z es.
Definition bnd_solids : list element := [Polyhedron [0; 1; 2; 3]; Polyhedron [-3; 4; 5; 6]]%Z.
Definition bnd_segs : list (list (list Z)) := [[[0; 1; 2]; [0; 1; 3]; [1; 2; 3]; [0; 2; 3]]; [[1; 2; 3]; [1; 2; 4]; [1; 3; 4]; [2; 3; 4]]]%Z.
Lemma bnd_refers {A} (l : list A) i x : (if (i <? 0)%Z then nth_error l (Z.to_nat (-1 - i)) else nth_error l (Z.to_nat i)) = Some x -> refers l i x.
Proof. unfold refers, entry. destruct (Z.ltb_spec i 0); [right|left]; split; auto; try lia. split; [lia|auto]. Qed.
Definition bnd_edge_of (b : @bnd nat) (e : Z) : option (Z * Z) := if (e <? 0)%Z then nth_error (b_edges b) (Z.to_nat (-1 - e)) else nth_error (b_edges b) (Z.to_nat e).
(** A face is a triangle if its three edges go round it. *)
Lemma bnd_triangle (b : @bnd nat) f e1 e2 e3 u1 u2 u3 x y z : (if (f <? 0)%Z then nth_error (b_faces b) (Z.to_nat (-1 - f)) else nth_error (b_faces b) (Z.to_nat f)) = Some [e1; e2; e3] ->
  bnd_edge_of b e1 = Some u1 -> bnd_edge_of b e2 = Some u2 -> bnd_edge_of b e3 = Some u3 -> (x < y < z)%Z ->
  (forall v, In v [x; y; z] <-> In v [fst u1; snd u1; fst u2; snd u2; fst u3; snd u3]) ->
  (forall v, In v [x; y; z] -> (0 <= v < Z.of_nat (length (b_points b)))%Z) -> triangle_of b f [x; y; z].
Proof.
  intros F E1 E2 E3 L V P. apply bnd_refers in F, E1, E2, E3. split; [|split; [reflexivity|]].
  - exists [e1; e2; e3]. split; auto. split; [intros e [<-|[<-|[<-|[]]]]; eauto|]. split; [repeat constructor; lia|].
    assert (U : forall e u, refers (b_edges b) e u -> forall v, ends_in b e v <-> v = fst u \/ v = snd u).
    { intros e u R v. unfold ends_in. split; [|eauto]. intros (w & R' & X).
      assert (w = u); [|now subst]. destruct R as [[R0 R]|[R1 [R0 R]]], R' as [[R0' R']|[R1' [R0' R']]]; congruence || lia. }
    intros v. rewrite V. cbn [In]. split.
    + intros [X|[X|[X|[X|[X|[X|[]]]]]]]; [exists e1|exists e1|exists e2|exists e2|exists e3|exists e3]; (split; [auto|]); eapply U; eauto.
    + intros (e & [<-|[<-|[<-|[]]]] & X); eapply U in X; eauto; destruct X as [X|X]; subst; auto 10.
  - intros v Hv. specialize (P v Hv). destruct (nth_error (b_points b) (Z.to_nat v)) as [p|] eqn:E; [exists p; split; auto; lia|]. apply nth_error_None in E. lia.
Qed.
Lemma bnd_solids_ok es : Forall2 (polyhedron_of (bnd_demo es)) bnd_solids bnd_segs.
Proof.
  constructor; [|constructor; [|constructor]]; eexists; (split; [reflexivity|]); repeat apply Forall2_cons; try apply Forall2_nil;
    (eapply bnd_triangle; [reflexivity|reflexivity|reflexivity|reflexivity|lia|intros v; cbn; intuition congruence|intros v; cbn; lia]).
Qed.
Example C75_hypotheses : cfg_cell vtk_cfg = Triangle /\ b_elements (bnd_demo (bnd_solids ++ repeat Contact 1)) = bnd_solids ++ repeat Contact 1 /\
  Forall2 (polyhedron_of (bnd_demo (bnd_solids ++ repeat Contact 1))) bnd_solids bnd_segs.
Proof. split; [reflexivity|]. split; [reflexivity|]. apply bnd_solids_ok. Qed.
(** Five vertices (the last point is not used), seven triangles; both segments have
    four, and the triangle number 2 is in both. *)
Definition bnd_summary (r : result (sstate (list nat))) : option (list (option (list nat)) * list (option (list nat)) * list (list nat)) :=
  match r with
  | Done s => Some (map (point_at (st_mesh s)) (range (st_mesh s) Vertex), map (vertices_at (st_mesh s) Triangle) (range (st_mesh s) Triangle),
                    map (fun za => k_view (st_con s (snd za)) Triangle) (g_ids (st_segs s)))
  | _ => None
  end.
Example C75_example : bnd_summary (read_bnd vtk_cfg 3 (bnd_demo (bnd_solids ++ repeat Contact 1)) (new_sstate empty_mesh)) =
  Some (map Some [[0; 0; 0]; [1; 0; 0]; [0; 1; 0]; [0; 0; 1]; [1; 1; 1]],
        map Some [[0; 1; 2]; [0; 1; 3]; [1; 2; 3]; [0; 2; 3]; [1; 2; 4]; [1; 3; 4]; [2; 3; 4]],
        [[0; 1; 2; 3]; [2; 4; 5; 6]]).
Proof. vm_compute. reflexivity. Qed.
(** A face with four corners. *)
Example C76_face_example : read_bnd vtk_cfg 3 (bnd_demo [Polyhedron [0; 7]%Z]) (new_sstate empty_mesh) = Thrown.
Proof. vm_compute. reflexivity. Qed.
Example C76_plane_example : read_bnd vtk_cfg 3 (bnd_demo [Polygon [0; 1; 2]%Z]) (new_sstate empty_mesh) = Thrown.
Proof. vm_compute. reflexivity. Qed.
Example C76_unsupported_example : bnd_summary (read_bnd vtk_cfg 3 (bnd_demo [Polyhedron [0]%Z; Other; Polyhedron [1]%Z]) (new_sstate empty_mesh)) =
  Some (map Some [[0; 0; 0]; [1; 0; 0]; [0; 1; 0]], [Some [0; 1; 2]], [[0]; []; []]).
Proof. vm_compute. reflexivity. Qed.
Example C76_contact_example : read_bnd vtk_cfg 3 (bnd_demo [Contact; Polyhedron [0]%Z]) (new_sstate empty_mesh) = Undefined.
Proof. vm_compute. reflexivity. Qed.
(** A contact between: the polyhedron is lost. *)
Example C76_lost_example : bnd_summary (read_bnd vtk_cfg 3 (bnd_demo [Contact; Polyhedron [0]%Z; Contact]) (new_sstate empty_mesh)) = Some ([], [], [[]]).
Proof. vm_compute. reflexivity. Qed.
