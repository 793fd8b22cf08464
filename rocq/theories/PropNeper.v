(** C78, C79: a .tess file is read as the vertices, faces and polyhedra that it
    describes; what is not checked. *)
From Coq Require Import Ascii String List Arith ZArith Bool Lia.
From Verif Require Import ModelTopo ModelMesh ModelErase ModelCopySeg ModelXml ModelVtk ModelPoly ModelNeper
  SpecMesh SpecErase SpecCopy SpecVtk SpecNetgen SpecPoly SpecNeper VtkDemo NeperRead NeperProofs.
Import ListNotations.
Open Scope nat_scope.
(** C78: whatever the other lines and the other words on the lines, a file with
    vertices, faces and polyhedra is read into an empty mesh as what it describes: the
    vertices in their order, one line for each side of a face, shared between the
    faces, one PLC for each face, and the points and numbers of the polyhedra. *)
Theorem C78_read : forall (K : Type) (F : format K) file (T : tess K), f_dim F <= 3 ->
  tess_lines F T (split_lines [] file) -> tess_ok F T ->
  exists P m cs, read_tess F (Some file) empty_mesh = Done (m, cs, te_seeds T) /\ renumbered T P /\ mesh_of_poly P m cs.
Proof. exact C78_read_pf. Qed.
Print Assumptions C78_read.

(** C79: the end of the file is not noticed: a file that ends, after a line, before the
    last vertex is not rejected; numbers are used that have not been read. *)
Theorem C79_truncated_refuted : forall (K : Type) (F : format K) file a h c lss (vs : list (Z * list K)) n, f_dim F <= 3 ->
  split_lines [] file = a ++ h :: c :: List.concat lss ++ [[]] ->
  Forall plain a -> head_line "**vertex" h -> begins [num (Z.of_nat n)] c ->
  Forall2 (vertex_block F) vs lss -> Forall (fun v => right_dim F (snd v)) vs -> List.length vs < n ->
  read_tess F (Some file) empty_mesh = Undefined.
Proof. exact C79_truncated_refuted_pf. Qed.
Print Assumptions C79_truncated_refuted.

(** Vertices are not checked either: with a face that has a vertex that is not there,
    the behaviour is undefined. *)
Theorem C79_unknown_vertex_refuted : forall (K : Type) (F : format K) file (T : tess K) a l1 b h c lss f lf rest n, f_dim F <= 3 ->
  split_lines [] file = a ++ l1 ++ b ++ h :: c :: List.concat lss ++ lf ++ rest ->
  Forall plain a -> Forall plain b -> section "**vertex" (vertex_block F) (te_vertices T) l1 -> tess_ok F T ->
  head_line "**face" h -> begins [num (Z.of_nat n)] c -> Forall2 face_block (te_faces T) lss -> List.length (te_faces T) < n ->
  face_block f lf -> 2 <= List.length f -> ~ incl f (tess_ids T) -> read_tess F (Some file) empty_mesh = Undefined.
Proof. exact C79_unknown_vertex_refuted_pf. Qed.
Print Assumptions C79_unknown_vertex_refuted.

(** And a file without any of the sections, whatever it is, is accepted. *)
Theorem C79_any_file_refuted : forall (K : Type) (F : format K) file (m : @mesh (list K)),
  Forall plain (split_lines [] file) -> read_tess F (Some file) m = Done (m, [], []).
Proof. exact C79_any_file_refuted_pf. Qed.
Print Assumptions C79_any_file_refuted.

Lemma plain_check l : forallb (fun w => negb (contains (txt w) l)) heads = true -> plain l.
Proof. intros H w I M. apply contains_spec in M. rewrite forallb_forall in H. specialize (H w I). rewrite M in H. discriminate. Qed.
Lemma plain_lines ls : forallb (fun l => forallb (fun w => negb (contains (txt w) l)) heads) ls = true -> Forall plain ls.
Proof. intros H. apply Forall_forall. intros l I. apply plain_check. rewrite forallb_forall in H. auto. Qed.
Lemma head_check w l : contains (txt w) l && forallb (fun v => String.eqb v w || negb (contains (txt v) l)) heads = true -> head_line w l.
Proof.
  intros H. apply andb_true_iff in H as [H1 H2]. split; [now apply contains_spec|]. intros v I N M. apply contains_spec in M. rewrite forallb_forall in H2. specialize (H2 v I). rewrite M in H2.
  apply String.eqb_neq in N. rewrite N in H2. discriminate.
Qed.

(** A file that meets the hypotheses: four vertices, two faces with a common side, two
    polyhedra. *)
Definition tess_head : string := "***tess
 **general
   3 standard
 **vertex
   4
   10 2 1 2
   1 1
   0 0 0 0
   7 2 1 3
   1 1
   4 0 0 0
   2 1 7
   1 2
   4 4 0 0
   5 1 1
   1 1
   0 4 0 0
".
Definition tess_tail : string := " **edge
   0
 **face
   2
   1 1 2
   0 0
   x y z
   3 10 7 2
   3 1 2 3
   0 0 0 1
   0 0 0 0 0
   2 1 3
   0 0
   x y z
   3 2 5 10
   3 3 4 5
   0 0 0 1
   0 0 0 0 0
 **polyhedron
   2
   1 1 2 3
   1 1
   1 2
   2 3 2 1
   1 2
   2 1
***end
".
Definition tess_file : text := txt (tess_head ++ tess_tail).
Definition tess_demo : tess nat := mkTess [(10%Z, [0; 0; 0]); (7%Z, [4; 0; 0]); (2%Z, [4; 4; 0]); (5%Z, [0; 4; 0])]
  [[10; 7; 2]; [2; 5; 10]]%Z [([1; 2; 3], 1%Z); ([3; 2; 1], 2%Z)].

Ltac lines := repeat first [apply Forall2_nil | apply Forall2_cons].
Ltac words := eexists; vm_compute; reflexivity.
Ltac point3 := match goal with |- point_text _ _ ?p => instantiate (1 := map (fun x => num (Z.of_nat x)) p) end; lines; reflexivity.
Definition tess_split := split_lines [] tess_file.
Definition cut (i n : nat) : list text := firstn n (skipn i tess_split).
Lemma demo_points : Forall2 (vertex_block (nats false 3)) (te_vertices tess_demo) [cut 5 3; cut 8 3; cut 11 3; cut 14 3].
Proof. lines; (eexists _, _, _, _; split; [vm_compute; reflexivity|]; split; [words|]; split; [cbn [snd]; point3|words]). Qed.
Lemma demo_faces : Forall2 face_block (te_faces tess_demo) [cut 21 7; cut 28 7].
Proof. lines; (eexists _, _, _, _, _, _, _; split; [vm_compute; reflexivity|words]). Qed.
Lemma demo_seeds : Forall2 (seed_block (nats false 3)) (te_seeds tess_demo) [cut 37 3; cut 40 3].
Proof. lines; (eexists _, _, _, _; split; [vm_compute; reflexivity|]; split; [cbn [fst]; point3|words]). Qed.
Lemma demo_lines : tess_lines (nats false 3) tess_demo (split_lines [] tess_file).
Proof.
  exists (cut 0 3), (cut 3 14), (cut 17 2), (cut 19 16), [], (cut 35 8), (cut 43 2).
  split; [vm_compute; reflexivity|]. split; [apply plain_lines; vm_compute; reflexivity|]. split; [apply plain_lines; vm_compute; reflexivity|]. split; [constructor|]. split; [apply plain_lines; vm_compute; reflexivity|].
  split; [|split].
  - exists (nth 0 (cut 3 1) []), (nth 0 (cut 4 1) []), [cut 5 3; cut 8 3; cut 11 3; cut 14 3]. split; [vm_compute; reflexivity|]. split; [apply head_check; vm_compute; reflexivity|]. split; [words|]. split; [exact demo_points|].
    split; [apply plain_check; vm_compute; reflexivity|apply plain_lines; vm_compute; reflexivity].
  - exists (nth 0 (cut 19 1) []), (nth 0 (cut 20 1) []), [cut 21 7; cut 28 7]. split; [vm_compute; reflexivity|]. split; [apply head_check; vm_compute; reflexivity|]. split; [words|]. split; [exact demo_faces|].
    split; [apply plain_check; vm_compute; reflexivity|apply plain_lines; vm_compute; reflexivity].
  - exists (nth 0 (cut 35 1) []), (nth 0 (cut 36 1) []), [cut 37 3; cut 40 3]. split; [vm_compute; reflexivity|]. split; [apply head_check; vm_compute; reflexivity|]. split; [words|]. split; [exact demo_seeds|].
    split; [apply plain_check; vm_compute; reflexivity|apply plain_lines; vm_compute; reflexivity].
Qed.
Lemma demo_tess_ok : tess_ok (nats false 3) tess_demo.
Proof.
  split; [repeat constructor; cbn; intuition discriminate|]. split; [repeat constructor|]. split; [|repeat constructor].
  constructor; [split; [cbn; lia|intros z; cbn; intuition]|]. constructor; [split; [cbn; lia|intros z; cbn; intuition]|constructor].
Qed.
Example ex_c78 : exists P m cs, read_tess (nats false 3) (Some tess_file) empty_mesh = Done (m, cs, te_seeds tess_demo) /\ renumbered tess_demo P /\ mesh_of_poly P m cs.
Proof. exact (C78_read nat (nats false 3) tess_file tess_demo (le_n 3) demo_lines demo_tess_ok). Qed.
(** Five lines and two PLCs. *)
Example ex_c78_counts : match read_tess (nats false 3) (Some tess_file) empty_mesh with
  | Done (m, cs, ps) => Some (List.length (range m Vertex), List.length (range m Line), List.length cs, ps) | _ => None end = Some (4, 5, 2, te_seeds tess_demo).
Proof. vm_compute. reflexivity. Qed.

Definition short_tess : text := txt "***tess
 **vertex
   3
   1 2
   1 1
   0 0 0
   2 2
   1 1
   4 0 0
".
Example ex_c79_truncated : read_tess (nats false 3) (Some short_tess) empty_mesh = Undefined.
Proof.
  apply (C79_truncated_refuted nat (nats false 3) short_tess (firstn 1 (split_lines [] short_tess)) (nth 1 (split_lines [] short_tess) []) (nth 2 (split_lines [] short_tess) [])
    [firstn 3 (skipn 3 (split_lines [] short_tess)); firstn 3 (skipn 6 (split_lines [] short_tess))] [(1%Z, [0; 0; 0]); (2%Z, [4; 0; 0])] 3); [cbn; lia|vm_compute; reflexivity|apply plain_lines; vm_compute; reflexivity|apply head_check; vm_compute; reflexivity|words| |repeat constructor|cbn; lia].
  lines; (eexists _, _, _, _; split; [vm_compute; reflexivity|]; split; [words|]; split; [cbn [snd]; point3|words]).
Qed.

Definition bad_tess : text := txt "***tess
 **vertex
   3
   1 2
   1 1
   0 0 0
   2 2
   1 1
   4 0 0
   3 2
   1 1
   4 4 0
 **face
   2
   1
   0
   0
   3 1 2 3
   3
   0
   0
   2
   0
   0
   3 1 3 4
   3
   0
   0
".
Definition bad_demo : tess nat := mkTess [(1%Z, [0; 0; 0]); (2%Z, [4; 0; 0]); (3%Z, [4; 4; 0])] [[1; 2; 3]]%Z [].
Definition bad_cut (i n : nat) : list text := firstn n (skipn i (split_lines [] bad_tess)).
Example ex_c79_unknown : read_tess (nats false 3) (Some bad_tess) empty_mesh = Undefined.
Proof.
  apply (C79_unknown_vertex_refuted nat (nats false 3) bad_tess bad_demo (bad_cut 0 1) (bad_cut 1 11) [] (nth 0 (bad_cut 12 1) []) (nth 0 (bad_cut 13 1) []) [bad_cut 14 7] [1; 3; 4]%Z (bad_cut 21 7) [[]] 2);
    [cbn; lia|vm_compute; reflexivity|apply plain_lines; vm_compute; reflexivity|constructor| | |apply head_check; vm_compute; reflexivity|words| |cbn; lia| |cbn; lia|].
  - exists (nth 0 (bad_cut 1 1) []), (nth 0 (bad_cut 2 1) []), [bad_cut 3 3; bad_cut 6 3; bad_cut 9 3]. split; [vm_compute; reflexivity|]. split; [apply head_check; vm_compute; reflexivity|]. split; [words|].
    split; [|split; [apply plain_check; vm_compute; reflexivity|apply plain_lines; vm_compute; reflexivity]].
    lines; (eexists _, _, _, _; split; [vm_compute; reflexivity|]; split; [words|]; split; [cbn [snd]; point3|words]).
  - split; [repeat constructor; cbn; intuition discriminate|]. split; [repeat constructor|]. split; [|constructor]. constructor; [split; [cbn; lia|intros z; cbn; intuition]|constructor].
  - lines. eexists _, _, _, _, _, _, _. split; [vm_compute; reflexivity|words].
  - eexists _, _, _, _, _, _, _. split; [vm_compute; reflexivity|words].
  - intros H. specialize (H 4%Z). cbn in H. intuition discriminate.
Qed.

Example ex_c79_any : read_tess (nats false 3) (Some (txt "not a mesh")) (@empty_mesh (list nat)) = Done (empty_mesh, [], []).
Proof. apply C79_any_file_refuted. apply plain_lines. vm_compute. reflexivity. Qed.
