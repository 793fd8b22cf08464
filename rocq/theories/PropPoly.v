(** C73, C74: a .poly file is read as the vertices, lines and PLCs that it describes. *)
From Coq Require Import Ascii String List Arith ZArith Bool Lia.
From Verif Require Import ModelTopo ModelMesh ModelErase ModelCopySeg ModelXml ModelVtk ModelPoly
  SpecMesh SpecErase SpecCopy SpecVtk SpecNetgen SpecPoly VtkDemo PolyProofs.
Import ListNotations.
Open Scope nat_scope.
(** C73: whatever the comments, the empty lines, the spaces and the further words on
    the lines, a file that describes vertices, facets, holes and regions is read into
    an empty mesh as what it describes. *)
Theorem C73_read : forall (K : Type) (F : format K) file (P : poly K),
  poly_lines F P (lines_of file) -> poly_ok F P ->
  exists m cs, read_poly F (Some file) empty_mesh = Done (m, cs, po_holes P, po_seeds P) /\ mesh_of_poly P m cs.
Proof. exact C73_read_pf. Qed.
Print Assumptions C73_read.

(** C74: a file that ends before the last facet does is rejected. *)
Theorem C74_truncated : forall (K : Type) (F : format K) file (P : poly K) ls1 ls2 k,
  vertices_lines F P ls1 -> facets_lines F P ls2 -> vertices_ok F P -> Forall (facet_ok F P) (po_facets P) ->
  k < List.length (ls1 ++ ls2) -> lines_of file = firstn k (ls1 ++ ls2) -> read_poly F (Some file) empty_mesh = Thrown.
Proof. exact C74_truncated_pf. Qed.
Print Assumptions C74_truncated.

(** A file whose points have another dimension than the mesh is rejected. *)
Theorem C74_dimension : forall (K : Type) (F : format K) file l ls n d,
  lines_of file = l :: ls -> words_of l = [num n; num d] -> d <> Z.of_nat (f_dim F) -> read_poly F (Some file) empty_mesh = Thrown.
Proof. exact C74_dimension_pf. Qed.
Print Assumptions C74_dimension.

(** But polygons are not checked: with a vertex that is not there, or without vertices,
    the behaviour is undefined. *)
Theorem C74_bad_polygon_refuted : forall (K : Type) (F : format K) file (P : poly K) n pre ls lf np nh ps lps p lp more,
  lines_of file = ls ++ lf :: lps ++ lp :: more -> lines_before F P n pre ls -> vertices_ok F P -> Forall (facet_ok F P) pre ->
  begins (nums [np; nh]) lf -> Forall2 polygon_line ps lps -> Forall (polygon_ok P) ps -> List.length ps < np ->
  polygon_line p lp -> ~ polygon_ok P p -> read_poly F (Some file) empty_mesh = Undefined.
Proof. exact C74_bad_polygon_refuted_pf. Qed.
Print Assumptions C74_bad_polygon_refuted.

(** And a facet without a number of holes, which the format allows, is undefined
    behaviour: the number is not initialised. *)
Theorem C74_no_hole_number_refuted : forall (K : Type) (F : format K) file (P : poly K) n pre ls lf np more,
  lines_of file = ls ++ lf :: more -> lines_before F P n pre ls -> vertices_ok F P -> Forall (facet_ok F P) pre ->
  words_of lf = nums [np] -> read_poly F (Some file) empty_mesh = Undefined.
Proof. exact C74_no_hole_number_refuted_pf. Qed.
Print Assumptions C74_no_hole_number_refuted.

(** A file that meets the hypotheses: a triangle, a facet with a square, a loose vertex
    and a hole, and a single line; one hole and one region. *)
Definition poly_head : string := "# vertices
5 3  0 1
1 0 0 0 1
2 4 0 0 # the second one
  6 4 4 0

5 0 4 0
9 0 0 4
".
Definition poly_tail : string := "3 0
1 0 1 # a triangle
3 1 2 5
2 1
4 1 2 6 5
1 9
7 1 1 0
1 0
2 9 1
# holes
1
1 1 1 1
1
1 2 2 2 5 7
".
Definition poly_file : text := txt (poly_head ++ poly_tail).
Definition poly_demo : poly nat := mkPoly
  [(1, [0; 0; 0]); (2, [4; 0; 0]); (6, [4; 4; 0]); (5, [0; 4; 0]); (9, [0; 0; 4])]
  [mkFacet [[1; 2; 5]] []; mkFacet [[1; 2; 6; 5]; [9]] [[1; 1; 0]]; mkFacet [[9; 1]] []] [[1; 1; 1]] [([2; 2; 2], 5%Z)].

Ltac lines := repeat first [apply Forall2_nil | apply Forall2_cons].
Ltac point3 := unfold vertex_line; cbn [fst snd]; match goal with |- point_line _ _ ?p _ _ => exists (map (fun x => num (Z.of_nat x)) p) end; split; [lines; reflexivity|eexists; vm_compute; reflexivity].
Lemma demo_vertices : vertices_lines (nats false 3) poly_demo (firstn 6 (lines_of poly_file)).
Proof.
  eexists _, _. split; [vm_compute; reflexivity|]. split.
  - eexists. split; [vm_compute; reflexivity|]. split; [exists 0; reflexivity|right; reflexivity].
  - lines; point3.
Qed.
Lemma demo_facets : facets_lines (nats false 3) poly_demo (firstn 9 (skipn 6 (lines_of poly_file))).
Proof.
  exists (txt "3 0"), [[txt "1 0 1 "; txt "3 1 2 5"]; [txt "2 1"; txt "4 1 2 6 5"; txt "1 9"; txt "7 1 1 0"]; [txt "1 0"; txt "2 9 1"]].
  split; [vm_compute; reflexivity|]. split; [eexists; split; [vm_compute; reflexivity|left; reflexivity]|]. lines.
  - exists (txt "1 0 1 "), [txt "3 1 2 5"], []. split; [reflexivity|]. split; [eexists; vm_compute; reflexivity|]. split; lines. eexists; vm_compute; reflexivity.
  - exists (txt "2 1"), [txt "4 1 2 6 5"; txt "1 9"], [txt "7 1 1 0"]. split; [reflexivity|]. split; [exists []; vm_compute; reflexivity|]. split; lines; [exists []; vm_compute; reflexivity..|]. exists 7%Z. point3.
  - exists (txt "1 0"), [txt "2 9 1"], []. split; [reflexivity|]. split; [exists []; vm_compute; reflexivity|]. split; lines. exists []; vm_compute; reflexivity.
Qed.
Lemma demo_last : last_parts (nats false 3) poly_demo (skipn 15 (lines_of poly_file)).
Proof.
  right. right. exists [txt "1"; txt "1 1 1 1"], [txt "1"; txt "1 2 2 2 5 7"], []. split; [vm_compute; reflexivity|]. split.
  - eexists _, _. split; [reflexivity|]. split; [exists []; reflexivity|]. lines. exists 1%Z. point3.
  - eexists _, _. split; [reflexivity|]. split; [exists []; reflexivity|]. lines. exists 1%Z. point3.
Qed.
Example C73_hypotheses : poly_lines (nats false 3) poly_demo (lines_of poly_file) /\ poly_ok (nats false 3) poly_demo.
Proof.
  split.
  - exists (firstn 6 (lines_of poly_file)), (firstn 9 (skipn 6 (lines_of poly_file))), (skipn 15 (lines_of poly_file)).
    split; [vm_compute; reflexivity|]. split; [exact demo_vertices|]. split; [exact demo_facets|exact demo_last].
  - assert (N : NoDup [1; 2; 6; 5; 9]) by (repeat constructor; cbn; intuition congruence).
    split; [split; [exact N|repeat constructor]|]. split; [|split; repeat constructor].
    repeat (apply Forall_cons; [split; [repeat (apply Forall_cons; [split; [discriminate|intros x; cbn; intuition]|]); constructor|repeat constructor]|]). constructor.
Qed.
Example C73_example : match read_poly (nats false 3) (Some poly_file) empty_mesh with
  | Done (m, cs, hs, ss) => Some (map (id_at m Vertex) (range m Vertex), map (vertices_at m Line) (range m Line), map (fun c => (plc_lines c, plc_verts c, plc_holes c)) cs, hs, ss)
  | _ => None end =
  Some ([Some 1; Some 2; Some 6; Some 5; Some 9], [Some [0; 1]; Some [3; 0]; Some [4; 0]; Some [1; 3]; Some [1; 2]; Some [2; 3]],
        [([0; 1; 2], [0; 1; 3], []); ([0; 3; 4; 2], [4; 0; 1; 2; 3], [[1; 1; 0]]); ([5], [4; 0], [])], [[1; 1; 1]], [([2; 2; 2], 5%Z)]).
Proof. vm_compute. reflexivity. Qed.
(** The files of C74. *)
Example C74_truncated_example : let file := txt (poly_head ++ "3 0
1 0 1 # a triangle
") in lines_of file = firstn 8 (firstn 6 (lines_of poly_file) ++ firstn 9 (skipn 6 (lines_of poly_file))) /\ read_poly (nats false 3) (Some file) empty_mesh = Thrown.
Proof. split; vm_compute; reflexivity. Qed.
Lemma demo_before : lines_before (nats false 3) poly_demo 1 [] (firstn 6 (lines_of poly_file) ++ [txt "1"]).
Proof.
  exists (firstn 6 (lines_of poly_file)), (txt "1"), []. split; [reflexivity|]. split; [exact demo_vertices|]. split; [exists []; split; [reflexivity|exact I]|]. split; [constructor|auto].
Qed.
Example C74_bad_polygon_example : let file := txt (poly_head ++ "1
2 0
2 1 5
3 1 2 3
") in lines_of file = (firstn 6 (lines_of poly_file) ++ [txt "1"]) ++ txt "2 0" :: [txt "2 1 5"] ++ txt "3 1 2 3" :: [] /\
  polygon_line [1; 5] (txt "2 1 5") /\ polygon_ok poly_demo [1; 5] /\ polygon_line [1; 2; 3] (txt "3 1 2 3") /\ ~ polygon_ok poly_demo [1; 2; 3] /\
  read_poly (nats false 3) (Some file) empty_mesh = Undefined.
Proof.
  split; [vm_compute; reflexivity|]. split; [exists []; reflexivity|]. split; [split; [discriminate|intros x; cbn; intuition]|]. split; [exists []; reflexivity|]. split; [|vm_compute; reflexivity].
  intros [_ H]. specialize (H 3). cbn in H. intuition congruence.
Qed.
Example C74_no_hole_number_example : let file := txt (poly_head ++ "1
1
3 1 2 5
") in lines_of file = (firstn 6 (lines_of poly_file) ++ [txt "1"]) ++ txt "1" :: [txt "3 1 2 5"] /\ words_of (txt "1") = nums [1] /\
  read_poly (nats false 3) (Some file) empty_mesh = Undefined.
Proof. split; [vm_compute; reflexivity|]. split; vm_compute; reflexivity. Qed.
