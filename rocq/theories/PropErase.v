(** Property C13: erasing elements. *)
From Coq Require Import List Arith Bool Permutation.
From Verif Require Import ModelTopo ModelMesh ModelErase SpecMesh SpecErase MeshDemo EraseDemo EraseProofs.
Import ListNotations.

(** At any point of any history: erasing a reference-closed set of live elements
    is defined, and afterwards the mesh has, for every type, exactly the elements
    that were not in the set, each described (own id, ids of vertices, ids and
    orientations of boundary elements, point) as before. *)
Theorem C13_erase_exact : forall Pt cfg (m : @mesh Pt) view, ereach cfg m ->
  valid_view m view -> reference_closed m view ->
  exists m', erase_elements m view = Some m' /\ ereach cfg m' /\
    forall t, Permutation (map (describe m') (elements_of m' t)) (map (describe m) (elements_except m t (view t))).
Proof. exact C13_erase_exact_pf. Qed.
Print Assumptions C13_erase_exact.

(** At any point of any history no element refers to anything that is not in the
    mesh, and ids are unique. *)
Theorem C13_no_dangling : forall Pt cfg (m : @mesh Pt), ereach cfg m ->
  no_dangling m /\ forall t, NoDup (ids_of m t).
Proof. exact C13_no_dangling_pf. Qed.
Print Assumptions C13_no_dangling.

(** Erasing never changes the next id: ids are not handed out again. *)
Theorem C13_ids_not_reused : forall Pt cfg (m m' : @mesh Pt) view, ereach cfg m ->
  valid_view m view -> reference_closed m view -> erase_elements m view = Some m' ->
  forall t, id_upper_bound m' t = id_upper_bound m t.
Proof. exact C13_ids_not_reused_pf. Qed.
Print Assumptions C13_ids_not_reused.

(** In every history every correct operation is defined: no operation of the
    interface reaches undefined behaviour on a mesh obtained by correct use. *)
Theorem C13_always_defined : forall Pt cfg (m : @mesh Pt) o, ereach cfg m -> valid_eop cfg m o ->
  exists m', step cfg m o = Some m' /\ ereach cfg m'.
Proof. exact C13_always_defined_pf. Qed.
Print Assumptions C13_always_defined.

(** Handles, though, do not survive.  Erasing one element nothing refers to (say,
    a cell): the handle of the last element of that type dangles afterwards,
    whichever element was erased; the erased handle now denotes that last element
    (if it is not itself the last); all other handles denote what they did. *)
Theorem C13_handle_of_last_element_refuted : forall Pt cfg (m : @mesh Pt) t a z rest, ereach cfg m ->
  is_live m t a -> unreferenced m t a -> range m t = rest ++ [z] ->
  exists m', erase_elements m (single t a) = Some m' /\
    ~ is_live m' t z /\
    (a <> z -> id_at m' t a = id_at m t z) /\
    (forall b, b <> a -> b <> z -> id_at m' t b = id_at m t b) /\
    (forall t' b, t' <> t -> id_at m' t' b = id_at m t' b).
Proof. exact C13_handle_of_last_element_refuted_pf. Qed.
Print Assumptions C13_handle_of_last_element_refuted.

(** After a deletion creation no longer finds shared elements: with every type
    stored, after making triangles 012 and 123 and erasing triangle 012 and its
    edge 01 (a reference-closed set), asking for the line with vertices 0 and 1
    returns the line with vertices 2 and 3; asking for the line 2-3 makes a
    second line with the same vertices. *)
Theorem C13_creation_after_erase_refuted : exists (m m1 m2 : @mesh unit) a b e e2,
  ereach (full_config Triangle) m /\ reach (full_config Triangle) (mesh_of (full_config Triangle) (removelast erase_demo)) /\
  step (full_config Triangle) (mesh_of (full_config Triangle) (removelast erase_demo)) (last erase_demo OClear) = Some m /\
  make_element (full_config Triangle) Line m [0; 1] = Some (m1, a) /\
  deref m1 Line a = Some e /\ e_verts e = [2; 3] /\
  make_element (full_config Triangle) Line m [2; 3] = Some (m2, b) /\ a <> b /\
  deref m2 Line b = Some e2 /\ e_verts e2 = [2; 3].
Proof. exact C13_creation_after_erase_refuted_pf. Qed.
Print Assumptions C13_creation_after_erase_refuted.

(** The hypotheses are met, and what is left is what the theorem says. *)
Definition ex_ops : list (op unit) :=
  [OVertex tt; OVertex tt; OVertex tt; OVertex tt; OVertex tt; OElement Tet [0;1;2;3]; OElement Tet [1;2;3;4]].
Definition ex_view : tag -> list addr :=
  fun t => match t with Tet => [0] | Triangle => [0;1] | Line => [0] | _ => [] end.
Example C13_hypotheses_met :
  ereach (full_config Tet) (mesh_of (full_config Tet) ex_ops) /\
  valid_view (mesh_of (full_config Tet) ex_ops) ex_view /\ reference_closed (mesh_of (full_config Tet) ex_ops) ex_view.
Proof.
  split; [apply demo_eok; vm_compute; reflexivity|].
  split; [apply valid_viewb_sound|apply closedb_sound]; vm_compute; reflexivity.
Qed.
Example C13_result : option_map (fun m => (ids_of m Tet, ids_of m Triangle, ids_of m Line, ids_of m Vertex))
    (erase_elements (mesh_of (full_config Tet) ex_ops) ex_view) =
  Some ([1], [6;5;2;3;4], [8;1;2;3;4;6;5;7], [0;1;2;3;4]).
Proof. vm_compute. reflexivity. Qed.
Example C13_single_hypotheses_met :
  is_live (mesh_of (full_config Tet) ex_ops) Tet 0 /\ unreferenced (mesh_of (full_config Tet) ex_ops) Tet 0 /\
  range (mesh_of (full_config Tet) ex_ops) Tet = [0] ++ [1].
Proof.
  split; [apply liveb_sound; vm_compute; reflexivity|]. split; [|vm_compute; reflexivity].
  apply unreferencedb_sound. vm_compute. reflexivity.
Qed.
