(** Properties C01-C08: ids, element creation, keys.
    Statements only; the proofs are in MeshProofs.v. *)
From Coq Require Import List Arith Bool Lia Permutation.
From Verif Require Import ModelTopo ModelMesh ModelErase ModelKeyMap SpecMesh MeshDemo MeshProofs.
Import ListNotations.

(** A concrete history used below: two tetrahedra sharing the face of the
    vertices 1,2,3, the second one listing it in another order. *)
Definition demo_ops : list (op nat) :=
  [OVertex 10; OVertex 11; OVertex 12; OVertex 13; OVertex 14;
   OElement Tet [0;1;2;3]; OElement Tet [3;1;2;4]].
Definition demo_mesh : @mesh nat := mesh_of (full_config Tet) demo_ops.
Example demo_reach : run (full_config Tet) demo_ops empty_mesh = Some demo_mesh /\ reach (full_config Tet) demo_mesh.
Proof. apply demo_ok. vm_compute. reflexivity. Qed.
Example demo_counts : map (fun t => length (range demo_mesh t)) [Vertex; Line; Triangle; Tet] = [5; 9; 7; 2].
Proof. vm_compute. reflexivity. Qed.

(** C01. After any history of creating, erasing and clearing in which the
    library chooses the ids, no two elements of a type have the same id and all
    ids are below id_upper_bound. *)
Theorem C01_auto_ids_unique : forall (Pt : Type) (cfg : config) (ops : list (op Pt)) (m : mesh),
  Forall no_explicit ops -> run cfg ops empty_mesh = Some m ->
  forall t, NoDup (ids_of m t) /\ forall i, In i (ids_of m t) -> i < id_upper_bound m t.
Proof. exact C01_auto_ids_unique_pf. Qed.
Print Assumptions C01_auto_ids_unique.

(** C01. An id that was in use and disappeared (by erasing) never comes back. *)
Theorem C01_ids_never_reused : forall (Pt : Type) (cfg : config) (ops1 ops2 ops3 : list (op Pt)) (m1 m2 m3 : mesh),
  Forall no_explicit (ops1 ++ ops2 ++ ops3) -> Forall no_clear (ops2 ++ ops3) ->
  run cfg ops1 empty_mesh = Some m1 -> run cfg ops2 m1 = Some m2 -> run cfg ops3 m2 = Some m3 ->
  forall t i, In i (ids_of m1 t) -> ~ In i (ids_of m2 t) -> ~ In i (ids_of m3 t).
Proof. exact C01_ids_never_reused_pf. Qed.
Print Assumptions C01_ids_never_reused.

(** C01. The id given to a new vertex has never been used since the mesh was
    created or last cleared: it differs from all ids at every earlier moment. *)
Theorem C01_new_vertex_id_fresh : forall (Pt : Type) (cfg : config) (ops1 ops2 : list (op Pt)) (m1 m2 m3 : mesh) p a,
  Forall no_explicit (ops1 ++ ops2) -> Forall no_clear ops2 ->
  run cfg ops1 empty_mesh = Some m1 -> run cfg ops2 m1 = Some m2 -> make_vertex cfg m2 p = Some (m3, a) ->
  exists e, deref m3 Vertex a = Some e /\ ~ In (e_id e) (ids_of m1 Vertex) /\ ~ In (e_id e) (ids_of m2 Vertex)
            /\ e_pt e = Some p.
Proof. exact C01_new_vertex_id_fresh_pf. Qed.
Print Assumptions C01_new_vertex_id_fresh.

Example C01_case : option_map (fun m => ids_of m Tet) (run (full_config Tet)
    (demo_ops ++ [OErase (fun t => match t with Tet => [0] | _ => [] end); OElement Tet [0;1;2;3]]) empty_mesh) = Some [1; 2].
Proof. vm_compute. reflexivity. Qed.

(** C02 is false in general: when the explicit id is the next automatic id,
    the very next automatic vertex gets the same id. This holds in every state. *)
Theorem C02_explicit_id_collides_refuted :
  forall (Pt : Type) (cfg : config) (ops : list (op Pt)) (m m1 m2 : mesh) p q a1 a2,
  Forall no_explicit ops -> run cfg ops empty_mesh = Some m ->
  make_vertex_with_id cfg m (id_upper_bound m Vertex) p = Some (m1, a1) ->
  make_vertex cfg m1 q = Some (m2, a2) ->
  a1 <> a2 /\ exists e1 e2, deref m2 Vertex a1 = Some e1 /\ deref m2 Vertex a2 = Some e2 /\ e_id e1 = e_id e2.
Proof. exact C02_explicit_id_collides_refuted_pf. Qed.
Print Assumptions C02_explicit_id_collides_refuted.

Example C02_collision : option_map (fun m => ids_of m Vertex) (run (full_config Tet) [OVertexId 0 5; OVertex 6] empty_mesh)
  = Some [0; 0].
Proof. vm_compute. reflexivity. Qed.

(** C02, partial: the claim holds when no explicit id equals the
    id_upper_bound of its moment (also if explicit ids repeat). Missing: that
    one value, for which the claim is false. *)
Theorem C02_explicit_ids_partial : forall (Pt : Type) (cfg : config) (ops : list (op Pt)) (m m' : mesh) p a,
  explicit_ids_guarded cfg ops empty_mesh -> run cfg ops empty_mesh = Some m ->
  make_vertex cfg m p = Some (m', a) ->
  exists e, deref m' Vertex a = Some e /\ ~ In (e_id e) (ids_of m Vertex).
Proof. exact C02_explicit_ids_partial_pf. Qed.
Print Assumptions C02_explicit_ids_partial.

Example C02_partial_case : explicit_ids_guarded (full_config Tet) [OVertexId 5 0; OVertex 1; OVertexId 2 2; OVertex 3] empty_mesh
  /\ option_map (fun m => ids_of m Vertex) (run (full_config Tet) [OVertexId 5 0; OVertex 1; OVertexId 2 2; OVertex 3] empty_mesh)
     = Some [5; 6; 2; 7].
Proof. split; [|vm_compute; reflexivity]. cbn. repeat split; discriminate. Qed.

(** C03. In every mesh built by correct use, the boundary elements of type
    [bt] (kept by the configuration) of every element [e] are all stored, there
    are as many as the reference topology says, and the k-th one has exactly
    the vertices at the reference positions. (Edges of hexahedra excepted: C10.) *)
Theorem C03_boundary_complete : forall (Pt : Type) (cfg : config) (m : @mesh Pt), reach cfg m ->
  forall t a e, deref m t a = Some e ->
  forall bt, bt <> Vertex -> cfg_keep cfg bt = true -> (t, bt) <> (Hex, Line) ->
    length (boundary_of e bt) = length (ref_facets t bt) /\
    forall k idx, nth_error (ref_facets t bt) k = Some idx ->
      exists h f vs, nth_error (boundary_of e bt) k = Some h /\ deref m bt h = Some f /\
        selects (e_verts e) idx vs /\ same_vertices (e_verts f) vs.
Proof. exact C03_boundary_complete_pf. Qed.
Print Assumptions C03_boundary_complete.

(** C03. The vertices of every stored element are stored vertices, pairwise
    different and of the right number. *)
Theorem C03_vertices_stored : forall (Pt : Type) (cfg : config) (m : @mesh Pt), reach cfg m ->
  forall t a e, t <> Vertex -> deref m t a = Some e ->
    length (e_verts e) = nverts t /\ NoDup (e_verts e) /\ Forall (is_live m Vertex) (e_verts e).
Proof. exact C03_vertices_stored_pf. Qed.
Print Assumptions C03_vertices_stored.

Example C03_case : option_map (fun e => map (fun bt => length (boundary_of e bt)) [Line; Triangle]) (deref demo_mesh Tet 1)
  = Some [6; 4].
Proof. vm_compute. reflexivity. Qed.

(** C04. Elements of intermediate dimension are stored once per vertex set. *)
Theorem C04_no_duplicate_facets : forall (Pt : Type) (cfg : config) (m : @mesh Pt), reach cfg m ->
  forall t, t <> Vertex -> t <> cfg_cell cfg ->
  forall a1 a2 e1 e2, deref m t a1 = Some e1 -> deref m t a2 = Some e2 ->
    same_vertices (e_verts e1) (e_verts e2) -> a1 = a2.
Proof. exact C04_no_duplicate_facets_pf. Qed.
Print Assumptions C04_no_duplicate_facets.

(** C04. Two elements that have a boundary element with the same vertices refer
    to the identical stored element. *)
Theorem C04_shared_facet_identical : forall (Pt : Type) (cfg : config) (m : @mesh Pt), reach cfg m ->
  forall t1 a1 e1 t2 a2 e2 bt, deref m t1 a1 = Some e1 -> deref m t2 a2 = Some e2 ->
  bt <> Vertex -> bt <> cfg_cell cfg -> cfg_keep cfg bt = true -> (t1, bt) <> (Hex, Line) -> (t2, bt) <> (Hex, Line) ->
  forall k1 k2 i1 i2 v1 v2 h1 h2,
    nth_error (ref_facets t1 bt) k1 = Some i1 -> selects (e_verts e1) i1 v1 ->
    nth_error (ref_facets t2 bt) k2 = Some i2 -> selects (e_verts e2) i2 v2 ->
    same_vertices v1 v2 ->
    nth_error (boundary_of e1 bt) k1 = Some h1 -> nth_error (boundary_of e2 bt) k2 = Some h2 -> h1 = h2.
Proof. exact C04_shared_facet_identical_pf. Qed.
Print Assumptions C04_shared_facet_identical.

(** The shared face of the two tetrahedra of the example is one object. *)
Example C04_case :
  option_map (fun e => nth_error (boundary_of e Triangle) 3) (deref demo_mesh Tet 0) = Some (Some 3) /\
  option_map (fun e => nth_error (boundary_of e Triangle) 0) (deref demo_mesh Tet 1) = Some (Some 3).
Proof. split; vm_compute; reflexivity. Qed.

(** C05. local_vertex gives the vertices of a boundary element in the order of
    the reference topology of the element it is seen from. *)
Theorem C05_local_vertex : forall (Pt : Type) (cfg : config) (m : @mesh Pt), reach cfg m ->
  forall t a e bt, deref m t a = Some e -> bt <> Vertex -> cfg_keep cfg bt = true -> (t, bt) <> (Hex, Line) ->
  forall k idx h i j v, nth_error (ref_facets t bt) k = Some idx -> nth_error (boundary_of e bt) k = Some h ->
    nth_error idx i = Some j -> nth_error (e_verts e) j = Some v ->
    local_vertex m e bt h i = Some v.
Proof. exact C05_local_vertex_pf. Qed.
Print Assumptions C05_local_vertex.

(** In the example the second tetrahedron sees the shared face in its own
    order 3,1,2 although it is stored as 1,2,3. *)
Example C05_case : option_map e_verts (deref demo_mesh Triangle 3) = Some [1;2;3] /\
  option_map (fun e => map (local_vertex demo_mesh e Triangle 3) [0;1;2]) (deref demo_mesh Tet 1)
    = Some [Some 3; Some 1; Some 2].
Proof. split; vm_compute; reflexivity. Qed.

(** C06. Creating elements never has undefined behaviour when used correctly. *)
Theorem C06_creation_defined : forall (Pt : Type) (cfg : config) (m : @mesh Pt) o, reach cfg m -> valid_op cfg m o ->
  exists m', step cfg m o = Some m'.
Proof. exact C06_creation_defined_pf. Qed.
Print Assumptions C06_creation_defined.

(** C06. Creating an element leaves every existing element exactly as it was
    (id, vertices, boundary elements, orientations, point), at its handle; the
    iteration order of the old elements is unchanged, and the handles of new
    elements are new. *)
Theorem C06_insertion_frame : forall (Pt : Type) (cfg : config) (m m' : @mesh Pt) o, reach cfg m -> valid_op cfg m o ->
  o <> OClear -> step cfg m o = Some m' ->
  (forall t a e, deref m t a = Some e -> deref m' t a = Some e) /\
  (forall t, exists is_new : addr -> bool,
     (forall a, In a (range m' t) -> (is_new a = true <-> ~ is_live m t a)) /\
     filter (fun a => negb (is_new a)) (range m' t) = range m t).
Proof. exact C06_insertion_frame_pf. Qed.
Print Assumptions C06_insertion_frame.

(** C06. The only elements that appear are the created one and, of lower
    dimension, elements all of whose vertices are vertices of the created one. *)
Theorem C06_only_own_boundary_appears : forall (Pt : Type) (cfg : config) (m m' : @mesh Pt) t vs a,
  reach cfg m -> valid_op cfg m (OElement t vs) -> make_element cfg t m vs = Some (m', a) ->
  (exists e, deref m' t a = Some e /\ same_vertices (e_verts e) vs) /\
  (forall t' a' e', deref m' t' a' = Some e' -> ~ is_live m t' a' ->
     (t' = t /\ a' = a) \/ (dim t' < dim t /\ incl (e_verts e') vs)) /\
  (t = cfg_cell cfg -> range m' t = range m t ++ [a] /\ ~ is_live m t a).
Proof. exact C06_only_own_boundary_appears_pf. Qed.
Print Assumptions C06_only_own_boundary_appears.

(** C07. Equal keys iff same vertex ids up to order (for any id lists, and for
    the vertices of a mesh: iff the same vertices). *)
Theorem C07_keys_identify_vertex_sets : forall (Pt : Type) (cfg : config) (m : @mesh Pt), reach cfg m ->
  forall vs1 vs2, Forall (is_live m Vertex) vs1 -> Forall (is_live m Vertex) vs2 ->
  exists k1 k2, key_of m vs1 = Some k1 /\ key_of m vs2 = Some k2 /\ (k1 = k2 <-> same_vertices vs1 vs2).
Proof. exact C07_keys_identify_vertex_sets_pf. Qed.
Print Assumptions C07_keys_identify_vertex_sets.

Theorem C07_sorted_ids_equal_iff : forall ids1 ids2 : list nat, isort ids1 = isort ids2 <-> Permutation ids1 ids2.
Proof. exact C07_sorted_ids_equal_iff_pf. Qed.
Print Assumptions C07_sorted_ids_equal_iff.

(** C07. The key comparison is a strict total order. *)
Theorem C07_key_order : (forall a, key_less a a = false) /\
  (forall a b c, key_less a b = true -> key_less b c = true -> key_less a c = true) /\
  (forall a b, a = b \/ key_less a b = true \/ key_less b a = true) /\
  (forall a b, key_less a b = true -> key_less b a = false).
Proof. exact C07_key_order_pf. Qed.
Print Assumptions C07_key_order.

Example C07_case : key_of demo_mesh [3;1;2] = Some [1;2;3] /\ key_of demo_mesh [1;2;3] = Some [1;2;3]
  /\ key_less [1;2;3] [1;2;4] = true /\ key_less [9] [1;2] = true.
Proof. repeat split; vm_compute; reflexivity. Qed.

(** C08. Every history of insertions, searches, removals, clears and size
    queries of the key map answers exactly like a mathematical finite map from
    keys to elements that never overwrites. *)
Theorem C08_key_map_is_finite_map : forall (V : Type) (ops : list (kop V)), km_run ops [] = fm_run ops (fm_empty, 0).
Proof. exact C08_key_map_is_finite_map_pf. Qed.
Print Assumptions C08_key_map_is_finite_map.

Example C08_case : km_run [KInsert [2] 7; KInsert [1] 8; KInsert [2] 9; KSize; KErase [2]; KFind [2]; KFind [1]] []
  = [RInsert 7 true; RInsert 8 true; RInsert 7 false; RSize 2; RUnit; RFind None; RFind (Some 8)].
Proof. vm_compute. reflexivity. Qed.
