(** Properties C11 and C12: views and marking for deletion. *)
From Coq Require Import List Arith Bool Permutation.
From Verif Require Import ModelTopo ModelMesh ModelErase ModelQuery ModelView SpecMesh SpecErase SpecQuery SpecView
  MeshDemo EraseDemo QueryDemo ViewProofs.
Import ListNotations.

(** insert_unique_handle appends the handle iff it is absent. *)
Theorem C11_insert_unique : forall h v,
  (In h v -> seq_insert_unique h v = v) /\ (~ In h v -> seq_insert_unique h v = v ++ [h]).
Proof. exact C11_insert_unique_pf. Qed.
Print Assumptions C11_insert_unique.

(** erase_handle removes the first occurrence and keeps everything else in order. *)
Theorem C11_erase_first : forall h v,
  (~ In h v -> seq_erase h v = v) /\ (forall v1 v2, v = v1 ++ h :: v2 -> ~ In h v1 -> seq_erase h v = v1 ++ v2).
Proof. exact C11_erase_first_pf. Qed.
Print Assumptions C11_erase_first.

(** One occurrence disappears, no other handle is affected. *)
Theorem C11_erase_count : forall h x v,
  count_occ Nat.eq_dec (seq_erase h v) x = count_occ Nat.eq_dec v x - (if Nat.eq_dec h x then 1 else 0).
Proof. exact C11_erase_count_pf. Qed.
Print Assumptions C11_erase_count.

(** After any sequence of insert_unique_handle, erase_handle and clear the view
    contains each element once, and exactly those whose last operation was an
    insertion. *)
Theorem C11_history : forall ops, Forall unique_only ops ->
  NoDup (seq_run ops []) /\ forall h, In h (seq_run ops []) <-> member_after h ops False.
Proof. exact C11_history_pf. Qed.
Print Assumptions C11_history.

(** The operations never change the order of the elements that stay. *)
Theorem C11_order_kept : forall v o x y, NoDup v -> before v x y -> In x (seq_step v o) -> In y (seq_step v o) ->
  before (seq_step v o) x y.
Proof. exact C11_order_kept_pf. Qed.
Print Assumptions C11_order_kept.

(** element_view(mesh, predicate): exactly the elements satisfying the
    predicate, once each, in mesh order. *)
Theorem C11_element_view : forall Pt cfg (m : @mesh Pt) t f, ereach cfg m ->
  lists_exactly (element_view m t f) (fun a => exists e, deref m t a = Some e /\ f e = true) /\
  element_view m t f = filter (fun a => match deref m t a with Some e => f e | None => false end) (range m t).
Proof. exact C11_element_view_pf. Qed.
Print Assumptions C11_element_view.

(** Mesh views (std::set ordered by id): inserting a live element adds exactly it,
    keeps the iteration by increasing id, and each element is contained once. *)
Theorem C11_mesh_view_insert : forall Pt cfg (m : @mesh Pt) t h v, ereach cfg m -> is_live m t h -> id_increasing m t v ->
  exists v', set_insert m t h v = Some v' /\ id_increasing m t v' /\ NoDup v' /\ forall a, In a v' <-> a = h \/ In a v.
Proof. exact C11_mesh_view_insert_pf. Qed.
Print Assumptions C11_mesh_view_insert.

Theorem C11_mesh_view_erase : forall Pt (m : @mesh Pt) t h v, id_increasing m t v ->
  id_increasing m t (seq_erase h v) /\ forall a, In a (seq_erase h v) <-> h <> a /\ In a v.
Proof. exact C11_mesh_view_erase_pf. Qed.
Print Assumptions C11_mesh_view_erase.

(** The hypothesis of unique ids is needed: a set view cannot hold two elements
    with the same id, the second insertion is silently dropped (ids can collide,
    see C02). *)
Theorem C11_equal_ids_refuted : forall Pt (m : @mesh Pt) t h1 h2 e1 e2, deref m t h1 = Some e1 -> deref m t h2 = Some e2 ->
  h1 <> h2 -> e_id e1 = e_id e2 ->
  obind (set_insert m t h1 []) (set_insert m t h2) = Some [h1] /\ ~ In h2 [h1].
Proof. exact C11_equal_ids_refuted_pf. Qed.
Print Assumptions C11_equal_ids_refuted.

(** mark_erase_elements adds to the view exactly the element and everything
    having it in its boundary; each element is contained once; the mesh is
    unchanged and queries stay correct. Every history of modifications and
    queries, every earlier content of the view. *)
Theorem C12_mark_exact : forall Pt cfg (s : qstate Pt) t h (v : tag -> list addr), qreach cfg s -> is_live (q_mesh s) t h ->
  good_view (q_mesh s) v ->
  exists s' v', mark_erase t h (s, v) = Some (s', v') /\ q_mesh s' = q_mesh s /\ qreach cfg s' /\ good_view (q_mesh s) v' /\
    forall t', NoDup (v' t') /\ forall a, In a (v' t') <-> refers_or_is (q_mesh s) t' a t h \/ In a (v t').
Proof. exact C12_mark_exact_pf. Qed.
Print Assumptions C12_mark_exact.

(** Marking keeps the view closed under "refers to" when all creations precede
    all deletions and the cells are not hexahedra. The two theorems
    [C12_..._refuted] below show that both conditions are needed. *)
Theorem C12_mark_closed_partial : forall Pt cfg (s s' : qstate Pt) t h (v v' : tag -> list addr), qreach cfg s ->
  build_then_erase cfg (q_mesh s) -> cfg_cell cfg <> Hex -> is_live (q_mesh s) t h ->
  good_view (q_mesh s) v -> reference_closed (q_mesh s) v -> mark_erase t h (s, v) = Some (s', v') ->
  reference_closed (q_mesh s) v'.
Proof. exact C12_mark_closed_partial_pf. Qed.
Print Assumptions C12_mark_closed_partial.

(** Consequently erase_element removes exactly the element and what refers to
    it, leaves no dangling reference, and the resulting mesh can be treated the
    same way again. *)
Theorem C12_erase_element_partial : forall Pt cfg (s : qstate Pt) t h, qreach cfg s ->
  build_then_erase cfg (q_mesh s) -> cfg_cell cfg <> Hex -> is_live (q_mesh s) t h ->
  exists s' gone, erase_element cfg t h s = Some s' /\ qreach cfg s' /\ build_then_erase cfg (q_mesh s') /\ no_dangling (q_mesh s') /\
    (forall t', lists_exactly (gone t') (fun a => refers_or_is (q_mesh s) t' a t h)) /\
    (forall t', Permutation (map (describe (q_mesh s')) (elements_of (q_mesh s') t'))
                            (map (describe (q_mesh s)) (elements_except (q_mesh s) t' (gone t')))).
Proof. exact C12_erase_element_partial_pf. Qed.
Print Assumptions C12_erase_element_partial.

(** Hexahedra: the line 2-6 belongs to two quadrilaterals of a hexahedron but is
    not one of its lines, so marking that line marks the quadrilaterals and not
    the hexahedron. *)
Theorem C12_hexahedron_refuted : exists (s : qstate unit) s' v' h, qreach (full_config Hex) s /\
  reach (full_config Hex) (q_mesh s) /\ is_live (q_mesh s) Line h /\
  mark_erase Line h (s, empty_view) = Some (s', v') /\ ~ reference_closed (q_mesh s) v'.
Proof. exact C12_hexahedron_refuted_pf. Qed.
Print Assumptions C12_hexahedron_refuted.

(** Creation after a deletion (with the wrong facet of
    C13_creation_after_erase_refuted): marking a vertex does not mark a triangle
    that has a marked line in its boundary. *)
Theorem C12_creation_after_erase_refuted : exists (s : qstate unit) s' v' h, qreach (full_config Triangle) s /\
  is_live (q_mesh s) Vertex h /\
  mark_erase Vertex h (s, empty_view) = Some (s', v') /\ ~ reference_closed (q_mesh s) v'.
Proof. exact C12_creation_after_erase_refuted_pf. Qed.
Print Assumptions C12_creation_after_erase_refuted.

Example C11_case : seq_run [VInsertUnique 3; VInsertUnique 1; VInsertUnique 3; VInsertUnique 7; VErase 3; VInsertUnique 3; VErase 9] [] = [1; 7; 3].
Proof. reflexivity. Qed.
Example C11_history_met : Forall unique_only [VInsertUnique 3; VInsertUnique 1; VErase 3; VClear; VInsertUnique 4].
Proof. repeat constructor. Qed.
Example C11_order_met : NoDup [5;2;9] /\ before [5;2;9] 5 9 /\ In 5 (seq_step [5;2;9] (VErase 2)) /\ In 9 (seq_step [5;2;9] (VErase 2)).
Proof. repeat split; [repeat constructor; simpl; intuition discriminate|exists [], [2], []; reflexivity|simpl; auto..]. Qed.
(** Two tetrahedra; the elements of id 1 and above in a view. *)
Definition vx_mesh_ops : list (op unit) := repeat (OVertex tt) 5 ++ [OElement Tet [0;1;2;3]; OElement Tet [1;2;3;4]].
Definition vx_ops : list (qop unit) := map (fun o => QMesh o) vx_mesh_ops.
Definition vx := qstate_of (full_config Tet) vx_ops.
Example C11_element_view_case : element_view (q_mesh vx) Triangle (fun e => Nat.even (e_id e)) = [0; 2; 4; 6].
Proof. vm_compute. reflexivity. Qed.
Example C11_equal_ids_met : let m := mesh_of (full_config Tet) [OVertexId 0 tt; OVertex tt] in
  exists e1 e2, deref m Vertex 0 = Some e1 /\ deref m Vertex 1 = Some e2 /\ e_id e1 = e_id e2.
Proof. vm_compute. eauto. Qed.
Example C12_hypotheses_met : qreach (full_config Tet) vx /\ build_then_erase (full_config Tet) (q_mesh vx) /\
  is_live (q_mesh vx) Line 3 /\ good_view (q_mesh vx) empty_view /\ reference_closed (q_mesh vx) empty_view.
Proof.
  split; [apply qdemo_ok; vm_compute; reflexivity|]. split.
  { apply bte_built. unfold vx. change vx_ops with (map (fun o => QMesh o) vx_mesh_ops). rewrite qmesh_of. apply demo_ok. vm_compute. reflexivity. }
  split; [apply liveb_sound; vm_compute; reflexivity|]. split; [intros t; exists []; split; constructor|intros bt b t a e []].
Qed.
Example C12_case : option_map (fun r => map (snd r) [Vertex; Line; Triangle; Tet]) (mark_erase Vertex 4 (vx, empty_view)) =
  Some [[4]; [6;7;8]; [4;5;6]; [1]].
Proof. vm_compute. reflexivity. Qed.
Example C12_erase_case : option_map (fun s => map (ids_of (q_mesh s)) [Vertex; Line; Triangle; Tet]) (erase_element (full_config Tet) Vertex 4 vx) =
  Some [[0;1;2;3]; [0;1;2;3;4;5]; [0;1;2;3]; [0]].
Proof. vm_compute. reflexivity. Qed.
