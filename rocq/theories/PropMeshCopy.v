(** Property C22: copied and assigned meshes. *)
From Coq Require Import List Arith Bool.
From Verif Require Import ModelTopo ModelMesh ModelErase ModelQuery ModelMeshCopy SpecMesh SpecErase SpecQuery SpecMeshCopy MeshErase EraseDemo QueryDemo MeshCopyProofs.
Import ListNotations.
(** The copy has the same elements in the same order, with the same ids,
    vertices, boundary elements, orientations and points, at the addresses that
    were allocated; the next ids are the same; and every handle in the copy
    refers to an element of the copy and not to one of the source. *)
Theorem C22_copy : forall Pt cfg (src : @mesh Pt) f nx, ereach cfg src -> allocator src f nx ->
  exists dst, copy_mesh f nx src = Some dst /\ same_elements src dst /\ (forall t, range dst t = map (f t) (range src t)) /\
    (forall t, id_upper_bound dst t = id_upper_bound src t) /\ no_dangling dst /\
    (apart src f -> forall t a e bt b, deref dst t a = Some e -> has_boundary e bt b -> is_live dst bt b /\ ~ is_live src bt b).
Proof. exact C22_copy_pf. Qed.
Print Assumptions C22_copy.

(** From then on the two meshes behave alike: any sequence of operations, with the
    handles translated, ends in the same elements in both, and is undefined in
    both or in none. *)
Theorem C22_behaves_alike : forall Pt cfg (src dst : @mesh Pt) f nx ops, ereach cfg src -> allocator src f nx -> copy_mesh f nx src = Some dst ->
  match run cfg ops src, run cfg (map (translated (counterpart src f nx)) ops) dst with
  | Some m, Some m' => same_elements m m' /\ forall t, range m' t = map (counterpart src f nx t) (range m t)
  | None, None => True
  | _, _ => False
  end.
Proof. exact C22_behaves_alike_pf. Qed.
Print Assumptions C22_behaves_alike.

(** The caches of the source are copied too, with handles of the source in them;
    the queries on the copy are exact nevertheless. *)
Theorem C22_queries : forall Pt cfg (s : qstate Pt) f nx, qreach cfg s -> allocator (q_mesh s) f nx ->
  exists s', copy_state f nx s = Some s' /\ copy_mesh f nx (q_mesh s) = Some (q_mesh s') /\
    (forall const bt ct b, is_live (q_mesh s') bt b -> exists s1 l, query_cob const bt ct s' b = Some (s1, l) /\ q_mesh s1 = q_mesh s' /\
       lists_exactly l (fun a => bounded_by (q_mesh s') ct a bt b)) /\
    (forall const t c a, is_live (q_mesh s') t a -> exists s1 l, query_nb const t c s' a = Some (s1, l) /\ q_mesh s1 = q_mesh s' /\
       lists_exactly l (share (q_mesh s') t c a)) /\
    (forall t a, t = facet_tag (cfg_cell cfg) \/ In t (bnd_types cfg) -> is_live (q_mesh s') t a -> at_most_two cfg (q_mesh s') ->
       exists s1 r, query_bnd cfg t s' a = Some (s1, r) /\ q_mesh s1 = q_mesh s' /\ (r = true <-> on_boundary cfg (q_mesh s') t a)).
Proof. exact C22_queries_pf. Qed.
Print Assumptions C22_queries.

(** Two triangles with a common edge, then the first one and one edge are erased;
    queries in between.  The copy is made 10 addresses further. *)
Definition mc_cfg := full_config Triangle.
Definition mc_state : qstate unit :=
  qstate_of mc_cfg (map (fun o => QMesh o) erase_demo ++ [QCob true Line Triangle 1; QNb false Triangle Line 0]).
Definition mc_f (t : tag) (a : addr) : addr := a + 10.
Definition mc_nx (t : tag) : addr := 20.
Example C22_hypotheses_met : qreach mc_cfg mc_state /\ allocator (q_mesh mc_state) mc_f mc_nx /\ apart (q_mesh mc_state) mc_f /\
  map (fun t => range (q_mesh mc_state) t) [Vertex; Line; Triangle] = [[0;1;2;3]; [0;1;2;3]; [0]].
Proof.
  split; [apply qdemo_ok; vm_compute; reflexivity|]. split; [|split; [|vm_compute; reflexivity]].
  - assert (N : forall t, m_next (q_mesh mc_state) t <= 8) by (intros []; vm_compute; repeat constructor). intros t. specialize (N t).
    revert N. generalize (m_next (q_mesh mc_state) t). intros k N. unfold mc_f, mc_nx. split; intros; [eapply Nat.add_cancel_r; eauto|].
    eapply Nat.lt_le_trans; [apply Nat.add_lt_mono_r; eauto|]. apply (Nat.add_le_mono_r k 8 10) in N. eapply Nat.le_trans; [exact N|]. repeat constructor.
  - assert (N : forall t, forallb (fun a => a <? 10) (range (q_mesh mc_state) t) = true) by (intros []; vm_compute; reflexivity).
    intros t a b Ha Hb. specialize (N t). revert N Ha Hb. generalize (range (q_mesh mc_state) t). intros l N Ha Hb E. rewrite forallb_forall in N.
    specialize (N b Hb). apply Nat.ltb_lt in N. unfold mc_f in E. subst b. rewrite Nat.add_comm in N. apply (Nat.nle_gt 10 (10 + a)) in N. apply N. apply Nat.le_add_r.
Qed.
Example C22_example_result :
  option_map (fun m => (map (fun t => range m t) [Vertex; Line; Triangle], option_map (fun e => (e_verts e, map b_addr (e_bnd e))) (deref m Triangle 10)))
    (copy_mesh mc_f mc_nx (q_mesh mc_state))
  = Some ([[10;11;12;13]; [10;11;12;13]; [10]], Some ([11;12;13], [12;13;10])).
Proof. vm_compute. reflexivity. Qed.
