(** Properties C14-C16: coboundary, neighbour and boundary queries in every
    history of modifications and queries. *)
From Coq Require Import List Arith Bool.
From Verif Require Import ModelTopo ModelMesh ModelErase ModelQuery SpecMesh SpecErase SpecQuery MeshDemo EraseDemo QueryDemo QueryProofs.
Import ListNotations.

(** Every modification and every query of a history of correct use is defined. *)
Theorem C14_always_defined : forall Pt cfg (s : qstate Pt) o, qreach cfg s -> valid_qop cfg (q_mesh s) o ->
  exists s', qstep cfg s o = Some s' /\ qreach cfg s'.
Proof. exact C14_always_defined_pf. Qed.
Print Assumptions C14_always_defined.

(** At any point of any history coboundary_elements<bt, ct>(mesh, b) is defined,
    lists exactly the elements of type [ct] that have [b] in their boundary in
    the current mesh, each once, and leaves the mesh alone.  Const and non-const
    version. *)
Theorem C14_coboundary_exact : forall Pt cfg (s : qstate Pt) const bt ct b, qreach cfg s -> is_live (q_mesh s) bt b ->
  exists s' l, query_cob const bt ct s b = Some (s', l) /\ q_mesh s' = q_mesh s /\
    lists_exactly l (fun a => bounded_by (q_mesh s) ct a bt b).
Proof. exact C14_coboundary_exact_pf. Qed.
Print Assumptions C14_coboundary_exact.

(** The elements are listed in the order of the mesh. *)
Theorem C14_coboundary_order : forall Pt cfg (s s' : qstate Pt) const bt ct b l, qreach cfg s -> is_live (q_mesh s) bt b ->
  query_cob const bt ct s b = Some (s', l) ->
  l = filter (fun a => match deref (q_mesh s) ct a with Some e => memb b (boundary_of e bt) | None => false end)
        (range (q_mesh s) ct).
Proof. exact C14_coboundary_order_pf. Qed.
Print Assumptions C14_coboundary_order.

(** At any point of any history neighbor_elements<t, c>(mesh, a) is defined and
    lists exactly the other elements of type [t] that share an element of type
    [c] with [a], each once. *)
Theorem C15_neighbours_exact : forall Pt cfg (s : qstate Pt) const t c a, qreach cfg s -> is_live (q_mesh s) t a ->
  exists s' l, query_nb const t c s a = Some (s', l) /\ q_mesh s' = q_mesh s /\
    lists_exactly l (share (q_mesh s) t c a).
Proof. exact C15_neighbours_exact_pf. Qed.
Print Assumptions C15_neighbours_exact.

(** Neighbourhood is irreflexive and symmetric, also when the second query is
    answered after the first one has changed the caches. *)
Theorem C15_irreflexive_symmetric : forall Pt cfg (s s1 s2 : qstate Pt) c1 c2 t c a b la lb, qreach cfg s ->
  is_live (q_mesh s) t a -> is_live (q_mesh s) t b ->
  query_nb c1 t c s a = Some (s1, la) -> query_nb c2 t c s1 b = Some (s2, lb) ->
  ~ In a la /\ (In b la <-> In a lb).
Proof. exact C15_irreflexive_symmetric_pf. Qed.
Print Assumptions C15_irreflexive_symmetric.

(** At any point of any history is_boundary(mesh, a) is defined, leaves the mesh
    alone, and is true exactly for the facets of exactly one cell and the
    elements of such facets, provided no facet belongs to more than two cells. *)
Theorem C16_boundary_exact : forall Pt cfg (s : qstate Pt) t a, qreach cfg s ->
  t = facet_tag (cfg_cell cfg) \/ In t (bnd_types cfg) -> is_live (q_mesh s) t a -> at_most_two cfg (q_mesh s) ->
  exists s' r, query_bnd cfg t s a = Some (s', r) /\ q_mesh s' = q_mesh s /\
    (r = true <-> on_boundary cfg (q_mesh s) t a).
Proof. exact C16_boundary_exact_pf. Qed.
Print Assumptions C16_boundary_exact.

(** With no restriction on the number of cells: the answer for a facet is
    whether the number of its cells is odd. *)
Theorem C16_facet_parity : forall Pt cfg (s : qstate Pt) f n, qreach cfg s ->
  is_live (q_mesh s) (facet_tag (cfg_cell cfg)) f -> cell_count cfg (q_mesh s) f n ->
  exists s', query_bnd cfg (facet_tag (cfg_cell cfg)) s f = Some (s', Nat.odd n).
Proof. exact C16_facet_parity_pf. Qed.
Print Assumptions C16_facet_parity.

(** The guard is needed: a facet of three cells is reported as boundary. *)
Theorem C16_three_cells_refuted : forall Pt cfg (s : qstate Pt) f, qreach cfg s ->
  is_live (q_mesh s) (facet_tag (cfg_cell cfg)) f -> cell_count cfg (q_mesh s) f 3 ->
  exists s', query_bnd cfg (facet_tag (cfg_cell cfg)) s f = Some (s', true) /\ ~ on_one_cell cfg (q_mesh s) f.
Proof. exact C16_three_cells_refuted_pf. Qed.
Print Assumptions C16_three_cells_refuted.

(** A history with queries between the modifications; the hypotheses of all the
    theorems above are met and the answers change with the mesh. *)
Definition qd_cfg := full_config Triangle.
Definition qd_ops : list (qop unit) :=
  [QMesh (OVertex tt); QMesh (OVertex tt); QMesh (OVertex tt); QMesh (OVertex tt);
   QMesh (OElement Triangle [0;1;2]); QCob false Line Triangle 2; QBnd Line 2; QNb true Triangle Line 0;
   QMesh (OElement Triangle [1;2;3])].
Example C14_hypotheses_met : qreach qd_cfg (qstate_of qd_cfg qd_ops).
Proof. apply qdemo_ok. vm_compute. reflexivity. Qed.
Example C14_answer :
  option_map snd (query_cob true Line Triangle (qstate_of qd_cfg qd_ops) 2) = Some [0;1] /\
  option_map snd (query_nb true Triangle Line (qstate_of qd_cfg qd_ops) 0) = Some [1] /\
  option_map snd (query_bnd qd_cfg Line (qstate_of qd_cfg qd_ops) 2) = Some false /\
  option_map snd (query_bnd qd_cfg Line (qstate_of qd_cfg qd_ops) 1) = Some true /\
  option_map snd (query_bnd qd_cfg Vertex (qstate_of qd_cfg qd_ops) 1) = Some true.
Proof. vm_compute. repeat split. Qed.
Example C16_hypotheses_met : at_most_two qd_cfg (q_mesh (qstate_of qd_cfg qd_ops)).
Proof. apply at_most_twob_sound. vm_compute. reflexivity. Qed.
(** After erasing the first triangle with the same history of queries. *)
Definition qd_ops2 : list (qop unit) := qd_ops ++ [QCob true Line Triangle 2; QBnd Line 2; QNb false Triangle Line 1;
  QMesh (OErase (fun t => match t with Triangle => [0] | _ => [] end))].
Example C14_hypotheses_met_after_erase : qreach qd_cfg (qstate_of qd_cfg qd_ops2).
Proof. apply qdemo_ok. vm_compute. reflexivity. Qed.
Example C14_answer_after_erase :
  option_map snd (query_cob true Line Triangle (qstate_of qd_cfg qd_ops2) 2) = Some [0] /\
  option_map snd (query_nb true Triangle Line (qstate_of qd_cfg qd_ops2) 0) = Some [] /\
  option_map snd (query_bnd qd_cfg Line (qstate_of qd_cfg qd_ops2) 2) = Some true.
Proof. vm_compute. repeat split. Qed.
(** Three triangles on one edge. *)
Definition qd_ops3 : list (qop unit) :=
  [QMesh (OVertex tt); QMesh (OVertex tt); QMesh (OVertex tt); QMesh (OVertex tt); QMesh (OVertex tt);
   QMesh (OElement Triangle [0;1;2]); QMesh (OElement Triangle [0;1;3]); QMesh (OElement Triangle [0;1;4])].
Example C16_three_cells_reachable : qreach qd_cfg (qstate_of qd_cfg qd_ops3) /\
  range (q_mesh (qstate_of qd_cfg qd_ops3)) Triangle = [0;1;2] /\
  option_map snd (query_cob true Line Triangle (qstate_of qd_cfg qd_ops3) 0) = Some [0;1;2] /\
  option_map snd (query_bnd qd_cfg Line (qstate_of qd_cfg qd_ops3) 0) = Some true.
Proof. split; [apply qdemo_ok; vm_compute; reflexivity|vm_compute; repeat split]. Qed.
