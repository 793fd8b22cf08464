(** Property C17: interfaces between segments. *)
From Coq Require Import List Arith ZArith Bool.
From Verif Require Import ModelTopo ModelMesh ModelErase ModelQuery ModelSegmentation ModelSegment ModelInterface
  SpecMesh SpecErase SpecQuery SpecSegmentation SpecSegment SpecInterface SegmentDemo InterfaceDemo InterfaceProofs.
Import ModelSegmentation ListNotations.
Open Scope nat_scope.

(** Every correct call is defined, in every history. *)
Theorem C17_always_defined : forall Pt cfg H (S : istate Pt) o, cfg_cell cfg <> Hex -> history cfg H S -> valid_iop cfg S o ->
  exists S', istep cfg S o = Some S'.
Proof. exact C17_always_defined_pf. Qed.
Print Assumptions C17_always_defined.

(** No interface element is missed, in any history, provided the interface is
    symmetric or was never asked for in the other order. *)
Theorem C17_none_missed : forall Pt cfg H (S : istate Pt) a b t x, cfg_cell cfg <> Hex -> history cfg H S -> valid_iop cfg S (IAsk a b t x) ->
  symmetric_interface cfg (is_seg S) a b \/ (forall S', ~ asked H S' b a) ->
  on_interface cfg (is_seg S) a b t x -> exists S', is_interface cfg a b t x S = Some (S', true).
Proof. exact C17_none_missed_pf. Qed.
Print Assumptions C17_none_missed.

(** An answer true is about the present or about a time when the interface was
    asked for. *)
Theorem C17_now_or_earlier : forall Pt cfg H (S : istate Pt) a b t x S', cfg_cell cfg <> Hex -> history cfg H S -> valid_iop cfg S (IAsk a b t x) ->
  is_interface cfg a b t x S = Some (S', true) ->
  on_interface cfg (is_seg S) a b t x \/
  exists S0, (asked H S0 a b /\ on_interface cfg (is_seg S0) a b t x) \/ (asked H S0 b a /\ on_interface cfg (is_seg S0) b a t x).
Proof. exact C17_now_or_earlier_pf. Qed.
Print Assumptions C17_now_or_earlier.

(** Hence the answer is exact when what was on the interface at earlier queries
    still is, and the interface is symmetric or was never asked for in the other
    order.  Missing for C17: it is false without these conditions, see below. *)
Theorem C17_exact_partial : forall Pt cfg H (S : istate Pt) a b t x, cfg_cell cfg <> Hex -> history cfg H S -> valid_iop cfg S (IAsk a b t x) ->
  symmetric_interface cfg (is_seg S) a b \/ (forall S', ~ asked H S' b a) ->
  (forall S0, asked H S0 a b -> on_interface cfg (is_seg S0) a b t x -> on_interface cfg (is_seg S) a b t x) ->
  (forall S0, asked H S0 b a -> on_interface cfg (is_seg S0) b a t x -> on_interface cfg (is_seg S) a b t x) ->
  exists S' r, is_interface cfg a b t x S = Some (S', r) /\ (r = true <-> on_interface cfg (is_seg S) a b t x).
Proof. exact C17_exact_partial_pf. Qed.
Print Assumptions C17_exact_partial.

(** In particular the first query about two segments is exact. *)
Theorem C17_first_query : forall Pt cfg H (S : istate Pt) a b t x, cfg_cell cfg <> Hex -> history cfg H S -> valid_iop cfg S (IAsk a b t x) ->
  (forall S', ~ asked H S' a b) -> (forall S', ~ asked H S' b a) ->
  exists S' r, is_interface cfg a b t x S = Some (S', r) /\ (r = true <-> on_interface cfg (is_seg S) a b t x).
Proof. exact C17_first_query_pf. Qed.
Print Assumptions C17_first_query.

(** The interface is symmetric when the segments have no common cell, no facet
    belongs to three cells, and every facet in a segment belongs to a cell of it. *)
Theorem C17_symmetric : forall Pt cfg (s : sstate Pt) a b, cfg_cell cfg <> Hex -> sreach cfg s -> is_segment s a -> is_segment s b ->
  (forall c, in_segment s a (cfg_cell cfg) c -> ~ in_segment s b (cfg_cell cfg) c) ->
  at_most_two_cells cfg (st_mesh s) -> facets_of_cells cfg s a -> facets_of_cells cfg s b ->
  symmetric_interface cfg s a b.
Proof. exact C17_symmetric_pf. Qed.
Print Assumptions C17_symmetric.

(** Both conditions on queries are needed.  Flags are never taken back: an edge
    that has left the second segment is still reported. *)
Theorem C17_stale_refuted : exists cfg H (S S' : istate unit) a b f, cfg_cell cfg <> Hex /\ history cfg H S /\
  valid_iop cfg S (IAsk a b Line f) /\ symmetric_interface cfg (is_seg S) a b /\
  is_interface cfg a b Line f S = Some (S', true) /\ ~ on_interface cfg (is_seg S) a b Line f.
Proof. exact C17_stale_refuted_pf. Qed.
Print Assumptions C17_stale_refuted.

(** And two segments with a common cell: after a query in the other order an
    interface edge is missed. *)
Theorem C17_order_refuted : exists cfg H (S S' : istate unit) a b f, cfg_cell cfg <> Hex /\ history cfg H S /\
  valid_iop cfg S (IAsk a b Line f) /\ on_interface cfg (is_seg S) a b Line f /\
  is_interface cfg a b Line f S = Some (S', false).
Proof. exact C17_order_refuted_pf. Qed.
Print Assumptions C17_order_refuted.

(** Two triangles in two segments: the common edge and its vertices are the
    interface, and still are after a further triangle is created in the second
    segment. *)
Definition c17_calls : list (iop unit) :=
  map (fun o => ISeg (SMesh o)) [OVertex tt; OVertex tt; OVertex tt; OVertex tt; OVertex tt] ++
  map (fun o => ISeg o) [SManage SgMake; SManage SgMake; SCreate 0 (OElement Triangle [0;1;2]); SCreate 1 (OElement Triangle [1;2;3])] ++
  [IAsk 0 1 Line 2; ISeg (SCreate 1 (OElement Triangle [2;3;4])); IAsk 0 1 Line 2].
Example C17_example_history : history (full_config Triangle) (history_of (full_config Triangle) c17_calls) (istate_of (full_config Triangle) c17_calls).
Proof. apply idemo_ok. vm_compute. reflexivity. Qed.
Example C17_example_valid : forall x, In x [0;1;2;3;4;5] -> valid_iop (full_config Triangle) (istate_of (full_config Triangle) c17_calls) (IAsk 1 0 Line x).
Proof. intros x H. apply valid_iopb_sound. repeat (destruct H as [<-|H]; [vm_compute; reflexivity|]). destruct H. Qed.
Example C17_example_symmetric : iface_list (full_config Triangle) (is_seg (istate_of (full_config Triangle) c17_calls)) 0 1 = [2] /\
  iface_list (full_config Triangle) (is_seg (istate_of (full_config Triangle) c17_calls)) 1 0 = [2].
Proof. split; vm_compute; reflexivity. Qed.
Example C17_example_edges : map (fun x => option_map snd (is_interface (full_config Triangle) 1 0 Line x (istate_of (full_config Triangle) c17_calls))) [0;1;2;3;4;5;6] =
  [Some false; Some false; Some true; Some false; Some false; Some false; Some false].
Proof. vm_compute. reflexivity. Qed.
Example C17_example_vertices : map (fun x => option_map snd (is_interface (full_config Triangle) 1 0 Vertex x (istate_of (full_config Triangle) c17_calls))) [0;1;2;3;4] =
  [Some false; Some true; Some true; Some false; Some false].
Proof. vm_compute. reflexivity. Qed.
