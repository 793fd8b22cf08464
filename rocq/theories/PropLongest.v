(** Property C38: marking the longest edges. *)
From Coq Require Import Reals List Arith Bool Lra.
From Verif Require Import ModelTopo ModelMesh ModelErase ModelGeom ModelLongest SpecMesh SpecErase SpecGeom SpecLongest MeshErase MeshDemo LongestProofs.
Import ListNotations.
(** C38. On every mesh in which each cell has an edge that is not of length zero,
    ensure_longest_edge_refinement ends (after at most one pass for each edge
    and one more), keeps all marks, leaves every cell that has a marked edge
    with its longest edge marked, and marks only what every such set of marks
    contains.  Missing for C38: cells whose edges all have length zero. *)
Theorem C38_longest_edge_closure_partial : forall d cfg (m : @mesh point) (f : addr -> bool),
  ereach cfg m ->
  let t := cfg_cell cfg in
  (forall c b, edge_of m t c b -> exists a l, edge_of m t c a /\ has_length d m a l /\ (0 < l)%R) ->
  exists f', (forall passes, length (range m Line) < passes -> ensure_longest d m t passes f = LDone f') /\
    no_flag_lost f f' /\ closed_flags d m t f' /\
    (forall g, no_flag_lost f g -> closed_flags d m t g -> no_flag_lost f' g).
Proof. exact C38_longest_edge_closure_partial_pf. Qed.
Print Assumptions C38_longest_edge_closure_partial.

(** A cell with a marked edge whose edges all have length zero makes the call
    undefined (a null pointer is dereferenced), in its first pass. *)
Theorem C38_zero_length_refuted : forall d cfg (m : @mesh point) (f : addr -> bool) c b passes,
  ereach cfg m ->
  let t := cfg_cell cfg in
  edge_of m t c b -> f b = true -> (forall a l, edge_of m t c a -> has_length d m a l -> l = 0%R) -> 0 < passes ->
  ensure_longest d m t passes f = LUndefined.
Proof. exact C38_zero_length_refuted_pf. Qed.
Print Assumptions C38_zero_length_refuted.

(** cell_refinement_to_edge_refinement: exactly the edges of the marked cells are
    marked in addition; mark_all_edge_refinement marks every edge. *)
Theorem C38_marking_cells : forall cfg (m : @mesh point) (marked : addr -> bool) (f : addr -> bool) a,
  ereach cfg m ->
  let t := cfg_cell cfg in
  (cells_to_edges m t marked f a = true <-> f a = true \/ exists c, marked c = true /\ edge_of m t c a) /\
  (mark_all m f a = true <-> f a = true \/ In a (range m Line)).
Proof. exact C38_marking_cells_pf. Qed.
Print Assumptions C38_marking_cells.

(** Two triangles: each has an edge of positive length. *)
Definition lg_ops : list (op point) :=
  [OVertex (pt2 0 0); OVertex (pt2 3 0); OVertex (pt2 0 1); OVertex (pt2 5 1); OElement Triangle [0;1;2]; OElement Triangle [1;2;3]].
Definition lg_mesh : @mesh point := mesh_of (full_config Triangle) lg_ops.
Example C38_hypotheses_met : ereach (full_config Triangle) lg_mesh /\
  (forall c b, edge_of lg_mesh Triangle c b -> exists a l, edge_of lg_mesh Triangle c a /\ has_length 2 lg_mesh a l /\ (0 < l)%R).
Proof.
  split.
  - apply reach_ereach. apply demo_ok. reflexivity.
  - assert (P : (0 < norm_2 2 (psub (pt2 3 0) (pt2 0 1)))%R).
    { unfold norm_2. apply sqrt_lt_R0. unfold psub, pt2. cbn. lra. }
    assert (H : has_length 2 lg_mesh 2 (norm_2 2 (psub (pt2 3 0) (pt2 0 1)))).
    { exists (mkE 2 [1;2] [] None), 1, 2, (mkE 1 [] [] (Some (pt2 3 0))), (mkE 2 [] [] (Some (pt2 0 1))), (pt2 3 0), (pt2 0 1).
      repeat split; cbv -[pt2]; reflexivity. }
    intros c b (k & e & D & _). exists 2, (norm_2 2 (psub (pt2 3 0) (pt2 0 1))). split; [|auto].
    destruct c as [|[|c]]; [| |exfalso; cbv -[pt2] in D; discriminate].
    + exists 2. eexists. split; cbv -[pt2]; reflexivity.
    + exists 0. eexists. split; cbv -[pt2]; reflexivity.
Qed.
(** A triangle whose vertices are all at the same place. *)
Definition zero_mesh : @mesh point := mesh_of (full_config Triangle) [OVertex (pt2 1 2); OVertex (pt2 1 2); OVertex (pt2 1 2); OElement Triangle [0;1;2]].
Example C38_zero_length_met : ereach (full_config Triangle) zero_mesh /\ edge_of zero_mesh Triangle 0 1 /\
  (forall a l, edge_of zero_mesh Triangle 0 a -> has_length 2 zero_mesh a l -> l = 0%R).
Proof.
  split; [apply reach_ereach, demo_ok; reflexivity|]. split; [exists 1; eexists; split; cbv -[pt2]; reflexivity|].
  intros a l _ (e & v & w & ev & ew & p & q & _ & _ & Dv & Pv & Dw & Pw & ->).
  assert (A : forall x ex, deref zero_mesh Vertex x = Some ex -> e_pt ex = Some (pt2 1 2)).
  { intros x ex D. destruct x as [|[|[|x]]]; cbv -[pt2] in D; inversion D; reflexivity. }
  rewrite (A _ _ Dv) in Pv. rewrite (A _ _ Dw) in Pw. inversion Pv; inversion Pw. subst.
  unfold norm_2, psub, pt2. cbn. replace (0 + (1 - 1) * (1 - 1) + (2 - 2) * (2 - 2))%R with 0%R by lra. apply sqrt_0.
Qed.
