(** Property C43: transfer of quantities. *)
From Coq Require Import List Arith ZArith Bool.
From Verif Require Import ModelTopo ModelMesh ModelErase ModelSegmentation ModelSegment ModelTransfer SpecMesh SpecErase SpecQuery SpecSegment SpecTransfer
  MeshDemo MeshErase SegmentDemo TransferProofs.
Import ModelSegmentation ListNotations.
Open Scope nat_scope.
(** C43, to elements of a lower dimension (for example from cells to vertices), on
    any mesh with any functors: for each accepted destination element with an accepted
    source element adjacent to it the setter is called once, with the average of
    the values of exactly the accepted adjacent source elements, in their order.
    For other elements the setter is not called.
    Partial: the transfer to a higher dimension does something else, see below. *)
Theorem C43_to_lower_partial : forall Pt V cfg (m : @mesh Pt) (value : tag -> addr -> V) (average : list V -> V) st dt (fsrc fdst : addr -> bool),
  ereach cfg m -> dim dt < dim st ->
  exists calls, quantity_transfer value average m st dt fsrc fdst = Some calls /\
    transferred m value average st dt fsrc fdst (range m st) calls.
Proof. exact C43_to_lower_partial_pf. Qed.
Print Assumptions C43_to_lower_partial.

(** The same for a segment: with the elements of the segment as sources; the
    destinations are then elements of the segment, too. *)
Theorem C43_segment_to_lower_partial : forall Pt V cfg (s : sstate Pt) a (value : tag -> addr -> V) (average : list V -> V) st dt (fsrc fdst : addr -> bool),
  cfg_cell cfg <> Hex -> sreach cfg s -> is_segment s a ->
  exists calls, transfer_down value average (st_mesh s) st dt fsrc fdst (k_view (st_con s a) st) = Some calls /\
    transferred (st_mesh s) value average st dt fsrc fdst (k_view (st_con s a) st) calls /\
    forall x v, In (x, v) calls -> in_segment s a dt x.
Proof. exact C43_segment_to_lower_partial_pf. Qed.
Print Assumptions C43_segment_to_lower_partial.

(** Two triangles, values 10 and 20, to the four vertices: the average (here the
    sum) of one or two values; with a filter that accepts the second triangle only. *)
Definition tr_ops : list (op nat) := [OVertex 0; OVertex 1; OVertex 2; OVertex 3; OElement Triangle [0;1;2]; OElement Triangle [1;2;3]].
Definition tr_sum (l : list nat) : nat := fold_left Nat.add l 0.
Example C43_lower_met : ereach (full_config Triangle) (mesh_of (full_config Triangle) tr_ops) /\ dim Vertex < dim Triangle.
Proof. split; [apply reach_ereach, demo_ok; vm_compute; reflexivity|apply Nat.ltb_lt; reflexivity]. Qed.
Example C43_lower_example :
  let m := mesh_of (full_config Triangle) tr_ops in let value := fun (t : tag) a => 10 * (a + 1) in
  quantity_transfer value tr_sum m Triangle Vertex (fun _ => true) (fun _ => true) = Some [(0, 10); (1, 30); (2, 30); (3, 20)] /\
  quantity_transfer value tr_sum m Triangle Vertex (fun c => c =? 1) (fun v => negb (v =? 2)) = Some [(1, 20); (3, 20)].
Proof. split; vm_compute; reflexivity. Qed.

(** What the transfer to a higher dimension (for example from vertices to cells)
    does: the setter is called for all accepted elements, also for those
    without any source, and the values it averages are copies of the value of the
    destination element itself. *)
Theorem C43_to_higher_reads_destination : forall Pt V cfg (m : @mesh Pt) (value : tag -> addr -> V) (average : list V -> V) st dt (fsrc fdst : addr -> bool),
  ereach cfg m -> dim st < dim dt ->
  exists calls, quantity_transfer value average m st dt fsrc fdst = Some calls /\
    map fst calls = filter fdst (range m dt) /\
    forall x v, In (x, v) calls <-> fdst x = true /\ exists e, deref m dt x = Some e /\
      v = average (repeat (value dt x) (length (filter fsrc (boundary_of e st)))).
Proof. exact C43_to_higher_reads_destination_pf. Qed.
Print Assumptions C43_to_higher_reads_destination.

(** So the values of the source elements are never looked at: on every mesh, they
    can be changed at will without any effect. *)
Theorem C43_to_higher_refuted : forall Pt V cfg (m : @mesh Pt) (value value' : tag -> addr -> V) (average : list V -> V) st dt (fsrc fdst : addr -> bool),
  ereach cfg m -> dim st < dim dt -> (forall x, value dt x = value' dt x) ->
  quantity_transfer value average m st dt fsrc fdst = quantity_transfer value' average m st dt fsrc fdst.
Proof. exact C43_to_higher_refuted_pf. Qed.
Print Assumptions C43_to_higher_refuted.

(** The values of the vertices are 100, 200, 300, 400; the triangles get 3 times
    their own values. *)
Example C43_higher_example :
  let m := mesh_of (full_config Triangle) tr_ops in let value := fun (t : tag) a => match t with Vertex => 100 * (a + 1) | _ => a + 1 end in
  quantity_transfer value tr_sum m Vertex Triangle (fun _ => true) (fun _ => true) = Some [(0, 3); (1, 6)].
Proof. vm_compute. reflexivity. Qed.
(** A segment with the second triangle. *)
Example C43_segment_met : let cfg := full_config Triangle in
  let ops := map (fun o => SMesh o) tr_ops ++ [SManage (SgId 7%Z); SAdd 0 Triangle 1] in
  cfg_cell cfg <> Hex /\ valid_srunb cfg ops (new_sstate empty_mesh) = true /\
  segment_range (st_segs (sstate_of cfg ops)) = [0] /\ k_view (st_con (sstate_of cfg ops) 0) Triangle = [1].
Proof. split; [discriminate|]. split; [|split]; vm_compute; reflexivity. Qed.
