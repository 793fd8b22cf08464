(** Properties C34-C37: refinement of tetrahedra and the comparison of edges. *)
From Coq Require Import Reals List Arith Bool Lia Lra.
From Verif Require Import ModelGeom ModelRefineTet ModelRefine SpecRefine RefineProofs.
Import ListNotations.

(** C37. The comparison does not depend on the direction of the two lines. *)
Theorem C37_direction_irrelevant : forall V d (pos : V -> point) (vid : V -> nat) a b c e,
  stable_line_is_longer d pos vid b a c e = stable_line_is_longer d pos vid a b c e /\
  stable_line_is_longer d pos vid a b e c = stable_line_is_longer d pos vid a b c e.
Proof. exact C37_direction_irrelevant_pf. Qed.
Print Assumptions C37_direction_irrelevant.

(** C37. It is irreflexive, asymmetric and transitive. *)
Theorem C37_strict_order : forall V d (pos : V -> point) (vid : V -> nat),
  let longer := stable_line_is_longer d pos vid in
  (forall a b, longer a b a b = false) /\
  (forall a b c e, longer a b c e = true -> longer c e a b = false) /\
  (forall a b c e f g, longer a b c e = true -> longer c e f g = true -> longer a b f g = true).
Proof. exact C37_strict_order_pf. Qed.
Print Assumptions C37_strict_order.

(** C37. It decides any two lines between different pairs of vertex ids. *)
Theorem C37_total : forall V d (pos : V -> point) (vid : V -> nat) a b c e,
  ~ ((vid a = vid c /\ vid b = vid e) \/ (vid a = vid e /\ vid b = vid c)) ->
  stable_line_is_longer d pos vid a b c e = true \/ stable_line_is_longer d pos vid c e a b = true.
Proof. exact C37_total_pf. Qed.
Print Assumptions C37_total.

(** C37. It refines the comparison of the lengths: a longer line is longer, a
    shorter one is not. *)
Theorem C37_respects_length : forall V d (pos : V -> point) (vid : V -> nat) a b c e,
  let len x y := norm_2 d (psub (pos x) (pos y)) in
  ((len a b > len c e)%R -> stable_line_is_longer d pos vid a b c e = true) /\
  ((len a b < len c e)%R -> stable_line_is_longer d pos vid a b c e = false).
Proof. exact C37_respects_length_pf. Qed.
Print Assumptions C37_respects_length.

(** C34. For every set of flagged edges, every position of the vertices and
    every assignment of ids to them, refining a tetrahedron succeeds (no
    "impossible" branch is reached); the children cover the tetrahedron and,
    if it is not degenerate, do not overlap. *)
Theorem C34_children_cover_without_overlap :
  forall V d (pos : V -> point) (vid : V -> nat) (vtx mid : nat -> V) (fl : nat -> bool),
  corner_ids_distinct vid 4 vtx ->
  (forall k, k < 6 -> fl k = true ->
     is_midpoint d (pos (mid k)) (pos (vtx (fst (tet_edge k)))) (pos (vtx (snd (tet_edge k))))) ->
  let tet := map (fun i => pos (vtx i)) [0; 1; 2; 3] in
  exists cells, tet_children d pos vid vtx mid fl = Some cells /\
    covers d tet (map (map pos) cells) /\
    (independent d tet -> no_overlap d (map (map pos) cells)).
Proof. exact C34_children_cover_without_overlap_pf. Qed.
Print Assumptions C34_children_cover_without_overlap.

(** C34. The children are tetrahedra, and their vertices are exactly the
    corners of the parent and the new vertices of its flagged edges. *)
Theorem C34_children_vertices :
  forall V d (pos : V -> point) (vid : V -> nat) (vtx mid : nat -> V) (fl : nat -> bool),
  corner_ids_distinct vid 4 vtx ->
  exists cells, tet_children d pos vid vtx mid fl = Some cells /\
    (forall c, In c cells -> length c = 4) /\
    forall u, (exists c, In c cells /\ In u c) <->
      (exists i, i < 4 /\ u = vtx i) \/ (exists k, k < 6 /\ fl k = true /\ u = mid k).
Proof. exact C34_children_vertices_pf. Qed.
Print Assumptions C34_children_vertices.

(** C34. The children fit together: a facet of a child either lies on a face of
    the parent, and then belongs to that child only, or it belongs to exactly
    two children. *)
Theorem C34_children_share_facets :
  forall V d (pos : V -> point) (vid : V -> nat) (vtx mid : nat -> V) (fl : nat -> bool),
  corner_ids_distinct vid 4 vtx -> vertices_distinct vtx mid fl ->
  exists cells, tet_children d pos vid vtx mid fl = Some cells /\
    forall i c t, nth_error cells i = Some c -> NoDup t -> length t = 3 -> has_facet c t ->
      ((exists v, v < 4 /\ forall u, In u t -> on_face_opposite vtx mid fl v u) /\
         (forall j c', nth_error cells j = Some c' -> has_facet c' t -> j = i)) \/
      (~ (exists v, v < 4 /\ forall u, In u t -> on_face_opposite vtx mid fl v u) /\
         (exists i', i' <> i /\ forall j, (exists c', nth_error cells j = Some c' /\ has_facet c' t) <-> j = i \/ j = i')).
Proof. exact C34_children_share_facets_pf. Qed.
Print Assumptions C34_children_share_facets.

(** C34. The volumes of the children add up to the volume of the parent, and
    no child of a non-degenerate tetrahedron is degenerate. *)
Theorem C34_volumes_add_up :
  forall V (pos : V -> point) (vid : V -> nat) (vtx mid : nat -> V) (fl : nat -> bool),
  corner_ids_distinct vid 4 vtx ->
  (forall k, k < 6 -> fl k = true ->
     is_midpoint 3 (pos (mid k)) (pos (vtx (fst (tet_edge k)))) (pos (vtx (snd (tet_edge k))))) ->
  let vol (c : list V) := match map pos c with [a; b; c; e] => signed_volume a b c e | _ => 0%R end in
  let parent := [vtx 0; vtx 1; vtx 2; vtx 3] in
  exists cells, tet_children 3 pos vid vtx mid fl = Some cells /\
    Rsum (map (fun c => Rabs (vol c)) cells) = Rabs (vol parent) /\
    (vol parent <> 0%R -> forall c, In c cells -> vol c <> 0%R).
Proof. exact C34_volumes_add_up_pf. Qed.
Print Assumptions C34_volumes_add_up.

(** C35, full statement: every child of a non-degenerate tetrahedron has the
    orientation of its parent. Proved for all flag sets and vertex positions
    except the configuration [turned_path]; what is missing is exactly that
    configuration, for which C35_orientation_kept_refuted shows the opposite. *)
Theorem C35_orientation_kept_partial :
  forall V (pos : V -> point) (vid : V -> nat) (vtx mid : nat -> V) (fl : nat -> bool),
  corner_ids_distinct vid 4 vtx ->
  (forall k, k < 6 -> fl k = true ->
     is_midpoint 3 (pos (mid k)) (pos (vtx (fst (tet_edge k)))) (pos (vtx (snd (tet_edge k))))) ->
  let parent := signed_volume (pos (vtx 0)) (pos (vtx 1)) (pos (vtx 2)) (pos (vtx 3)) in
  parent <> 0%R ->
  ~ turned_path (stable_line_is_longer 3 pos vid) vtx fl ->
  exists cells, tet_children 3 pos vid vtx mid fl = Some cells /\
    forall a b c e, In [a; b; c; e] cells -> (0 < signed_volume (pos a) (pos b) (pos c) (pos e) * parent)%R.
Proof. exact C35_orientation_kept_partial_pf. Qed.
Print Assumptions C35_orientation_kept_partial.

(** C35. In that configuration some child is turned around, whatever the
    positions and ids of the vertices. *)
Theorem C35_orientation_kept_refuted :
  forall V (pos : V -> point) (vid : V -> nat) (vtx mid : nat -> V) (fl : nat -> bool),
  corner_ids_distinct vid 4 vtx ->
  (forall k, k < 6 -> fl k = true ->
     is_midpoint 3 (pos (mid k)) (pos (vtx (fst (tet_edge k)))) (pos (vtx (snd (tet_edge k))))) ->
  let parent := signed_volume (pos (vtx 0)) (pos (vtx 1)) (pos (vtx 2)) (pos (vtx 3)) in
  parent <> 0%R ->
  turned_path (stable_line_is_longer 3 pos vid) vtx fl ->
  exists cells, tet_children 3 pos vid vtx mid fl = Some cells /\
    ~ forall a b c e, In [a; b; c; e] cells -> (0 < signed_volume (pos a) (pos b) (pos c) (pos e) * parent)%R.
Proof. exact C35_orientation_kept_refuted_pf. Qed.
Print Assumptions C35_orientation_kept_refuted.

(** C36. Two tetrahedra that share the triangle (x,y,z) split it identically:
    every triangle formed by vertices of the shared face and of its split edges
    is a facet of a child of one of them iff it is a facet of a child of the
    other, however the vertices of the two cells are ordered. *)
Theorem C36_shared_face_split_identically :
  forall V d (pos : V -> point) (vid : V -> nat) (flag : V -> V -> bool) (midp : V -> V -> V) (vtx vtx' : nat -> V) x y z,
  (forall u v, flag u v = flag v u) -> (forall u v, midp u v = midp v u) ->
  corner_ids_distinct vid 4 vtx -> vertices_distinct vtx (tet_mids midp vtx) (tet_flags flag vtx) ->
  corner_ids_distinct vid 4 vtx' -> vertices_distinct vtx' (tet_mids midp vtx') (tet_flags flag vtx') ->
  has_corner vtx x -> has_corner vtx y -> has_corner vtx z ->
  has_corner vtx' x -> has_corner vtx' y -> has_corner vtx' z ->
  x <> y -> x <> z -> y <> z ->
  exists cells cells',
    tet_children d pos vid vtx (tet_mids midp vtx) (tet_flags flag vtx) = Some cells /\
    tet_children d pos vid vtx' (tet_mids midp vtx') (tet_flags flag vtx') = Some cells' /\
    forall t, NoDup t -> length t = 3 -> (forall u, In u t -> on_triangle flag midp x y z u) ->
      ((exists c, In c cells /\ has_facet c t) <-> (exists c', In c' cells' /\ has_facet c' t)).
Proof. exact C36_shared_face_split_identically_pf. Qed.
Print Assumptions C36_shared_face_split_identically.

(** ** Concrete cases that meet the hypotheses *)

(** Four corners (numbers 0-3, the ids), the new vertex of the edge with the
    corners a < b is 10 a + b + 10; all points are those of the tetrahedron
    (0,0,0), (1,0,0), (0,2,0), (0,0,1). *)
Definition ex_corner (v : nat) : point := fun i =>
  match v, i with 1, 0 => 1 | 2, 1 => 2 | 3, 2 => 1 | _, _ => 0 end%R.
Definition ex_mid (k : nat) : nat := 10 * fst (tet_edge k) + snd (tet_edge k) + 10.
Definition ex_pos (v : nat) : point := fun i =>
  if v <? 10 then ex_corner v i else ((ex_corner ((v - 10) / 10) i + ex_corner ((v - 10) mod 10) i) / 2)%R.
Definition ex_vtx (i : nat) : nat := i.

Example ex_ids_distinct : corner_ids_distinct (fun v => v) 4 ex_vtx.
Proof. unfold corner_ids_distinct, ex_vtx. auto. Qed.

Example ex_mids : forall fl k, k < 6 -> fl k = true ->
  is_midpoint 3 (ex_pos (ex_mid k)) (ex_pos (ex_vtx (fst (tet_edge k)))) (ex_pos (ex_vtx (snd (tet_edge k)))).
Proof.
  intros fl k Hk _ i _. do 6 (destruct k as [|k]; [reflexivity|]). lia.
Qed.

Example ex_vertices_distinct : forall fl, vertices_distinct ex_vtx ex_mid fl.
Proof.
  intros fl. unfold vertices_distinct, ex_vtx. split; [auto|split].
  - intros i k Hi Hk _. do 6 (destruct k as [|k]; [unfold ex_mid; simpl; lia|]). lia.
  - intros k l Hk Hl _ _. do 6 (destruct k as [|k]; [do 6 (destruct l as [|l]; [unfold ex_mid; simpl; lia|]); lia|]). lia.
Qed.

Example ex_volume : signed_volume (ex_pos (ex_vtx 0)) (ex_pos (ex_vtx 1)) (ex_pos (ex_vtx 2)) (ex_pos (ex_vtx 3)) = 2%R.
Proof. unfold signed_volume, ex_pos, ex_vtx. simpl. lra. Qed.

Example ex_independent : independent 3 (map (fun i => ex_pos (ex_vtx i)) [0; 1; 2; 3]).
Proof.
  intros wps H HS HC.
  destruct wps as [|[w0 p0] [|[w1 p1] [|[w2 p2] [|[w3 p3] [|? ?]]]]]; try discriminate.
  simpl in H. injection H as -> -> -> ->.
  pose proof (HC 0 ltac:(lia)) as H0. pose proof (HC 1 ltac:(lia)) as H1. pose proof (HC 2 ltac:(lia)) as H2.
  unfold weight_sum, weighted_coord, ex_pos, ex_vtx in *. simpl in *.
  repeat (apply Forall_cons; [simpl; lra|]). apply Forall_nil.
Qed.

(** The flagged edges (01), (02), (23) of this tetrahedron form the path for
    which a child is turned around. *)
Definition ex_flags (k : nat) : bool := match k with 0 | 1 | 5 => true | _ => false end.
Lemma ex_len a b : a < 4 -> b < 4 ->
  line_length 3 ex_pos a b = sqrt ((ex_corner a 0%nat - ex_corner b 0%nat)² + (ex_corner a 1%nat - ex_corner b 1%nat)² + (ex_corner a 2%nat - ex_corner b 2%nat)²).
Proof.
  intros Ha Hb. unfold line_length, norm_2, psub, ex_pos, Rsqr. cbn [sum_upto].
  destruct (Nat.ltb_spec a 10); [|lia]. destruct (Nat.ltb_spec b 10); [|lia]. f_equal. ring.
Qed.
Example ex_turned : turned_path (stable_line_is_longer 3 ex_pos (fun v => v)) ex_vtx ex_flags.
Proof.
  exists 2, 0, 1, 3. split; [simpl; auto|]. split; [|split].
  - intros k Hk. unfold edge_between. do 6 (destruct k as [|k]; [simpl; intuition (try discriminate; auto)|]). lia.
  - apply (C37_respects_length nat 3 ex_pos (fun v => v) 2 0 0 1).
    change (line_length 3 ex_pos 2%nat 0%nat > line_length 3 ex_pos 0%nat 1%nat)%R. rewrite !ex_len by lia. apply sqrt_lt_1; unfold Rsqr; simpl; lra.
  - apply (C37_respects_length nat 3 ex_pos (fun v => v) 2 0 2 3).
    change (line_length 3 ex_pos 2%nat 0%nat < line_length 3 ex_pos 2%nat 3%nat)%R. rewrite !ex_len by lia. apply sqrt_lt_1; unfold Rsqr; simpl; lra.
Qed.
(** With no flagged edge (or only one) there is no such path. *)
Example ex_not_turned : ~ turned_path (stable_line_is_longer 3 ex_pos (fun v => v)) ex_vtx (fun k => Nat.eqb k 0).
Proof.
  intros (u & v & w & x & HI & HF & _).
  assert (N : forall k, 0 < k < 6 -> ~ (edge_between u v k \/ edge_between v w k \/ edge_between u x k)).
  { intros k Hk H. apply (HF k) in H; [|lia]. apply Nat.eqb_eq in H. lia. }
  unfold edge_between in N. simpl in HI. repeat destruct HI as [E|HI]; [..|destruct HI]; injection E as <- <- <- <-;
    first [apply (N 1); [lia|simpl; auto 8; fail]|apply (N 2); [lia|simpl; auto 8; fail]|apply (N 5); [lia|simpl; auto 8; fail]|apply (N 3); [lia|simpl; auto 8; fail]].
Qed.

(** Two tetrahedra 0-1-2-3 and 3-2-0-4 that share the face 0-2-3, every edge
    flagged. *)
Definition ex_flag (u v : nat) : bool := negb (u =? v).
Definition ex_midp (u v : nat) : nat := 10 * Nat.min u v + Nat.max u v + 10.
Definition ex_vtx' (i : nat) : nat := match i with 0 => 3 | 1 => 2 | 2 => 0 | _ => 4 end.
Example ex_shared :
  (forall u v, ex_flag u v = ex_flag v u) /\ (forall u v, ex_midp u v = ex_midp v u) /\
  corner_ids_distinct (fun v => v) 4 ex_vtx' /\
  vertices_distinct ex_vtx (tet_mids ex_midp ex_vtx) (tet_flags ex_flag ex_vtx) /\
  vertices_distinct ex_vtx' (tet_mids ex_midp ex_vtx') (tet_flags ex_flag ex_vtx') /\
  (has_corner ex_vtx 0 /\ has_corner ex_vtx 2 /\ has_corner ex_vtx 3) /\
  (has_corner ex_vtx' 0 /\ has_corner ex_vtx' 2 /\ has_corner ex_vtx' 3).
Proof.
  split; [intros; unfold ex_flag; now rewrite Nat.eqb_sym|]. split; [intros; unfold ex_midp; lia|].
  assert (D : forall f, (forall i j, i < 4 -> j < 4 -> f i = f j -> i = j) -> (forall i, i < 4 -> f i < 5) ->
    vertices_distinct f (tet_mids ex_midp f) (tet_flags ex_flag f)).
  { intros f HI HB. pose proof (HB 0 ltac:(lia)). pose proof (HB 1 ltac:(lia)). pose proof (HB 2 ltac:(lia)). pose proof (HB 3 ltac:(lia)).
    assert (N : f 0 <> f 1 /\ f 0 <> f 2 /\ f 0 <> f 3 /\ f 1 <> f 2 /\ f 1 <> f 3 /\ f 2 <> f 3).
    { repeat split; intros E; apply HI in E; lia. }
    split; [exact HI|]. split.
    - intros i k Hi Hk _. pose proof (HB i Hi). unfold tet_mids, ex_midp. lia.
    - intros k l Hk Hl _ _. unfold tet_mids, ex_midp.
      do 6 (destruct k as [|k]; [do 6 (destruct l as [|l]; [cbn [tet_edge fst snd]; lia|]); lia|]). lia. }
  assert (I' : forall i j, i < 4 -> j < 4 -> ex_vtx' i = ex_vtx' j -> i = j).
  { intros [|[|[|[|i]]]] [|[|[|[|j]]]] Hi Hj; simpl; lia. }
  split; [exact I'|]. split; [apply D; [auto|unfold ex_vtx; lia]|].
  split; [apply D; [exact I'|intros [|[|[|[|i]]]] Hi; simpl; lia]|].
  split; repeat split; [exists 0|exists 2|exists 3|exists 2|exists 1|exists 0]; split; auto; lia.
Qed.
