(** Property C33: refinement of triangles. *)
From Coq Require Import Reals List Arith Bool Lia Lra.
From Verif Require Import ModelGeom ModelRefineTri ModelRefine SpecRefine SpecTri TriProofs.
Import ListNotations.

(** C33. For every set of flagged edges, wherever the new vertices lie on them,
    refining a triangle succeeds; the children cover the triangle and, if it is
    not degenerate, do not overlap. This holds in the plane and in space and
    whatever the lengths of the edges are. *)
Theorem C33_children_cover_without_overlap :
  forall V d (pos : V -> point) (vtx mid : nat -> V) (fl : nat -> bool),
  (forall k, k < 3 -> fl k = true ->
     strictly_between d (pos (mid k)) (pos (vtx (fst (tri_edge k)))) (pos (vtx (snd (tri_edge k))))) ->
  let tri := map (fun i => pos (vtx i)) [0; 1; 2] in
  exists cells, tri_children d pos vtx mid fl = Some cells /\
    covers d tri (map (map pos) cells) /\
    (independent d tri -> no_overlap d (map (map pos) cells)).
Proof. exact C33_children_cover_without_overlap_pf. Qed.
Print Assumptions C33_children_cover_without_overlap.

(** C33. The children are triangles, and their vertices are exactly the corners
    of the parent and the new vertices of its flagged edges. *)
Theorem C33_children_vertices :
  forall V d (pos : V -> point) (vtx mid : nat -> V) (fl : nat -> bool),
  exists cells, tri_children d pos vtx mid fl = Some cells /\
    (forall c, In c cells -> length c = 3) /\
    forall u, (exists c, In c cells /\ In u c) <->
      (exists i, i < 3 /\ u = vtx i) \/ (exists k, k < 3 /\ fl k = true /\ u = mid k).
Proof. exact C33_children_vertices_pf. Qed.
Print Assumptions C33_children_vertices.

(** C33. Every child has the orientation of the parent and a positive share of
    its area, and the shares add up to one. In the plane this is the signed
    area; in space it says the same of the projections, so the children's normal
    vectors are positive multiples of the parent's and add up to it. *)
Theorem C33_orientation_kept_and_areas_add_up :
  forall V d (pos : V -> point) (vtx mid : nat -> V) (fl : nat -> bool),
  (forall k, (k < 3)%nat -> fl k = true ->
     strictly_between d (pos (mid k)) (pos (vtx (fst (tri_edge k)))) (pos (vtx (snd (tri_edge k))))) ->
  exists cells shares, tri_children d pos vtx mid fl = Some cells /\
    length shares = length cells /\ Forall (Rlt 0%R) shares /\ Rsum shares = 1%R /\
    forall n c w i j, nth_error cells n = Some c -> nth_error shares n = Some w -> (i < d)%nat -> (j < d)%nat ->
      area_in i j (map pos c) = (w * area_in i j [pos (vtx 0%nat); pos (vtx 1%nat); pos (vtx 2%nat)])%R.
Proof. exact C33_orientation_kept_and_areas_add_up_pf. Qed.
Print Assumptions C33_orientation_kept_and_areas_add_up.

(** C33. Each edge of the parent is split iff it is flagged: an edge that is not
    flagged is an edge of exactly one child; of a flagged edge both halves are,
    and no child has the whole edge. *)
Theorem C33_edges_split_iff_flagged :
  forall V d (pos : V -> point) (vtx mid : nat -> V) (fl : nat -> bool),
  tri_vertices_distinct vtx mid fl ->
  exists cells, tri_children d pos vtx mid fl = Some cells /\
    forall k, k < 3 -> let a := vtx (fst (tri_edge k)) in let b := vtx (snd (tri_edge k)) in
      if fl k then one_has_side cells a (mid k) /\ one_has_side cells (mid k) b /\ none_has_side cells a b
      else one_has_side cells a b.
Proof. exact C33_edges_split_iff_flagged_pf. Qed.
Print Assumptions C33_edges_split_iff_flagged.

(** C33. The children fit together: an edge of a child lies on an edge of the
    parent, and then belongs to that child only, or it belongs to exactly two
    children. *)
Theorem C33_children_share_edges :
  forall V d (pos : V -> point) (vtx mid : nat -> V) (fl : nat -> bool),
  tri_vertices_distinct vtx mid fl ->
  exists cells, tri_children d pos vtx mid fl = Some cells /\
    forall c u v, In c cells -> has_side c u v -> u <> v ->
      ((exists k, k < 3 /\ on_tri_edge vtx mid fl k u /\ on_tri_edge vtx mid fl k v) -> one_has_side cells u v) /\
      (~ (exists k, k < 3 /\ on_tri_edge vtx mid fl k u /\ on_tri_edge vtx mid fl k v) -> two_have_side cells u v).
Proof. exact C33_children_share_edges_pf. Qed.
Print Assumptions C33_children_share_edges.

(** A triangle in the plane with two flagged edges, the new vertices not in the
    middle: vertices are numbers, 0-2 the corners, 3+k the vertex of edge k. *)
Definition ex_tpos (v : nat) : point := fun i =>
  match v, i with
  | 1, 0 => 4%R | 2, 1 => 4%R | 3, 0 => 1%R | 4, 1 => 3%R | _, _ => 0%R
  end.
Definition ex_tfl (k : nat) : bool := match k with 0 | 1 => true | _ => false end.

Example ex_tri_between : forall k, k < 3 -> ex_tfl k = true ->
  strictly_between 2 (ex_tpos (3 + k)) (ex_tpos (fst (tri_edge k))) (ex_tpos (snd (tri_edge k))).
Proof.
  intros [|[|[|k]]] Hk HF; try discriminate; try lia.
  - exists (/4)%R. split; [lra|]. intros [|[|i]] Hi; simpl; try lra; lia.
  - exists (3/4)%R. split; [lra|]. intros [|[|i]] Hi; simpl; try lra; lia.
Qed.
Example ex_tri_distinct : tri_vertices_distinct (fun i => i) (fun k => 3 + k) ex_tfl.
Proof. repeat split; intros; simpl in *; lia. Qed.
Example ex_tri_independent : independent 2 (map (fun i => ex_tpos i) [0; 1; 2]).
Proof.
  intros wps H W C. destruct wps as [|[a ?] [|[b ?] [|[c ?] [|? ?]]]]; try discriminate. simpl in H. injection H as -> -> ->.
  pose proof (C 0 ltac:(lia)) as C0. pose proof (C 1 ltac:(lia)) as C1. unfold weight_sum, weighted_coord in *. simpl in *.
  repeat (apply Forall_cons; [cbn [fst]; lra|]). apply Forall_nil.
Qed.
