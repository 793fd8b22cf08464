(** Proofs of C33. *)
From Coq Require Import Reals List Arith Bool Lia Lra Permutation.
From Verif Require Import ModelMesh ModelGeom ModelRefineTri ModelRefine SpecRefine SpecTri RefineGeom RefineTriBase
  RefineTetCheck RefineTetLemmas RefineProofs.
Import ListNotations.

Definition count2 (P : list (list nat)) (x y : nat) : nat := length (filter (inclb [x; y]) P).
Definition edge_labels (f : list bool) (k : nat) : list nat :=
  fst (tri_edge k) :: snd (tri_edge k) :: (if nth k f false then [3 + k] else []).
Definition lab_ok (f : list bool) (l : nat) : bool := (l <? 3) || ((l <? 6) && nth (l - 3) f false).
Definition tri_check (f : list bool) (P : list (list nat)) : bool :=
  forallb (fun c => (length c =? 3) && nodupb (map (fun l => [l]) c) && forallb (lab_ok f) c) P &&
  forallb (fun l => negb (lab_ok f l) || existsb (existsb (Nat.eqb l)) P) (seq 0 6) &&
  nodupb (map isort P) &&
  forallb (fun c => forallb (fun x => forallb (fun y => (x =? y) ||
     (count2 P x y =? if existsb (fun k => inclb [x; y] (edge_labels f k)) (seq 0 3) then 1 else 2)) c) c) P &&
  forallb (fun k => let (a, b) := tri_edge k in
     if nth k f false then (count2 P a (3 + k) =? 1) && (count2 P (3 + k) b =? 1) && (count2 P a b =? 0)
     else count2 P a b =? 1) (seq 0 3).

Lemma refine_tri_pat gt fl : exists P, refine_tri gt fl = Some P /\ In P tri_pats /\ tri_check (map fl (seq 0 3)) P = true.
Proof.
  unfold refine_tri. cbn [seq map filter].
  destruct (fl 0) eqn:E0, (fl 1) eqn:E1, (fl 2) eqn:E2; cbn [length]; unfold tri_apply0, tri_apply1, tri_apply2, tri_apply3, tri_cells1, tri_cells2;
    rewrite ?E0, ?E1, ?E2; cbn [andb];
    try match goal with |- context[gt ?a ?b ?c ?d] => destruct (gt a b c d) end;
    (eexists; split; [reflexivity|split; [simpl; tauto|vm_compute; reflexivity]]).
Qed.

Definition okt (fl : nat -> bool) (l : nat) : Prop := l < 3 \/ (3 <= l < 6 /\ fl (l - 3) = true).

Lemma lab_ok_spec fl l : lab_ok (map fl (seq 0 3)) l = true <-> okt fl l.
Proof.
  unfold lab_ok, okt. rewrite orb_true_iff, andb_true_iff, !Nat.ltb_lt.
  assert (N : forall k, k < 3 -> nth k (map fl (seq 0 3)) false = fl k) by (intros [|[|[|k]]] Hk; auto; lia).
  split; intros [H|[H1 H2]]; auto; destruct (Nat.lt_ge_cases l 3); auto; right; rewrite N in * by lia; split; auto; lia.
Qed.

Lemma tri_check_cells fl P c : tri_check (map fl (seq 0 3)) P = true -> In c P ->
  length c = 3 /\ NoDup c /\ forall l, In l c -> okt fl l.
Proof.
  unfold tri_check. rewrite !andb_true_iff. intros [[[[H _] _] _] _] Hc. rewrite forallb_forall in H. specialize (H c Hc).
  rewrite !andb_true_iff in H. destruct H as [[H1 H2] H3]. apply Nat.eqb_eq in H1. split; auto. split; [now apply nodupb_NoDup|].
  intros l Hl. rewrite forallb_forall in H3. apply lab_ok_spec. auto.
Qed.

Lemma tri_children_pat {V} d (pos : V -> point) vtx mid fl : exists P, tri_children d pos vtx mid fl = Some (map (map (handle_no 3 vtx mid)) P) /\
  In P tri_pats /\ tri_check (map fl (seq 0 3)) P = true.
Proof.
  unfold tri_children. cbv zeta.
  match goal with |- context[refine_tri ?g fl] => destruct (refine_tri_pat g fl) as (P & E & H) end.
  exists P. rewrite E. auto.
Qed.

(** Positions of the new vertices. *)
Definition good_s (fl : nat -> bool) (s : nat -> R) {V} d (pos : V -> point) (vtx mid : nat -> V) : Prop :=
  (forall k, (0 < s k)%R) /\ (forall k, (0 < 1 - s k)%R) /\
  forall k, k < 3 -> fl k = true -> forall i, i < d ->
    pos (mid k) i = ((1 - s k) * pos (vtx (fst (tri_edge k))) i + s k * pos (vtx (snd (tri_edge k))) i)%R.

Lemma exists_s {V} d (pos : V -> point) vtx mid fl :
  (forall k, k < 3 -> fl k = true -> strictly_between d (pos (mid k)) (pos (vtx (fst (tri_edge k)))) (pos (vtx (snd (tri_edge k))))) ->
  exists s, good_s fl s d pos vtx mid.
Proof.
  intros H.
  assert (G : forall k, exists sk, (0 < sk < 1)%R /\ (k < 3 -> fl k = true -> forall i, i < d ->
    pos (mid k) i = ((1 - sk) * pos (vtx (fst (tri_edge k))) i + sk * pos (vtx (snd (tri_edge k))) i)%R)).
  { intros k. destruct (Nat.lt_ge_cases k 3) as [Hk|Hk]; [|exists (/2)%R; split; [lra|intros; lia]].
    destruct (fl k) eqn:E; [|exists (/2)%R; split; [lra|discriminate]].
    destruct (H k Hk E) as (sk & S1 & S2). exists sk. auto. }
  destruct (G 0) as (s0 & A0 & B0), (G 1) as (s1 & A1 & B1), (G 2) as (s2 & A2 & B2).
  exists (fun k => match k with 0 => s0 | 1 => s1 | _ => s2 end). split; [|split].
  - intros [|[|k]]; lra.
  - intros [|[|k]]; lra.
  - intros [|[|[|k]]] Hk HF i Hi; auto; lia.
Qed.

Lemma handle_weights3 {V} d (pos : V -> point) vtx mid fl s l i : good_s fl s d pos vtx mid -> okt fl l -> i < d ->
  pos (handle_no 3 vtx mid l) i = Rsum (map (fun k => (wt3 s l k * pos (vtx k) i)%R) (seq 0 3)).
Proof.
  intros (_ & _ & HM) HL Hi. cbn [map seq Rsum fold_right]. destruct HL as [HL|[HL HF]].
  - do 3 (destruct l as [|l]; [cbv [handle_no wt3 tri_edge Nat.ltb Nat.leb Nat.eqb Nat.sub]; cbn iota; lra|]). lia.
  - specialize (HM (l - 3) ltac:(lia) HF i Hi).
    do 6 (destruct l as [|l]; [try lia; cbv [handle_no wt3 tri_edge Nat.ltb Nat.leb Nat.eqb Nat.sub fst snd] in *; cbn iota; lra|]). lia.
Qed.

Lemma wt3_pos s l i : (forall k, (0 < s k)%R) -> (forall k, (0 < 1 - s k)%R) -> (0 <= wt3 s l i)%R.
Proof.
  intros H1 H2. unfold wt3. destruct (l <? 3); [destruct (l =? i); lra|]. destruct (tri_edge (l - 3)) as [a b].
  specialize (H1 (l - 3)). specialize (H2 (l - 3)). destruct (a =? i); [lra|destruct (b =? i); lra].
Qed.

Lemma wt3_sum s l : l < 6 -> (wt3 s l 0 + wt3 s l 1 + wt3 s l 2 = 1)%R.
Proof. intros H. do 6 (destruct l as [|l]; [cbv [wt3 tri_edge Nat.ltb Nat.leb Nat.eqb Nat.sub]; cbn iota; lra|]). lia. Qed.

Lemma nodup_positions f P : tri_check f P = true -> forall i j c1 c2, nth_error P i = Some c1 -> nth_error P j = Some c2 -> c1 = c2 -> i = j.
Proof.
  unfold tri_check. rewrite !andb_true_iff. intros [[[_ H] _] _] i j c1 c2 H1 H2 ->.
  apply (nodupb_nth _ H i j (isort c2)); rewrite nth_error_map; [rewrite H1|rewrite H2]; reflexivity.
Qed.

Lemma C33_children_cover_without_overlap_pf :
  forall V d (pos : V -> point) (vtx mid : nat -> V) (fl : nat -> bool),
  (forall k, k < 3 -> fl k = true ->
     strictly_between d (pos (mid k)) (pos (vtx (fst (tri_edge k)))) (pos (vtx (snd (tri_edge k))))) ->
  let tri := map (fun i => pos (vtx i)) [0; 1; 2] in
  exists cells, tri_children d pos vtx mid fl = Some cells /\
    covers d tri (map (map pos) cells) /\
    (independent d tri -> no_overlap d (map (map pos) cells)).
Proof.
  intros V d pos vtx mid fl HM tri. destruct (exists_s d pos vtx mid fl HM) as (s & HS). clear HM.
  destruct (tri_children_pat d pos vtx mid fl) as (P & E & HP & HC). exists (map (map (handle_no 3 vtx mid)) P). split; auto.
  assert (M : map (map pos) (map (map (handle_no 3 vtx mid)) P) = map (map (fun l => pos (handle_no 3 vtx mid l))) P).
  { rewrite map_map. apply map_ext. intros c. apply map_map. }
  rewrite M. destruct HS as (S1 & S2 & S3). pose proof (conj S1 (conj S2 S3)) as HS.
  destruct (tri_pats_ok s S1 S2 P HP) as [GC GD].
  assert (HL : forall c l, In c P -> In l c -> okt fl l) by (intros c l Hc Hl; apply (tri_check_cells fl P c HC Hc); auto).
  assert (WS : forall l, okt fl l -> Rsum (map (wt3 s l) (seq 0 3)) = 1%R).
  { intros l Hl. cbn [map seq Rsum fold_right]. pose proof (wt3_sum s l ltac:(destruct Hl; lia)). lra. }
  split.
  - exact (lcover_covers 3 (wt3 s) (okt fl) (fun l i _ => wt3_pos s l i S1 S2) WS d (fun i => pos (vtx i)) (fun l => pos (handle_no 3 vtx mid l))
      (fun l i => handle_weights3 d pos vtx mid fl s l i HS) P GC HL).
  - intros HI.
    refine (ldisjoint_no_overlap 3 (wt3 s) (okt fl) WS d (fun i => pos (vtx i)) (fun l => pos (handle_no 3 vtx mid l))
      (fun l i => handle_weights3 d pos vtx mid fl s l i HS) P _ HL HI).
    intros i j c1 c2 H1 H2. destruct (GD c1 c2 (nth_error_In _ _ H1) (nth_error_In _ _ H2)) as [X|X]; auto.
    left. exact (nodup_positions _ P HC i j c1 c2 H1 H2 X).
Qed.

Lemma C33_children_vertices_pf :
  forall V d (pos : V -> point) (vtx mid : nat -> V) (fl : nat -> bool),
  exists cells, tri_children d pos vtx mid fl = Some cells /\
    (forall c, In c cells -> length c = 3) /\
    forall u, (exists c, In c cells /\ In u c) <->
      (exists i, i < 3 /\ u = vtx i) \/ (exists k, k < 3 /\ fl k = true /\ u = mid k).
Proof.
  intros V d pos vtx mid fl. destruct (tri_children_pat d pos vtx mid fl) as (P & E & HP & HC).
  exists (map (map (handle_no 3 vtx mid)) P). split; auto. split.
  - intros c Hc. apply in_map_iff in Hc as (c' & <- & Hc). rewrite map_length. now apply (tri_check_cells fl P c' HC).
  - intros u. split.
    + intros (c & Hc & Hu). apply in_map_iff in Hc as (c' & <- & Hc). apply in_map_iff in Hu as (l & <- & Hl).
      destruct (tri_check_cells fl P c' HC Hc) as (_ & _ & K). unfold handle_no. destruct (K l Hl) as [L|[L F]].
      * left. exists l. split; auto. now rewrite (proj2 (Nat.ltb_lt l 3) L).
      * right. exists (l - 3). split; [lia|]. split; auto. destruct (Nat.ltb_spec l 3); [lia|auto].
    + intros H. assert (X : exists l, okt fl l /\ u = handle_no 3 vtx mid l).
      { destruct H as [(i & Hi & ->)|(k & Hk & F & ->)].
        - exists i. split; [now left|]. unfold handle_no. now rewrite (proj2 (Nat.ltb_lt i 3) Hi).
        - exists (3 + k). split; [right; split; [lia|now replace (3 + k - 3) with k by lia]|].
          unfold handle_no. destruct (Nat.ltb_spec (3 + k) 3); [lia|]. f_equal. lia. }
      destruct X as (l & Hl & ->).
      unfold tri_check in HC. rewrite !andb_true_iff in HC. destruct HC as [[[[_ U] _] _] _]. rewrite forallb_forall in U.
      specialize (U l ltac:(apply in_seq; destruct Hl; lia)). apply lab_ok_spec in Hl. rewrite Hl in U. simpl in U.
      apply existsb_exists in U as (c & Hc & U). apply existsb_exists in U as (l' & Hl' & U). apply Nat.eqb_eq in U. subst l'.
      exists (map (handle_no 3 vtx mid) c). split; now apply in_map.
Qed.

Local Open Scope R_scope.
Definition kdet (s : nat -> R) (c : list nat) : R :=
  match c with
  | [a; b; e] =>
      let w := wt3 s in
        w a 0%nat * (w b 1%nat * w e 2%nat - w b 2%nat * w e 1%nat)
      - w a 1%nat * (w b 0%nat * w e 2%nat - w b 2%nat * w e 0%nat)
      + w a 2%nat * (w b 0%nat * w e 1%nat - w b 1%nat * w e 0%nat)
  | _ => 0
  end.

Lemma kdet_pats s P : (forall k, 0 < s k) -> (forall k, 0 < 1 - s k) -> In P tri_pats ->
  (forall c, In c P -> 0 < kdet s c) /\ Rsum (map (kdet s) P) = 1.
Proof.
  intros S1 S2 HP.
  assert (G : forall a b c, 0 < a -> 0 < b -> 0 < c -> 0 < a * b * c) by (intros; repeat apply Rmult_lt_0_compat; auto).
  pose proof (S1 0%nat) as A0. pose proof (S1 1%nat) as A1. pose proof (S1 2%nat) as A2.
  pose proof (S2 0%nat) as B0. pose proof (S2 1%nat) as B1. pose proof (S2 2%nat) as B2.
  pose proof (G _ _ _ A0 A1 A2). pose proof (G _ _ _ A0 A1 B2). pose proof (G _ _ _ A0 B1 A2). pose proof (G _ _ _ A0 B1 B2).
  pose proof (G _ _ _ B0 A1 A2). pose proof (G _ _ _ B0 A1 B2). pose proof (G _ _ _ B0 B1 A2). pose proof (G _ _ _ B0 B1 B2).
  unfold tri_pats in HP. simpl in HP.
  assert (Q : forall (f : list nat -> R) (g : list nat -> Prop) L, Forall g L -> Rsum (map f L) = 1 -> (forall c, In c L -> g c) /\ Rsum (map f L) = 1).
  { intros f g L F S. split; auto. now apply Forall_forall. }
  repeat match goal with H : _ = P \/ _ |- _ => destruct H as [<-|H] end; [..|destruct HP]; apply Q;
    unfold tri0, tri1_0, tri1_1, tri1_2, tri2_0t, tri2_0f, tri2_1t, tri2_1f, tri2_2t, tri2_2f, tri3;
    try (repeat (apply Forall_cons; [cbv [kdet wt3 tri_edge Nat.ltb Nat.leb Nat.eqb Nat.sub]; cbn iota; lra|]); apply Forall_nil);
    cbn [map Rsum fold_right]; cbv [kdet wt3 tri_edge Nat.ltb Nat.leb Nat.eqb Nat.sub]; cbn iota; ring.
Qed.

Lemma area_weights (wa wb we : nat -> R) (p : nat -> point) i j pa pb pe :
  wa 0%nat + wa 1%nat + wa 2%nat = 1 -> wb 0%nat + wb 1%nat + wb 2%nat = 1 -> we 0%nat + we 1%nat + we 2%nat = 1 ->
  (forall m, m = i \/ m = j -> pa m = wa 0%nat * p 0%nat m + wa 1%nat * p 1%nat m + wa 2%nat * p 2%nat m) ->
  (forall m, m = i \/ m = j -> pb m = wb 0%nat * p 0%nat m + wb 1%nat * p 1%nat m + wb 2%nat * p 2%nat m) ->
  (forall m, m = i \/ m = j -> pe m = we 0%nat * p 0%nat m + we 1%nat * p 1%nat m + we 2%nat * p 2%nat m) ->
  area_in i j [pa; pb; pe] =
    (wa 0%nat * (wb 1%nat * we 2%nat - wb 2%nat * we 1%nat) - wa 1%nat * (wb 0%nat * we 2%nat - wb 2%nat * we 0%nat)
      + wa 2%nat * (wb 0%nat * we 1%nat - wb 1%nat * we 0%nat)) * area_in i j [p 0%nat; p 1%nat; p 2%nat].
Proof.
  intros A B E HA HB HE. unfold area_in. rewrite !HA, !HB, !HE by auto.
  replace (wa 0%nat) with (1 - wa 1%nat - wa 2%nat) by lra. replace (wb 0%nat) with (1 - wb 1%nat - wb 2%nat) by lra.
  replace (we 0%nat) with (1 - we 1%nat - we 2%nat) by lra. ring.
Qed.

Lemma C33_orientation_kept_and_areas_add_up_pf :
  forall V d (pos : V -> point) (vtx mid : nat -> V) (fl : nat -> bool),
  (forall k, (k < 3)%nat -> fl k = true ->
     strictly_between d (pos (mid k)) (pos (vtx (fst (tri_edge k)))) (pos (vtx (snd (tri_edge k))))) ->
  exists cells shares, tri_children d pos vtx mid fl = Some cells /\
    length shares = length cells /\ Forall (Rlt 0%R) shares /\ Rsum shares = 1%R /\
    forall n c w i j, nth_error cells n = Some c -> nth_error shares n = Some w -> (i < d)%nat -> (j < d)%nat ->
      area_in i j (map pos c) = (w * area_in i j [pos (vtx 0%nat); pos (vtx 1%nat); pos (vtx 2%nat)])%R.
Proof.
  intros V d pos vtx mid fl HM. destruct (exists_s d pos vtx mid fl HM) as (s & HS). clear HM.
  destruct (tri_children_pat d pos vtx mid fl) as (P & E & HP & HC).
  destruct HS as (S1 & S2 & S3). pose proof (conj S1 (conj S2 S3)) as HS.
  destruct (kdet_pats s P S1 S2 HP) as [K1 K2].
  exists (map (map (handle_no 3 vtx mid)) P), (map (kdet s) P). split; auto. split; [now rewrite !map_length|].
  split; [apply Forall_forall; intros w Hw; apply in_map_iff in Hw as (c & <- & Hc); auto|]. split; auto.
  intros n c w i j Hc Hw Hi Hj. rewrite nth_error_map in Hc, Hw. destruct (nth_error P n) as [cl|] eqn:En; [|discriminate].
  injection Hc as <-. injection Hw as <-. apply nth_error_In in En.
  destruct (tri_check_cells fl P cl HC En) as (L & _ & K). destruct cl as [|a [|b [|e [|? ?]]]]; try discriminate.
  cbn [map]. unfold kdet. cbv zeta.
  assert (OK : forall l, In l [a; b; e] -> wt3 s l 0%nat + wt3 s l 1%nat + wt3 s l 2%nat = 1 /\
    forall m, m = i \/ m = j -> pos (handle_no 3 vtx mid l) m = wt3 s l 0%nat * pos (vtx 0%nat) m + wt3 s l 1%nat * pos (vtx 1%nat) m + wt3 s l 2%nat * pos (vtx 2%nat) m).
  { intros l Hl. specialize (K l Hl). split; [apply wt3_sum; destruct K; lia|]. intros m Hm.
    rewrite (handle_weights3 d pos vtx mid fl s l m HS K) by (destruct Hm as [->| ->]; auto). cbn [map seq Rsum fold_right]. ring. }
  apply (area_weights (wt3 s a) (wt3 s b) (wt3 s e) (fun k => pos (vtx k))); apply OK; simpl; auto.
Qed.

Local Close Scope R_scope.

Lemma handle_inj3 {V} (vtx mid : nat -> V) fl l l' : tri_vertices_distinct vtx mid fl -> okt fl l -> okt fl l' ->
  handle_no 3 vtx mid l = handle_no 3 vtx mid l' -> l = l'.
Proof.
  intros (D1 & D2 & D3) H1 H2 E. unfold handle_no in E.
  destruct (Nat.ltb_spec l 3), (Nat.ltb_spec l' 3).
  - auto.
  - destruct H2 as [|[? F]]; [lia|]. exfalso. apply (D2 l (l' - 3)); auto; lia.
  - destruct H1 as [|[? F]]; [lia|]. exfalso. apply (D2 l' (l - 3)); auto; lia.
  - destruct H1 as [|[? F]]; [lia|]. destruct H2 as [|[? F']]; [lia|].
    assert (l - 3 = l' - 3); [apply D3; auto; lia|lia].
Qed.

Lemma has_side_labels {V} (vtx mid : nat -> V) fl c x y : tri_vertices_distinct vtx mid fl ->
  (forall l, In l c -> okt fl l) -> okt fl x -> okt fl y ->
  (has_side (map (handle_no 3 vtx mid) c) (handle_no 3 vtx mid x) (handle_no 3 vtx mid y) <-> inclb [x; y] c = true).
Proof.
  intros HD HC Hx Hy. rewrite inclb_spec. unfold has_side.
  assert (G : forall z, okt fl z -> (In (handle_no 3 vtx mid z) (map (handle_no 3 vtx mid) c) <-> In z c)).
  { intros z Hz. split; [|apply in_map]. intros H. apply in_map_iff in H as (l & E & Hl).
    now rewrite <- (handle_inj3 vtx mid fl l z HD (HC l Hl) Hz E). }
  rewrite !G by auto. split; [intros [A B] z [<-|[<-|[]]]; auto|intros H; split; apply H; simpl; auto].
Qed.

Lemma side_positions {V} (vtx mid : nat -> V) fl P x y : tri_vertices_distinct vtx mid fl ->
  (forall c l, In c P -> In l c -> okt fl l) -> okt fl x -> okt fl y ->
  forall j, (exists c, nth_error (map (map (handle_no 3 vtx mid)) P) j = Some c /\ has_side c (handle_no 3 vtx mid x) (handle_no 3 vtx mid y))
    <-> In j (positions (inclb [x; y]) P 0).
Proof.
  intros HD HC Hx Hy j. rewrite positions_In, Nat.sub_0_r. split.
  - intros (c & Hc & HS). split; [lia|]. rewrite nth_error_map in Hc. destruct (nth_error P j) as [c'|] eqn:E; [|discriminate].
    injection Hc as <-. exists c'. split; auto. apply nth_error_In in E. apply (has_side_labels vtx mid fl c' x y HD (fun l => HC c' l E) Hx Hy). exact HS.
  - intros [_ (c & Hc & HI)]. exists (map (handle_no 3 vtx mid) c). rewrite nth_error_map, Hc. split; auto.
    apply nth_error_In in Hc. apply (has_side_labels vtx mid fl c x y HD); eauto.
Qed.

Lemma count_one {V} (vtx mid : nat -> V) fl P x y : tri_vertices_distinct vtx mid fl ->
  (forall c l, In c P -> In l c -> okt fl l) -> okt fl x -> okt fl y -> count2 P x y = 1 ->
  one_has_side (map (map (handle_no 3 vtx mid)) P) (handle_no 3 vtx mid x) (handle_no 3 vtx mid y).
Proof.
  intros HD HC Hx Hy H. unfold count2 in H. rewrite <- (positions_len _ _ 0) in H.
  pose proof (side_positions vtx mid fl P x y HD HC Hx Hy) as G.
  destruct (positions (inclb [x; y]) P 0) as [|i [|? ?]]; try discriminate. exists i. intros j. rewrite G. simpl. intuition.
Qed.
Lemma count_two {V} (vtx mid : nat -> V) fl P x y : tri_vertices_distinct vtx mid fl ->
  (forall c l, In c P -> In l c -> okt fl l) -> okt fl x -> okt fl y -> count2 P x y = 2 ->
  two_have_side (map (map (handle_no 3 vtx mid)) P) (handle_no 3 vtx mid x) (handle_no 3 vtx mid y).
Proof.
  intros HD HC Hx Hy H. unfold count2 in H. rewrite <- (positions_len _ _ 0) in H.
  pose proof (side_positions vtx mid fl P x y HD HC Hx Hy) as G. pose proof (positions_NoDup (inclb [x; y]) P 0) as N.
  destruct (positions (inclb [x; y]) P 0) as [|i [|i' [|? ?]]]; try discriminate. exists i, i'. split.
  - inversion N; subst. intros ->. simpl in *. tauto.
  - intros j. rewrite G. simpl. intuition.
Qed.
Lemma count_none {V} (vtx mid : nat -> V) fl P x y : tri_vertices_distinct vtx mid fl ->
  (forall c l, In c P -> In l c -> okt fl l) -> okt fl x -> okt fl y -> count2 P x y = 0 ->
  none_has_side (map (map (handle_no 3 vtx mid)) P) (handle_no 3 vtx mid x) (handle_no 3 vtx mid y).
Proof.
  intros HD HC Hx Hy H. unfold count2 in H. rewrite <- (positions_len _ _ 0) in H.
  pose proof (side_positions vtx mid fl P x y HD HC Hx Hy) as G.
  destruct (positions (inclb [x; y]) P 0) as [|? ?]; try discriminate. intros c Hc HS.
  apply In_nth_error in Hc as (j & Hj). apply (G j). eauto.
Qed.

Lemma C33_edges_split_iff_flagged_pf :
  forall V d (pos : V -> point) (vtx mid : nat -> V) (fl : nat -> bool),
  tri_vertices_distinct vtx mid fl ->
  exists cells, tri_children d pos vtx mid fl = Some cells /\
    forall k, k < 3 -> let a := vtx (fst (tri_edge k)) in let b := vtx (snd (tri_edge k)) in
      if fl k then one_has_side cells a (mid k) /\ one_has_side cells (mid k) b /\ none_has_side cells a b
      else one_has_side cells a b.
Proof.
  intros V d pos vtx mid fl HD. destruct (tri_children_pat d pos vtx mid fl) as (P & E & HP & HC).
  exists (map (map (handle_no 3 vtx mid)) P). split; auto. intros k Hk a b.
  assert (HL : forall c l, In c P -> In l c -> okt fl l) by (intros c l Hc Hl; apply (tri_check_cells fl P c HC Hc); auto).
  unfold tri_check in HC. rewrite !andb_true_iff in HC. destruct HC as [_ H]. rewrite forallb_forall in H.
  specialize (H k ltac:(apply in_seq; lia)).
  assert (N : nth k (map fl (seq 0 3)) false = fl k) by (destruct k as [|[|[|k]]]; auto; lia). rewrite N in H.
  assert (L : fst (tri_edge k) < 3 /\ snd (tri_edge k) < 3) by (destruct k as [|[|k]]; simpl; lia).
  assert (Ha : a = handle_no 3 vtx mid (fst (tri_edge k))) by (unfold handle_no; now rewrite (proj2 (Nat.ltb_lt _ 3) (proj1 L))).
  assert (Hb : b = handle_no 3 vtx mid (snd (tri_edge k))) by (unfold handle_no; now rewrite (proj2 (Nat.ltb_lt _ 3) (proj2 L))).
  assert (Hm : mid k = handle_no 3 vtx mid (3 + k)) by (unfold handle_no; destruct (Nat.ltb_spec (3 + k) 3); [lia|f_equal; lia]).
  rewrite Ha, Hb, Hm. destruct (tri_edge k) as [x y]. cbn [fst snd] in *.
  assert (Ox : okt fl x) by (left; tauto). assert (Oy : okt fl y) by (left; tauto).
  destruct (fl k) eqn:F.
  - assert (Om : okt fl (3 + k)) by (right; split; [lia|now replace (3 + k - 3) with k by lia]).
    rewrite !andb_true_iff, !Nat.eqb_eq in H. destruct H as [[H1 H2] H3].
    split; [|split]; [eapply count_one|eapply count_one|eapply count_none]; eauto.
  - apply Nat.eqb_eq in H. eapply count_one; eauto.
Qed.

Lemma C33_children_share_edges_pf :
  forall V d (pos : V -> point) (vtx mid : nat -> V) (fl : nat -> bool),
  tri_vertices_distinct vtx mid fl ->
  exists cells, tri_children d pos vtx mid fl = Some cells /\
    forall c u v, In c cells -> has_side c u v -> u <> v ->
      ((exists k, k < 3 /\ on_tri_edge vtx mid fl k u /\ on_tri_edge vtx mid fl k v) -> one_has_side cells u v) /\
      (~ (exists k, k < 3 /\ on_tri_edge vtx mid fl k u /\ on_tri_edge vtx mid fl k v) -> two_have_side cells u v).
Proof.
  intros V d pos vtx mid fl HD. destruct (tri_children_pat d pos vtx mid fl) as (P & E & HP & HC).
  exists (map (map (handle_no 3 vtx mid)) P). split; auto. intros c u v Hc [Hu Hv] N.
  assert (HL : forall c l, In c P -> In l c -> okt fl l) by (intros c' l Hc' Hl; apply (tri_check_cells fl P c' HC Hc'); auto).
  apply in_map_iff in Hc as (c0 & <- & Hc). apply in_map_iff in Hu as (x & <- & Hx). apply in_map_iff in Hv as (y & <- & Hy).
  unfold tri_check in HC. rewrite !andb_true_iff in HC. destruct HC as [[_ H] _].
  rewrite forallb_forall in H. specialize (H c0 Hc). rewrite forallb_forall in H. specialize (H x Hx). rewrite forallb_forall in H. specialize (H y Hy).
  destruct (Nat.eqb_spec x y) as [->|Nxy]; [congruence|]. cbn [orb] in H. apply Nat.eqb_eq in H.
  assert (OE : forall k l, k < 3 -> okt fl l -> (on_tri_edge vtx mid fl k (handle_no 3 vtx mid l) <-> In l (edge_labels (map fl (seq 0 3)) k))).
  { intros k l Hk Hl. assert (NK : nth k (map fl (seq 0 3)) false = fl k) by (destruct k as [|[|[|k]]]; auto; lia).
    unfold on_tri_edge, edge_labels. rewrite NK.
    assert (L : fst (tri_edge k) < 3 /\ snd (tri_edge k) < 3) by (destruct k as [|[|k]]; simpl; lia).
    assert (Q : forall i, i < 3 -> (handle_no 3 vtx mid l = vtx i <-> i = l)).
    { intros i Hi. split.
      - intros X. symmetry. apply (handle_inj3 vtx mid fl l i HD Hl); [now left|]. rewrite X. unfold handle_no. now rewrite (proj2 (Nat.ltb_lt i 3) Hi).
      - intros <-. unfold handle_no. now rewrite (proj2 (Nat.ltb_lt i 3) Hi). }
    assert (Q2 : fl k = true -> (handle_no 3 vtx mid l = mid k <-> 3 + k = l)).
    { intros F. assert (Hm : mid k = handle_no 3 vtx mid (3 + k)) by (unfold handle_no; destruct (Nat.ltb_spec (3 + k) 3); [lia|f_equal; lia]).
      rewrite Hm. split; [|congruence]. intros X. symmetry. apply (handle_inj3 vtx mid fl l (3 + k) HD Hl); auto.
      right. split; [lia|]. now replace (3 + k - 3) with k by lia. }
    rewrite !Q by tauto. destruct (fl k).
    - specialize (Q2 eq_refl). simpl. simpl in Q2. rewrite Q2. split; [intros [?|[?|[? ?]]]; auto|intros [?|[?|[?|[]]]]; auto].
    - simpl. split; [intros [?|[?|[? ?]]]; auto; discriminate|intros [?|[?|[]]]; auto]. }
  assert (OI : (exists k, k < 3 /\ on_tri_edge vtx mid fl k (handle_no 3 vtx mid x) /\ on_tri_edge vtx mid fl k (handle_no 3 vtx mid y)) <->
     existsb (fun k => inclb [x; y] (edge_labels (map fl (seq 0 3)) k)) (seq 0 3) = true).
  { rewrite existsb_exists. split.
    - intros (k & Hk & A & B). exists k. split; [apply in_seq; lia|]. apply inclb_spec. apply OE in A; eauto. apply OE in B; eauto.
      intros z [<-|[<-|[]]]; auto.
    - intros (k & Hk & A). apply in_seq in Hk. exists k. split; [lia|]. apply inclb_spec in A.
      split; apply OE; eauto; try lia; apply A; simpl; auto. }
  rewrite OI. revert H. destruct (existsb (fun k => inclb [x; y] (edge_labels (map fl (seq 0 3)) k)) (seq 0 3)); intros H; split; intros X.
  - eapply count_one; eauto.
  - destruct X. reflexivity.
  - discriminate.
  - eapply count_two; eauto.
Qed.
