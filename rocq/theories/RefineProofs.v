(** Proofs of C34-C37. *)
From Coq Require Import Reals List Arith Bool Lia Lra Permutation ZArith.
From Verif Require Import ModelMesh MeshBase ModelGeom ModelRefineTet ModelRefineTri ModelRefine SpecRefine RefineGeom
  RefineTetBase RefineTetTree RefineTetCheck RefineTetLemmas RefineOrder.
Import ListNotations.

Lemma C37_direction_irrelevant_pf : forall V d (pos : V -> point) (vid : V -> nat) a b c e,
  stable_line_is_longer d pos vid b a c e = stable_line_is_longer d pos vid a b c e /\
  stable_line_is_longer d pos vid a b e c = stable_line_is_longer d pos vid a b c e.
Proof. intros. split; [apply longer_sym1|apply longer_sym2]. Qed.

Lemma C37_strict_order_pf : forall V d (pos : V -> point) (vid : V -> nat),
  let longer := stable_line_is_longer d pos vid in
  (forall a b, longer a b a b = false) /\
  (forall a b c e, longer a b c e = true -> longer c e a b = false) /\
  (forall a b c e f g, longer a b c e = true -> longer c e f g = true -> longer a b f g = true).
Proof.
  intros. unfold longer. split; [intros; apply longer_irr|split; [intros; now apply longer_asym|]].
  intros. eapply longer_trans; eauto.
Qed.

Lemma C37_total_pf : forall V d (pos : V -> point) (vid : V -> nat) a b c e,
  ~ ((vid a = vid c /\ vid b = vid e) \/ (vid a = vid e /\ vid b = vid c)) ->
  stable_line_is_longer d pos vid a b c e = true \/ stable_line_is_longer d pos vid c e a b = true.
Proof. intros. now apply longer_total. Qed.

Lemma C37_respects_length_pf : forall V d (pos : V -> point) (vid : V -> nat) a b c e,
  let len x y := norm_2 d (psub (pos x) (pos y)) in
  ((len a b > len c e)%R -> stable_line_is_longer d pos vid a b c e = true) /\
  ((len a b < len c e)%R -> stable_line_is_longer d pos vid a b c e = false).
Proof.
  intros. unfold len. split; intros H.
  - apply longer_spec. now left.
  - destruct (stable_line_is_longer d pos vid a b c e) eqn:E; auto. apply longer_spec in E.
    unfold line_length in E. lra.
Qed.

Lemma tet_children_known {V} d (pos : V -> point) vid vtx mid fl : corner_ids_distinct vid 4 vtx ->
  exists P path, good_pat fl path P /\ sound (edge_cmp d pos vid vtx) path /\
    tet_children d pos vid vtx mid fl = Some (map (map (handle_no 4 vtx mid)) P).
Proof.
  intros HD. destruct (refine_tet_good _
    (fun a b c e => if Rle_dec (line_length d pos (handle_no 4 vtx mid a) (handle_no 4 vtx mid b))
                       (line_length d pos (handle_no 4 vtx mid c) (handle_no 4 vtx mid e)) then true else false)
    fl _ (edge_good d pos vid vtx mid HD)) as (P & path & E & HS & HP).
  exists P, path. split; auto. split; auto. unfold tet_children. cbv zeta. now rewrite E.
Qed.

Definition okl (fl : nat -> bool) (l : nat) : Prop := l < 4 \/ (4 <= l < 10 /\ fl (l - 4) = true).

Lemma bit_map fl k : k < 6 -> bit (map fl (seq 0 6)) k = fl k.
Proof. intros H. do 6 (destruct k as [|k]; [reflexivity|]). lia. Qed.

Lemma nodupb_NoDup (c : list nat) : nodupb (map (fun l => [l]) c) = true -> NoDup c.
Proof.
  induction c as [|x c IH]; intros H; [constructor|]. cbn [nodupb map] in H. apply andb_true_iff in H as [H1 H2]. constructor; auto.
  intros HI. apply negb_true_iff in H1. assert (E : existsb (list_eqb Nat.eqb [x]) (map (fun l => [l]) c) = true); [|congruence].
  apply existsb_exists. exists [x]. split; [now apply (in_map (fun l => [l]))|]. simpl. now rewrite Nat.eqb_refl.
Qed.

Lemma known_cells fl path P c : good_pat fl path P -> In c P ->
  length c = 4 /\ NoDup c /\ forall l, In l c -> okl fl l.
Proof.
  intros HP Hc. destruct (good_parts fl path P HP) as (H & _). unfold labels_ok in H.
  rewrite forallb_forall in H. specialize (H c Hc). apply andb_true_iff in H as [H H3]. apply andb_true_iff in H as [H1 H2].
  apply Nat.eqb_eq in H1. split; auto. split; [now apply nodupb_NoDup|].
  intros l Hl. rewrite forallb_forall in H3. specialize (H3 l Hl). unfold okl. apply orb_true_iff in H3 as [H3|H3].
  - left. now apply Nat.ltb_lt.
  - apply andb_true_iff in H3 as [H3 H4]. apply Nat.ltb_lt in H3. destruct (Nat.lt_ge_cases l 4); auto.
    right. split; [lia|]. rewrite bit_map in H4 by lia. auto.
Qed.

Definition mids_ok {V} d (pos : V -> point) vtx mid (fl : nat -> bool) : Prop :=
  forall k, k < 6 -> fl k = true -> is_midpoint d (pos (mid k)) (pos (vtx (fst (tet_edge k)))) (pos (vtx (snd (tet_edge k)))).

Lemma handle_weights {V} d (pos : V -> point) vtx mid fl l i : mids_ok d pos vtx mid fl -> okl fl l -> i < d ->
  pos (handle_no 4 vtx mid l) i = Rsum (map (fun k => (wt4 l k * pos (vtx k) i)%R) (seq 0 4)).
Proof.
  intros HM HL Hi. cbn [map seq Rsum fold_right]. destruct HL as [HL|[HL HF]].
  - do 4 (destruct l as [|l]; [cbv [handle_no wt4 tet_edge Nat.ltb Nat.leb Nat.eqb Nat.sub]; cbn iota; lra|]). lia.
  - specialize (HM (l - 4) ltac:(lia) HF i Hi).
    do 10 (destruct l as [|l]; [try lia; cbv [handle_no wt4 tet_edge Nat.ltb Nat.leb Nat.eqb Nat.sub fst snd] in *; cbn iota; lra|]). lia.
Qed.

Lemma wt4_pos l i : (0 <= wt4 l i)%R.
Proof.
  unfold wt4. destruct (l <? 4); [destruct (l =? i); lra|]. destruct (tet_edge (l - 4)) as [a b].
  destruct (a =? i); [lra|destruct (b =? i); lra].
Qed.

Lemma C34_children_cover_without_overlap_pf :
  forall V d (pos : V -> point) (vid : V -> nat) (vtx mid : nat -> V) (fl : nat -> bool),
  corner_ids_distinct vid 4 vtx ->
  (forall k, k < 6 -> fl k = true ->
     is_midpoint d (pos (mid k)) (pos (vtx (fst (tet_edge k)))) (pos (vtx (snd (tet_edge k))))) ->
  let tet := map (fun i => pos (vtx i)) [0; 1; 2; 3] in
  exists cells, tet_children d pos vid vtx mid fl = Some cells /\
    covers d tet (map (map pos) cells) /\
    (independent d tet -> no_overlap d (map (map pos) cells)).
Proof.
  intros V d pos vid vtx mid fl HD HM tet.
  destruct (tet_children_known d pos vid vtx mid fl HD) as (P & path & HP & HS & E).
  exists (map (map (handle_no 4 vtx mid)) P). split; auto.
  assert (M : map (map pos) (map (map (handle_no 4 vtx mid)) P) = map (map (fun l => pos (handle_no 4 vtx mid l))) P).
  { rewrite map_map. apply map_ext. intros c. apply map_map. }
  rewrite M. destruct (known_geometry fl path P HP) as [GC GD].
  assert (HL : forall c l, In c P -> In l c -> okl fl l) by (intros c l Hc Hl; apply (known_cells fl path P c HP Hc); auto).
  assert (WS : forall l, okl fl l -> Rsum (map (wt4 l) (seq 0 4)) = 1%R).
  { intros l Hl. cbn [map seq Rsum fold_right]. rewrite wt4_sum; [lra|]. destruct Hl; lia. }
  split.
  - exact (lcover_covers 4 wt4 (okl fl) (fun l i _ => wt4_pos l i) WS d (fun i => pos (vtx i)) (fun l => pos (handle_no 4 vtx mid l))
      (fun l i => handle_weights d pos vtx mid fl l i HM) P GC HL).
  - intros HI.
    exact (ldisjoint_no_overlap 4 wt4 (okl fl) WS d (fun i => pos (vtx i)) (fun l => pos (handle_no 4 vtx mid l))
      (fun l i => handle_weights d pos vtx mid fl l i HM) P GD HL HI).
Qed.

Lemma C34_children_vertices_pf :
  forall V d (pos : V -> point) (vid : V -> nat) (vtx mid : nat -> V) (fl : nat -> bool),
  corner_ids_distinct vid 4 vtx ->
  exists cells, tet_children d pos vid vtx mid fl = Some cells /\
    (forall c, In c cells -> length c = 4) /\
    forall u, (exists c, In c cells /\ In u c) <->
      (exists i, i < 4 /\ u = vtx i) \/ (exists k, k < 6 /\ fl k = true /\ u = mid k).
Proof.
  intros V d pos vid vtx mid fl HD.
  destruct (tet_children_known d pos vid vtx mid fl HD) as (P & path & HP & HS & E).
  exists (map (map (handle_no 4 vtx mid)) P). split; auto. split.
  - intros c Hc. apply in_map_iff in Hc as (c' & <- & Hc). rewrite map_length. now apply (known_cells fl path P c' HP).
  - intros u. split.
    + intros (c & Hc & Hu). apply in_map_iff in Hc as (c' & <- & Hc). apply in_map_iff in Hu as (l & <- & Hl).
      destruct (known_cells fl path P c' HP Hc) as (_ & _ & K). unfold handle_no. destruct (K l Hl) as [L|[L F]].
      * left. exists l. split; auto. now rewrite (proj2 (Nat.ltb_lt l 4) L).
      * right. exists (l - 4). split; [lia|]. split; auto. destruct (Nat.ltb_spec l 4); [lia|auto].
    + intros H. assert (X : exists l, okl fl l /\ u = handle_no 4 vtx mid l).
      { destruct H as [(i & Hi & ->)|(k & Hk & F & ->)].
        - exists i. split; [now left|]. unfold handle_no. now rewrite (proj2 (Nat.ltb_lt i 4) Hi).
        - exists (4 + k). split; [right; split; [lia|now replace (4 + k - 4) with k by lia]|].
          unfold handle_no. destruct (Nat.ltb_spec (4 + k) 4); [lia|]. f_equal. lia. }
      destruct X as (l & Hl & ->).
      destruct (good_parts fl path P HP) as (_ & U & _). unfold labels_used in U. rewrite forallb_forall in U.
      specialize (U l ltac:(apply in_seq; destruct Hl; lia)). apply orb_true_iff in U as [U|U].
      * exfalso. apply negb_true_iff in U. apply orb_false_iff in U as [U1 U2]. apply Nat.ltb_ge in U1.
        destruct Hl as [Hl|[Hl F]]; [lia|]. rewrite bit_map in U2 by lia. congruence.
      * apply existsb_exists in U as (c & Hc & U). apply existsb_exists in U as (l' & Hl' & U). apply Nat.eqb_eq in U. subst l'.
        exists (map (handle_no 4 vtx mid) c). split; now apply in_map.
Qed.

Lemma handle_inj {V} (vtx mid : nat -> V) fl l l' : vertices_distinct vtx mid fl -> okl fl l -> okl fl l' ->
  handle_no 4 vtx mid l = handle_no 4 vtx mid l' -> l = l'.
Proof.
  intros (D1 & D2 & D3) H1 H2 E. unfold handle_no in E.
  destruct (Nat.ltb_spec l 4), (Nat.ltb_spec l' 4).
  - auto.
  - destruct H2 as [|[? F]]; [lia|]. exfalso. apply (D2 l (l' - 4)); auto; lia.
  - destruct H1 as [|[? F]]; [lia|]. exfalso. apply (D2 l' (l - 4)); auto; lia.
  - destruct H1 as [|[? F]]; [lia|]. destruct H2 as [|[? F']]; [lia|].
    assert (l - 4 = l' - 4); [apply D3; auto; lia|lia].
Qed.

Lemma incl_handles {V} (vtx mid : nat -> V) fl tl c : vertices_distinct vtx mid fl ->
  (forall l, In l tl -> okl fl l) -> (forall l, In l c -> okl fl l) ->
  (incl (map (handle_no 4 vtx mid) tl) (map (handle_no 4 vtx mid) c) <-> incl tl c).
Proof.
  intros HD H1 H2. split; intros H x Hx.
  - specialize (H _ (in_map _ _ _ Hx)). apply in_map_iff in H as (y & E & Hy).
    now rewrite <- (handle_inj vtx mid fl y x HD (H2 y Hy) (H1 x Hx) E).
  - apply in_map_iff in Hx as (y & <- & Hy). apply in_map. auto.
Qed.

Lemma handles_pre {V} (vtx mid : nat -> V) (Q : nat -> Prop) t : (forall u, In u t -> exists l, Q l /\ u = handle_no 4 vtx mid l) ->
  exists tl, t = map (handle_no 4 vtx mid) tl /\ forall l, In l tl -> Q l.
Proof.
  induction t as [|u t IH]; intros H; [exists []; simpl; tauto|].
  destruct (H u) as (l & Hl & ->); [simpl; auto|]. destruct IH as (tl & -> & HQ); [intros; apply H; simpl; auto|].
  exists (l :: tl). split; auto. intros x [<-|Hx]; auto.
Qed.

Lemma NoDup_map_inv' {A B} (f : A -> B) l : NoDup (map f l) -> NoDup l.
Proof. apply NoDup_map_inv. Qed.

Fixpoint positions {A} (f : A -> bool) (l : list A) (s : nat) : list nat :=
  match l with [] => [] | x :: r => if f x then s :: positions f r (S s) else positions f r (S s) end.
Lemma positions_len {A} (f : A -> bool) l : forall s, length (positions f l s) = length (filter f l).
Proof. induction l as [|x l IH]; intros s; simpl; auto. destruct (f x); simpl; auto. Qed.
Lemma positions_In {A} (f : A -> bool) l : forall s k, In k (positions f l s) <->
  s <= k /\ exists x, nth_error l (k - s) = Some x /\ f x = true.
Proof.
  induction l as [|x l IH]; intros s k; simpl.
  - split; [tauto|]. intros [_ (x & H & _)]. destruct (k - s); discriminate.
  - assert (G : In k (positions f l (S s)) <-> s < k /\ exists y, nth_error (x :: l) (k - s) = Some y /\ f y = true).
    { rewrite IH. split; intros [H1 H2]; (split; [lia|]); replace (k - s) with (S (k - S s)) in * by lia; exact H2. }
    destruct (f x) eqn:E; simpl; rewrite G.
    + split.
      * intros [<-|[H1 H2]]; [|split; [lia|auto]]. split; auto. exists x. now rewrite Nat.sub_diag.
      * intros [H1 H2]. destruct (Nat.eq_dec s k); [now left|right; split; [lia|auto]].
    + split.
      * intros [H1 H2]. split; [lia|auto].
      * intros [H1 (y & H2 & H3)]. split; [|eauto]. destruct (Nat.eq_dec s k) as [->|]; [|lia].
        rewrite Nat.sub_diag in H2. injection H2 as <-. congruence.
Qed.
Lemma positions_NoDup {A} (f : A -> bool) l : forall s, NoDup (positions f l s).
Proof.
  induction l as [|x l IH]; intros s; simpl; [constructor|]. destruct (f x); auto. constructor; auto.
  rewrite positions_In. lia.
Qed.

(** Facets of a cell with four vertices. *)
Lemma NoDup_sub3 (t c : list nat) : NoDup t -> length t = 3 -> NoDup c -> length c = 4 ->
  (incl t c <-> exists f, In f (facets4 c) /\ Permutation f t).
Proof.
  intros Nt Lt Nc Lc. destruct c as [|a [|b [|c [|e [|? ?]]]]]; try discriminate. simpl facets4. split.
  - intros H.
    assert (D : exists x, In x [a;b;c;e] /\ ~ In x t).
    { destruct (in_dec Nat.eq_dec a t); [|exists a; simpl; tauto].
      destruct (in_dec Nat.eq_dec b t); [|exists b; simpl; tauto].
      destruct (in_dec Nat.eq_dec c t); [|exists c; simpl; tauto].
      destruct (in_dec Nat.eq_dec e t); [|exists e; simpl; tauto].
      exfalso. assert (length [a;b;c;e] <= length t); [|simpl in *; lia]. apply NoDup_incl_length; auto.
      intros x [<-|[<-|[<-|[<-|[]]]]]; auto. }
    destruct D as (x & Hx & Nx).
    assert (G : forall f, length f = 3 -> NoDup f -> incl t f -> Permutation f t).
    { intros f Lf Nf Hf. apply Permutation_sym, NoDup_Permutation_bis; auto. lia. }
    inversion Nc; subst. inversion H3; subst. inversion H5; subst. inversion H7; subst. simpl in *.
    destruct Hx as [<-|[<-|[<-|[<-|[]]]]].
    + exists [b;c;e]. split; [simpl; tauto|]. apply G; auto. intros y Hy. destruct (H y Hy) as [<-|Hy']; [contradiction|auto].
    + exists [a;c;e]. split; [simpl; tauto|]. apply G; auto.
      * constructor; [simpl; tauto|auto].
      * intros y Hy. destruct (H y Hy) as [<-|[<-|Hy']]; [simpl; auto|contradiction|simpl in *; tauto].
    + exists [a;b;e]. split; [simpl; tauto|]. apply G; auto.
      * constructor; [simpl; tauto|]. constructor; [simpl; tauto|auto].
      * intros y Hy. destruct (H y Hy) as [<-|[<-|[<-|Hy']]]; [simpl; auto|simpl; auto|contradiction|simpl in *; tauto].
    + exists [a;b;c]. split; [simpl; tauto|]. apply G; auto.
      * constructor; [simpl; tauto|]. constructor; [simpl; tauto|]. constructor; [simpl; tauto|constructor].
      * intros y Hy. destruct (H y Hy) as [<-|[<-|[<-|[<-|[]]]]]; [simpl; auto|simpl; auto|simpl; auto|contradiction].
  - intros (f & Hf & P) x Hx. apply (Permutation_in _ (Permutation_sym P)) in Hx.
    destruct Hf as [<-|[<-|[<-|[<-|[]]]]]; simpl in *; tauto.
Qed.

Lemma inclb_spec t c : inclb t c = true <-> incl t c.
Proof.
  unfold inclb. rewrite forallb_forall. split; intros H x Hx; specialize (H x Hx).
  - apply existsb_exists in H as (y & Hy & E). apply Nat.eqb_eq in E. now subst.
  - apply existsb_exists. exists x. split; auto. apply Nat.eqb_refl.
Qed.

Lemma outer_spec fl (t : list nat) : (forall l, In l t -> okl fl l) ->
  (outer t = true <-> exists i, i < 4 /\ forall l, In l t ->
     (l < 4 /\ l <> i) \/ (4 <= l /\ fst (tet_edge (l - 4)) <> i /\ snd (tet_edge (l - 4)) <> i)).
Proof.
  intros HL. unfold outer. rewrite existsb_exists.
  assert (G : forall a b c i l, In (a, b, c, i) [(0,1,2,3);(0,1,3,2);(0,2,3,1);(1,2,3,0)] -> okl fl l ->
    (existsb (Nat.eqb l) (map (glob a b c) (seq 0 6)) = true <->
     (l < 4 /\ l <> i) \/ (4 <= l /\ fst (tet_edge (l - 4)) <> i /\ snd (tet_edge (l - 4)) <> i))).
  { intros a b c i l H Hl. assert (L : l < 10) by (destruct Hl; lia). clear Hl HL.
    simpl in H. destruct H as [E|[E|[E|[E|[]]]]]; injection E as <- <- <- <-;
      do 10 (destruct l as [|l]; [vm_compute; intuition (try discriminate; try lia)|]); lia. }
  split.
  - intros ([[a b] c] & HI & H). rewrite forallb_forall in H.
    assert (X : exists i, i < 4 /\ In (a, b, c, i) [(0,1,2,3);(0,1,3,2);(0,2,3,1);(1,2,3,0)]).
    { simpl in HI. destruct HI as [E|[E|[E|[E|[]]]]]; injection E as <- <- <-;
        [exists 3|exists 2|exists 1|exists 0]; (split; [lia|simpl; tauto]). }
    destruct X as (i & Hi & HX). exists i. split; auto. intros l Hl. apply (G a b c i l HX); auto.
  - intros (i & Hi & H).
    assert (X : exists a b c, In (a, b, c, i) [(0,1,2,3);(0,1,3,2);(0,2,3,1);(1,2,3,0)] /\ In (a, b, c) [(0,1,2);(0,1,3);(0,2,3);(1,2,3)]).
    { destruct i as [|[|[|[|i]]]]; [exists 1,2,3|exists 0,2,3|exists 0,1,3|exists 0,1,2|lia]; simpl; tauto. }
    destruct X as (a & b & c & X & Y). exists (a, b, c). split; auto. apply forallb_forall. intros l Hl.
    apply (G a b c i l X); auto.
Qed.

Lemma filter_ext_len {A} (f g : A -> bool) l : (forall x, f x = g x) -> length (filter f l) = length (filter g l).
Proof. intros H. induction l as [|x l IH]; simpl; auto. rewrite H. destruct (g x); simpl; auto. Qed.

Lemma facet_count fl path P c t : good_pat fl path P -> In c P -> NoDup t -> length t = 3 -> incl t c ->
  length (filter (inclb t) P) = if outer t then 1 else 2.
Proof.
  intros HP Hc Nt Lt HI. destruct (known_cells fl path P c HP Hc) as (Lc & Nc & Kc).
  destruct (good_parts fl path P HP) as (_ & _ & F & _). unfold facets_ok in F. rewrite forallb_forall in F.
  specialize (F c Hc). rewrite forallb_forall in F.
  apply (NoDup_sub3 t c Nt Lt Nc Lc) in HI as (f & Hf & Pf). specialize (F f Hf). apply Nat.eqb_eq in F.
  assert (E1 : forall c', inclb t c' = inclb f c').
  { intros c'. apply bool_ext. rewrite !inclb_spec. split; intros H x Hx; apply H; [apply (Permutation_in _ Pf)|apply (Permutation_in _ (Permutation_sym Pf))]; auto. }
  assert (E2 : outer t = outer f).
  { apply bool_ext. unfold outer. rewrite !existsb_exists.
    split; intros ([[x y] z] & Hx & H); exists (x, y, z); (split; auto); rewrite forallb_forall in *; intros l Hl; apply H;
      [apply (Permutation_in _ Pf)|apply (Permutation_in _ (Permutation_sym Pf))]; auto. }
  rewrite E2, <- F. now apply filter_ext_len.
Qed.

Lemma C34_children_share_facets_pf :
  forall V d (pos : V -> point) (vid : V -> nat) (vtx mid : nat -> V) (fl : nat -> bool),
  corner_ids_distinct vid 4 vtx -> vertices_distinct vtx mid fl ->
  exists cells, tet_children d pos vid vtx mid fl = Some cells /\
    forall i c t, nth_error cells i = Some c -> NoDup t -> length t = 3 -> has_facet c t ->
      ((exists v, v < 4 /\ forall u, In u t -> on_face_opposite vtx mid fl v u) /\
         (forall j c', nth_error cells j = Some c' -> has_facet c' t -> j = i)) \/
      (~ (exists v, v < 4 /\ forall u, In u t -> on_face_opposite vtx mid fl v u) /\
         (exists i', i' <> i /\ forall j, (exists c', nth_error cells j = Some c' /\ has_facet c' t) <-> j = i \/ j = i')).
Proof.
  intros V d pos vid vtx mid fl HD HV.
  destruct (tet_children_known d pos vid vtx mid fl HD) as (P & path & HP & HS & E).
  set (h := handle_no 4 vtx mid) in *. exists (map (map h) P). split; auto.
  intros i c t Hi Nt Lt Ht. rewrite nth_error_map in Hi. destruct (nth_error P i) as [c0|] eqn:Ei; [|discriminate].
  injection Hi as <-. assert (Hc0 : In c0 P) by (eapply nth_error_In; eauto).
  destruct (known_cells fl path P c0 HP Hc0) as (Lc & Nc & Kc).
  destruct (handles_pre vtx mid (fun l => In l c0) t) as (tl & -> & Htl).
  { intros u Hu. specialize (Ht u Hu). apply in_map_iff in Ht as (l & <- & Hl). exists l. auto. }
  fold h in Nt, Lt, Ht |- *. rewrite map_length in Lt. apply NoDup_map_inv' in Nt.
  assert (Kt : forall l, In l tl -> okl fl l) by auto.
  assert (HF : forall c', In c' P -> (has_facet (map h c') (map h tl) <-> inclb tl c' = true)).
  { intros c' Hc'. unfold has_facet, h. rewrite (incl_handles vtx mid fl) by (auto; apply (known_cells fl path P c' HP Hc')).
    symmetry. apply inclb_spec. }
  assert (HO : (exists v, v < 4 /\ forall u, In u (map h tl) -> on_face_opposite vtx mid fl v u) <-> outer tl = true).
  { rewrite (outer_spec fl tl Kt). split; intros (v & Hv & H); exists v; split; auto.
    - intros l Hl. specialize (H (h l) (in_map _ _ _ Hl)). destruct H as [(j & Hj & Nj & Eq)|(k & Hk & F & N1 & N2 & Eq)].
      + left. assert (l = j); [|subst; auto]. apply (handle_inj vtx mid fl l j HV); auto; [now left|].
        fold h. rewrite Eq. unfold h, handle_no. now rewrite (proj2 (Nat.ltb_lt j 4) Hj).
      + right. assert (l = 4 + k); [|subst; replace (4 + k - 4) with k by lia; split; auto; lia].
        apply (handle_inj vtx mid fl l (4 + k) HV); auto.
        * right. split; [lia|]. now replace (4 + k - 4) with k by lia.
        * fold h. rewrite Eq. unfold h, handle_no. destruct (Nat.ltb_spec (4 + k) 4); [lia|]. f_equal. lia.
    - intros u Hu. apply in_map_iff in Hu as (l & <- & Hl). specialize (H l Hl). specialize (Kt l Hl).
      destruct H as [[L N]|[L [N1 N2]]].
      + left. exists l. split; auto. split; auto. unfold h, handle_no. now rewrite (proj2 (Nat.ltb_lt l 4) L).
      + right. destruct Kt as [?|[? F]]; [lia|]. exists (l - 4). split; [lia|]. split; auto. split; auto. split; auto.
        unfold h, handle_no. destruct (Nat.ltb_spec l 4); [lia|auto]. }
  assert (HI : incl tl c0) by auto.
  pose proof (facet_count fl path P c0 tl HP Hc0 Nt Lt HI) as FC. rewrite <- (positions_len _ _ 0) in FC.
  assert (PI : forall j, (exists c', nth_error (map (map h) P) j = Some c' /\ has_facet c' (map h tl)) <-> In j (positions (inclb tl) P 0)).
  { intros j. rewrite positions_In, Nat.sub_0_r. split.
    - intros (c' & Hj & Hf). rewrite nth_error_map in Hj. destruct (nth_error P j) as [c1|] eqn:Ej; [|discriminate].
      injection Hj as <-. split; [lia|]. exists c1. split; auto. apply HF; auto. eapply nth_error_In; eauto.
    - intros (_ & c1 & Ej & Hf). exists (map h c1). rewrite nth_error_map, Ej. split; auto. apply HF; auto. eapply nth_error_In; eauto. }
  assert (Ii : In i (positions (inclb tl) P 0)).
  { apply PI. exists (map h c0). rewrite nth_error_map, Ei. auto. }
  pose proof (positions_NoDup (inclb tl) P 0) as ND.
  rewrite HO. destruct (outer tl); [left|right]; (split; [congruence|]).
  - intros j c' Hj Hf. assert (Ij : In j (positions (inclb tl) P 0)) by (apply PI; eauto).
    destruct (positions (inclb tl) P 0) as [|x [|y r]]; try discriminate. destruct Ii as [->|[]], Ij as [->|[]]. reflexivity.
  - destruct (positions (inclb tl) P 0) as [|x [|y [|z r]]]; try discriminate.
    inversion ND as [|? ? N1 _]; subst. simpl in N1.
    destruct Ii as [->|[->|[]]]; [exists y|exists x]; (split; [intros ->; tauto|]); intros j; rewrite PI; simpl; intuition congruence.
Qed.

Lemma cell4 (c : list nat) : length c = 4 -> exists l0 l1 l2 l3, c = [l0; l1; l2; l3].
Proof. destruct c as [|a [|b [|c [|e [|? ?]]]]]; try discriminate. intros _. do 4 eexists. reflexivity. Qed.

Lemma child_volume {V} (pos : V -> point) vtx mid fl path P l0 l1 l2 l3 : mids_ok 3 pos vtx mid fl ->
  good_pat fl path P -> In [l0; l1; l2; l3] P ->
  let h := handle_no 4 vtx mid in
  signed_volume (pos (h l0)) (pos (h l1)) (pos (h l2)) (pos (h l3)) =
  (IZR (cell_det [l0; l1; l2; l3]) / 8 * signed_volume (pos (vtx 0%nat)) (pos (vtx 1%nat)) (pos (vtx 2%nat)) (pos (vtx 3%nat)))%R.
Proof.
  intros HM HP Hc h. destruct (known_cells fl path P _ HP Hc) as (_ & _ & K).
  assert (L : forall l, okl fl l -> l < 10) by (intros l [|[? _]]; lia).
  apply (signed_volume_weights (fun i => pos (vtx i)) (fun l => pos (h l))); try (apply L, K; simpl; tauto).
  intros l i Hl Hi. apply (handle_weights 3 pos vtx mid fl); auto.
Qed.

Lemma C34_volumes_add_up_pf :
  forall V (pos : V -> point) (vid : V -> nat) (vtx mid : nat -> V) (fl : nat -> bool),
  corner_ids_distinct vid 4 vtx ->
  (forall k, k < 6 -> fl k = true ->
     is_midpoint 3 (pos (mid k)) (pos (vtx (fst (tet_edge k)))) (pos (vtx (snd (tet_edge k))))) ->
  let vol (c : list V) := match map pos c with [a; b; c; e] => signed_volume a b c e | _ => 0%R end in
  let parent := [vtx 0; vtx 1; vtx 2; vtx 3] in
  exists cells, tet_children 3 pos vid vtx mid fl = Some cells /\
    Rsum (map (fun c => Rabs (vol c)) cells) = Rabs (vol parent) /\
    (vol parent <> 0%R -> forall c, In c cells -> vol c <> 0%R).
Proof.
  intros V pos vid vtx mid fl HD HM vol parent.
  destruct (tet_children_known 3 pos vid vtx mid fl HD) as (P & path & HP & HS & E).
  exists (map (map (handle_no 4 vtx mid)) P). split; auto.
  assert (VC : forall c, In c P -> vol (map (handle_no 4 vtx mid) c) = (IZR (cell_det c) / 8 * vol parent)%R).
  { intros c Hc. destruct (known_cells fl path P c HP Hc) as (L & _ & _). destruct (cell4 c L) as (l0 & l1 & l2 & l3 & ->).
    unfold vol, parent. cbn [map]. exact (child_volume pos vtx mid fl path P l0 l1 l2 l3 HM HP Hc). }
  split.
  - destruct (good_parts fl path P HP) as (_ & _ & _ & _ & _ & KV & _). unfold dets_ok in KV. apply andb_true_iff in KV as [_ KV].
    apply Z.eqb_eq in KV. rewrite map_map in KV.
    rewrite map_map. rewrite (Rsum_map_ext _ (fun c => (Rabs (vol parent) / 8 * IZR (Z.abs (cell_det c)))%R)).
    + rewrite Rsum_map_scale.
      assert (X : Rsum (map (fun c => IZR (Z.abs (cell_det c))) P) = IZR (fold_right Z.add 0%Z (map (fun c => Z.abs (cell_det c)) P))).
      { clear. induction P; simpl; auto. rewrite plus_IZR, IHP. reflexivity. }
      rewrite X, KV. lra.
    + intros c Hc. rewrite VC by auto. rewrite Rabs_mult. unfold Rdiv at 1. rewrite Rabs_mult, <- abs_IZR.
      rewrite (Rabs_pos_eq (/ 8)) by lra. lra.
  - intros NZ c Hc. apply in_map_iff in Hc as (c' & <- & Hc). rewrite VC by auto.
    destruct (good_parts fl path P HP) as (_ & _ & _ & _ & _ & KN & _). unfold dets_ok in KN. apply andb_true_iff in KN as [KN _].
    rewrite forallb_forall in KN. specialize (KN (cell_det c') (in_map _ _ _ Hc)).
    apply negb_true_iff, Z.eqb_neq in KN. apply Rmult_integral_contrapositive_currified; auto.
    apply not_0_IZR in KN. lra.
Qed.

(** ** Orientation *)
Lemma edge_between_no a b k : a < 4 -> b < 4 -> a <> b -> k < 6 -> (edge_between a b k <-> k = edge_no a b).
Proof.
  intros Ha Hb Hab Hk. unfold edge_between.
  do 4 (destruct a as [|a]; [do 4 (destruct b as [|b]; [first [lia|
    do 6 (destruct k as [|k]; [simpl; intuition (try discriminate; auto)|]); lia]|]); lia|]). lia.
Qed.

Lemma turned_range u v w x : In (u, v, w, x) turned_paths -> u < 4 /\ v < 4 /\ w < 4 /\ x < 4 /\ u <> v /\ v <> w /\ u <> x /\ v <> x /\ u <> w.
Proof. intros H. simpl in H. repeat destruct H as [H|H]; try tauto; injection H as <- <- <- <-; lia. Qed.

Lemma path_flags_spec fl u v w x : In (u, v, w, x) turned_paths ->
  (path_flags (map fl (seq 0 6)) (u, v, w, x) = true <->
   forall k, k < 6 -> (fl k = true <-> edge_between u v k \/ edge_between v w k \/ edge_between u x k)).
Proof.
  intros H. destruct (turned_range u v w x H) as (Hu & Hv & Hw & Hx & N1 & N2 & N3 & _). unfold path_flags. rewrite forallb_forall.
  split; intros Y k Hk.
  - specialize (Y k ltac:(apply in_seq; lia)). rewrite bit_map in Y by auto. apply eqb_prop in Y. rewrite Y.
    rewrite !orb_true_iff, !Nat.eqb_eq, !edge_between_no by auto. tauto.
  - apply in_seq in Hk. specialize (Y k ltac:(lia)). rewrite bit_map by lia. apply eqb_true_iff. apply bool_ext. rewrite Y.
    rewrite !orb_true_iff, !Nat.eqb_eq, !edge_between_no by (auto; lia). tauto.
Qed.

Lemma edge_cmp_no {V} d (pos : V -> point) vid vtx a b c e : corner_ids_distinct vid 4 vtx ->
  a < 4 -> b < 4 -> c < 4 -> e < 4 -> a <> b -> c <> e ->
  edge_cmp d pos vid vtx (edge_no a b) (edge_no c e) = stable_line_is_longer d pos vid (vtx a) (vtx b) (vtx c) (vtx e).
Proof.
  intros HD Ha Hb Hc He N1 N2. pose proof (edge_good d pos vid vtx vtx HD) as G.
  rewrite <- (gc_lg _ _ G a b c e) by auto. unfold handle_no.
  now rewrite (proj2 (Nat.ltb_lt a 4) Ha), (proj2 (Nat.ltb_lt b 4) Hb), (proj2 (Nat.ltb_lt c 4) Hc), (proj2 (Nat.ltb_lt e 4) He).
Qed.

Lemma inpath_sound cmp path i j : sound cmp path -> inpath path i j = true -> cmp i j = true.
Proof.
  intros S H. apply existsb_exists in H as ([x y] & HI & H). simpl in H. apply andb_true_iff in H as [H1 H2].
  apply Nat.eqb_eq in H1, H2. subst. auto.
Qed.

Lemma tet_children_turned {V} d (pos : V -> point) vid vtx mid fl : corner_ids_distinct vid 4 vtx ->
  exists P path, good_pat fl path P /\ tet_children d pos vid vtx mid fl = Some (map (map (handle_no 4 vtx mid)) P) /\
   (existsb (fun c => (cell_det c <? 0)%Z) P = true <-> turned_path (stable_line_is_longer d pos vid) vtx fl).
Proof.
  intros HD. destruct (tet_children_known d pos vid vtx mid fl HD) as (P & path & HP & HS & E). exists P, path. split; auto. split; auto.
  destruct (good_parts fl path P HP) as (_ & _ & _ & _ & _ & _ & T & _). unfold turned_chk in T. cbv zeta in T.
  assert (FM : forall t, In t (filter (path_flags (map fl (seq 0 6))) turned_paths) <-> In t turned_paths /\ path_flags (map fl (seq 0 6)) t = true)
    by (intros t; apply filter_In).
  assert (TP : forall u v w x, In (u, v, w, x) turned_paths ->
     (forall k, k < 6 -> (fl k = true <-> edge_between u v k \/ edge_between v w k \/ edge_between u x k)) ->
     In (u, v, w, x) (filter (path_flags (map fl (seq 0 6))) turned_paths)).
  { intros u v w x HI HF. apply FM. split; auto. now apply path_flags_spec. }
  destruct (filter (path_flags (map fl (seq 0 6))) turned_paths) as [|[[[u v] w] x] [|? ?]].
  - apply negb_true_iff in T. rewrite T. split; [discriminate|].
    intros (u & v & w & x & HI & HF & _). destruct (TP u v w x HI HF).
  - destruct (proj1 (FM (u, v, w, x)) ltac:(simpl; auto)) as [HI HF]. pose proof (proj1 (path_flags_spec fl u v w x HI) HF) as HF2. clear HF. rename HF2 into HF.
    destruct (turned_range u v w x HI) as (Hu & Hv & Hw & Hx & N1 & N2 & N3 & _).
    destruct (existsb (fun c => (cell_det c <? 0)%Z) P).
    + split; auto. intros _. apply andb_true_iff in T as [T1 T2].
      apply (inpath_sound _ _ _ _ HS) in T1. apply (inpath_sound _ _ _ _ HS) in T2.
      rewrite edge_cmp_no in T1, T2 by auto. exists u, v, w, x. split; auto. split; auto. split; auto. now apply longer_asym.
    + split; [discriminate|]. intros (u' & v' & w' & x' & HI' & HF' & L1 & L2).
      destruct (TP u' v' w' x' HI' HF') as [X|[]]. injection X as <- <- <- <-.
      apply orb_true_iff in T as [T|T]; apply (inpath_sound _ _ _ _ HS) in T; rewrite edge_cmp_no in T by auto.
      * apply longer_asym in T. congruence.
      * congruence.
  - discriminate.
Qed.

Lemma orientation_pf {V} (pos : V -> point) (vid : V -> nat) (vtx mid : nat -> V) (fl : nat -> bool) :
  corner_ids_distinct vid 4 vtx -> mids_ok 3 pos vtx mid fl ->
  let parent := signed_volume (pos (vtx 0%nat)) (pos (vtx 1%nat)) (pos (vtx 2%nat)) (pos (vtx 3%nat)) in
  (parent <> 0)%R ->
  exists cells, tet_children 3 pos vid vtx mid fl = Some cells /\
   ((forall a b c e, In [a; b; c; e] cells -> (0 < signed_volume (pos a) (pos b) (pos c) (pos e) * parent)%R) <->
    ~ turned_path (stable_line_is_longer 3 pos vid) vtx fl).
Proof.
  intros HD HM parent NZ. destruct (tet_children_turned 3 pos vid vtx mid fl HD) as (P & path & HP & E & HT).
  exists (map (map (handle_no 4 vtx mid)) P). split; auto. rewrite <- HT. clear HT.
  assert (SQ : (0 < parent * parent)%R) by (apply Rsqr_pos_lt in NZ; exact NZ).
  assert (KN : forall c, In c P -> negb (cell_det c =? 0)%Z = true).
  { destruct (good_parts fl path P HP) as (_ & _ & _ & _ & _ & KN & _). unfold dets_ok in KN. apply andb_true_iff in KN as [KN _].
    rewrite forallb_forall in KN. intros c Hc. apply KN. now apply (in_map cell_det). }
  assert (VC : forall l0 l1 l2 l3, In [l0; l1; l2; l3] P ->
    (signed_volume (pos (handle_no 4 vtx mid l0)) (pos (handle_no 4 vtx mid l1)) (pos (handle_no 4 vtx mid l2)) (pos (handle_no 4 vtx mid l3)) * parent
     = IZR (cell_det [l0; l1; l2; l3]) / 8 * (parent * parent))%R).
  { intros l0 l1 l2 l3 Hc. rewrite (child_volume pos vtx mid fl path P l0 l1 l2 l3 HM HP Hc). fold parent. ring. }
  split.
  - intros H HT. apply existsb_exists in HT as (c & Hc & HT). apply Z.ltb_lt in HT.
    destruct (known_cells fl path P c HP Hc) as (L & _ & _). destruct (cell4 c L) as (l0 & l1 & l2 & l3 & ->).
    specialize (H _ _ _ _ (in_map (map (handle_no 4 vtx mid)) _ _ Hc)). rewrite VC in H by auto.
    apply IZR_lt in HT. set (z := IZR (cell_det [l0; l1; l2; l3])) in *. nra.
  - intros HT a b c e Hc. apply in_map_iff in Hc as (c' & Eq & Hc).
    destruct (known_cells fl path P c' HP Hc) as (L & _ & _). destruct (cell4 c' L) as (l0 & l1 & l2 & l3 & ->).
    cbn [map] in Eq. injection Eq as <- <- <- <-. rewrite VC by auto.
    assert (Z : (0 < cell_det [l0; l1; l2; l3])%Z).
    { specialize (KN _ Hc). apply negb_true_iff, Z.eqb_neq in KN.
      destruct (Z.ltb_spec (cell_det [l0; l1; l2; l3]) 0); [|lia]. exfalso. apply HT. apply existsb_exists. exists [l0; l1; l2; l3].
      split; auto. now apply Z.ltb_lt. }
    apply IZR_lt in Z. set (z := IZR (cell_det [l0; l1; l2; l3])) in *. nra.
Qed.

Lemma C35_orientation_kept_partial_pf :
  forall V (pos : V -> point) (vid : V -> nat) (vtx mid : nat -> V) (fl : nat -> bool),
  corner_ids_distinct vid 4 vtx ->
  (forall k, k < 6 -> fl k = true ->
     is_midpoint 3 (pos (mid k)) (pos (vtx (fst (tet_edge k)))) (pos (vtx (snd (tet_edge k))))) ->
  let parent := signed_volume (pos (vtx 0)) (pos (vtx 1)) (pos (vtx 2)) (pos (vtx 3)) in
  parent <> 0%R ->
  ~ turned_path (stable_line_is_longer 3 pos vid) vtx fl ->
  exists cells, tet_children 3 pos vid vtx mid fl = Some cells /\
    forall a b c e, In [a; b; c; e] cells -> (0 < signed_volume (pos a) (pos b) (pos c) (pos e) * parent)%R.
Proof.
  intros V pos vid vtx mid fl HD HM parent NZ HT.
  destruct (orientation_pf pos vid vtx mid fl HD HM NZ) as (cells & E & H). exists cells. split; auto. now apply H.
Qed.

Lemma C35_orientation_kept_refuted_pf :
  forall V (pos : V -> point) (vid : V -> nat) (vtx mid : nat -> V) (fl : nat -> bool),
  corner_ids_distinct vid 4 vtx ->
  (forall k, k < 6 -> fl k = true ->
     is_midpoint 3 (pos (mid k)) (pos (vtx (fst (tet_edge k)))) (pos (vtx (snd (tet_edge k))))) ->
  let parent := signed_volume (pos (vtx 0)) (pos (vtx 1)) (pos (vtx 2)) (pos (vtx 3)) in
  parent <> 0%R ->
  turned_path (stable_line_is_longer 3 pos vid) vtx fl ->
  exists cells, tet_children 3 pos vid vtx mid fl = Some cells /\
    ~ forall a b c e, In [a; b; c; e] cells -> (0 < signed_volume (pos a) (pos b) (pos c) (pos e) * parent)%R.
Proof.
  intros V pos vid vtx mid fl HD HM parent NZ HT.
  destruct (orientation_pf pos vid vtx mid fl HD HM NZ) as (cells & E & H). exists cells. split; auto. intros X. exact (proj1 H X HT).
Qed.

(** ** Conformity *)
Lemma refine_tri_ext gt gt' fl fl' :
  (forall p q r s, p < 3 -> q < 3 -> r < 3 -> s < 3 -> p <> q -> r <> s -> gt p q r s = gt' p q r s) ->
  (forall k, k < 3 -> fl k = fl' k) -> refine_tri gt fl = refine_tri gt' fl'.
Proof.
  intros HG HF. unfold refine_tri. cbn [seq filter].
  unfold tri_apply1, tri_apply2.
  rewrite (HF 0), (HF 1), (HF 2) by lia.
  destruct (fl' 0), (fl' 1), (fl' 2); cbn [length andb]; try reflexivity; unfold tri_cells2; cbn [Nat.add];
    (rewrite HG by (vm_compute; lia)); reflexivity.
Qed.

Lemma triples_In a b c : a < 4 -> b < 4 -> c < 4 -> a <> b -> a <> c -> b <> c -> In (a, b, c) triples.
Proof.
  intros Ha Hb Hc N1 N2 N3. unfold triples. apply in_flat_map. exists a. split; [apply in_seq; lia|].
  apply in_flat_map. exists b. split; [apply in_seq; lia|]. apply in_flat_map. exists c. split; [apply in_seq; lia|].
  destruct (Nat.eqb_spec a b); [lia|]. destruct (Nat.eqb_spec a c); [lia|]. destruct (Nat.eqb_spec b c); [lia|]. simpl. auto.
Qed.

Lemma isort_idem l : isort (isort l) = isort l.
Proof. apply isort_eq_iff. apply Permutation_sym. apply isort_perm. Qed.

Lemma trace_spec fl path P a b c tl : good_pat fl path P -> In (a, b, c) triples ->
  NoDup tl -> length tl = 3 -> (forall p, In p tl -> p < 6) ->
  ((exists cell, In cell P /\ incl (map (glob a b c) tl) cell) <-> In (isort tl) (map isort (trace a b c P))).
Proof.
  intros HP HT Nt Lt Ht. unfold trace. split.
  - intros (cell & Hc & HI).
    assert (IC : incl tl (on_face_labels a b c cell)).
    { intros p Hp. unfold on_face_labels. apply filter_In. split; [apply in_seq; specialize (Ht p Hp); lia|].
      apply existsb_exists. exists (glob a b c p). split; [apply HI; now apply in_map|apply Nat.eqb_refl]. }
    destruct (good_parts fl path P HP) as (_ & _ & _ & S & _). unfold trace_small in S. rewrite forallb_forall in S.
    specialize (S _ HT). simpl in S. rewrite forallb_forall in S. specialize (S cell Hc). apply Nat.leb_le in S.
    assert (NF : NoDup (on_face_labels a b c cell)) by (apply NoDup_filter, seq_NoDup).
    assert (PE : Permutation tl (on_face_labels a b c cell)) by (apply NoDup_Permutation_bis; auto; lia).
    apply isort_eq_iff in PE. rewrite PE. apply in_map. apply filter_In. split; [now apply in_map|].
    apply Nat.eqb_eq. apply isort_eq_iff in PE. apply Permutation_length in PE. lia.
  - intros H. apply in_map_iff in H as (r & E & H). apply filter_In in H as [H L]. apply in_map_iff in H as (cell & <- & Hc).
    exists cell. split; auto. apply isort_eq_iff in E. intros l Hl. apply in_map_iff in Hl as (p & <- & Hp).
    apply (Permutation_in _ (Permutation_sym E)) in Hp. unfold on_face_labels in Hp. apply filter_In in Hp as [_ Hp].
    apply existsb_exists in Hp as (l & Hl & E'). apply Nat.eqb_eq in E'. now subst.
Qed.

Lemma sub_pat_In A B : sub_pat A B = true -> incl A B.
Proof. unfold sub_pat. rewrite forallb_forall. intros H x Hx. apply existsb_list_eq. auto. Qed.

Section Shared.
Context {V : Type}.
Variable d : nat.
Variable pos : V -> point.
Variable vid : V -> nat.
Variable flag : V -> V -> bool.
Variable midp : V -> V -> V.
Hypothesis flag_sym : forall u v, flag u v = flag v u.
Hypothesis midp_sym : forall u v, midp u v = midp v u.
Variables x y z : V.

Definition xyz (p : nat) : V := match p with 0 => x | 1 => y | _ => z end.
Definition xyz_flag (k : nat) : bool := match k with 0 => flag x y | 1 => flag x z | _ => flag y z end.
Definition xyz_point (p : nat) : V :=
  match p with 0 => x | 1 => y | 2 => z | 3 => midp x y | 4 => midp x z | _ => midp y z end.

Lemma face_trace vtx : corner_ids_distinct vid 4 vtx -> vertices_distinct vtx (tet_mids midp vtx) (tet_flags flag vtx) ->
  has_corner vtx x -> has_corner vtx y -> has_corner vtx z -> x <> y -> x <> z -> y <> z ->
  exists cells T, tet_children d pos vid vtx (tet_mids midp vtx) (tet_flags flag vtx) = Some cells /\
    refine_tri (fun p q r s => stable_line_is_longer d pos vid (xyz p) (xyz q) (xyz r) (xyz s)) xyz_flag = Some T /\
    forall tl, NoDup tl -> length tl = 3 -> (forall p, In p tl -> p < 6 /\ (3 <= p -> xyz_flag (p - 3) = true)) ->
      ((exists c, In c cells /\ has_facet c (map xyz_point tl)) <-> In (isort tl) (map isort T)).
Proof.
  intros HD HV (a & Ha & Ea) (b & Hb & Eb) (c & Hc & Ec) N1 N2 N3.
  assert (M1 : a <> b) by congruence. assert (M2 : a <> c) by congruence. assert (M3 : b <> c) by congruence.
  set (fl := tet_flags flag vtx) in *. set (mid := tet_mids midp vtx) in *.
  destruct (tet_children_known d pos vid vtx mid fl HD) as (P & path & HP & HS & E).
  pose proof (triples_In a b c Ha Hb Hc M1 M2 M3) as HT.
  assert (FE : forall u v, u < 4 -> v < 4 -> u <> v -> fl (edge_no u v) = flag (vtx u) (vtx v)).
  { intros u v Hu Hv N. unfold fl, tet_flags. destruct (edge_no_tet u v Hu Hv N) as [->| ->]; simpl; auto. }
  assert (ME : forall u v, u < 4 -> v < 4 -> u <> v -> mid (edge_no u v) = midp (vtx u) (vtx v)).
  { intros u v Hu Hv N. unfold mid, tet_mids. destruct (edge_no_tet u v Hu Hv N) as [->| ->]; simpl; auto. }
  assert (A : same_trace (refine_tri (fun p q r s => stable_line_is_longer d pos vid (xyz p) (xyz q) (xyz r) (xyz s)) xyz_flag) (trace a b c P) = true).
  { destruct (good_parts fl path P HP) as (_ & _ & _ & _ & _ & _ & _ & A). unfold face_check in A. rewrite forallb_forall in A.
    specialize (A _ HT). cbv beta iota zeta in A. set (flk := fun k => bit (map fl (seq 0 6)) (glob a b c (3 + k) - 4)) in A.
    assert (FK : forall k, k < 3 -> xyz_flag k = flk k).
    { assert (S4 : forall e, 4 + e - 4 = e) by (intros; lia). unfold flk.
      intros i Hi. destruct i as [|[|[|i]]]; [| | |lia].
      - change (glob a b c (3 + 0)) with (4 + edge_no a b). rewrite S4, bit_map, FE by auto using edge_no_lt. simpl. congruence.
      - change (glob a b c (3 + 1)) with (4 + edge_no a c). rewrite S4, bit_map, FE by auto using edge_no_lt. simpl. congruence.
      - change (glob a b c (3 + 2)) with (4 + edge_no b c). rewrite S4, bit_map, FE by auto using edge_no_lt. simpl. congruence. }
    rewrite (refine_tri_ext _ (fun p q r s => stable_line_is_longer d pos vid (xyz p) (xyz q) (xyz r) (xyz s)) xyz_flag flk) by auto.
    rewrite refine_tri_atom. destruct (tri_atom flk) as [[[p q] r] s] eqn:EA.
    assert (R : p < 3 /\ q < 3 /\ r < 3 /\ s < 3 /\ p <> q /\ r <> s /\ edge_no (glob a b c p) (glob a b c q) <> edge_no (glob a b c r) (glob a b c s)).
    { clear - EA Ha Hb Hc M1 M2 M3. unfold tri_atom in EA. destruct (flk 0 && flk 1); [|destruct (flk 0 && flk 2)]; injection EA as <- <- <- <-; cbn [glob];
        (repeat split; try lia);
        do 4 (destruct a as [|a]; [do 4 (destruct b as [|b]; [do 4 (destruct c as [|c]; [first [lia|vm_compute; lia]|]); lia|]); lia|]); lia. }
    destruct R as (Hp & Hq & Hr & Hs & Npq & Nrs & NE).
    assert (GX : forall i, i < 3 -> glob a b c i < 4 /\ vtx (glob a b c i) = xyz i).
    { intros [|[|[|i]]] Hi; simpl; auto; lia. }
    assert (GN : forall i j, i < 3 -> j < 3 -> i <> j -> glob a b c i <> glob a b c j).
    { intros [|[|[|i]]] [|[|[|j]]] Hi Hj; simpl; lia. }
    destruct (GX p Hp) as [P1 P2], (GX q Hq) as [Q1 Q2], (GX r Hr) as [R1 R2], (GX s Hs) as [S1 S2].
    pose proof (edge_good d pos vid vtx mid HD) as G.
    assert (EC := edge_cmp_no d pos vid vtx (glob a b c p) (glob a b c q) (glob a b c r) (glob a b c s) HD P1 Q1 R1 S1 (GN p q Hp Hq Npq) (GN r s Hr Hs Nrs)).
    rewrite P2, Q2, R2, S2 in EC. apply andb_true_iff in A as [A1 A2].
    destruct (stable_line_is_longer d pos vid (xyz p) (xyz q) (xyz r) (xyz s)).
    - destruct (contra _) eqn:CO in A1; [|exact A1]. exfalso. refine (contra_sound _ _ _ G _ CO).
      intros i j [X|X]; [injection X as <- <-; auto|auto].
    - destruct (contra _) eqn:CO in A2; [|exact A2]. exfalso. refine (contra_sound _ _ _ G _ CO).
      intros i j [X|X]; [injection X as <- <-|auto].
      rewrite (gc_asym _ _ G) with (i := edge_no (glob a b c p) (glob a b c q)); auto using edge_no_lt. now rewrite EC. }
  unfold same_trace in A. cbv zeta in A.
  destruct (refine_tri _ xyz_flag) as [T|]; [|discriminate]. apply andb_true_iff in A as [A1 A2]. apply sub_pat_In in A1, A2.
  exists (map (map (handle_no 4 vtx mid)) P), T. split; auto. split; auto.
  intros tl Nt Lt Ht.
  assert (HG : forall p, In p tl -> okl fl (glob a b c p) /\ handle_no 4 vtx mid (glob a b c p) = xyz_point p).
  { intros p Hp. destruct (Ht p Hp) as [P6 PF]. unfold okl, handle_no.
    destruct p as [|[|[|[|[|[|p]]]]]]; [| | | | | |lia]; cbn [glob xyz_point].
    - rewrite (proj2 (Nat.ltb_lt a 4) Ha). auto.
    - rewrite (proj2 (Nat.ltb_lt b 4) Hb). auto.
    - rewrite (proj2 (Nat.ltb_lt c 4) Hc). auto.
    - pose proof (edge_no_lt a b). destruct (Nat.ltb_spec (4 + edge_no a b) 4); [lia|].
      replace (4 + edge_no a b - 4) with (edge_no a b) by lia. rewrite ME, FE by auto. specialize (PF ltac:(lia)). simpl in PF.
      split; [right; split; [lia|congruence]|congruence].
    - pose proof (edge_no_lt a c). destruct (Nat.ltb_spec (4 + edge_no a c) 4); [lia|].
      replace (4 + edge_no a c - 4) with (edge_no a c) by lia. rewrite ME, FE by auto. specialize (PF ltac:(lia)). simpl in PF.
      split; [right; split; [lia|congruence]|congruence].
    - pose proof (edge_no_lt b c). destruct (Nat.ltb_spec (4 + edge_no b c) 4); [lia|].
      replace (4 + edge_no b c - 4) with (edge_no b c) by lia. rewrite ME, FE by auto. specialize (PF ltac:(lia)). simpl in PF.
      split; [right; split; [lia|congruence]|congruence]. }
  assert (MP : map xyz_point tl = map (handle_no 4 vtx mid) (map (glob a b c) tl)).
  { rewrite map_map. apply map_ext_in. intros p Hp. symmetry. now apply HG. }
  rewrite MP.
  transitivity (exists cell, In cell P /\ incl (map (glob a b c) tl) cell).
  - split.
    + intros (c0 & Hc0 & HF). apply in_map_iff in Hc0 as (cell & <- & Hcell). exists cell. split; auto.
      apply (incl_handles vtx mid fl) in HF; auto.
      * intros l Hl. apply in_map_iff in Hl as (p & <- & Hp). now apply HG.
      * intros l Hl. now apply (known_cells fl path P cell HP Hcell).
    + intros (cell & Hcell & HF). exists (map (handle_no 4 vtx mid) cell). split; [now apply in_map|].
      apply (incl_handles vtx mid fl); auto.
      * intros l Hl. apply in_map_iff in Hl as (p & <- & Hp). now apply HG.
      * intros l Hl. now apply (known_cells fl path P cell HP Hcell).
  - rewrite (trace_spec fl path P a b c tl HP HT Nt Lt) by (intros p Hp; now apply Ht). split.
    + intros H. apply in_map_iff in H as (r & E1 & Hr). apply A2 in Hr. apply in_map_iff in Hr as (r' & <- & Hr').
      rewrite isort_idem in E1. rewrite <- E1. now apply in_map.
    + intros H. apply A1 in H. apply in_map_iff. exists (isort tl). split; auto. apply isort_idem.
Qed.
End Shared.

Lemma C36_shared_face_split_identically_pf :
  forall V d (pos : V -> point) (vid : V -> nat) (flag : V -> V -> bool) (midp : V -> V -> V) (vtx vtx' : nat -> V) x y z,
  (forall u v, flag u v = flag v u) -> (forall u v, midp u v = midp v u) ->
  corner_ids_distinct vid 4 vtx -> vertices_distinct vtx (tet_mids midp vtx) (tet_flags flag vtx) ->
  corner_ids_distinct vid 4 vtx' -> vertices_distinct vtx' (tet_mids midp vtx') (tet_flags flag vtx') ->
  has_corner vtx x -> has_corner vtx y -> has_corner vtx z ->
  has_corner vtx' x -> has_corner vtx' y -> has_corner vtx' z ->
  x <> y -> x <> z -> y <> z ->
  exists cells cells',
    tet_children d pos vid vtx (tet_mids midp vtx) (tet_flags flag vtx) = Some cells /\
    tet_children d pos vid vtx' (tet_mids midp vtx') (tet_flags flag vtx') = Some cells' /\
    forall t, NoDup t -> length t = 3 -> (forall u, In u t -> on_triangle flag midp x y z u) ->
      ((exists c, In c cells /\ has_facet c t) <-> (exists c', In c' cells' /\ has_facet c' t)).
Proof.
  intros V d pos vid flag midp vtx vtx' x y z FS MS D1 V1 D2 V2 X1 Y1 Z1 X2 Y2 Z2 N1 N2 N3.
  destruct (face_trace d pos vid flag midp FS MS x y z vtx D1 V1 X1 Y1 Z1 N1 N2 N3) as (cells & T & E1 & ET & H1).
  destruct (face_trace d pos vid flag midp FS MS x y z vtx' D2 V2 X2 Y2 Z2 N1 N2 N3) as (cells' & T' & E2 & ET' & H2).
  rewrite ET in ET'. injection ET' as <-.
  exists cells, cells'. split; auto. split; auto. intros t Nt Lt Ht.
  assert (X : exists tl, t = map (xyz_point midp x y z) tl /\ forall p, In p tl -> p < 6 /\ (3 <= p -> xyz_flag flag x y z (p - 3) = true)).
  { clear Nt Lt. induction t as [|u t IH]; [exists []; simpl; tauto|].
    destruct IH as (tl & -> & Htl); [intros; apply Ht; simpl; auto|].
    assert (U : exists p, u = xyz_point midp x y z p /\ p < 6 /\ (3 <= p -> xyz_flag flag x y z (p - 3) = true)).
    { destruct (Ht u) as [->|[->|[->|[[F ->]|[[F ->]|[F ->]]]]]]; [simpl; auto|exists 0|exists 1|exists 2|exists 3|exists 4|exists 5];
        (split; [reflexivity|split; [lia|try lia; intros _; exact F]]). }
    destruct U as (p & -> & Hp). exists (p :: tl). split; auto. intros q [<-|Hq]; auto. }
  destruct X as (tl & -> & Htl). rewrite map_length in Lt. apply NoDup_map_inv in Nt.
  rewrite (H1 tl Nt Lt Htl), (H2 tl Nt Lt Htl). reflexivity.
Qed.
