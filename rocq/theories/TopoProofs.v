(** Proofs of C09, C10. *)
From Coq Require Import List Arith Bool Lia Permutation Factorial.
From Verif Require Import ModelTopo ModelMesh ModelErase SpecMesh SpecTopo MeshBase MeshInv MeshIds MeshReach MeshProofs.
Import ListNotations.

Lemma C09_binomial_pf : forall n k, (k <= n -> n_over_k n k * (fact k * fact (n - k)) = fact n) /\ (n < k -> n_over_k n k = 0).
Proof.
  assert (Z : forall n k, n < k -> n_over_k n k = 0).
  { induction n; intros [|k] H; simpl; try lia. rewrite !IHn; lia. }
  intros n k. split; [|apply Z]. revert k.
  induction n as [|n IH]; intros [|k] H; try lia.
  - reflexivity.
  - cbn [n_over_k]. rewrite Nat.sub_0_r. change (fact 0) with 1. now rewrite !Nat.mul_1_l.
  - cbn [n_over_k]. replace (S n - S k) with (n - k) by lia.
    destruct (Nat.eq_dec k n) as [->|N].
    + rewrite (Z n (S n)) by lia. rewrite Nat.sub_diag. change (fact 0) with 1.
      specialize (IH n (le_n _)). rewrite Nat.sub_diag in IH. change (fact 0) with 1 in IH.
      change (fact (S n)) with (S n * fact n). nia.
    + assert (H1 := IH k ltac:(lia)). assert (H2 := IH (S k) ltac:(lia)).
      replace (n - k) with (S (n - S k)) in * by lia.
      change (fact (S k)) with (S k * fact k) in *. change (fact (S n)) with (S n * fact n).
      set (q := n - S k) in *. change (fact (S q)) with (S q * fact q) in *.
      assert (E : n = S q + k) by lia. 
      replace (S n * fact n) with (S k * fact n + S q * fact n) by (rewrite <- Nat.mul_add_distr_r; f_equal; lia).
      rewrite <- H1 at 1. rewrite <- H2.
      ring.
Qed.

Lemma C09_simplex_boundary_num_pf : forall n k, k <= n ->
  simplex_boundary_num n k * (fact (k + 1) * fact (n - k)) = fact (n + 1).
Proof.
  intros n k H. unfold simplex_boundary_num.
  replace (n - k) with (n + 1 - (k + 1)) by lia. apply C09_binomial_pf. lia.
Qed.

Lemma NoDup_app {A} (l1 l2 : list A) : NoDup l1 -> NoDup l2 -> (forall x, In x l1 -> In x l2 -> False) -> NoDup (l1 ++ l2).
Proof.
  induction 1 as [|a l Ha HN IH]; simpl; intros H2 H; auto.
  constructor; [|apply IH; eauto]. rewrite in_app_iff. intros [X|X]; eauto.
Qed.

Lemma NoDup_flat_map {A B} (f : A -> list B) l : NoDup l -> (forall x, In x l -> NoDup (f x)) ->
  (forall x y z, In x l -> In y l -> In z (f x) -> In z (f y) -> x = y) -> NoDup (flat_map f l).
Proof.
  induction 1 as [|a l Ha HN IH]; simpl; intros H1 H2; [constructor|].
  apply NoDup_app; auto.
  - apply IH; auto. intros; eapply H2; eauto.
  - intros z Hz Hb. apply in_flat_map in Hb as (y & Hy & Hb).
    assert (a = y); [|subst; auto]. eapply (H2 a y z); auto.
Qed.

Lemma NoDup_map_inj {A B} (f : A -> B) l : (forall x y, f x = f y -> x = y) -> NoDup l -> NoDup (map f l).
Proof. intros Hf. now apply FinFun.Injective_map_NoDup. Qed.

Lemma C09_lines_all_pairs_pf : forall num,
  NoDup (simplex_lines num) /\
  (forall f, In f (simplex_lines num) <-> exists i j, f = [i; j] /\ i < j < num).
Proof.
  intros num. split.
  - apply NoDup_flat_map; [apply seq_NoDup| |].
    + intros i _. apply NoDup_map_inj; [congruence|apply seq_NoDup].
    + intros i i' z _ _ H1 H2. apply in_map_iff in H1 as (? & <- & _). apply in_map_iff in H2 as (? & E & _). congruence.
  - intros f. unfold simplex_lines. rewrite in_flat_map. split.
    + intros (i & Hi & H). apply in_map_iff in H as (j & <- & Hj). apply in_seq in Hi, Hj. exists i, j. split; auto; lia.
    + intros (i & j & -> & H). exists i. split; [apply in_seq; lia|]. apply in_map_iff. exists j. split; auto. apply in_seq; lia.
Qed.

Lemma C09_triangles_all_triples_pf : forall num,
  NoDup (simplex_triangles num) /\
  (forall f, In f (simplex_triangles num) <-> exists i j k, f = [i; j; k] /\ i < j /\ j < k < num).
Proof.
  intros num. split.
  - apply NoDup_flat_map; [apply seq_NoDup| |].
    + intros i _. apply NoDup_flat_map; [apply seq_NoDup| |].
      * intros j _. apply NoDup_map_inj; [congruence|apply seq_NoDup].
      * intros j j' z _ _ H1 H2. apply in_map_iff in H1 as (? & <- & _). apply in_map_iff in H2 as (? & E & _). congruence.
    + intros i i' z _ _ H1 H2. apply in_flat_map in H1 as (? & _ & H1). apply in_flat_map in H2 as (? & _ & H2).
      apply in_map_iff in H1 as (? & <- & _). apply in_map_iff in H2 as (? & E & _). congruence.
  - intros f. unfold simplex_triangles. rewrite in_flat_map. split.
    + intros (i & Hi & H). apply in_flat_map in H as (j & Hj & H). apply in_map_iff in H as (k & <- & Hk).
      apply in_seq in Hi, Hj, Hk. exists i, j, k. split; auto; lia.
    + intros (i & j & k & -> & H). exists i. split; [apply in_seq; lia|]. apply in_flat_map.
      exists j. split; [apply in_seq; lia|]. apply in_map_iff. exists k. split; auto. apply in_seq; lia.
Qed.

Lemma flat_map_length' {A B} (f : A -> list B) l : length (flat_map f l) = list_sum (map (fun x => length (f x)) l).
Proof. induction l; simpl; auto. now rewrite app_length, IHl. Qed.

Lemma sum_lines c : forall a, list_sum (map (fun i => c + a - (i + 1)) (seq a c)) = n_over_k c 2.
Proof.
  induction c as [|c IH]; intros a; [reflexivity|].
  cbn [seq map list_sum fold_right]. change (fold_right Nat.add 0) with list_sum.
  replace (map (fun i => S c + a - (i + 1)) (seq (S a) c)) with (map (fun i => c + S a - (i + 1)) (seq (S a) c)).
  2: { apply map_ext. intros. lia. }
  rewrite IH. cbn [n_over_k]. assert (n_over_k c 1 = c).
  { clear. induction c; simpl in *; auto. rewrite IHc. destruct c; reflexivity. }
  lia.
Qed.

Lemma sum_triangles c : forall a, list_sum (map (fun i => n_over_k (c + a - (i + 1)) 2) (seq a c)) = n_over_k c 3.
Proof.
  induction c as [|c IH]; intros a; [reflexivity|].
  cbn [seq map list_sum fold_right]. change (fold_right Nat.add 0) with list_sum.
  replace (map (fun i => n_over_k (S c + a - (i + 1)) 2) (seq (S a) c)) with (map (fun i => n_over_k (c + S a - (i + 1)) 2) (seq (S a) c)).
  2: { apply map_ext. intros. f_equal. lia. }
  rewrite IH. cbn [n_over_k]. replace (S c + a - (a + 1)) with c by lia. reflexivity.
Qed.

Lemma C09_counts_pf : forall n, length (simplex_lines (n + 1)) = simplex_boundary_num n 1 /\
  length (simplex_triangles (n + 1)) = simplex_boundary_num n 2.
Proof.
  intros n. unfold simplex_lines, simplex_triangles, simplex_boundary_num. change (1 + 1) with 2. change (2 + 1) with 3. split.
  - rewrite flat_map_length', <- (sum_lines (n + 1) 0). f_equal. apply map_ext.
    intros i. rewrite map_length, seq_length. lia.
  - rewrite flat_map_length', <- (sum_triangles (n + 1) 0). f_equal. apply map_ext.
    intros i. rewrite flat_map_length', <- (sum_lines (n + 1 + 0 - (i + 1)) (i + 1)).
    f_equal. replace (n + 1 + 0) with (n + 1) by lia. apply map_ext_in.
    intros j Hj. apply in_seq in Hj. rewrite map_length, seq_length. lia.
Qed.

Lemma C10_quad_edges_pf : NoDup quad_lines /\ forall i j, i < 4 -> j < 4 ->
  (In [i; j] quad_lines <-> i < j /\ adjacent 2 i j = true).
Proof.
  split; [repeat constructor; simpl; intuition congruence|].
  intros i j Hi Hj.
  do 4 (destruct i as [|i]; [do 4 (destruct j as [|j]; [cbn; intuition (congruence || lia)|]); lia|]); lia.
Qed.

Lemma C10_quad_vertex_degree_pf : forall i, i < 4 -> length (filter (fun l => existsb (Nat.eqb i) l) quad_lines) = 2.
Proof.
  intros i Hi. do 4 (destruct i as [|i]; [reflexivity|]). lia.
Qed.

Lemma C10_hex_faces_pf : NoDup hex_quads /\
  forall f, In f hex_quads <-> exists d b, d < 3 /\ f = cube_face d b.
Proof.
  split; [repeat constructor; simpl; intuition congruence|].
  intros f. split.
  - intros H. destruct H as [<-|[<-|[<-|[<-|[<-|[<-|H]]]]]]; [exists 2, false|exists 1, false|exists 0, false|exists 0, true|exists 1, true|exists 2, true|destruct H];
      (split; [lia|reflexivity]).
  - intros (d & b & Hd & ->). do 3 (destruct d as [|d]; [destruct b; cbn; tauto|]). lia.
Qed.

Lemma C10_hex_edges_partial_pf : NoDup hex_lines /\ length hex_lines = 12 /\
  (forall k i j, k <> 6 -> nth_error hex_lines k = Some [i; j] -> i < j /\ adjacent 3 i j = true) /\
  (forall i j, i < j < 8 -> adjacent 3 i j = true -> [i; j] <> [2; 6] -> In [i; j] hex_lines).
Proof.
  split; [repeat constructor; simpl; intuition congruence|]. split; [reflexivity|]. split.
  - intros k i j Hk H. do 12 (destruct k as [|k]; [cbn in H; inversion H; subst; first [congruence|split; [lia|reflexivity]]|]).
    destruct k; discriminate.
  - intros i j [Hij Hj] HA HN.
    do 8 (destruct j as [|j]; [do 8 (destruct i as [|i]; [first [discriminate HA|cbn; tauto|lia|congruence]|]); lia|]). lia.
Qed.

Lemma C10_hex_edge_table_refuted_pf :
  nth_error hex_lines 6 = Some [2; 5] /\ adjacent 3 2 5 = false /\
  (forall f, In f hex_quads -> ~ (In 2 f /\ In 5 f)) /\
  adjacent 3 2 6 = true /\ ~ In [2; 6] hex_lines.
Proof.
  repeat split; try reflexivity.
  - intros f H [A B]. do 6 (destruct H as [<-|H]; [simpl in A, B; intuition congruence|]). destruct H.
  - simpl. intuition congruence.
Qed.

Lemma nth_error_In_iff {A} (l : list A) x : In x l <-> exists k, nth_error l k = Some x.
Proof. split; [apply In_nth_error|]. intros [k H]. eapply nth_error_In; eauto. Qed.

Lemma selects_incl {A} (l : list A) idx vs : selects l idx vs -> incl vs l.
Proof. intros H x Hx. induction H as [|i y li lv E F IH]; [destruct Hx|destruct Hx as [<-|Hx]]; auto. eapply nth_error_In; eauto. Qed.

Lemma selects_In {A} (l : list A) idx vs x : selects l idx vs -> In x vs -> exists j, In j idx /\ nth_error l j = Some x.
Proof.
  intros H Hx. induction H as [|i y li lv E F IH]; [destruct Hx|destruct Hx as [<-|Hx]].
  - exists i. simpl. auto.
  - destruct (IH Hx) as (j & ? & ?). exists j. simpl. auto.
Qed.

Lemma selects_In_l {A} (l : list A) idx vs j : selects l idx vs -> In j idx -> exists x, In x vs /\ nth_error l j = Some x.
Proof.
  intros H Hx. induction H as [|i y li lv E F IH]; [destruct Hx|destruct Hx as [<-|Hx]].
  - exists y. simpl. auto.
  - destruct (IH Hx) as (z & ? & ?). exists z. simpl. auto.
Qed.

Lemma len_opt {A B} (g : A -> option B) l :
  length (flat_map (fun k => match g k with Some x => [x] | None => [] end) l) <= length l.
Proof. induction l as [|a l IH]; simpl; auto. rewrite app_length. destruct (g a); simpl; lia. Qed.

Lemma C10_hex_face_edge_missing_refuted_pf : forall (Pt : Type) (cfg : config) (m : @mesh Pt), reach cfg m ->
  cfg_keep cfg Line = true -> cfg_keep cfg Quad = true ->
  forall a e, deref m Hex a = Some e ->
  exists q f l, In q (boundary_of e Quad) /\ deref m Quad q = Some f /\ In l (boundary_of f Line) /\ ~ In l (boundary_of e Line).
Proof.
  intros Pt cfg m HR KL KQ a e HD. pose proof (reach_inv cfg m HR) as HI.
  destruct (C03_boundary_complete_pf Pt cfg m HR Hex a e HD Quad) as [_ X]; try easy.
  destruct (X 4 [2;3;6;7] eq_refl) as (q & f & vs & Bq & Df & Sv & Pf).
  destruct (C03_boundary_complete_pf Pt cfg m HR Quad q f Df Line) as [LL Y]; try easy.
  destruct (C03_vertices_stored_pf Pt cfg m HR Hex a e ltac:(easy) HD) as (_ & NDe & _).
  (* the lines of the hexahedron that lie inside the face *)
  pose proof (element_boundary cfg m Hex a e Line HI HD KL) as FH.
  change (entry_facets Hex Line) with hex_lines in FH.
  assert (BH : boundary_of e Line = map b_addr (filter (fun b => tag_eqb (b_tag b) Line) (e_bnd e))) by now apply boundary_of_nonvertex.
  assert (ND : NoDup (boundary_of f Line)).
  { apply NoDup_nth_error. intros i j Hi E.
    destruct (nth_error (boundary_of f Line) i) as [h|] eqn:Ei; [|apply nth_error_Some in Ei; tauto].
    symmetry in E. rewrite boundary_of_nonvertex, nth_error_map in Ei, E by easy.
    destruct (nth_error (filter _ (e_bnd f)) i) as [b1|] eqn:F1; [|discriminate].
    destruct (nth_error (filter _ (e_bnd f)) j) as [b2|] eqn:F2; [|discriminate].
    simpl in Ei, E. eapply (good_handles_distinct cfg m Quad q f Line i j b1 b2); eauto; congruence. }
  destruct (forallb (fun l => existsb (Nat.eqb l) (boundary_of e Line)) (boundary_of f Line)) eqn:ALL.
  2: { exists q, f. 
    assert (G : exists l, In l (boundary_of f Line) /\ existsb (Nat.eqb l) (boundary_of e Line) = false).
    { clear -ALL. induction (boundary_of f Line) as [|x l IH]; simpl in ALL; [discriminate|].
      apply andb_false_iff in ALL as [H|H]; [exists x; simpl; auto|]. destruct (IH H) as (y & ? & ?). exists y; simpl; auto. }
    destruct G as (l & G1 & G2). exists l. repeat split; auto.
    - eapply nth_error_In; eauto.
    - intros H. assert (existsb (Nat.eqb l) (boundary_of e Line) = true); [|congruence].
      apply existsb_exists. exists l. split; auto. apply Nat.eqb_refl. }
  exfalso.
  (* all four lines of the face are among the lines 5, 7 and 11 of the hexahedron *)
  assert (IN : forall l, In l (boundary_of f Line) -> nth_error (boundary_of e Line) 5 = Some l \/
            nth_error (boundary_of e Line) 7 = Some l \/ nth_error (boundary_of e Line) 11 = Some l).
  { intros l Hl. assert (Hl' : In l (boundary_of e Line)).
    { apply (proj1 (forallb_forall _ _) ALL), existsb_exists in Hl as (x & H1 & H2). apply Nat.eqb_eq in H2. congruence. }
    apply In_nth_error in Hl' as [k Hk]. rewrite BH, nth_error_map in Hk.
    destruct (nth_error (filter _ (e_bnd e)) k) as [b|] eqn:Fb; [|discriminate]. simpl in Hk. inversion Hk; subst l.
    assert (Lk : k < length hex_lines). { rewrite <- (Forall2_len _ _ _ FH). apply nth_error_Some. congruence. }
    destruct (nth_error hex_lines k) as [idx|] eqn:Fi; [|apply nth_error_None in Fi; lia].
    destruct (Forall2_nth _ _ _ _ _ _ FH Fb Fi) as (_ & g & ws & Dg & Sg & Pg & _). cbn in Dg, Sg.
    apply selects_omap in Sg.
    (* the vertices of the line are vertices of the face *)
    apply In_nth_error in Hl as [k' Hk'].
    assert (Lk' : k' < length (ref_facets Quad Line)). { rewrite <- LL. apply nth_error_Some. congruence. }
    destruct (nth_error (ref_facets Quad Line) k') as [idx'|] eqn:Fi'; [|apply nth_error_None in Fi'; lia].
    destruct (Y k' idx' Fi') as (h & g' & ws' & Hh & Dg' & Sg' & Pg'). rewrite Hk' in Hh. inversion Hh; subst h.
    rewrite Dg in Dg'. inversion Dg'; subst g'.
    assert (IDX : forall j, In j idx -> In j [2;3;6;7]).
    { intros j Hj. destruct (selects_In_l _ _ _ _ Sg Hj) as (x & Hx & Ex).
      assert (In x vs).
      { apply (Permutation_in _ Pf). apply (selects_incl _ _ _ Sg'). apply (Permutation_in _ Pg').
        apply (Permutation_in _ (Permutation_sym Pg)). exact Hx. }
      destruct (selects_In _ _ _ _ Sv H) as (j' & Hj' & Ex'). now rewrite (nth_inj _ _ _ _ NDe Ex Ex'). }
    rewrite BH, !nth_error_map.
    do 12 (destruct k as [|k]; [cbn in Fi; injection Fi as <-;
       first [ left; now rewrite Fb | right; left; now rewrite Fb | right; right; now rewrite Fb
             | exfalso; assert (A := IDX _ (or_introl eq_refl)); assert (B := IDX _ (or_intror (or_introl eq_refl)));
               simpl in A, B; intuition discriminate ]|]).
    simpl in Lk. lia. }
  assert (length (boundary_of f Line) <= 3).
  { set (R := flat_map (fun k => match nth_error (boundary_of e Line) k with Some x => [x] | None => [] end) [5;7;11]).
    transitivity (length R).
    - apply NoDup_incl_length; auto. intros l Hl. apply in_flat_map.
      destruct (IN l Hl) as [H|[H|H]]; [exists 5|exists 7|exists 11]; rewrite H; simpl; auto.
    - apply (len_opt (nth_error (boundary_of e Line)) [5;7;11]). }
  rewrite LL in H. simpl in H. lia.
Qed.
