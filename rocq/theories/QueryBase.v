(** Lemmas about the cached queries: what a freshly filled cache contains, and
    that a cache whose counter equals the change counter is up to date. *)
From Coq Require Import List Arith Bool Lia Permutation.
From Verif Require Import ModelTopo ModelMesh ModelErase ModelAccessor ModelQuery SpecMesh SpecErase SpecQuery
  MeshBase MeshInv MeshIds MeshWf MeshErase MeshSimple AccessorProofs.
Import ListNotations.

Section QueryBase.
Context {Pt : Type}.
Notation mesh := (@mesh Pt).
Notation element := (@element Pt).
Notation node := (@node Pt).
Variable cfg : config.

(** ** The change counter *)
Lemma push_cc t gen (m m1 : mesh) e r : push cfg t gen m e = Some (m1, r) -> m_cc m1 = m_cc m + 1.
Proof.
  unfold push. destruct (keyed cfg t).
  - intros H. apply obind_Some in H as (k & _ & H). destruct (find_key _ _).
    + inversion H; reflexivity.
    + destruct gen; inversion H; reflexivity.
  - destruct gen; intros H; inversion H; reflexivity.
Qed.

Lemma insert_cc depth : forall gen t (m m' : mesh) e r, insert depth cfg gen t m e = Some (m', r) -> m_cc m < m_cc m'.
Proof.
  induction depth as [|d IH]; intros gen t m m' e r H; cbn [insert] in H;
    apply obind_Some in H as ([m1 [a fresh]] & HP & H); pose proof (push_cc _ _ _ _ _ _ HP) as C.
  - destruct fresh; [destruct (btab cfg t)|]; inversion H; subst; simpl; lia.
  - destruct fresh; [|inversion H; subst; simpl; lia].
    apply obind_Some in H as (m2 & HF & H). inversion H; subst; simpl.
    enough (m_cc m1 <= m_cc m2) by lia. clear - HF IH.
    revert m1 HF. induction (btab cfg t) as [|[bt idx] l IHl]; intros m1 HF; cbn [ofold] in HF; [inversion HF; auto|].
    apply obind_Some in HF as (m3 & HS & HF). apply IHl in HF. enough (m_cc m1 <= m_cc m3) by lia. clear IHl HF.
    unfold boundary_step in HS.
    apply obind_Some in HS as (h & _ & HS). apply obind_Some in HS as (vs & _ & HS).
    apply obind_Some in HS as ([m4 [h4 f4]] & HI & HS). apply obind_Some in HS as (st & _ & HS).
    apply obind_Some in HS as (h1 & _ & HS). inversion HS; subst; simpl. apply IH in HI. lia.
Qed.

Lemma step_cc (m m' : mesh) o : wf cfg m -> valid_eop cfg m o -> step cfg m o = Some m' -> o <> OClear -> m_cc m < m_cc m'.
Proof.
  intros W V H HC. destruct o as [p|i p|t vs|view|]; cbn [step] in H.
  - unfold make_vertex in H. destruct (insert _ _ _ _ _ _) as [[m1 r]|] eqn:E; [|easy].
    apply insert_cc in E. inversion H; subst; auto.
  - unfold make_vertex_with_id in H. destruct (insert _ _ _ _ _ _) as [[m1 r]|] eqn:E; [|easy].
    apply insert_cc in E. inversion H; subst; auto.
  - unfold make_element in H. destruct (_ =? _); [|easy]. destruct (insert _ _ _ _ _ _) as [[m1 r]|] eqn:E; [|easy].
    apply insert_cc in E. inversion H; subst; auto.
  - destruct V as [V1 V2]. destruct (erase_elements_spec cfg m view W V1 V2) as (m2 & E & _ & _ & _ & _ & C).
    rewrite H in E. inversion E; subst. lia.
  - easy.
Qed.

(** ** Coboundary *)
Definition cobs (m : mesh) (bt ct : tag) (b : addr) : list addr :=
  map n_addr (filter (fun n => memb b (boundary_of (n_el n) bt)) (m_nodes m ct)).

Definition cob_ok (m : mesh) (bt ct : tag) (d : list (list addr)) : Prop :=
  forall n, In n (m_nodes m bt) -> nth_error d (e_id (n_el n)) = Some (cobs m bt ct (n_addr n)).

Lemma nth_error_lt {A} (l : list A) i x : nth_error l i = Some x -> i < length l.
Proof. intros H. apply nth_error_Some. congruence. Qed.

Lemma clear_entry_keeps d i j v : nth_error d j = Some v -> exists v', nth_error (clear_entry d i) j = Some v' /\ (v = [] -> v' = []).
Proof.
  intros H. unfold clear_entry. rewrite list_set_nth.
  destruct (j =? i) eqn:E; simpl.
  - rewrite grow_len. destruct (i <? Nat.max (length d) (i+1)) eqn:L; [eauto|]. apply Nat.ltb_ge in L. lia.
  - rewrite grow_nth. pose proof (nth_error_lt _ _ _ H). destruct (Nat.ltb_spec j (length d)); [eauto|lia].
Qed.

Lemma clear_entry_self d i : nth_error (clear_entry d i) i = Some [].
Proof.
  unfold clear_entry. rewrite list_set_nth, Nat.eqb_refl, grow_len. simpl.
  destruct (Nat.ltb_spec i (Nat.max (length d) (i+1))); [auto|lia].
Qed.

Lemma clear_entries_spec (m : mesh) t d n : In n (m_nodes m t) -> nth_error (clear_entries m t d) (e_id (n_el n)) = Some [].
Proof.
  unfold clear_entries. revert d. induction (m_nodes m t) as [|x l IH]; intros d; [easy|]. simpl. intros [->|H]; [|auto].
  assert (K : forall d, nth_error d (e_id (n_el n)) = Some [] ->
    nth_error (fold_left (fun d n => clear_entry d (e_id (n_el n))) l d) (e_id (n_el n)) = Some []).
  { clear. induction l as [|y l IHl]; intros d H; simpl; auto. apply IHl.
    destruct (clear_entry_keeps d (e_id (n_el y)) _ _ H) as (v' & E & N). rewrite E, N; auto. }
  apply K, clear_entry_self.
Qed.

Lemma append_at_spec (d : list (list addr)) i h : i < length d -> exists d', append_at d i h = Some d' /\ length d' = length d /\
  forall j, nth_error d' j = if j =? i then option_map (fun v => v ++ [h]) (nth_error d j) else nth_error d j.
Proof.
  intros H. unfold append_at. destruct (nth_error d i) as [v|] eqn:E; [|apply nth_error_None in E; lia].
  eexists. split; [reflexivity|]. split; [apply list_set_len|]. intros j. rewrite list_set_nth.
  destruct (Nat.eqb_spec j i) as [->|]; simpl; auto. rewrite E. destruct (Nat.ltb_spec i (length d)); [auto|lia].
Qed.

Lemma cob_inner (m : mesh) bt h bs : wf cfg m -> NoDup bs -> (forall b, In b bs -> live m bt b) -> forall d,
  (forall n, In n (m_nodes m bt) -> e_id (n_el n) < length d) ->
  exists d', ofold (fun d b => obind (deref m bt b) (fun e => append_at d (e_id e) h)) bs d = Some d' /\
    length d' = length d /\
    forall n v, In n (m_nodes m bt) -> nth_error d (e_id (n_el n)) = Some v ->
      nth_error d' (e_id (n_el n)) = Some (v ++ if memb (n_addr n) bs then [h] else []).
Proof.
  intros W ND. induction ND as [|b bs Hb ND IH]; intros HL d HD; cbn [ofold].
  - exists d. repeat split; auto. intros n v _ E. simpl. now rewrite app_nil_r.
  - assert (HLb : live m bt b) by (apply HL; left; auto).
    unfold live in HLb. apply in_map_iff in HLb as (nb & <- & Inb).
    rewrite (wf_In_deref cfg m bt nb W Inb). cbn [obind].
    destruct (append_at_spec d (e_id (n_el nb)) h (HD nb Inb)) as (d1 & E1 & L1 & N1). rewrite E1. cbn [obind].
    destruct (IH (fun x Hx => HL x (or_intror Hx)) d1) as (d2 & E2 & L2 & N2); [intros n Hn; rewrite L1; auto|].
    exists d2. rewrite E2. split; auto. split; [lia|]. intros n v In_ E.
    cbn [memb existsb]. destruct (Nat.eqb_spec (n_addr n) (n_addr nb)) as [Q|Q].
    + assert (n = nb) as ->.
      { pose proof (wf_In_deref cfg m bt n W In_) as D1. pose proof (wf_In_deref cfg m bt nb W Inb) as D2.
        rewrite Q in D1. rewrite D1 in D2. inversion D2. apply (nodup_id_eq m bt); auto; [apply W|congruence]. }
      simpl. rewrite (N2 nb (v ++ [h])); auto.
      * assert (Z : memb (n_addr nb) bs = false) by now apply memb_notIn. rewrite Z. now rewrite app_nil_r.
      * rewrite N1, Nat.eqb_refl, E. reflexivity.
    + simpl. apply N2; auto. rewrite N1. destruct (Nat.eqb_spec (e_id (n_el n)) (e_id (n_el nb))) as [Z|Z]; auto.
      exfalso. apply Q. f_equal. apply (nodup_id_eq m bt); auto. apply W.
Qed.

Lemma boundary_live (m : mesh) ct n bt b : wf cfg m -> In n (m_nodes m ct) -> In b (boundary_of (n_el n) bt) -> live m bt b.
Proof.
  intros W In_ Hb. apply live_is_live. apply (wf_no_dangling cfg m W ct (n_addr n) (n_el n) bt b); auto.
  apply (wf_In_deref cfg); auto.
Qed.

Lemma create_cob_spec (m : mesh) bt ct d : wf cfg m -> simple m ->
  exists d', create_cob m bt ct m d = Some d' /\ cob_ok m bt ct d'.
Proof.
  intros W S. unfold create_cob, cob_ok, cobs.
  assert (HL : forall n, In n (m_nodes m ct) -> NoDup (boundary_of (n_el n) bt) /\ forall b, In b (boundary_of (n_el n) bt) -> live m bt b).
  { intros n Hn. split; [eapply simple_boundary; eauto|]. intros b. now apply (boundary_live m ct). }
  assert (G : forall (l : list node) d0, (forall n, In n l -> NoDup (boundary_of (n_el n) bt) /\ forall b, In b (boundary_of (n_el n) bt) -> live m bt b) ->
    (forall n, In n (m_nodes m bt) -> e_id (n_el n) < length d0) ->
    exists d', ofold (fun d n => ofold (fun d b => obind (deref m bt b) (fun e => append_at d (e_id e) (n_addr n))) (boundary_of (n_el n) bt) d) l d0 = Some d' /\
      forall n v, In n (m_nodes m bt) -> nth_error d0 (e_id (n_el n)) = Some v ->
        nth_error d' (e_id (n_el n)) = Some (v ++ map n_addr (filter (fun x => memb (n_addr n) (boundary_of (n_el x) bt)) l))).
  { induction l as [|c l IH]; intros d0 HB HD; cbn [ofold].
    - exists d0. split; auto. intros. simpl. now rewrite app_nil_r.
    - destruct (HB c (or_introl eq_refl)) as [ND LV].
      destruct (cob_inner m bt (n_addr c) _ W ND LV d0 HD) as (d1 & E1 & L1 & N1). rewrite E1. cbn [obind].
      destruct (IH d1) as (d2 & E2 & N2); [intros; apply HB; right; auto|intros; rewrite L1; auto|].
      exists d2. split; auto. intros n v Hn E. rewrite (N2 n _ Hn (N1 n v Hn E)). simpl.
      destruct (memb (n_addr n) (boundary_of (n_el c) bt)); simpl; now rewrite <- app_assoc. }
  destruct (G (m_nodes m ct) (clear_entries m bt d) HL) as (d' & E & N).
  - intros n Hn. eapply nth_error_lt, clear_entries_spec; eauto.
  - exists d'. split; auto. intros n Hn. rewrite (N n [] Hn); auto. now apply clear_entries_spec.
Qed.

Lemma cobs_exact (m : mesh) bt ct b : wf cfg m -> lists_exactly (cobs m bt ct b) (fun a => bounded_by m ct a bt b).
Proof.
  intros W. unfold cobs. split.
  - pose proof (wf_addr cfg m ct W) as ND. induction (m_nodes m ct) as [|x l IH]; simpl; [constructor|].
    inversion ND; subst. destruct (memb _ _); simpl; auto. constructor; auto.
    intros X. apply H1. apply in_map_iff in X as (y & E & Y). apply filter_In in Y as [Y _]. rewrite <- E. now apply in_map.
  - intros a. unfold bounded_by, has_boundary. rewrite in_map_iff. split.
    + intros (n & <- & Hn). apply filter_In in Hn as [Hn Hb]. exists (n_el n). split; [now apply (wf_In_deref cfg)|].
      now apply memb_In.
    + intros (e & D & Hb). apply deref_In in D as (n & Hn & <- & <-). exists n. split; auto. apply filter_In. split; auto.
      now apply memb_In.
Qed.

Lemma cob_ok_grow (m : mesh) bt ct d i : cob_ok m bt ct d -> cob_ok m bt ct (dense_grow [] d i).
Proof.
  intros H n Hn. rewrite grow_nth. pose proof (nth_error_lt _ _ _ (H n Hn)).
  destruct (Nat.ltb_spec (e_id (n_el n)) (length d)); [auto|lia].
Qed.

(** ** Neighbours *)
Definition nb_ok (m : mesh) (t : tag) (d : list (list addr)) (R : addr -> addr -> Prop) : Prop :=
  forall n, In n (m_nodes m t) -> exists l, nth_error d (e_id (n_el n)) = Some l /\ lists_exactly l (R (n_addr n)).

Definition add_pair (R : addr -> addr -> Prop) (a0 a1 : addr) : addr -> addr -> Prop :=
  fun x y => R x y \/ (x = a0 /\ y = a1) \/ (x = a1 /\ y = a0).

Lemma lists_exactly_iff l (P Q : addr -> Prop) : (forall a, P a <-> Q a) -> lists_exactly l P -> lists_exactly l Q.
Proof. intros H [N E]. split; auto. intros a. now rewrite E. Qed.

Lemma nb_ok_iff (m : mesh) t d R R' : (forall x y, R x y <-> R' x y) -> nb_ok m t d R -> nb_ok m t d R'.
Proof. intros H O n Hn. destruct (O n Hn) as (l & E & L). exists l. split; auto. eapply lists_exactly_iff; eauto. Qed.

Lemma live_node (m : mesh) t a : live m t a -> exists n, In n (m_nodes m t) /\ n_addr n = a.
Proof. intros H. apply in_map_iff in H as (n & <- & Hn). eauto. Qed.

Lemma NoDup_snoc {A} (l : list A) x : NoDup l -> ~ In x l -> NoDup (l ++ [x]).
Proof. intros. apply (Permutation_NoDup (l := x :: l)); [apply Permutation_cons_append|constructor; auto]. Qed.

Lemma grow_noop (d : list (list addr)) i v : nth_error d i = Some v -> dense_grow [] d i = d.
Proof. intros H. apply nth_error_lt in H. unfold dense_grow. destruct (Nat.leb_spec (length d) i); [lia|auto]. Qed.

Lemma node_addr_inj (m : mesh) t n1 n2 : wf cfg m -> In n1 (m_nodes m t) -> In n2 (m_nodes m t) -> n_addr n1 = n_addr n2 -> n1 = n2.
Proof.
  intros W H1 H2 Q. pose proof (wf_In_deref cfg m t n1 W H1) as D1. pose proof (wf_In_deref cfg m t n2 W H2) as D2.
  rewrite Q in D1. rewrite D1 in D2. inversion D2. apply (nodup_id_eq m t); auto; [apply W|congruence].
Qed.

Lemma nb_pair_spec (m : mesh) t d R a0 a1 : wf cfg m -> nb_ok m t d R -> (forall x y, R x y -> R y x) ->
  (forall x y, R x y -> live m t y) -> live m t a0 -> live m t a1 -> a0 <> a1 ->
  exists d', nb_pair t m a1 d a0 = Some d' /\ nb_ok m t d' (add_pair R a0 a1).
Proof.
  intros W O Sy Li L0 L1 NE. apply live_node in L0 as (n0 & I0 & <-). apply live_node in L1 as (n1 & I1 & <-).
  unfold nb_pair. rewrite (wf_In_deref cfg m t n0 W I0), (wf_In_deref cfg m t n1 W I1). cbn [obind].
  destruct (O n0 I0) as (l0 & E0 & ND0 & X0). destruct (O n1 I1) as (l1 & E1 & ND1 & X1).
  rewrite (grow_noop _ _ _ E0), E0. cbn [obind].
  assert (HI : exists is, omap (fun a => option_map e_id (deref m t a)) l0 = Some is /\
     (forall i, In i is <-> exists a, In a l0 /\ id_at m t a = Some i)).
  { clear - Li X0. assert (LV : forall a, In a l0 -> live m t a) by (intros a Ha; apply X0 in Ha; eapply Li; eauto).
    clear X0. induction l0 as [|a l IH]; simpl; [exists []; split; auto; intros i; split; [easy|intros (? & [] & _)]|].
    destruct (wf_live_id m t a (LV a (or_introl eq_refl))) as [i Hi]. unfold id_at in Hi. rewrite Hi. simpl.
    destruct IH as (is & E & X); [intros; apply LV; right; auto|]. rewrite E. simpl. exists (i :: is). split; auto.
    intros j. simpl. rewrite X. split.
    - intros [<-|(b & Hb & Hj)]; [exists a; auto|exists b; auto].
    - intros (b & [<-|Hb] & Hj); [left; unfold id_at in Hj; congruence|right; eauto]. }
  destruct HI as (is & -> & HI). cbn [obind].
  assert (ID1 : id_at m t (n_addr n1) = Some (e_id (n_el n1))) by (unfold id_at; now rewrite (wf_In_deref cfg m t n1 W I1)).
  destruct (existsb (Nat.eqb (e_id (n_el n1))) is) eqn:EX.
  - apply existsb_exists in EX as (i & Hi & Q). apply Nat.eqb_eq in Q as <-. apply HI in Hi as (a & Ha & Hi).
    assert (a = n_addr n1) as -> by (eapply (id_at_inj cfg m t); eauto).
    apply X0 in Ha. exists d. split; auto. eapply nb_ok_iff; [|exact O].
    intros x y. unfold add_pair. split; [auto|]. intros [H|[[-> ->]|[-> ->]]]; auto.
  - assert (NR : ~ R (n_addr n0) (n_addr n1)).
    { intros H. apply X0 in H. assert (In (e_id (n_el n1)) is) by (apply HI; eauto).
      assert (existsb (Nat.eqb (e_id (n_el n1))) is = true) by (apply existsb_exists; exists (e_id (n_el n1)); split; auto; apply Nat.eqb_refl). congruence. }
    assert (IDN : e_id (n_el n0) <> e_id (n_el n1)).
    { intros Q. apply NE. f_equal. apply (nodup_id_eq m t); auto. apply W. }
    destruct (append_at_spec d (e_id (n_el n0)) (n_addr n1) (nth_error_lt _ _ _ E0)) as (d1 & A1 & L1 & N1).
    rewrite A1. cbn [obind].
    assert (E1' : nth_error d1 (e_id (n_el n1)) = Some l1).
    { rewrite N1. destruct (Nat.eqb_spec (e_id (n_el n1)) (e_id (n_el n0))); [congruence|auto]. }
    rewrite (grow_noop _ _ _ E1').
    destruct (append_at_spec d1 (e_id (n_el n1)) (n_addr n0) (nth_error_lt _ _ _ E1')) as (d2 & A2 & L2 & N2).
    rewrite A2. exists d2. split; auto. intros n Hn. rewrite N2, N1.
    destruct (Nat.eqb_spec (e_id (n_el n)) (e_id (n_el n1))) as [Q|Q].
    + assert (n = n1) as -> by (apply (nodup_id_eq m t); auto; apply W).
      destruct (Nat.eqb_spec (e_id (n_el n1)) (e_id (n_el n0))) as [Q2|Q2]; [congruence|]. rewrite E1. simpl.
      eexists. split; [reflexivity|]. split.
      * apply NoDup_snoc; auto. intros H. apply X1, Sy in H. auto.
      * intros a. rewrite in_app_iff, X1. unfold add_pair. simpl. split.
        -- intros [H|[<-|[]]]; auto.
        -- intros [H|[[H1 H2]|[_ ->]]]; auto; try congruence.
    + destruct (Nat.eqb_spec (e_id (n_el n)) (e_id (n_el n0))) as [Q2|Q2].
      * assert (n = n0) as -> by (apply (nodup_id_eq m t); auto; apply W). rewrite E0. simpl.
        eexists. split; [reflexivity|]. split.
        -- apply NoDup_snoc; auto. intros H. apply X0 in H. auto.
        -- intros a. rewrite in_app_iff, X0. unfold add_pair. simpl. split.
           ++ intros [H|[<-|[]]]; auto.
           ++ intros [H|[[_ ->]|[H _]]]; auto; try congruence.
      * destruct (O n Hn) as (l & E & LE). exists l. split; auto. eapply lists_exactly_iff; [|exact LE].
        intros a. unfold add_pair. split; auto. intros [H|[[H _]|[H _]]]; auto.
        -- apply (node_addr_inj m t) in H; auto. subst. congruence.
        -- apply (node_addr_inj m t) in H; auto. subst. congruence.
Qed.

Lemma nb_row_spec (m : mesh) t a1 : wf cfg m -> live m t a1 -> forall pre d R, nb_ok m t d R -> (forall x y, R x y -> R y x) ->
  (forall x y, R x y -> live m t y) -> (forall a, In a pre -> live m t a /\ a <> a1) ->
  exists d', ofold (nb_pair t m a1) pre d = Some d' /\
    nb_ok m t d' (fun x y => R x y \/ (In x pre /\ y = a1) \/ (x = a1 /\ In y pre)).
Proof.
  intros W L1. induction pre as [|a0 pre IH]; intros d R O Sy Li HP; cbn [ofold].
  - exists d. split; auto. eapply nb_ok_iff; [|exact O]. simpl. tauto.
  - destruct (HP a0 (or_introl eq_refl)) as [L0 NE].
    destruct (nb_pair_spec m t d R a0 a1 W O Sy Li L0 L1 NE) as (d1 & E1 & O1). rewrite E1. cbn [obind].
    destruct (IH d1 (add_pair R a0 a1) O1) as (d2 & E2 & O2).
    + unfold add_pair. intros x y [H|[[-> ->]|[-> ->]]]; auto.
    + unfold add_pair. intros x y [H|[[-> ->]|[-> ->]]]; eauto.
    + intros; apply HP; right; auto.
    + exists d2. split; auto. eapply nb_ok_iff; [|exact O2]. unfold add_pair. intros x y; simpl.
      split; [intros [[H|[[-> ->]|[-> ->]]]|[[H ->]|[-> H]]]; auto 6|intros [H|[[[<-|H] ->]|[-> [<-|H]]]]; auto 6].
Qed.

Lemma nb_pairs_spec (m : mesh) t : wf cfg m -> forall rest pre d R, nb_ok m t d R -> (forall x y, R x y -> R y x) ->
  (forall x y, R x y -> live m t y) -> (forall a, In a (pre ++ rest) -> live m t a) -> NoDup (pre ++ rest) ->
  exists d', nb_pairs t m pre rest d = Some d' /\
    nb_ok m t d' (fun x y => R x y \/ (In x (pre ++ rest) /\ In y (pre ++ rest) /\ x <> y /\ ~ (In x pre /\ In y pre))).
Proof.
  intros W. induction rest as [|a1 r IH]; intros pre d R O Sy Li LV ND; cbn [nb_pairs].
  - exists d. split; auto. eapply nb_ok_iff; [|exact O]. intros x y. rewrite app_nil_r. tauto.
  - assert (L1 : live m t a1) by (apply LV; apply in_or_app; right; left; auto).
    assert (NI : ~ In a1 pre). { apply NoDup_remove_2 in ND. intros H. apply ND, in_or_app; auto. }
    destruct (nb_row_spec m t a1 W L1 pre d R O Sy Li) as (d1 & E1 & O1).
    { intros a Ha. split; [apply LV, in_or_app; auto|]. intros ->. auto. }
    rewrite E1. cbn [obind].
    destruct (IH (pre ++ [a1]) d1 _ O1) as (d2 & E2 & O2).
    + intros x y [H|[[H ->]|[-> H]]]; auto.
    + intros x y [H|[[H ->]|[-> H]]]; eauto. apply LV, in_or_app; auto.
    + intros a. rewrite <- app_assoc. simpl. auto.
    + rewrite <- app_assoc. simpl. auto.
    + exists d2. split; auto. eapply nb_ok_iff; [|exact O2]. intros x y. cbv beta.
      rewrite <- !app_assoc. rewrite !in_app_iff. simpl.
      destruct (Nat.eq_dec x a1) as [Qx|Qx], (Nat.eq_dec y a1) as [Qy|Qy]; try subst x; try subst y.
      * split; [|tauto]. intros [[H|[[H _]|[_ H]]]|H]; tauto.
      * split; [|destruct (in_dec Nat.eq_dec y pre)]; intuition congruence.
      * split; [|destruct (in_dec Nat.eq_dec x pre)]; intuition congruence.
      * intuition congruence.
Qed.

(** ** The caches *)
Definition nb_data_ok (m : mesh) (t c : tag) (d : list (list addr)) : Prop := nb_ok m t d (share m t c).

Definition coflag (m : mesh) (f : addr) : bool :=
  Nat.odd (length (cobs m (facet_tag (cfg_cell cfg)) (cfg_cell cfg) f)).
Definition flag (m : mesh) (t : tag) (a : addr) : bool :=
  let ft := facet_tag (cfg_cell cfg) in
  if tag_eqb t ft then coflag m a
  else existsb (fun n => coflag m (n_addr n) && memb a (boundary_of (n_el n) t)) (m_nodes m ft).
Definition bnd_ok (m : mesh) (t : tag) (d : list (nat * bool)) : Prop :=
  forall n, In n (m_nodes m t) -> read_flag d (e_id (n_el n)) = flag m t (n_addr n).

Definition bnd_tag (t : tag) : Prop := t = facet_tag (cfg_cell cfg) \/ In t (bnd_types cfg).

Record qinv (s : qstate Pt) : Prop := mkQI {
  qi_cob : forall bt ct, c_count (q_cob s bt ct) <= m_cc (q_mesh s) /\
    (c_count (q_cob s bt ct) = m_cc (q_mesh s) -> cob_ok (q_mesh s) bt ct (c_data (q_cob s bt ct)));
  qi_nb : forall t c, c_count (q_nb s t c) <= m_cc (q_mesh s) /\
    (c_count (q_nb s t c) = m_cc (q_mesh s) -> nb_data_ok (q_mesh s) t c (c_data (q_nb s t c)));
  qi_bnd : forall t, bnd_tag t -> c_count (q_bnd s t) <= m_cc (q_mesh s) /\
    (c_count (q_bnd s t) = m_cc (q_mesh s) -> bnd_ok (q_mesh s) t (c_data (q_bnd s t)))
}.

Lemma upd2_spec {A} (f : tag -> tag -> A) t1 t2 x a b :
  (t1 = a /\ t2 = b /\ upd2 f t1 t2 x a b = x) \/ (~ (t1 = a /\ t2 = b) /\ upd2 f t1 t2 x a b = f a b).
Proof.
  unfold upd2. destruct (tag_eqb t1 a && tag_eqb t2 b) eqn:E.
  - apply andb_true_iff in E as [E1 E2]. apply tag_eqb_eq in E1, E2. auto.
  - right. split; auto. intros [-> ->]. rewrite !tag_eqb_refl in E. discriminate.
Qed.

(** The part of the invariant about the other caches is kept. *)
Lemma ensure_cob_spec s bt ct : wf cfg (q_mesh s) -> simple (q_mesh s) -> qinv s ->
  exists s', ensure_cob (q_mesh s) bt ct s = Some s' /\ qinv s' /\ q_mesh s' = q_mesh s /\
    c_count (q_cob s' bt ct) = m_cc (q_mesh s) /\ q_nb s' = q_nb s /\ q_bnd s' = q_bnd s.
Proof.
  intros W S I. unfold ensure_cob. destruct (Nat.eqb_spec (c_count (q_cob s bt ct)) (m_cc (q_mesh s))) as [E|E].
  - exists s. repeat split; auto; apply I; auto.
  - destruct (create_cob_spec (q_mesh s) bt ct (c_data (q_cob s bt ct)) W S) as (d' & -> & OK). cbn [option_map].
    eexists. split; [reflexivity|]. cbn [q_mesh q_cob q_nb q_bnd]. split; [|split; [auto|split; [|auto]]].
    + constructor; cbn [q_mesh q_cob q_nb q_bnd]; try apply I. intros bt' ct'.
      destruct (upd2_spec (q_cob s) bt ct (mkCache (m_cc (q_mesh s)) d') bt' ct') as [(<- & <- & ->)|(_ & ->)]; [|apply I].
      simpl. auto.
    + destruct (upd2_spec (q_cob s) bt ct (mkCache (m_cc (q_mesh s)) d') bt ct) as [(_ & _ & ->)|(X & _)]; [auto|tauto].
Qed.

Lemma query_cob_spec const s bt ct b : wf cfg (q_mesh s) -> simple (q_mesh s) -> qinv s -> live (q_mesh s) bt b ->
  exists s', query_cob const bt ct s b = Some (s', cobs (q_mesh s) bt ct b) /\ qinv s' /\ q_mesh s' = q_mesh s /\
     q_nb s' = q_nb s /\ q_bnd s' = q_bnd s.
Proof.
  intros W S I L. unfold query_cob, query_cob_in. destruct (ensure_cob_spec s bt ct W S I) as (s1 & -> & I1 & M1 & C1 & B1 & B2).
  cbn [obind]. rewrite ?M1. apply live_node in L as (n & Hn & <-).
  rewrite (wf_In_deref cfg (q_mesh s) bt n W Hn). cbn [obind].
  assert (OK : cob_ok (q_mesh s) bt ct (c_data (q_cob s1 bt ct))).
  { rewrite <- M1. apply (qi_cob s1 I1). rewrite M1. auto. }
  unfold read_entry.
  set (d' := if const then _ else _).
  assert (OK' : cob_ok (q_mesh s) bt ct d') by (unfold d'; destruct const; auto; now apply cob_ok_grow).
  rewrite (OK' n Hn). cbn [option_map]. eexists. split; [reflexivity|]. cbn [q_mesh q_cob q_nb q_bnd].
  split; [|auto]. constructor; cbn [q_mesh q_cob q_nb q_bnd]; try (rewrite <- M1; apply I1). intros bt' ct'.
  destruct (upd2_spec (q_cob s1) bt ct (mkCache (c_count (q_cob s1 bt ct)) d') bt' ct') as [(<- & <- & ->)|(_ & ->)].
  - simpl. rewrite C1. auto.
  - rewrite <- M1. apply I1.
Qed.

Lemma bounded_by_live (m : mesh) ct a bt b : bounded_by m ct a bt b -> live m ct a.
Proof. intros (e & D & _). apply live_is_live. exists e. auto. Qed.

Lemma nb_connectors_spec (m : mesh) t c : wf cfg m -> simple m -> forall l s d R,
  q_mesh s = m -> qinv s -> (forall n, In n l -> live m c (n_addr n)) ->
  nb_ok m t d R -> (forall x y, R x y -> R y x) -> (forall x y, R x y -> live m t y) ->
  exists s' d', ofold (nb_connector m t c) l (s, d) = Some (s', d') /\ q_mesh s' = m /\ qinv s' /\ q_nb s' = q_nb s /\ q_bnd s' = q_bnd s /\
    nb_ok m t d' (fun x y => R x y \/ (x <> y /\ exists n, In n l /\ bounded_by m t x c (n_addr n) /\ bounded_by m t y c (n_addr n))).
Proof.
  intros W S. induction l as [|n l IH]; intros s d R M I HL O Sy Li; cbn [ofold].
  - exists s, d. repeat split; auto; try apply I; auto. eapply nb_ok_iff; [|exact O].
    intros x y. split; auto. intros [H|(_ & n & [] & _)]; auto.
  - unfold nb_connector at 1. subst m. fold (query_cob false c t s (n_addr n)).
    destruct (query_cob_spec false s c t (n_addr n) W S I (HL n (or_introl eq_refl))) as (s1 & -> & I1 & M1 & B1 & B2).
    cbn [obind]. pose proof (cobs_exact (q_mesh s) c t (n_addr n) W) as [NDc Xc].
    set (R1 := fun x y => R x y \/ (x <> y /\ bounded_by (q_mesh s) t x c (n_addr n) /\ bounded_by (q_mesh s) t y c (n_addr n))).
    assert (STEP : exists d1, match cobs (q_mesh s) c t (n_addr n) with
       | [] => Some (s1, d) | a :: rest => option_map (fun d' => (s1, d')) (nb_pairs t (q_mesh s) [a] rest d) end = Some (s1, d1) /\
       nb_ok (q_mesh s) t d1 R1).
    { destruct (cobs (q_mesh s) c t (n_addr n)) as [|a rest] eqn:EC.
      - exists d. split; auto. eapply nb_ok_iff; [|exact O]. unfold R1. intros x y. split; auto.
        intros [H|(_ & H & _)]; auto. apply Xc in H. destruct H.
      - destruct (nb_pairs_spec (q_mesh s) t W rest [a] d R O Sy Li) as (d1 & E1 & O1).
        + intros x Hx. apply Xc in Hx. eapply bounded_by_live; eauto.
        + exact NDc.
        + rewrite E1. simpl. exists d1. split; auto. eapply nb_ok_iff; [|exact O1]. unfold R1. intros x y. cbv beta.
          change ([a] ++ rest) with (a :: rest). rewrite (Xc x), (Xc y). simpl. split.
          * intros [H|(H1 & H2 & H3 & _)]; auto.
          * intros [H|(H1 & H2 & H3)]; auto. right. repeat split; auto. intros [[<-|[]] [<-|[]]]. auto. }
    destruct STEP as (d1 & -> & O1). cbn [obind].
    destruct (IH s1 d1 R1 M1 I1) as (s2 & d2 & E2 & M2 & I2 & B3 & B4 & O2).
    + intros; apply HL; right; auto.
    + exact O1.
    + unfold R1. intros x y [H|(H1 & H2 & H3)]; auto.
    + unfold R1. intros x y [H|(H1 & H2 & H3)]; eauto. eapply bounded_by_live; eauto.
    + exists s2, d2. split; auto. split; auto. split; auto. split; [congruence|]. split; [congruence|].
      eapply nb_ok_iff; [|exact O2]. intros x y. unfold R1. cbv beta. split.
      * intros [[H|(H1 & H2 & H3)]|(H1 & k & H2 & H3)]; [auto| |].
        -- right. split; auto. exists n. simpl. auto.
        -- right. split; auto. exists k. simpl. auto.
      * intros [H|(H1 & k & [<-|H2] & H3)]; [auto| |].
        -- left. right. tauto.
        -- right. split; auto. exists k. auto.
Qed.

Lemma create_nb_spec s t c d : wf cfg (q_mesh s) -> simple (q_mesh s) -> qinv s ->
  exists s' d', create_nb (q_mesh s) t c s d = Some (s', d') /\ q_mesh s' = q_mesh s /\ qinv s' /\ q_nb s' = q_nb s /\ q_bnd s' = q_bnd s /\
    nb_data_ok (q_mesh s) t c d'.
Proof.
  intros W S I. unfold create_nb.
  destruct (nb_connectors_spec (q_mesh s) t c W S (m_nodes (q_mesh s) c) s (clear_entries (q_mesh s) t d) (fun _ _ => False))
    as (s' & d' & E & M & I' & B1 & B2 & O); auto.
  - intros n Hn. apply in_map; auto.
  - intros n Hn. exists []. split; [now apply clear_entries_spec|]. split; [constructor|]. simpl. tauto.
  - intros x y [].
  - exists s', d'. repeat (split; auto). eapply nb_ok_iff; [|exact O]. intros x y. cbv beta. unfold share. split.
    + intros [[]|(H1 & n & _ & H2)]. split; auto. exists (n_addr n). auto.
    + intros (H1 & k & H2 & H3). right. split; auto.
      assert (L : live (q_mesh s) c k).
      { destruct H2 as (e & D & Hb). apply live_is_live. eapply (wf_no_dangling cfg); eauto. }
      apply live_node in L as (n & Hn & <-). exists n. auto.
Qed.

Lemma ensure_nb_spec s t c : wf cfg (q_mesh s) -> simple (q_mesh s) -> qinv s ->
  exists s', ensure_nb (q_mesh s) t c s = Some s' /\ qinv s' /\ q_mesh s' = q_mesh s /\ c_count (q_nb s' t c) = m_cc (q_mesh s).
Proof.
  intros W S I. unfold ensure_nb. destruct (Nat.eqb_spec (c_count (q_nb s t c)) (m_cc (q_mesh s))) as [E|E].
  - exists s. auto.
  - destruct (create_nb_spec s t c (c_data (q_nb s t c)) W S I) as (s1 & d' & -> & M1 & I1 & B1 & B2 & OK). cbn [option_map].
    eexists. split; [reflexivity|]. cbn [q_mesh q_cob q_nb q_bnd]. split; [|split; [auto|]].
    + constructor; cbn [q_mesh q_cob q_nb q_bnd]; try apply I1. intros t' c'.
      destruct (upd2_spec (q_nb s1) t c (mkCache (m_cc (q_mesh s1)) d') t' c') as [(<- & <- & ->)|(_ & ->)]; [|apply I1].
      simpl. rewrite M1. auto.
    + destruct (upd2_spec (q_nb s1) t c (mkCache (m_cc (q_mesh s1)) d') t c) as [(_ & _ & ->)|(X & _)]; [simpl; now rewrite M1|tauto].
Qed.

Lemma nb_ok_grow (m : mesh) t d i R : nb_ok m t d R -> nb_ok m t (dense_grow [] d i) R.
Proof.
  intros H n Hn. destruct (H n Hn) as (l & E & L). exists l. split; auto. rewrite grow_nth. pose proof (nth_error_lt _ _ _ E).
  destruct (Nat.ltb_spec (e_id (n_el n)) (length d)); [auto|lia].
Qed.

Lemma query_nb_spec const s t c a : wf cfg (q_mesh s) -> simple (q_mesh s) -> qinv s -> live (q_mesh s) t a ->
  exists s' l, query_nb const t c s a = Some (s', l) /\ lists_exactly l (share (q_mesh s) t c a) /\ qinv s' /\ q_mesh s' = q_mesh s.
Proof.
  intros W S I L. unfold query_nb, query_nb_in. destruct (ensure_nb_spec s t c W S I) as (s1 & -> & I1 & M1 & C1).
  cbn [obind]. rewrite ?M1. apply live_node in L as (n & Hn & <-).
  rewrite (wf_In_deref cfg (q_mesh s) t n W Hn). cbn [obind].
  assert (OK : nb_data_ok (q_mesh s) t c (c_data (q_nb s1 t c))).
  { rewrite <- M1. apply (qi_nb s1 I1). rewrite M1. auto. }
  unfold read_entry.
  set (d' := if const then _ else _).
  assert (OK' : nb_data_ok (q_mesh s) t c d') by (unfold d'; destruct const; auto; now apply nb_ok_grow).
  destruct (OK' n Hn) as (l & E & LE). rewrite E. cbn [option_map]. eexists _, _. split; [reflexivity|]. split; auto.
  cbn [q_mesh q_cob q_nb q_bnd].
  split; [|auto]. constructor; cbn [q_mesh q_cob q_nb q_bnd]; try (rewrite <- M1; apply I1). intros t' c'.
  destruct (upd2_spec (q_nb s1) t c (mkCache (c_count (q_nb s1 t c)) d') t' c') as [(<- & <- & ->)|(_ & ->)].
  - simpl. rewrite C1. auto.
  - rewrite <- M1. apply I1.
Qed.
End QueryBase.
