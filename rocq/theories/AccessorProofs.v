(** Proofs of C25. *)
From Coq Require Import List Arith Bool Lia.
From Verif Require Import ModelAccessor SpecAccessor.
Import ListNotations.

Section Acc.
Context {T : Type}.
Variable tv : T.

Lemma acc_run_app {S} (step : S -> aop T -> option (S * ares T)) s ops1 ops2 :
  acc_run step s (ops1 ++ ops2) =
  match acc_run step s ops1 with
  | Some (s1, r1) => match acc_run step s1 ops2 with Some (s2, r2) => Some (s2, r1 ++ r2) | None => None end
  | None => None
  end.
Proof.
  revert s. induction ops1 as [|o ops1 IH]; intros s; simpl.
  - destruct (acc_run step s ops2) as [[? ?]|]; auto.
  - destruct (step s o) as [[s1 r]|]; auto. rewrite IH. destruct (acc_run step s1 ops1) as [[? ?]|]; auto.
    destruct (acc_run step s0 ops2) as [[? ?]|]; auto.
Qed.

Lemma last_write_app (h : list (aop T)) o i : last_write (h ++ [o]) i =
  match o with AWrite j v => if j =? i then Some v else last_write h i | _ => last_write h i end.
Proof.
  induction h as [|x h IH]; simpl.
  - destruct o; auto.
  - rewrite IH. destruct o; auto; try (destruct (last_write h i); auto; fail).
    destruct (i0 =? i); auto.
Qed.

Lemma list_set_len (l : list T) i v : length (list_set l i v) = length l.
Proof. revert i. induction l as [|x l IH]; intros [|i]; simpl; auto. Qed.
Lemma list_set_nth (l : list T) i v j : nth_error (list_set l i v) j = if (j =? i) && (i <? length l) then Some v else nth_error l j.
Proof.
  revert i j. induction l as [|x l IH]; intros [|i] [|j]; simpl; auto.
  - now rewrite andb_false_r.
  - rewrite IH. reflexivity.
Qed.
Lemma grow_len (l : list T) i : length (dense_grow tv l i) = Nat.max (length l) (i + 1).
Proof. unfold dense_grow, resize. destruct (Nat.leb_spec (length l) i); [rewrite app_length, repeat_length|]; lia. Qed.
Lemma grow_nth (l : list T) i j : nth_error (dense_grow tv l i) j =
  if j <? length l then nth_error l j else if j <=? i then Some tv else None.
Proof.
  unfold dense_grow, resize. destruct (Nat.leb_spec (length l) i).
  - destruct (Nat.ltb_spec j (length l)); [now apply nth_error_app1|]. rewrite nth_error_app2 by auto.
    destruct (Nat.leb_spec j i).
    + apply nth_error_repeat. lia.
    + apply nth_error_None. rewrite repeat_length. lia.
  - destruct (Nat.ltb_spec j (length l)); auto. destruct (Nat.leb_spec j i); [lia|]. now apply nth_error_None.
Qed.

(** The content after a history. *)
Definition dense_inv (h : list (aop T)) (l : list T) : Prop :=
  (forall i, i < length l <-> exists j, i <= j /\ Exists (touches j) h) /\
  (forall i v, nth_error l i = Some v -> v = match last_write h i with Some w => w | None => tv end).

Lemma dense_inv_step dflt h l o l' r : dense_inv h l -> dense_step tv dflt l o = Some (l', r) -> dense_inv (h ++ [o]) l'.
Proof.
  intros [H1 H2] E.
  assert (G0 : (forall j, ~ touches j o) -> l' = l -> dense_inv (h ++ [o]) l').
  { intros N ->. split.
    - intros i. rewrite H1. split; intros (j & Hj & X); exists j; (split; auto).
      + apply Exists_app. auto.
      + apply Exists_app in X as [X|X]; auto. inversion X; subst; [destruct (N j); auto|inversion H0].
    - intros i v Hv. rewrite last_write_app. destruct o; try (apply H2; auto; fail). destruct (N i0). simpl. auto. }
  assert (G1 : forall j lx, touches j o -> length lx = Nat.max (length l) (j + 1) ->
     (forall k v, nth_error lx k = Some v -> v = match last_write (h ++ [o]) k with Some w => w | None => tv end) -> dense_inv (h ++ [o]) lx).
  { intros j lx Tj L N. split; auto. intros i. rewrite L. split.
    - intros Hi. destruct (Nat.lt_ge_cases i (length l)) as [X|X].
      + apply H1 in X as (k & Hk & X). exists k. split; auto. apply Exists_app; auto.
      + exists j. split; [lia|]. apply Exists_app. right. now constructor.
    - intros (k & Hk & X). apply Exists_app in X as [X|X].
      + assert (i < length l) by (apply H1; eauto). lia.
      + inversion X as [x0 l0 Tk|x0 l0 X']; subst; [|inversion X'].
        assert (k = j) by (destruct o; simpl in *; try tauto; congruence). lia. }
  assert (U : forall i, length l <= i -> last_write h i = None).
  { intros i Hi. destruct (last_write h i) eqn:EL; auto. exfalso.
    assert (X : Exists (touches i) h).
    { clear - EL. revert t EL. induction h as [|x h IH]; intros t EL; simpl in EL; [discriminate|].
      destruct (last_write h i) eqn:E2; [right; eauto|]. left. destruct x; try discriminate. simpl. destruct (Nat.eqb_spec i0 i); [auto|discriminate]. }
    assert (i < length l) by (apply H1; eauto). lia. }
  destruct o; simpl in E.
  - injection E as <- <-. apply (G1 i); simpl; auto.
    + now rewrite list_set_len, grow_len.
    + intros k w. rewrite list_set_nth, grow_len, last_write_app. destruct (Nat.eqb_spec k i) as [->|N].
      * destruct (Nat.ltb_spec i (Nat.max (length l) (i + 1))); [|lia]. simpl. rewrite Nat.eqb_refl. congruence.
      * simpl. destruct (Nat.eqb_spec i k); [congruence|]. rewrite grow_nth. destruct (Nat.ltb_spec k (length l)); [apply H2|].
        destruct (k <=? i); [|discriminate]. intros X. injection X as <-. now rewrite U.
  - destruct (nth_error (dense_grow tv l i) i) eqn:EN; [|discriminate]. injection E as <- <-. apply (G1 i); simpl; auto.
    + apply grow_len.
    + intros k w. rewrite last_write_app, grow_nth. destruct (Nat.ltb_spec k (length l)); [apply H2|].
      destruct (k <=? i); [|discriminate]. intros X. injection X as <-. now rewrite U.
  - apply G0; auto. destruct (nth_error l i); [congruence|]. destruct dflt; congruence.
  - apply G0; auto. congruence.
  - apply G0; auto. congruence.
  - apply G0; auto. congruence.
Qed.

Lemma run_inv {S} (step : S -> aop T -> option (S * ares T)) (inv : list (aop T) -> S -> Prop) s0 :
  inv [] s0 -> (forall h s o s' r, inv h s -> step s o = Some (s', r) -> inv (h ++ [o]) s') ->
  forall h s r, acc_run step s0 h = Some (s, r) -> inv h s.
Proof.
  intros H0 HS h. induction h as [|o h IH] using rev_ind; intros s r E.
  - simpl in E. now injection E as <- <-.
  - rewrite acc_run_app in E. destruct (acc_run step s0 h) as [[s1 r1]|]; [|discriminate].
    simpl in E. destruct (step s1 o) as [[s2 r2]|] eqn:E2; [|discriminate]. injection E as <- <-. eapply HS; eauto.
Qed.

Lemma dense_run_inv dflt h l r : acc_run (dense_step tv dflt) [] h = Some (l, r) -> dense_inv h l.
Proof.
  apply run_inv.
  - split; [|intros [|i] v; discriminate]. intros i. simpl. split; [lia|]. intros (j & _ & X). inversion X.
  - intros; eapply dense_inv_step; eauto.
Qed.

Lemma touched_written (h : list (aop T)) i v : last_write h i = Some v -> Exists (touches i) h.
Proof.
  revert v. induction h as [|x h IH]; intros t EL; simpl in EL; [discriminate|].
  destruct (last_write h i) eqn:E2; [right; eauto|]. left. destruct x; try discriminate. simpl. destruct (Nat.eqb_spec i0 i); [auto|discriminate].
Qed.

Lemma dense_nth h l i : dense_inv h l -> nth_error l i = None /\ ~ (exists j, i <= j /\ Exists (touches j) h) \/
  nth_error l i = Some (match last_write h i with Some w => w | None => tv end) /\ (exists j, i <= j /\ Exists (touches j) h).
Proof.
  intros [H1 H2]. destruct (nth_error l i) eqn:E.
  - right. split; [f_equal; auto|]. apply H1. apply nth_error_Some. congruence.
  - left. split; auto. rewrite <- H1. apply nth_error_None in E. lia.
Qed.

Lemma dense_reads_last dflt h l r i v o : acc_run (dense_step tv dflt) [] h = Some (l, r) ->
  last_write h i = Some v -> reads i o -> exists l', dense_step tv dflt l o = Some (l', RVal v).
Proof.
  intros E W R. apply dense_run_inv in E. destruct (dense_nth h l i E) as [[_ N]|[N _]].
  { destruct N. exists i. split; auto. eapply touched_written; eauto. }
  rewrite W in N. destruct o; simpl in *; try tauto; subst i0; rewrite ?N; eauto.
  assert (L : i < length l) by (apply nth_error_Some; congruence).
  rewrite grow_nth. destruct (Nat.ltb_spec i (length l)); [|lia]. rewrite N. eauto.
Qed.

Definition map_inv (h : list (aop T)) (l : list (nat * T)) : Prop :=
  forall i, (map_find l i = None /\ ~ Exists (fun o => touches i o \/ (o = AAt i)) h) \/
    (map_find l i = Some (match last_write h i with Some w => w | None => tv end) /\ Exists (fun o => touches i o \/ (o = AAt i)) h).

Lemma map_find_set (l : list (nat * T)) i v j : map_find (map_set l i v) j = if j =? i then Some v else map_find l j.
Proof.
  unfold map_find. induction l as [|[k w] l IH]; simpl.
  - destruct (Nat.eqb_spec j i), (Nat.eqb_spec i j); auto; congruence.
  - destruct (Nat.eqb_spec k i) as [->|N]; simpl.
    + destruct (Nat.eqb_spec j i), (Nat.eqb_spec i j); auto; try congruence.
    + destruct (Nat.eqb_spec k j) as [->|N2]; simpl.
      * destruct (Nat.eqb_spec j i); auto; congruence.
      * apply IH.
Qed.

Lemma map_inv_step dflt h l o l' r : map_inv h l -> map_step tv dflt l o = Some (l', r) -> map_inv (h ++ [o]) l'.
Proof.
  intros H E.
  assert (G0 : (forall j, ~ (touches j o \/ o = AAt j)) -> l' = l -> map_inv (h ++ [o]) l').
  { intros N -> i. rewrite last_write_app.
    assert (X : Exists (fun o0 => touches i o0 \/ o0 = AAt i) (h ++ [o]) <-> Exists (fun o0 => touches i o0 \/ o0 = AAt i) h).
    { rewrite Exists_app. split; auto. intros [?|X]; auto. inversion X as [? ? Y|? ? Y]; subst; [destruct (N i); auto|inversion Y]. }
    rewrite X. destruct (H i) as [?|?]; [left; auto|right].
    destruct o; auto. destruct (N i0). simpl. auto. }
  assert (G1 : forall j v, (touches j o \/ o = AAt j) -> (match last_write (h ++ [o]) j with Some w => w | None => tv end = v) ->
     (forall k, k <> j -> last_write (h ++ [o]) k = last_write h k) -> map_inv (h ++ [o]) (map_set l j v)).
  { intros j v Tj LV LK i. rewrite map_find_set. destruct (Nat.eqb_spec i j) as [->|N].
    - right. rewrite LV. split; auto. apply Exists_app. right. constructor. auto.
    - rewrite LK by auto.
      assert (X : Exists (fun o0 => touches i o0 \/ o0 = AAt i) (h ++ [o]) <-> Exists (fun o0 => touches i o0 \/ o0 = AAt i) h).
      { rewrite Exists_app. split; auto. intros [?|X]; auto. inversion X as [? ? Y|? ? Y]; subst; [|inversion Y].
        exfalso. apply N. destruct o; simpl in *; destruct Y, Tj; try tauto; try congruence. }
      rewrite X. apply H. }
  assert (GM : forall j, (touches j o \/ o = AAt j) -> (forall k, last_write (h ++ [o]) k = last_write h k) -> map_inv (h ++ [o]) (fst (map_index tv l j))).
  { intros j Tj LK. unfold map_index. destruct (H j) as [[F N]|[F N]]; rewrite F.
    - apply (G1 j tv); auto. rewrite LK. destruct (last_write h j) eqn:EL; auto. destruct N.
      apply touched_written in EL. eapply Exists_impl; [|exact EL]. simpl. auto.
    - simpl. intros i. rewrite LK. destruct (Nat.eq_dec i j) as [->|NE].
      + right. split; auto. apply Exists_app. auto.
      + assert (X : Exists (fun o0 => touches i o0 \/ o0 = AAt i) (h ++ [o]) <-> Exists (fun o0 => touches i o0 \/ o0 = AAt i) h).
        { rewrite Exists_app. split; auto. intros [?|X]; auto. inversion X as [? ? Y|? ? Y]; subst; [|inversion Y].
          exfalso. apply NE. destruct o; simpl in *; destruct Y, Tj; try tauto; try congruence. }
        rewrite X. apply H. }
  destruct o; simpl in E.
  - injection E as <- <-. apply (G1 i v); simpl; auto.
    + rewrite last_write_app, Nat.eqb_refl. auto.
    + intros k N. rewrite last_write_app. destruct (Nat.eqb_spec i k); congruence.
  - destruct (map_index tv l i) as [l1 v] eqn:EM. injection E as <- <-. replace l1 with (fst (map_index tv l i)) by now rewrite EM. apply (GM i); simpl; auto.
    intros. now rewrite last_write_app.
  - apply G0; [simpl; intuition congruence|]. destruct (map_find l i); [congruence|]. destruct dflt; congruence.
  - destruct (map_index tv l i) as [l1 v] eqn:EM. injection E as <- <-. replace l1 with (fst (map_index tv l i)) by now rewrite EM. apply (GM i); simpl; auto.
    intros. now rewrite last_write_app.
  - apply G0; [simpl; intuition congruence|congruence].
  - apply G0; [simpl; intuition congruence|congruence].
Qed.

Lemma map_run_inv dflt h l r : acc_run (map_step tv dflt) [] h = Some (l, r) -> map_inv h l.
Proof.
  apply run_inv.
  - intros i. left. split; auto. intros X. inversion X.
  - intros; eapply map_inv_step; eauto.
Qed.

Lemma map_reads_last dflt h l r i v o : acc_run (map_step tv dflt) [] h = Some (l, r) ->
  last_write h i = Some v -> reads i o -> exists l', map_step tv dflt l o = Some (l', RVal v).
Proof.
  intros E W R. apply map_run_inv in E. destruct (E i) as [[_ N]|[N _]].
  { destruct N. apply touched_written in W. eapply Exists_impl; [|exact W]. simpl. auto. }
  rewrite W in N. destruct o; simpl in *; try tauto; subst i0; unfold map_index; rewrite ?N; eauto.
Qed.
End Acc.

Lemma C25_dense_reads_see_last_write_pf :
  forall T (tv : T) (dflt : option T) h l rs i v o,
  acc_run (dense_step tv dflt) [] h = Some (l, rs) ->
  last_write h i = Some v -> reads i o ->
  exists l', dense_step tv dflt l o = Some (l', RVal v).
Proof. intros. eapply dense_reads_last; eauto. Qed.

Lemma C25_map_reads_see_last_write_pf :
  forall T (tv : T) (dflt : option T) h l rs i v o,
  acc_run (map_step tv dflt) [] h = Some (l, rs) ->
  last_write h i = Some v -> reads i o ->
  exists l', map_step tv dflt l o = Some (l', RVal v).
Proof. intros. eapply map_reads_last; eauto. Qed.

Lemma C25_dense_unwritten_pf :
  forall T (tv : T) (dflt : option T) h l rs i,
  acc_run (dense_step tv dflt) [] h = Some (l, rs) -> last_write h i = None ->
  let result missing := if length l <=? i then missing else RVal tv in
  (length l <= i <-> ~ exists j, i <= j /\ Exists (touches j) h) /\
  dense_step tv dflt l (AFind i) = Some (l, result RNull) /\
  dense_step tv dflt l (AAt i) = Some (l, result RThrow) /\
  dense_step tv dflt l (AAtC i) = Some (l, result RThrow).
Proof.
  intros T tv dflt h l rs i E W result. apply dense_run_inv in E. unfold result. simpl. split.
  - destruct E as [E _]. rewrite <- E. lia.
  - destruct E as [_ E]. specialize (E i). destruct (nth_error l i) as [v|] eqn:N.
    + assert (i < length l) by (apply nth_error_Some; congruence). destruct (Nat.leb_spec (length l) i); [lia|].
      rewrite (E v eq_refl), W. auto.
    + apply nth_error_None in N. destruct (Nat.leb_spec (length l) i); [auto|lia].
Qed.

Lemma C25_map_unwritten_pf :
  forall T (tv : T) (dflt : option T) h l rs i,
  acc_run (map_step tv dflt) [] h = Some (l, rs) -> last_write h i = None ->
  (~ Exists (fun o => touches i o \/ o = AAt i) h ->
     map_step tv dflt l (AFind i) = Some (l, RNull) /\ map_step tv dflt l (AAtC i) = Some (l, RThrow)) /\
  (Exists (fun o => touches i o \/ o = AAt i) h ->
     map_step tv dflt l (AFind i) = Some (l, RVal tv) /\ map_step tv dflt l (AAtC i) = Some (l, RVal tv)).
Proof.
  intros T tv dflt h l rs i E W. apply map_run_inv in E. destruct (E i) as [[F N]|[F N]]; simpl; rewrite F, ?W; tauto.
Qed.

Lemma C25_map_field_default_partial_pf :
  forall T (tv d : T) h l rs i,
  acc_run (map_step tv (Some d)) [] h = Some (l, rs) ->
  ~ Exists (fun o => touches i o \/ o = AAt i) h ->
  map_step tv (Some d) l (AReadC i) = Some (l, RVal d).
Proof. intros T tv d h l rs i E N. apply map_run_inv in E. destruct (E i) as [[F _]|[_ F]]; [|tauto]. simpl. now rewrite F. Qed.

Lemma C25_dense_field_default_partial_pf :
  forall T (tv d : T) h l rs i,
  acc_run (dense_step tv (Some d)) [] h = Some (l, rs) ->
  ~ (exists j, i <= j /\ Exists (touches j) h) ->
  dense_step tv (Some d) l (AReadC i) = Some (l, RVal d).
Proof. intros T tv d h l rs i E N. apply dense_run_inv in E. destruct (dense_nth tv h l i E) as [[F _]|[_ F]]; [|tauto]. simpl. now rewrite F. Qed.

Lemma C25_dense_field_default_refuted_pf :
  forall T (tv d v : T) i j, i < j -> exists l,
  acc_run (dense_step tv (Some d)) [] [AWrite j v] = Some (l, [RDone]) /\
  dense_step tv (Some d) l (AReadC i) = Some (l, RVal tv).
Proof.
  intros T tv d v i j H. eexists. split; [reflexivity|]. cbn [dense_step]. rewrite list_set_nth, grow_nth.
  destruct (Nat.eqb_spec i j); [lia|]. cbn [andb length]. destruct (Nat.ltb_spec i 0); [lia|]. destruct (Nat.leb_spec i j); [auto|lia].
Qed.

Lemma C25_dense_find_refuted_pf :
  forall T (tv v : T) dflt i j, i < j -> exists l,
  acc_run (dense_step tv dflt) [] [AWrite j v] = Some (l, [RDone]) /\
  dense_step tv dflt l (AFind i) = Some (l, RVal tv) /\ dense_step tv dflt l (AAt i) = Some (l, RVal tv).
Proof.
  intros T tv v dflt i j H. eexists. split; [reflexivity|]. cbn [dense_step]. rewrite list_set_nth, grow_nth.
  destruct (Nat.eqb_spec i j); [lia|]. cbn [andb length]. destruct (Nat.ltb_spec i 0); [lia|]. destruct (Nat.leb_spec i j); [auto|lia].
Qed.

Lemma C25_map_at_never_throws_refuted_pf :
  forall T (tv : T) dflt l i, map_find l i = None ->
  map_step tv dflt l (AAt i) = Some (map_set l i tv, RVal tv).
Proof. intros T tv dflt l i H. simpl. unfold map_index. now rewrite H. Qed.
