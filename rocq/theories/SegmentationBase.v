(** Lemmas about segment ids and names (C18, C19). *)
From Coq Require Import String DecimalString DecimalZ List ZArith Bool Sorted Lia.
From Verif Require Import ModelSegmentation SpecSegmentation.
Import ListNotations.
Open Scope Z_scope.

Lemma to_int_ne z : Z.to_int z <> Decimal.Pos Decimal.Nil /\ Z.to_int z <> Decimal.Neg Decimal.Nil.
Proof.
  destruct z as [|p|p]; simpl; split; try discriminate; intros E; inversion E as [E'].
  - apply (DecimalPos.Unsigned.to_uint_nonnil p E').
  - apply (DecimalPos.Unsigned.to_uint_nonnil p E').
Qed.

Lemma decimal_inj z z' : decimal z = decimal z' -> z = z'.
Proof.
  unfold decimal. intros E.
  destruct (to_int_ne z) as [A B], (to_int_ne z') as [A' B'].
  apply (f_equal NilZero.int_of_string) in E. rewrite !NilZero.isi in E by auto.
  inversion E as [E']. now apply to_int_inj.
Qed.

(** * The maps *)
Lemma find_id_In z l a : find_id z l = Some a -> In (z, a) l.
Proof.
  induction l as [|[k b] l IH]; simpl; [discriminate|]. destruct (Z.eqb_spec z k); auto.
  intros E. inversion E; subst. now left.
Qed.

Lemma find_id_None z l : find_id z l = None -> forall a, ~ In (z, a) l.
Proof.
  induction l as [|[k b] l IH]; simpl; [tauto|]. destruct (Z.eqb_spec z k); [discriminate|].
  intros E a [H|H]; [congruence|]. eapply IH; eauto.
Qed.

Definition idlt (p q : Z * nat) : Prop := fst p < fst q.

Lemma sorted_unique l z a b : StronglySorted idlt l -> In (z, a) l -> In (z, b) l -> a = b.
Proof.
  induction 1 as [|[k c] l S IH F]; simpl; [tauto|]. rewrite Forall_forall in F.
  intros [A|A] [B|B]; auto.
  - congruence.
  - inversion A; subst. apply F in B. unfold idlt in B. simpl in B. lia.
  - inversion B; subst. apply F in A. unfold idlt in A. simpl in A. lia.
Qed.

Lemma find_id_spec l z a : StronglySorted idlt l -> (find_id z l = Some a <-> In (z, a) l).
Proof.
  intros S. split; [apply find_id_In|]. intros H. destruct (find_id z l) as [b|] eqn:E.
  - f_equal. eapply sorted_unique; eauto. now apply find_id_In.
  - exfalso. eapply find_id_None; eauto.
Qed.

Lemma id_insert_In z a l p : In p (id_insert z a l) <-> p = (z, a) \/ In p l.
Proof.
  induction l as [|[k b] l IH]; simpl; [intuition|].
  destruct (z <? k); simpl; [intuition|]. rewrite IH. intuition.
Qed.

Lemma id_insert_sorted z a l : StronglySorted idlt l -> (forall b, ~ In (z, b) l) -> StronglySorted idlt (id_insert z a l).
Proof.
  intros S H. induction S as [|[k b] l S IH F]; simpl; [repeat constructor|].
  rewrite Forall_forall in F.
  destruct (Z.ltb_spec z k) as [L|L].
  - constructor; [constructor; auto; now apply Forall_forall|]. constructor; [exact L|].
    apply Forall_forall. intros p Hp. apply F in Hp. unfold idlt in *. simpl in *. lia.
  - constructor.
    + apply IH. intros c Hc. apply (H c). now right.
    + apply Forall_forall. intros p Hp. apply id_insert_In in Hp as [->|Hp]; auto.
      assert (z <> k) by (intros ->; apply (H b); now left). unfold idlt. simpl. lia.
Qed.

Lemma find_name_In s l a : find_name s l = Some a -> In (s, a) l.
Proof.
  induction l as [|[k b] l IH]; simpl; [discriminate|]. destruct (String.eqb_spec s k); auto.
  intros E. inversion E; subst. now left.
Qed.

Lemma find_name_None s l : find_name s l = None <-> ~ In s (map fst l).
Proof.
  induction l as [|[k b] l IH]; simpl; [tauto|]. destruct (String.eqb_spec s k) as [->|N].
  - split; [discriminate|]. intros []. now left.
  - rewrite IH. intuition.
Qed.

Lemma name_erase_In s l p : In p (name_erase s l) <-> In p l /\ fst p <> s.
Proof.
  unfold name_erase. rewrite filter_In. destruct (String.eqb_spec s (fst p)); simpl; intuition congruence.
Qed.

Lemma name_erase_NoDup s l : NoDup (map fst l) -> NoDup (map fst (name_erase s l)).
Proof.
  induction l as [|[k b] l IH]; simpl; auto. intros H. inversion H as [|? ? A B]; subst.
  destruct (String.eqb_spec s k); simpl; auto. constructor; auto.
  intros Hin. apply A. apply in_map_iff in Hin as (p & E & Hp). apply name_erase_In in Hp as [Hp _].
  rewrite <- E. now apply in_map.
Qed.

Lemma find_name_unique s l a : NoDup (map fst l) -> In (s, a) l -> find_name s l = Some a.
Proof.
  induction l as [|[k b] l IH]; simpl; [tauto|]. intros H. inversion H as [|? ? A B]; subst.
  destruct (String.eqb_spec s k) as [->|N].
  - intros [E|E]; [congruence|]. exfalso. apply A. change k with (fst (k, a)). now apply in_map.
  - intros [E|E]; [congruence|auto].
Qed.

Lemma find_seg_rename a s b l :
  find_seg b (rename_at a s l) =
  if Nat.eqb a b then option_map (fun x => mkSeg (s_id x) s) (find_seg b l) else find_seg b l.
Proof.
  induction l as [|[c x] l IH]; simpl; [now destruct (Nat.eqb a b)|].
  destruct (Nat.eqb_spec a c) as [->|N]; simpl.
  - destruct (Nat.eqb_spec b c) as [->|N'].
    + now rewrite Nat.eqb_refl.
    + rewrite IH. reflexivity.
  - destruct (Nat.eqb_spec b c) as [->|N'].
    + destruct (Nat.eqb_spec a c); congruence.
    + rewrite IH. reflexivity.
Qed.

(** * The invariant of ids *)
Record ginv (g : segs) : Prop := mkGinv {
  gi_sorted : StronglySorted idlt (g_ids g);
  gi_seg : forall z a, In (z, a) (g_ids g) -> exists s, find_seg a (g_segs g) = Some (mkSeg z s);
  gi_live : forall a s, find_seg a (g_segs g) = Some s -> In (s_id s, a) (g_ids g);
  gi_lt : forall z a, In (z, a) (g_ids g) -> (a < g_next g)%nat;
  gi_nlt : forall s a, In (s, a) (g_names g) -> (a < g_next g)%nat;
  gi_low : -1 <= g_high g;
  gi_high : forall z a, In (z, a) (g_ids g) -> z <= g_high g;
  gi_top : g_high g = -1 \/ exists a, In (g_high g, a) (g_ids g)
}.

Lemma in_range g a : In a (segment_range g) <-> exists z, In (z, a) (g_ids g).
Proof.
  unfold segment_range. rewrite in_map_iff. split.
  - intros ([z b] & E & H). simpl in E. subst. eauto.
  - intros (z & H). exists (z, a). auto.
Qed.

Lemma in_range_id g a : ginv g -> In a (segment_range g) ->
  exists z s, In (z, a) (g_ids g) /\ find_seg a (g_segs g) = Some (mkSeg z s).
Proof.
  intros G H. apply in_range in H as (z & H). destruct (gi_seg _ G _ _ H) as (s & E). eauto.
Qed.

Lemma id_in_ids g a z : ginv g -> (id_of_seg g a = Some z <-> In (z, a) (g_ids g)).
Proof.
  intros G. unfold id_of_seg. split.
  - destruct (find_seg a (g_segs g)) as [s|] eqn:E; [|discriminate]. simpl. intros H. inversion H; subst.
    now apply (gi_live _ G).
  - intros H. destruct (gi_seg _ G _ _ H) as (s & E). now rewrite E.
Qed.

Lemma live_range g a s : ginv g -> find_seg a (g_segs g) = Some s -> In a (segment_range g).
Proof. intros G E. apply in_range. exists (s_id s). now apply (gi_live _ G). Qed.

Lemma has_id_iff g z : ginv g -> (has_id g z <-> exists a, In (z, a) (g_ids g)).
Proof.
  intros G. unfold has_id. split.
  - intros (a & _ & E). exists a. now apply (id_in_ids _ _ _ G).
  - intros (a & H). exists a. split; [apply in_range; eauto|]. now apply (id_in_ids _ _ _ G).
Qed.

Lemma ginv_new : ginv new_segmentation.
Proof.
  constructor; simpl; try tauto; try discriminate; try lia. constructor.
Qed.

(** The state in which get_make_segment(z) leaves the ids when [z] is absent. *)
Definition with_segment (z : Z) (g : segs) (g' : segs) : Prop :=
  g_high g' = Z.max (g_high g) z /\ g_ids g' = id_insert z (g_next g) (g_ids g) /\
  g_segs g' = (g_next g, mkSeg z (decimal z)) :: g_segs g /\ g_next g' = S (g_next g).

Lemma get_make_id_spec z g : ginv g ->
  (exists a, In (z, a) (g_ids g) /\ get_make_id z g = SRet g a) \/
  ((forall a, ~ In (z, a) (g_ids g)) /\ exists g', with_segment z g g' /\
     ((find_name (decimal z) (g_names g) = None /\ g_names g' = (decimal z, g_next g) :: g_names g /\
       get_make_id z g = SRet g' (g_next g)) \/
      (find_name (decimal z) (g_names g) <> None /\ g_names g' = g_names g /\ get_make_id z g = SThrow g'))).
Proof.
  intros G. unfold get_make_id. destruct (find_id z (g_ids g)) as [a|] eqn:E.
  - left. exists a. split; auto. now apply find_id_In.
  - right. split; [now apply find_id_None|].
    assert (H : (if g_high g <? z then z else g_high g) = Z.max (g_high g) z).
    { destruct (Z.ltb_spec (g_high g) z); lia. }
    destruct (find_name (decimal z) (g_names g)) eqn:F.
    + eexists. split; [|right; split; [discriminate|split; [|reflexivity]]]; [|reflexivity].
      unfold with_segment. simpl. auto.
    + eexists. split; [|left; split; [reflexivity|split; [|reflexivity]]]; [|reflexivity].
      unfold with_segment. simpl. auto.
Qed.

(** Adding a segment with an absent id keeps the invariant.  [h] is the previous
    bound: make_segment raises it before the insertion. *)
Lemma ginv_with z g g' : ginv g -> (forall a, ~ In (z, a) (g_ids g)) -> with_segment z g g' ->
  (forall s a, In (s, a) (g_names g') -> (a <= g_next g)%nat) -> ginv g'.
Proof.
  intros G N (H & I & S & X) M. constructor; rewrite ?H, ?I, ?S, ?X.
  - apply id_insert_sorted; auto. apply G.
  - intros z' a Ha. apply id_insert_In in Ha as [E|Ha].
    + inversion E; subst. simpl. rewrite Nat.eqb_refl. eauto.
    + simpl. destruct (Nat.eqb_spec a (g_next g)) as [->|Na].
      * apply (gi_lt _ G) in Ha. lia.
      * now apply (gi_seg _ G).
  - intros a s. simpl. destruct (Nat.eqb_spec a (g_next g)) as [->|Na]; intros E; apply id_insert_In.
    + inversion E; subst. now left.
    + right. now apply (gi_live _ G).
  - intros z' a Ha. apply id_insert_In in Ha as [E|Ha]; [inversion E; subst; lia|]. apply (gi_lt _ G) in Ha. lia.
  - intros s a Ha. apply M in Ha. lia.
  - pose proof (gi_low _ G). lia.
  - intros z' a Ha. apply id_insert_In in Ha as [E|Ha]; [inversion E; subst; lia|]. apply (gi_high _ G) in Ha. lia.
  - destruct (Z.max_spec (g_high g) z) as [[L ->]|[L ->]].
    + right. exists (g_next g). apply id_insert_In. now left.
    + destruct (gi_top _ G) as [T|(a & T)]; [now left|]. right. exists a. apply id_insert_In. now right.
Qed.

Lemma get_make_id_names z g g' : ginv g -> with_segment z g g' ->
  g_names g' = (decimal z, g_next g) :: g_names g \/ g_names g' = g_names g ->
  forall s a, In (s, a) (g_names g') -> (a <= g_next g)%nat.
Proof.
  intros G _ H s a Ha. destruct H as [E|E]; rewrite E in Ha; [destruct Ha as [Ha|Ha]; [inversion Ha; lia|]|];
  apply (gi_nlt _ G) in Ha; lia.
Qed.

Lemma make_segment_spec g : ginv g ->
  (forall a, ~ In (g_high g + 1, a) (g_ids g)) /\ exists g', with_segment (g_high g + 1) g g' /\ ginv g' /\
     ((find_name (decimal (g_high g + 1)) (g_names g) = None /\
       g_names g' = (decimal (g_high g + 1), g_next g) :: g_names g /\
       make_segment g = SRet g' (g_next g)) \/
      (find_name (decimal (g_high g + 1)) (g_names g) <> None /\ g_names g' = g_names g /\ make_segment g = SThrow g')).
Proof.
  intros G. set (z := g_high g + 1).
  assert (N : forall a, ~ In (z, a) (g_ids g)).
  { intros a Ha. apply (gi_high _ G) in Ha. lia. }
  split; auto. unfold make_segment. fold z. unfold get_make_id. simpl.
  assert (E : find_id z (g_ids g) = None).
  { destruct (find_id z (g_ids g)) eqn:E; auto. apply find_id_In in E. now apply N in E. }
  rewrite E, Z.ltb_irrefl.
  assert (W : forall nm, with_segment z g (mkSegs z (id_insert z (g_next g) (g_ids g)) nm
      ((g_next g, mkSeg z (decimal z)) :: g_segs g) (S (g_next g)))).
  { intros nm. unfold with_segment. simpl. repeat split. lia. }
  destruct (find_name (decimal z) (g_names g)) eqn:F.
  - eexists. split; [apply W|]. split.
    + eapply ginv_with; eauto. eapply get_make_id_names; eauto. now right.
    + right. split; [discriminate|]. split; reflexivity.
  - eexists. split; [apply W|]. split.
    + eapply ginv_with; eauto. eapply get_make_id_names; eauto. now left.
    + left. repeat split; auto.
Qed.

Lemma set_name_spec a s g : ginv g -> In a (segment_range g) ->
  (find_name s (g_names g) <> None /\ set_name a s g = SThrow g) \/
  (find_name s (g_names g) = None /\ exists old z,
     find_seg a (g_segs g) = Some (mkSeg z old) /\
     set_name a s g = SRet (mkSegs (g_high g) (g_ids g) (name_put s a (name_erase old (g_names g)))
                              (rename_at a s (g_segs g)) (g_next g)) tt).
Proof.
  intros G Ha. destruct (in_range_id g a G Ha) as (z & old & Hin & E).
  unfold set_name. rewrite E. destruct (find_name s (g_names g)) eqn:F.
  - left. split; [discriminate|auto].
  - right. split; auto. exists old, z. split; auto. simpl. unfold get_make_id. simpl.
    apply (find_id_spec _ _ _ (gi_sorted _ G)) in Hin. rewrite Hin. reflexivity.
Qed.

Lemma ginv_rename a s g nm : ginv g ->
  (forall s' b, In (s', b) nm -> (b < g_next g)%nat) ->
  ginv (mkSegs (g_high g) (g_ids g) nm (rename_at a s (g_segs g)) (g_next g)).
Proof.
  intros G N. constructor; simpl; try apply G; auto.
  - intros z b Hb. rewrite find_seg_rename. destruct (gi_seg _ G _ _ Hb) as (s' & E). rewrite E.
    destruct (Nat.eqb a b); simpl; eauto.
  - intros b sg. rewrite find_seg_rename. destruct (Nat.eqb a b); [|apply (gi_live _ G)].
    destruct (find_seg b (g_segs g)) as [x|] eqn:E; simpl; [|discriminate]. intros H. inversion H; subst.
    simpl. now apply (gi_live _ G) in E.
Qed.

Lemma set_name_inv a s g : ginv g -> In a (segment_range g) ->
  exists g', state_after (set_name a s g) = Some g' /\ ginv g' /\ g_ids g' = g_ids g /\ g_high g' = g_high g.
Proof.
  intros G Ha. destruct (set_name_spec a s g G Ha) as [[_ E]|(_ & old & z & Es & E)]; rewrite E; simpl.
  - exists g; auto.
  - eexists. split; [reflexivity|]. split; [|auto]. apply ginv_rename; auto.
    intros s' b [X|X].
    + inversion X; subst. apply in_range in Ha as (z' & Ha). eapply (gi_lt _ G); eauto.
    + apply name_erase_In in X as [X _]. apply name_erase_In in X as [X _]. eapply (gi_nlt _ G); eauto.
Qed.

Lemma state_sbind {A B} (r : outcome A) (f : segs -> A -> outcome B) g' :
  state_after (sbind r f) = Some g' ->
  (exists g x, r = SRet g x /\ state_after (f g x) = Some g') \/ r = SThrow g'.
Proof. destruct r; simpl; intros H; eauto; try discriminate. inversion H; subst; auto. Qed.

Lemma get_make_id_inv z g : ginv g -> exists g', state_after (get_make_id z g) = Some g' /\ ginv g'.
Proof.
  intros G. destruct (get_make_id_spec z g G) as [(a & _ & E)|(N & g' & W & [(F & M & E)|(F & M & E)])]; rewrite E; simpl.
  - eauto.
  - exists g'. split; auto. eapply ginv_with; eauto. eapply get_make_id_names; eauto.
  - exists g'. split; auto. eapply ginv_with; eauto. eapply get_make_id_names; eauto.
Qed.

Lemma sgstep_inv o g g' : ginv g -> valid_sgop g o -> state_after (sgstep o g) = Some g' -> ginv g'.
Proof.
  intros G V H. destruct o as [|z|s|z s| |]; simpl in V, H.
  - apply state_sbind in H. destruct (make_segment_spec g G) as (_ & g1 & _ & G1 & [(_ & _ & E)|(_ & _ & E)]);
      destruct H as [(g2 & x & E2 & H)|E2]; rewrite E in E2; inversion E2; subst; simpl in *; congruence.
  - apply state_sbind in H. destruct (get_make_id_inv z g G) as (g1 & E1 & G1).
    destruct H as [(g2 & x & E2 & H)|E2]; rewrite E2 in E1; simpl in *; congruence.
  - unfold get_make_name in H. destruct (find_name s (g_names g)) as [a|] eqn:F.
    + destruct (find_seg a (g_segs g)); simpl in H; [congruence|discriminate].
    + apply state_sbind in H. destruct (make_segment_spec g G) as (_ & g1 & W & G1 & [(_ & _ & E)|(_ & _ & E)]).
      * rewrite E in H. simpl in H.
        assert (Ha : In (g_next g) (segment_range g1)).
        { apply in_range. exists (g_high g + 1). destruct W as (_ & -> & _). apply id_insert_In. now left. }
        destruct (set_name_inv (g_next g) s g1 G1 Ha) as (g2 & E2 & G2 & _).
        destruct H as [(g3 & x & E3 & H)|E3]; destruct (set_name (g_next g) s g1); simpl in *; congruence.
      * rewrite E in H. simpl in H. destruct H as [(g3 & x & E3 & H)|E3]; congruence.
  - unfold segment_present in V. unfold get_segment_id in H.
    destruct (find_id z (g_ids g)) as [a|] eqn:F; [|discriminate]. simpl in H.
    assert (Ha : In a (segment_range g)) by (apply in_range; exists z; now apply find_id_In).
    destruct (set_name_inv a s g G Ha) as (g2 & E2 & G2 & _).
    destruct (set_name a s g); simpl in *; congruence.
  - inversion H; subst. constructor; simpl; try tauto; try discriminate; try lia; try apply G. constructor.
  - inversion H; subst. unfold segment_count in V. apply length_zero_iff_nil in V.
    constructor; simpl; rewrite ?V; try tauto; try lia; try apply G.
    + constructor.
    + simpl. tauto.
    + intros a s E. apply (gi_live _ G) in E. now rewrite V in E.
    + simpl. tauto.
    + simpl. tauto.
Qed.

Lemma sgreach_inv g : sgreach g -> ginv g.
Proof.
  induction 1 as [|g o g' x R IH V E|g o g' R IH V E]; [apply ginv_new|eapply sgstep_inv; eauto; now rewrite E..].
Qed.

(** * The invariant of names *)
Record ninv (g : segs) : Prop := mkNinv {
  ni_nodup : NoDup (map fst (g_names g));
  ni_names : forall s a, In (s, a) (g_names g) <-> name_of_seg g a = Some s
}.

Lemma name_of_range g a s : ginv g -> name_of_seg g a = Some s -> In a (segment_range g).
Proof.
  intros G. unfold name_of_seg. destruct (find_seg a (g_segs g)) eqn:E; [|discriminate].
  intros _. eapply live_range; eauto.
Qed.

Lemma has_name_iff g s : ginv g -> ninv g -> (has_name g s <-> find_name s (g_names g) <> None).
Proof.
  intros G N. rewrite find_name_None. unfold has_name. split.
  - intros (a & _ & E) H. apply H. apply (ni_names _ N) in E. change s with (fst (s, a)). now apply in_map.
  - intros H. destruct (in_dec string_dec s (map fst (g_names g))) as [Hin|]; [|tauto].
    apply in_map_iff in Hin as ([s' a] & E & Hin). simpl in E. subst. apply (ni_names _ N) in Hin.
    exists a. split; auto. eapply name_of_range; eauto.
Qed.

Lemma ninv_new : ninv new_segmentation.
Proof. constructor; simpl; [constructor|]. intros s a. unfold name_of_seg. simpl. split; [tauto|discriminate]. Qed.

Lemma ninv_with z g g' : ginv g -> ninv g -> with_segment z g g' ->
  find_name (decimal z) (g_names g) = None -> g_names g' = (decimal z, g_next g) :: g_names g -> ninv g'.
Proof.
  intros G N (_ & _ & S & _) F M. constructor; rewrite M; simpl.
  - constructor; [now apply find_name_None|apply N].
  - intros s a. unfold name_of_seg. rewrite S. simpl. destruct (Nat.eqb_spec a (g_next g)) as [->|Na]; simpl.
    + split.
      * intros [E|E]; [congruence|]. apply (gi_nlt _ G) in E. lia.
      * intros E. left. congruence.
    + fold (name_of_seg g a). rewrite <- (ni_names _ N). split; [|auto]. intros [E|E]; auto. inversion E; lia.
Qed.

Lemma ninv_set_name a s g old z : ginv g -> ninv g -> find_seg a (g_segs g) = Some (mkSeg z old) ->
  find_name s (g_names g) = None ->
  ninv (mkSegs (g_high g) (g_ids g) (name_put s a (name_erase old (g_names g))) (rename_at a s (g_segs g)) (g_next g)).
Proof.
  intros G N E F. constructor; simpl.
  - constructor.
    + intros H. apply in_map_iff in H as (p & Ep & Hp). apply name_erase_In in Hp as [_ Hp]. congruence.
    + apply name_erase_NoDup, name_erase_NoDup, N.
  - intros s' b. unfold name_of_seg. simpl. rewrite find_seg_rename.
    assert (Na : name_of_seg g a = Some old) by (unfold name_of_seg; now rewrite E).
    destruct (Nat.eqb_spec a b) as [<-|Nb].
    + rewrite E. simpl. split.
      * intros [H|H]; [congruence|]. apply name_erase_In in H as [H _]. apply name_erase_In in H as [H H'].
        apply (ni_names _ N) in H. simpl in H'. congruence.
      * intros H. left. congruence.
    + fold (name_of_seg g b). rewrite <- (ni_names _ N). rewrite !name_erase_In. simpl. split.
      * intros [H|H]; [congruence|tauto].
      * intros H. right. repeat split; auto.
        -- intros ->. apply (ni_names _ N) in Na. apply Nb.
           pose proof (find_name_unique _ _ _ (ni_nodup _ N) Na). pose proof (find_name_unique _ _ _ (ni_nodup _ N) H). congruence.
        -- intros ->. apply find_name_None in F. apply F. change s with (fst (s, b)). now apply in_map.
Qed.

(** One call that returns normally keeps the name invariant. *)
Lemma sgstep_ninv o g g' x : ginv g -> ninv g -> valid_sgop g o -> o <> SgClear -> sgstep o g = SRet g' x -> ninv g'.
Proof.
  intros G N V C H. destruct o as [|z|s|z s| |]; simpl in V, H; [| | | |congruence|].
  - destruct (make_segment_spec g G) as (_ & g1 & W & G1 & [(F & M & E)|(F & M & E)]); rewrite E in H; simpl in H;
      inversion H; subst. eapply (ninv_with _ g); eauto.
  - destruct (get_make_id_spec z g G) as [(a & _ & E)|(Nz & g1 & W & [(F & M & E)|(F & M & E)])];
      rewrite E in H; simpl in H; inversion H; subst; auto. eapply (ninv_with _ g); eauto.
  - unfold get_make_name in H. destruct (find_name s (g_names g)) as [a|] eqn:Fs.
    + destruct (find_seg a (g_segs g)); simpl in H; inversion H; subst; auto.
    + destruct (make_segment_spec g G) as (_ & g1 & W & G1 & [(F & M & E)|(F & M & E)]); rewrite E in H; simpl in H; [|discriminate].
      assert (N1 : ninv g1) by (eapply (ninv_with _ g); eauto).
      assert (Ha : In (g_next g) (segment_range g1)).
      { apply in_range. exists (g_high g + 1). destruct W as (_ & -> & _). apply id_insert_In. now left. }
      destruct (set_name_spec (g_next g) s g1 G1 Ha) as [[_ E2]|(F2 & old & z & Es & E2)]; rewrite E2 in H; simpl in H; [discriminate|].
      inversion H; subst. eapply (ninv_set_name _ _ _ _ _); eauto.
  - unfold segment_present in V. unfold get_segment_id in H.
    destruct (find_id z (g_ids g)) as [a|] eqn:F; [|discriminate]. simpl in H.
    assert (Ha : In a (segment_range g)) by (apply in_range; exists z; now apply find_id_In).
    destruct (set_name_spec a s g G Ha) as [[_ E2]|(F2 & old & z' & Es & E2)]; rewrite E2 in H; simpl in H; [discriminate|].
    inversion H; subst. eapply (ninv_set_name _ _ _ _ _); eauto.
  - inversion H; subst. constructor; simpl; apply N.
Qed.

Lemma smooth_inv g : smooth g -> ginv g /\ ninv g.
Proof.
  induction 1 as [|g o g' x R [G N] V C E]; [split; [apply ginv_new|apply ninv_new]|].
  split; [eapply sgstep_inv; eauto; now rewrite E|eapply sgstep_ninv; eauto].
Qed.

Lemma smooth_sgreach g : smooth g -> sgreach g.
Proof. induction 1; [apply sgr_new|eapply sgr_ret; eauto]. Qed.

(** * Histories with plain names *)
Definition pinv (g : segs) : Prop :=
  forall a z s, find_seg a (g_segs g) = Some (mkSeg z s) -> s = decimal z \/ not_numeral s.

Lemma plain_free g z : ginv g -> ninv g -> pinv g -> (forall a, ~ In (z, a) (g_ids g)) ->
  find_name (decimal z) (g_names g) = None.
Proof.
  intros G N P H. apply find_name_None. intros Hin. apply in_map_iff in Hin as ([s a] & E & Hin). simpl in E. subst s.
  apply (ni_names _ N) in Hin. unfold name_of_seg in Hin.
  destruct (find_seg a (g_segs g)) as [[z' s']|] eqn:E; [|discriminate]. simpl in Hin. inversion Hin; subst.
  destruct (P _ _ _ E) as [D|D].
  - apply decimal_inj in D. subst. apply (H a). now apply (gi_live _ G) in E.
  - now apply (D z).
Qed.

Lemma pinv_with z g g' : pinv g -> with_segment z g g' -> pinv g'.
Proof.
  intros P (_ & _ & S & _) a z' s. rewrite S. simpl. destruct (Nat.eqb a (g_next g)); [|apply P].
  intros E. inversion E; subst. now left.
Qed.

Lemma pinv_rename a s g hi ids nm nx : pinv g -> not_numeral s ->
  pinv (mkSegs hi ids nm (rename_at a s (g_segs g)) nx).
Proof.
  intros P Hs b z s'. simpl. rewrite find_seg_rename. destruct (Nat.eqb a b); [|apply P].
  destruct (find_seg b (g_segs g)); simpl; [|discriminate]. intros E. inversion E; subst. now right.
Qed.

Lemma sgstep_plain o g : ginv g -> ninv g -> pinv g -> valid_sgop g o -> plain_op o ->
  (exists g' x, sgstep o g = SRet g' x /\ pinv g') \/
  (exists z s, o = SgRename z s /\ has_name g s /\ sgstep o g = SThrow g).
Proof.
  intros G N P V Po. destruct o as [|z|s|z s| |]; simpl in V, Po; [| | | |tauto|].
  - left. destruct (make_segment_spec g G) as (Nz & g1 & W & G1 & [(F & M & E)|(F & M & E)]).
    + simpl. rewrite E. simpl. eexists _, _. split; [reflexivity|]. eapply (pinv_with _ g); eauto.
    + exfalso. apply F. eapply plain_free; eauto.
  - left. destruct (get_make_id_spec z g G) as [(a & _ & E)|(Nz & g1 & W & [(F & M & E)|(F & M & E)])].
    + simpl. rewrite E. simpl. eauto.
    + simpl. rewrite E. simpl. eexists _, _. split; [reflexivity|]. eapply (pinv_with _ g); eauto.
    + exfalso. apply F. eapply plain_free; eauto.
  - left. simpl. unfold get_make_name. destruct (find_name s (g_names g)) as [a|] eqn:Fs.
    + apply find_name_In in Fs. apply (ni_names _ N) in Fs. unfold name_of_seg in Fs.
      destruct (find_seg a (g_segs g)) eqn:E; [|discriminate]. simpl. eauto.
    + destruct (make_segment_spec g G) as (Nz & g1 & W & G1 & [(F & M & E)|(F & M & E)]);
        [|exfalso; apply F; eapply plain_free; eauto].
      rewrite E. simpl.
      assert (N1 : ninv g1) by (eapply (ninv_with _ g); eauto).
      assert (Ha : In (g_next g) (segment_range g1)).
      { apply in_range. exists (g_high g + 1). destruct W as (_ & -> & _). apply id_insert_In. now left. }
      destruct (set_name_spec (g_next g) s g1 G1 Ha) as [[F2 E2]|(F2 & old & z & Es & E2)].
      * exfalso. apply F2. rewrite M. simpl. destruct (String.eqb_spec s (decimal (g_high g + 1))) as [X|X]; auto.
        now apply Po in X.
      * rewrite E2. simpl. eexists _, _. split; [reflexivity|]. apply pinv_rename; auto. eapply (pinv_with _ g); eauto.
  - unfold segment_present in V. simpl. unfold get_segment_id.
    destruct (find_id z (g_ids g)) as [a|] eqn:F; [|discriminate]. simpl.
    assert (Ha : In a (segment_range g)) by (apply in_range; exists z; now apply find_id_In).
    destruct (set_name_spec a s g G Ha) as [[F2 E2]|(F2 & old & z' & Es & E2)]; rewrite E2; simpl.
    + right. exists z, s. split; auto. split; auto. now apply has_name_iff.
    + left. eexists _, _. split; [reflexivity|]. apply pinv_rename; auto.
  - left. simpl. eexists _, _. split; [reflexivity|]. exact P.
Qed.

Lemma plain_smooth g : plain g -> smooth g /\ pinv g.
Proof.
  induction 1 as [|g o g' x R [S P] V Po E|g o g' R [S P] V Po E].
  - split; [apply sm_new|]. intros a z s. discriminate.
  - destruct (smooth_inv g S) as [G N].
    destruct (sgstep_plain o g G N P V Po) as [(g1 & y & E1 & P1)|(z & s & _ & _ & E1)]; [|congruence].
    rewrite E in E1. inversion E1; subst. split; auto.
    eapply sm_step; eauto. intros ->. exact Po.
  - destruct (smooth_inv g S) as [G N].
    destruct (sgstep_plain o g G N P V Po) as [(g1 & y & E1 & P1)|(z & s & _ & _ & E1)]; [congruence|].
    rewrite E in E1. inversion E1; subst. auto.
Qed.

(** Checker for the examples: runs a history of calls without exceptions. *)
Fixpoint smooth_run (ops : list sgop) (g : segs) : option segs :=
  match ops with
  | [] => Some g
  | o :: r =>
      let ok := match o with
                | SgRename z _ => segment_present z g
                | SgInit => Nat.eqb (segment_count g) 0
                | SgClear => false
                | _ => true end in
      match ok, sgstep o g with true, SRet g' _ => smooth_run r g' | _, _ => None end
  end.

Lemma smooth_run_sound ops : forall g g', smooth g -> smooth_run ops g = Some g' -> smooth g'.
Proof.
  induction ops as [|o ops IH]; simpl; intros g g' S H; [congruence|].
  destruct (match o with SgRename z _ => segment_present z g | SgInit => Nat.eqb (segment_count g) 0
     | SgClear => false | _ => true end) eqn:V; [|discriminate].
  destruct (sgstep o g) as [g1 x| |] eqn:E; try discriminate.
  apply (IH g1); auto. apply (sm_step g o g1 x S); auto.
  - destruct o; simpl; auto. now apply Nat.eqb_eq.
  - intros ->. discriminate.
Qed.
