(** Proofs of C18 and C19. *)
From Coq Require Import String List ZArith Bool Sorted Lia.
From Verif Require Import ModelSegmentation SpecSegmentation SegmentationBase.
Import ListNotations.
Open Scope Z_scope.

Lemma with_kept z g g' : ginv g -> with_segment z g g' -> segs_kept g g'.
Proof.
  intros G (_ & I & S & _) a Ha. destruct (in_range_id g a G Ha) as (z' & s & Hin & E).
  assert (Hne : Nat.eqb a (g_next g) = false).
  { apply Nat.eqb_neq. apply (gi_lt _ G) in Hin. lia. }
  split; [apply in_range; exists z'; rewrite I; apply id_insert_In; now right|].
  unfold id_of_seg, name_of_seg. rewrite S. simpl. rewrite Hne. auto.
Qed.

Lemma with_new z g g' : ginv g -> with_segment z g g' ->
  ~ In (g_next g) (segment_range g) /\ In (g_next g) (segment_range g') /\ id_of_seg g' (g_next g) = Some z /\
  name_of_seg g' (g_next g) = Some (decimal z) /\
  (forall b, In b (segment_range g') -> b = g_next g \/ In b (segment_range g)).
Proof.
  intros G (_ & I & S & _). split.
  { intros H. apply in_range in H as (z' & H). apply (gi_lt _ G) in H. lia. }
  split; [apply in_range; exists z; rewrite I; apply id_insert_In; now left|].
  unfold id_of_seg, name_of_seg. rewrite S. simpl. rewrite Nat.eqb_refl. split; auto. split; auto.
  intros b H. apply in_range in H as (z' & H). rewrite I in H. apply id_insert_In in H as [H|H].
  - left. congruence.
  - right. apply in_range. eauto.
Qed.

Lemma C18_make_pf : forall g, sgreach g ->
  ~ has_id g (segment_id_upper_bound g + 1) /\
  exists g' a, state_after (make_segment g) = Some g' /\
    (forall g2 x, make_segment g = SRet g2 x -> x = a) /\
    ~ In a (segment_range g) /\ In a (segment_range g') /\
    id_of_seg g' a = Some (segment_id_upper_bound g + 1) /\
    segs_kept g g' /\
    (forall b, In b (segment_range g') -> b = a \/ In b (segment_range g)) /\
    segment_id_upper_bound g' = segment_id_upper_bound g + 1.
Proof.
  intros g R. apply sgreach_inv in R. rename R into G.
  destruct (make_segment_spec g G) as (N & g' & W & G' & D). unfold segment_id_upper_bound.
  split.
  { intros H. apply (has_id_iff _ _ G) in H as (a & H). eapply N; eauto. }
  exists g', (g_next g). destruct (with_new _ _ _ G W) as (A & B & C & _ & E).
  split; [destruct D as [(_ & _ & D)|(_ & _ & D)]; now rewrite D|].
  split; [intros g2 x H; destruct D as [(_ & _ & D)|(_ & _ & D)]; rewrite D in H; congruence|].
  split; auto. split; auto. split; auto. split; [eapply with_kept; eauto|]. split; auto.
  destruct W as (-> & _). lia.
Qed.

Lemma C18_get_make_pf : forall g z, sgreach g ->
  (has_id g z -> exists a, get_make_id z g = SRet g a /\ In a (segment_range g) /\ id_of_seg g a = Some z) /\
  (~ has_id g z -> exists g' a, state_after (get_make_id z g) = Some g' /\
     (forall g2 x, get_make_id z g = SRet g2 x -> x = a) /\
     ~ In a (segment_range g) /\ In a (segment_range g') /\ id_of_seg g' a = Some z /\
     segs_kept g g' /\
     (forall b, In b (segment_range g') -> b = a \/ In b (segment_range g))).
Proof.
  intros g z R. apply sgreach_inv in R. rename R into G. rewrite (has_id_iff _ _ G).
  destruct (get_make_id_spec z g G) as [(a & H & E)|(N & g' & W & D)].
  - split; [|intros X; exfalso; apply X; eauto]. intros _. exists a. split; auto. split.
    + apply in_range. eauto.
    + now apply (id_in_ids _ _ _ G).
  - split; [intros (a & H); exfalso; eapply N; eauto|]. intros _. exists g', (g_next g).
    destruct (with_new _ _ _ G W) as (A & B & C & _ & E).
    split; [destruct D as [(_ & _ & D)|(_ & _ & D)]; now rewrite D|].
    split; [intros g2 x H; destruct D as [(_ & _ & D)|(_ & _ & D)]; rewrite D in H; congruence|].
    split; auto. split; auto. split; auto. split; [eapply with_kept; eauto|auto].
Qed.

Lemma C18_lookup_pf : forall g z, sgreach g ->
  (segment_present z g = true <-> has_id g z) /\
  (has_id g z -> exists a, get_segment_id z g = SRet g a /\ segment_at z g = SRet g a /\ id_of_seg g a = Some z) /\
  (~ has_id g z -> segment_at z g = SThrow g).
Proof.
  intros g z R. apply sgreach_inv in R. rename R into G. rewrite (has_id_iff _ _ G).
  unfold segment_present, get_segment_id, segment_at. destruct (find_id z (g_ids g)) as [a|] eqn:E.
  - apply find_id_In in E. split; [split; eauto|]. split.
    + intros _. exists a. split; auto. split; auto. now apply (id_in_ids _ _ _ G).
    + intros H. exfalso. eauto.
  - assert (H : ~ exists a, In (z, a) (g_ids g)) by (intros (a & H); eapply find_id_None; eauto).
    split; [split; [discriminate|tauto]|]. split; [tauto|auto].
Qed.

Lemma C18_iteration_pf : forall g, sgreach g ->
  exists zs, ids_list g = map Some zs /\ StronglySorted Z.lt zs /\ (forall z, In z zs <-> has_id g z) /\
    segment_count g = length zs /\ NoDup (segment_range g) /\
    (forall a, id_of_seg g a <> None -> In a (segment_range g)).
Proof.
  intros g R. apply sgreach_inv in R. rename R into G. exists (map fst (g_ids g)).
  split; [|split; [|split; [|split; [|split]]]].
  - unfold ids_list, segment_range. rewrite !map_map. apply map_ext_in. intros [z a] H. simpl.
    now apply (id_in_ids _ _ _ G).
  - pose proof (gi_sorted _ G) as S. induction S as [|[k b] l S IH F]; simpl; constructor; auto.
    rewrite Forall_forall in *. intros z Hz. apply in_map_iff in Hz as (p & <- & Hp). now apply F in Hp.
  - intros z. rewrite (has_id_iff _ _ G), in_map_iff. split.
    + intros ([z' a] & E & H). simpl in E. subst. eauto.
    + intros (a & H). exists (z, a). auto.
  - unfold segment_count. now rewrite map_length.
  - unfold segment_range.
    assert (U : forall z z' a, In (z, a) (g_ids g) -> In (z', a) (g_ids g) -> z = z').
    { intros z z' a H H'. apply (id_in_ids _ _ _ G) in H. apply (id_in_ids _ _ _ G) in H'. congruence. }
    pose proof (gi_sorted _ G) as S. clear G.
    induction S as [|[k b] l S IH F]; simpl; constructor.
    + rewrite in_map_iff. intros ([k' b'] & E & H). simpl in E. subst b'.
      assert (k = k') by (eapply U; [left; reflexivity|right; exact H]). subst.
      rewrite Forall_forall in F. apply F in H. unfold idlt in H. simpl in H. lia.
    + apply IH. intros z z' a H H'. eapply U; right; eauto.
  - intros a H. unfold id_of_seg in H. destruct (find_seg a (g_segs g)) eqn:E; [|now elim H]. eapply live_range; eauto.
Qed.

Lemma C18_upper_bound_pf : forall g, sgreach g ->
  (forall z, has_id g z -> z <= segment_id_upper_bound g) /\
  (segment_id_upper_bound g = -1 \/ has_id g (segment_id_upper_bound g)).
Proof.
  intros g R. apply sgreach_inv in R. rename R into G. unfold segment_id_upper_bound. split.
  - intros z H. apply (has_id_iff _ _ G) in H as (a & H). eapply (gi_high _ G); eauto.
  - destruct (gi_top _ G) as [H|H]; auto. right. now apply (has_id_iff _ _ G).
Qed.

Lemma ids_kept_step o g g' : ginv g -> valid_sgop g o -> o <> SgClear -> state_after (sgstep o g) = Some g' ->
  forall a z, In (z, a) (g_ids g) -> In (z, a) (g_ids g').
Proof.
  intros G V C H a z Hin. destruct o as [|z'|s|z' s| |]; simpl in V, H; [| | | |congruence|].
  - destruct (make_segment_spec g G) as (_ & g1 & W & G1 & [(F & M & E)|(F & M & E)]); rewrite E in H; simpl in H;
      inversion H; subst; destruct W as (_ & -> & _); apply id_insert_In; now right.
  - destruct (get_make_id_spec z' g G) as [(b & _ & E)|(Nz & g1 & W & [(F & M & E)|(F & M & E)])];
      rewrite E in H; simpl in H; inversion H; subst; auto; destruct W as (_ & -> & _); apply id_insert_In; now right.
  - unfold get_make_name in H. destruct (find_name s (g_names g)) as [b|] eqn:Fs.
    + destruct (find_seg b (g_segs g)); simpl in H; inversion H; subst; auto.
    + destruct (make_segment_spec g G) as (_ & g1 & W & G1 & [(F & M & E)|(F & M & E)]); rewrite E in H; simpl in H.
      * assert (Ha : In (g_next g) (segment_range g1)) by (eapply with_new; eauto).
        destruct (set_name_inv (g_next g) s g1 G1 Ha) as (g2 & E2 & _ & I2 & _).
        assert (X : g_ids g' = g_ids g1).
        { destruct (set_name (g_next g) s g1); simpl in *; congruence. }
        rewrite X. destruct W as (_ & -> & _). apply id_insert_In. now right.
      * inversion H; subst; destruct W as (_ & -> & _); apply id_insert_In; now right.
  - unfold segment_present in V. unfold get_segment_id in H.
    destruct (find_id z' (g_ids g)) as [b|] eqn:F; [|discriminate]. simpl in H.
    assert (Ha : In b (segment_range g)) by (apply in_range; exists z'; now apply find_id_In).
    destruct (set_name_inv b s g G Ha) as (g2 & E2 & _ & I2 & _).
    assert (X : g_ids g' = g_ids g) by (destruct (set_name b s g); simpl in *; congruence).
    now rewrite X.
  - inversion H; subst. exact Hin.
Qed.

Lemma C18_stable_pf : forall g o g' a, sgreach g -> valid_sgop g o -> o <> SgClear ->
  state_after (sgstep o g) = Some g' -> In a (segment_range g) ->
  In a (segment_range g') /\ id_of_seg g' a = id_of_seg g a.
Proof.
  intros g o g' a R V C H Ha. apply sgreach_inv in R. rename R into G.
  pose proof (sgstep_inv o g g' G V H) as G'.
  destruct (in_range_id g a G Ha) as (z & s & Hin & E).
  pose proof (ids_kept_step o g g' G V C H a z Hin) as Hin'.
  split; [apply in_range; eauto|].
  apply (id_in_ids _ _ _ G) in Hin. apply (id_in_ids _ _ _ G') in Hin'. congruence.
Qed.

Lemma C18_init_refuted_pf : forall g, sgreach g -> has_id g 0 ->
  exists a, make_segment (init_segs g) = SRet (mkSegs 0 (g_ids g) (g_names g) (g_segs g) (g_next g)) a /\
    In a (segment_range g) /\ id_of_seg g a = Some 0.
Proof.
  intros g R H. apply sgreach_inv in R. rename R into G. apply (has_id_iff _ _ G) in H as (a & H).
  exists a. split; [|split; [apply in_range; eauto|now apply (id_in_ids _ _ _ G)]].
  unfold make_segment, get_make_id. simpl. apply (find_id_spec _ _ _ (gi_sorted _ G)) in H. now rewrite H.
Qed.

Lemma C19_set_name_pf : forall g a s, sgreach g -> In a (segment_range g) ->
  set_name a s g = SThrow g \/
  exists g', set_name a s g = SRet g' tt /\
    segment_range g' = segment_range g /\
    (forall b, id_of_seg g' b = id_of_seg g b) /\
    name_of_seg g' a = Some s /\
    (forall b, b <> a -> name_of_seg g' b = name_of_seg g b) /\
    get_segment_name s g' = SRet g' a.
Proof.
  intros g a s R Ha. apply sgreach_inv in R. rename R into G.
  destruct (set_name_spec a s g G Ha) as [[_ E]|(_ & old & z & Es & E)]; [auto|].
  right. eexists. split; [exact E|]. split; [reflexivity|]. unfold id_of_seg, name_of_seg. simpl.
  split; [|split; [|split]].
  - intros b. rewrite find_seg_rename. destruct (Nat.eqb a b); auto. now destruct (find_seg b (g_segs g)).
  - rewrite find_seg_rename, Nat.eqb_refl, Es. reflexivity.
  - intros b N. rewrite find_seg_rename. destruct (Nat.eqb_spec a b); congruence.
  - unfold get_segment_name. simpl. rewrite String.eqb_refl, find_seg_rename, Nat.eqb_refl, Es. reflexivity.
Qed.

Lemma C19_names_partial_pf : forall g, smooth g ->
  (forall a b s, In a (segment_range g) -> In b (segment_range g) ->
     name_of_seg g a = Some s -> name_of_seg g b = Some s -> a = b) /\
  (forall a s, In a (segment_range g) -> name_of_seg g a = Some s ->
     get_segment_name s g = SRet g a /\ get_make_name s g = SRet g a) /\
  (forall a s, In a (segment_range g) -> (set_name a s g = SThrow g <-> has_name g s)).
Proof.
  intros g S. destruct (smooth_inv g S) as [G N].
  assert (L : forall a s, name_of_seg g a = Some s -> find_name s (g_names g) = Some a).
  { intros a s H. apply (find_name_unique _ _ _ (ni_nodup _ N)). now apply (ni_names _ N). }
  split; [|split].
  - intros a b s _ _ A B. apply L in A. apply L in B. congruence.
  - intros a s _ A. unfold get_segment_name, get_make_name. rewrite (L _ _ A).
    unfold name_of_seg in A. destruct (find_seg a (g_segs g)); [auto|discriminate].
  - intros a s Ha. rewrite (has_name_iff _ _ G N).
    destruct (set_name_spec a s g G Ha) as [[F E]|(F & old & z & Es & E)]; rewrite E.
    + tauto.
    + split; [discriminate|]. congruence.
Qed.

Lemma C19_make_throws_pf : forall g, smooth g ->
  ((exists g', make_segment g = SThrow g') <-> has_name g (decimal (segment_id_upper_bound g + 1))) /\
  (forall z, (exists g', get_make_id z g = SThrow g') <-> ~ has_id g z /\ has_name g (decimal z)).
Proof.
  intros g S. destruct (smooth_inv g S) as [G N]. unfold segment_id_upper_bound. split.
  - rewrite (has_name_iff _ _ G N).
    destruct (make_segment_spec g G) as (_ & g1 & W & G1 & [(F & M & E)|(F & M & E)]); rewrite E.
    + split; [intros (? & ?); discriminate|congruence].
    + split; eauto.
  - intros z. rewrite (has_name_iff _ _ G N), (has_id_iff _ _ G).
    destruct (get_make_id_spec z g G) as [(a & H & E)|(Nz & g1 & W & [(F & M & E)|(F & M & E)])]; rewrite E.
    + split; [intros (? & ?); discriminate|]. intros [X _]. exfalso. eauto.
    + split; [intros (? & ?); discriminate|]. intros [_ X]. congruence.
    + split; eauto. intros _. split; auto. intros (a & Ha). eapply Nz; eauto.
Qed.

Lemma C19_plain_names_pf : forall g, plain g ->
  smooth g /\
  (exists g' a, make_segment g = SRet g' a) /\
  (forall z, exists g' a, get_make_id z g = SRet g' a) /\
  (forall s, not_numeral s -> exists g' a, get_make_name s g = SRet g' a /\ name_of_seg g' a = Some s).
Proof.
  intros g H. destruct (plain_smooth g H) as [S P]. destruct (smooth_inv g S) as [G N].
  split; auto. split; [|split].
  - destruct (sgstep_plain SgMake g G N P I I) as [(g' & x & E & _)|(z & s & E & _)]; [|discriminate].
    simpl in E. destruct (make_segment g); simpl in E; try discriminate. eauto.
  - intros z. destruct (sgstep_plain (SgId z) g G N P I I) as [(g' & x & E & _)|(z' & s & E & _)]; [|discriminate].
    simpl in E. destruct (get_make_id z g); simpl in E; try discriminate. eauto.
  - intros s Hs. unfold get_make_name. destruct (find_name s (g_names g)) as [a|] eqn:Fs.
    + apply find_name_In in Fs. apply (ni_names _ N) in Fs. pose proof Fs as Fs'. unfold name_of_seg in Fs.
      destruct (find_seg a (g_segs g)) eqn:E; [|discriminate]. eauto.
    + destruct (make_segment_spec g G) as (Nz & g1 & W & G1 & [(F & M & E)|(F & M & E)]);
        [|exfalso; apply F; eapply plain_free; eauto].
      rewrite E. simpl.
      assert (Ha : In (g_next g) (segment_range g1)) by (eapply with_new; eauto).
      destruct (set_name_spec (g_next g) s g1 G1 Ha) as [[F2 E2]|(F2 & old & z & Es & E2)].
      * exfalso. apply F2. rewrite M. simpl. destruct (String.eqb_spec s (decimal (g_high g + 1))) as [X|X]; auto.
        now apply Hs in X.
      * rewrite E2. simpl. eexists _, _. split; [reflexivity|]. unfold name_of_seg. simpl.
        rewrite find_seg_rename, Nat.eqb_refl, Es. reflexivity.
Qed.

Lemma C19_decimal_injective_pf : forall z z', decimal z = decimal z' -> z = z'.
Proof. apply decimal_inj. Qed.

Lemma C19_number_refuted_pf : exists g g', smooth g /\ make_segment g = SThrow g' /\ sgreach g' /\
  exists a b, a <> b /\ In a (segment_range g') /\ In b (segment_range g') /\
    name_of_seg g' a = Some "1"%string /\ name_of_seg g' b = Some "1"%string.
Proof.
  pose (g := mkSegs 0 [(0, 0%nat)] [("1"%string, 0%nat)] [(0%nat, mkSeg 0 "1")] 1).
  assert (E : sgstep (SgName "1") new_segmentation = SRet g (Some 0%nat)) by reflexivity.
  pose (g' := mkSegs 1 [(0, 0%nat); (1, 1%nat)] [("1"%string, 0%nat)] [(1%nat, mkSeg 1 "1"); (0%nat, mkSeg 0 "1")] 2).
  assert (E' : make_segment g = SThrow g') by reflexivity.
  exists g, g'. split.
  { eapply (sm_step _ (SgName "1")); [apply sm_new|exact I|discriminate|exact E]. }
  split; [exact E'|]. split.
  { apply (sgr_throw g SgMake); [|exact I|reflexivity].
    eapply (sgr_ret _ (SgName "1")); [apply sgr_new|exact I|exact E]. }
  exists 0%nat, 1%nat. split; [discriminate|]. simpl. repeat split; auto.
Qed.

Lemma C19_own_name_refuted_pf : forall g, smooth g ->
  let s := decimal (segment_id_upper_bound g + 1) in ~ has_name g s ->
  exists g', get_make_name s g = SThrow g' /\ exists a, ~ In a (segment_range g) /\ name_of_seg g' a = Some s.
Proof.
  intros g S s H. destruct (smooth_inv g S) as [G N]. rewrite (has_name_iff _ _ G N) in H.
  assert (F : find_name s (g_names g) = None) by (destruct (find_name s (g_names g)); [exfalso; now apply H|auto]).
  unfold get_make_name. rewrite F.
  destruct (make_segment_spec g G) as (_ & g1 & W & G1 & [(F1 & M & E)|(F1 & M & E)]); [|unfold s, segment_id_upper_bound in *; congruence].
  rewrite E. simpl. destruct (with_new _ _ _ G W) as (A & B & C & D & _).
  destruct (set_name_spec (g_next g) s g1 G1 B) as [[F2 E2]|(F2 & old & z & Es & E2)]; rewrite E2; simpl.
  - eauto.
  - exfalso. rewrite M in F2. simpl in F2. unfold s, segment_id_upper_bound in F2. rewrite String.eqb_refl in F2. discriminate.
Qed.

Lemma C19_same_name_refuted_pf : forall g a s, smooth g -> In a (segment_range g) -> name_of_seg g a = Some s ->
  set_name a s g = SThrow g.
Proof. intros g a s S Ha H. apply (C19_names_partial_pf g S); auto. exists a. auto. Qed.

Lemma C19_clear_refuted_pf : forall g, smooth g ->
  (has_name g "0" -> exists g', make_segment (clear_segs g) = SThrow g') /\
  (forall s, has_name g s -> get_segment_name s (clear_segs g) = SUndef /\ get_make_name s (clear_segs g) = SUndef).
Proof.
  intros g S. destruct (smooth_inv g S) as [G N]. split.
  - intros H. apply (has_name_iff _ _ G N) in H. unfold make_segment, get_make_id. simpl.
    change (decimal 0) with "0"%string. destruct (find_name "0" (g_names g)); [eauto|congruence].
  - intros s H. apply (has_name_iff _ _ G N) in H. unfold get_segment_name, get_make_name. simpl.
    destruct (find_name s (g_names g)); [auto|congruence].
Qed.
