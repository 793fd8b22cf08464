From Coq Require Import Reals List Arith ZArith Bool Lia Relations FunctionalExtensionality.
From Verif Require Import ModelTopo ModelMesh ModelErase ModelGeom ModelVolume ModelQuery ModelSegmentation ModelSegment ModelRefineMesh ModelSeeds
  SpecMesh SpecErase SpecQuery SpecView SpecSegmentation SpecSegment SpecSeeds
  MeshBase MeshInv MeshReach MeshWf MeshErase MeshSimple QueryBase QueryProofs ViewBase SegmentBase SegmentInv SegmentProofs CopyBase CopySegProofs QueryBnd SegmentationBase SegmentStep.
Import ModelSegmentation ListNotations.
Open Scope nat_scope.

Section Map.
Lemma filter_length_le {A} (f : A -> bool) l : length (filter f l) <= length l.
Proof. induction l as [|x l IH]; cbn; auto. destruct (f x); cbn; lia. Qed.
Lemma map_has_In i u : map_has i u = true <-> In i (map fst u).
Proof.
  unfold map_has. rewrite existsb_exists. split.
  - intros ([j k] & H & E). apply Nat.eqb_eq in E. cbn in E. subst. now apply (in_map fst) in H.
  - intros H. apply in_map_iff in H as ([j k] & E & H). cbn in E. subst. exists (i, k). split; auto. apply Nat.eqb_refl.
Qed.
Lemma map_erase_In i u p : In p (map_erase i u) <-> In p u /\ fst p <> i.
Proof. unfold map_erase. rewrite filter_In, negb_true_iff, Nat.eqb_neq. reflexivity. Qed.
Lemma map_erase_NoDup i u : NoDup (map fst u) -> NoDup (map fst (map_erase i u)).
Proof.
  induction u as [|[j k] u IH]; cbn; auto. intros N. inversion N; subst. destruct (j =? i); cbn; auto. constructor; auto.
  intros H. apply H1. apply in_map_iff in H as (p & E & H). apply map_erase_In in H as [H _]. apply in_map_iff. eauto.
Qed.
Lemma map_erase_length i u : In i (map fst u) -> length (map_erase i u) < length u.
Proof.
  induction u as [|[j k] u IH]; cbn; [easy|]. assert (L : length (map_erase i u) <= length u) by apply filter_length_le.
  change (filter (fun p : nat * nat => negb (fst p =? i)) u) with (map_erase i u).
  destruct (Nat.eqb_spec j i); cbn; intros [H|H]; try lia; try contradiction. apply IH in H. lia.
Qed.
Lemma map_erase_le i u : length (map_erase i u) <= length u. Proof. apply filter_length_le. Qed.
Lemma map_set_In i h u p : ~ In i (map fst u) -> (In p (map_set i h u) <-> p = (i, h) \/ In p u).
Proof.
  induction u as [|[j k] u IH]; intros N; cbn [map_set map fst In] in *.
  - split; intros [H|H]; auto.
  - apply Decidable.not_or in N as [N1 N2]. specialize (IH N2). destruct (i <? j); [cbn [In]; split; intros [H|H]; auto|].
    destruct (Nat.eqb_spec i j); [subst; contradiction|]. cbn [In]. rewrite IH. tauto.
Qed.
Lemma map_set_NoDup i h u : ~ In i (map fst u) -> NoDup (map fst u) -> NoDup (map fst (map_set i h u)).
Proof.
  induction u as [|[j k] u IH]; intros N ND; cbn [map_set map fst In] in *; [repeat constructor; auto|].
  apply Decidable.not_or in N as [N1 N2]. inversion ND as [|? ? D1 D2]; subst. destruct (i <? j); [constructor; auto; intros [H|H]; auto|].
  destruct (Nat.eqb_spec i j); [subst; contradiction|]. cbn [map fst]. constructor; [|apply IH; auto]. intros H. apply in_map_iff in H as (p & E & H).
  apply map_set_In in H as [->|H]; [cbn in E; auto| |auto]. apply D1. apply in_map_iff. eauto.
Qed.
End Map.

Section Generic.
Context {St P : Type}.
Variable nb : St -> addr -> option (St * list addr).
Variable idof : addr -> option nat.
Variable center : addr -> option P.
Variable cells : list addr.
Variable R : addr -> addr -> Prop.
Variable Inv : St -> Prop.
Hypothesis NDc : NoDup cells.
Hypothesis R_sym : forall a b, R a b -> R b a.
Hypothesis R_cells : forall a b, In a cells -> R a b -> In b cells.
Hypothesis nb_spec : forall s a, Inv s -> In a cells -> exists s' l, nb s a = Some (s', l) /\ Inv s' /\ forall b, In b l <-> R a b.
Hypothesis id_def : forall a, In a cells -> exists i, idof a = Some i.
Hypothesis id_inj : forall a b i, In a cells -> In b cells -> idof a = Some i -> idof b = Some i -> a = b.
Hypothesis center_def : forall a, In a cells -> exists p, center a = Some p.

Notation conn := (connected R).
Lemma conn_refl a : conn a a. Proof. apply rt_refl. Qed.
Lemma conn_sym a b : conn a b -> conn b a.
Proof. induction 1; [apply rt_step; auto|apply rt_refl|eapply rt_trans; eauto]. Qed.
Lemma conn_trans a b c : conn a b -> conn b c -> conn a c. Proof. apply rt_trans. Qed.
Lemma conn_cells a b : conn a b -> In a cells -> In b cells.
Proof. induction 1; eauto. Qed.

(** The map holds the cells satisfying [U]. *)
Definition good (u : idmap) : Prop := NoDup (map fst u) /\ forall i a, In (i, a) u -> In a cells /\ idof a = Some i.
Definition inm (u : idmap) (a : addr) : Prop := In a (map snd u).
Lemma inm_has u a i : good u -> In a cells -> idof a = Some i -> (map_has i u = true <-> inm u a).
Proof.
  intros (N & G) Ha Ia. rewrite map_has_In. unfold inm. rewrite !in_map_iff. split.
  - intros ([j k] & E & H). cbn in E. subst j. exists (i, k). split; auto. cbn. destruct (G i k H) as [A B]. eapply id_inj; eauto.
  - intros ([j k] & E & H). cbn in E. subst k. exists (j, a). split; auto. cbn. destruct (G j a H) as [A B]. congruence.
Qed.
Lemma erase_good i u : good u -> good (map_erase i u).
Proof. intros (N & G). split; [now apply map_erase_NoDup|]. intros j a H. apply map_erase_In in H as [H _]. auto. Qed.
Lemma erase_inm i c u a : good u -> In c cells -> idof c = Some i -> (inm (map_erase i u) a <-> inm u a /\ a <> c).
Proof.
  intros (N & G) Hc Ic. unfold inm. rewrite !in_map_iff. split.
  - intros ([j k] & E & H). cbn in E. subst k. apply map_erase_In in H as [H D]. cbn in D. split; [exists (j, a); auto|].
    intros ->. destruct (G j c H). congruence.
  - intros (([j k] & E & H) & D). cbn in E. subst k. exists (j, a). split; auto. apply map_erase_In. split; auto. cbn. intros ->.
    destruct (G i a H). apply D. eapply id_inj; eauto.
Qed.

Lemma outside_spec u l : good u -> (forall b, In b l -> In b cells) ->
  exists o, has_outside idof u l = Some o /\ (o = true <-> exists b, In b l /\ ~ inm u b).
Proof.
  intros G. induction l as [|b l IH]; intros H; cbn [has_outside].
  - exists false. split; auto. split; [discriminate|intros (b & [] & _)].
  - assert (Hb : In b cells) by (apply H; now left). destruct (id_def b Hb) as (i & Ei). rewrite Ei.
    destruct (map_has i u) eqn:M.
    + apply (inm_has u b i G Hb Ei) in M. destruct IH as (o & E & HO); [intros; apply H; now right|]. exists o. split; auto. rewrite HO.
      split; [intros (b' & ? & ?); exists b'; simpl; auto|]. intros (b' & [<-|?] & ?); [contradiction|eauto].
    + exists true. split; auto. split; auto. intros _. exists b. split; [now left|]. intros X. apply (inm_has u b i G Hb Ei) in X. congruence.
Qed.

(** One round: [l] is what is left of the round. *)
Lemma pass_spec u0 : forall l s u found, Inv s -> good u -> good l -> (forall a, inm l a -> inm u a) -> (forall a, inm u a -> inm u0 a) ->
  (forall a, inm u0 a -> ~ inm u a -> exists b, In b cells /\ ~ inm u0 b /\ conn b a) ->
  exists s' u' found', ofold (mark_one nb idof) l (s, u, found) = Some (s', u', found') /\ Inv s' /\ good u' /\ (forall a, inm u' a -> inm u a) /\
    (forall a, inm u0 a -> ~ inm u' a -> exists b, In b cells /\ ~ inm u0 b /\ conn b a) /\
    length u' <= length u /\ (found' = true -> found = true \/ length u' < length u) /\
    (found' = false -> found = false /\ u' = u /\ forall a b, inm l a -> R a b -> inm u b).
Proof.
  induction l as [|[i a] l IH]; intros s u found HI GU GL LU UU CL; cbn [ofold].
  - exists s, u, found. do 6 (split; [now auto|]). split; [auto|]. intros F. do 2 (split; [now auto|]). intros a b [].
  - assert (Ha : In a cells /\ idof a = Some i) by (apply (proj2 GL); now left). destruct Ha as [Ha Ia].
    assert (GL' : good l). { destruct GL as [N G]. inversion N; subst. split; auto. intros j b Hb. apply G. now right. }
    assert (Na : ~ inm l a).
    { destruct GL as [N G]. inversion N as [|? ? N1 N2]; subst. unfold inm. intros H. apply in_map_iff in H as ([j k] & E & H). cbn in E. subst k.
      apply N1. destruct (G j a (or_intror H)) as [_ E]. assert (j = i) by congruence. subst. now apply (in_map fst) in H. }
    destruct (nb_spec s a HI Ha) as (s1 & lb & E1 & HI1 & NB). unfold mark_one at 1. cbn [snd fst]. rewrite E1.
    destruct (outside_spec u lb GU) as (o & E2 & HO). { intros b Hb. apply (R_cells a); auto. now apply NB. }
    rewrite E2. cbn [option_map obind]. destruct o.
    + destruct (proj1 HO eq_refl) as (b & Hb & Nb). apply NB in Hb.
      assert (ER : forall x, inm (map_erase i u) x <-> inm u x /\ x <> a) by (intros x; apply erase_inm; auto).
      assert (Hia : In i (map fst u)).
      { assert (X : inm u a) by (apply LU; left; auto). apply (inm_has u a i GU Ha Ia) in X. now apply map_has_In. }
      destruct (IH s1 (map_erase i u) true HI1) as (s2 & u2 & f2 & E3 & A1 & A2 & A3 & A4 & A5 & A6 & A7); auto.
      * now apply erase_good.
      * intros x Hx. apply ER. split; [apply LU; right; auto|]. intros ->. contradiction.
      * intros x Hx. apply ER in Hx as [Hx _]. auto.
      * intros x Hx Nx. destruct (Nat.eq_dec x a) as [->|D].
        -- destruct (in_dec Nat.eq_dec b (map snd u0)) as [B0|B0].
           ++ destruct (CL b B0 Nb) as (y & Y1 & Y2 & Y3). exists y. split; auto. split; auto. eapply conn_trans; eauto. apply rt_step. now apply R_sym.
           ++ exists b. split; [eapply R_cells; eauto|]. split; auto. apply rt_step. now apply R_sym.
        -- apply CL; auto. intros X. apply Nx. apply ER. auto.
      * exists s2, u2, f2. split; auto. split; auto. split; auto. split; [intros x Hx; apply A3, ER in Hx as [Hx _]; auto|]. split; auto.
        pose proof (map_erase_length i u Hia). split; [lia|]. split; [intros _; right; lia|].
        intros F. apply A7 in F as [F _]. discriminate.
    + assert (NO : forall b, R a b -> inm u b).
      { intros b Hb. destruct (in_dec Nat.eq_dec b (map snd u)) as [|X]; auto. exfalso. assert (false = true) by (apply HO; exists b; split; auto; now apply NB). discriminate. }
      destruct (IH s1 u found HI1) as (s2 & u2 & f2 & E3 & A1 & A2 & A3 & A4 & A5 & A6 & A7); auto.
      { intros x Hx. apply LU. right. auto. }
      exists s2, u2, f2. do 6 (split; [now auto|]). split; [now auto|]. intros F. destruct (A7 F) as (F1 & F2 & F3). do 2 (split; [now auto|]).
      intros x b [<-|Hx] Hr; [auto|]. eapply F3; eauto.
Qed.

Lemma mark_spec u0 : forall fuel s u, length u < fuel -> Inv s -> good u -> (forall a, inm u a -> inm u0 a) ->
  (forall a, inm u0 a -> ~ inm u a -> exists b, In b cells /\ ~ inm u0 b /\ conn b a) ->
  exists s' u', neighbor_mark nb idof fuel s u = Finished (s', u') /\ Inv s' /\ good u' /\ length u' <= length u /\
    (forall a, inm u' a -> inm u0 a /\ forall b, In b cells -> conn b a -> inm u0 b) /\
    (forall a, inm u0 a -> ~ inm u' a -> exists b, In b cells /\ ~ inm u0 b /\ conn b a).
Proof.
  induction fuel as [|fuel IH]; intros s u Hf HI GU UU CL; [lia|]. cbn [neighbor_mark].
  destruct (pass_spec u0 u s u false HI GU GU) as (s' & u' & found & E & A1 & A2 & A3 & A4 & A5 & A6 & A7); auto.
  rewrite E. destruct found.
  - destruct (A6 eq_refl) as [F|F]; [discriminate|].
    destruct (IH s' u') as (s2 & u2 & E2 & B1 & B2 & B3 & B4); auto; [lia|]. exists s2, u2. split; auto. split; auto. split; auto. split; auto. lia.
  - destruct (A7 eq_refl) as (_ & -> & C). exists s', u. split; auto. split; auto. split; auto. split; auto. split.
    + intros a Ha. split; auto. intros b Hb Cb. apply UU. apply conn_sym in Cb. revert Ha. clear - C Cb.
      induction Cb; auto. intros Ha. eauto.
    + exact CL.
Qed.

(** The loop over the cells. *)
Record linv (s : St) (u : idmap) (don seeds : list addr) : Prop := {
  li_inv : Inv s; li_good : good u; li_len : length u <= length cells;
  li_u : forall a s0, inm u a -> In s0 seeds -> ~ conn s0 a;
  li_out : forall a, In a cells -> ~ inm u a -> exists s0, In s0 seeds /\ conn s0 a;
  li_don : forall c, In c don -> exists s0, In s0 seeds /\ conn s0 c;
  li_incl : incl seeds don; li_nodup : NoDup seeds;
  li_one : forall s1 s2, In s1 seeds -> In s2 seeds -> conn s1 s2 -> s1 = s2;
  li_first : forall s0 c, In s0 seeds -> conn s0 c -> ~ before don c s0
}.

Lemma before_app l x c s0 : ~ In s0 [x] -> before (l ++ [x]) c s0 -> before l c s0.
Proof.
  intros N (l1 & l2 & l3 & E). destruct l3 as [|z l3] using rev_ind.
  - exfalso. assert (l ++ [x] = (l1 ++ c :: l2) ++ [s0]) by (rewrite E, <- app_assoc; reflexivity). apply app_inj_tail in H as [_ ->]. apply N. now left.
  - clear IHl3. assert (l ++ [x] = (l1 ++ c :: l2 ++ s0 :: l3) ++ [z]).
    { rewrite E, <- app_assoc. cbn. rewrite <- app_assoc. reflexivity. }
    apply app_inj_tail in H as [-> _]. exists l1, l2, l3. reflexivity.
Qed.
Lemma before_left l c s0 : before l c s0 -> In c l.
Proof. intros (l1 & l2 & l3 & ->). apply in_app_iff. right. now left. Qed.
Lemma before_last (l : list addr) x c : NoDup (l ++ [x]) -> before (l ++ [x]) c x -> In c l.
Proof.
  intros N (l1 & l2 & l3 & E). assert (l3 = []).
  { destruct l3 as [|z l3] using rev_ind; auto. exfalso. clear IHl3.
    assert (H : l ++ [x] = (l1 ++ c :: l2 ++ x :: l3) ++ [z]) by (rewrite E, <- app_assoc; cbn; rewrite <- app_assoc; reflexivity).
    apply app_inj_tail in H as [-> <-]. apply NoDup_remove_2 in N. apply N. rewrite app_nil_r. apply in_app_iff. right. right. apply in_app_iff. right. now left. }
  subst. assert (H : l ++ [x] = (l1 ++ c :: l2) ++ [x]) by (rewrite E, <- app_assoc; reflexivity). apply app_inj_tail in H as [-> _]. apply in_app_iff. right. now left.
Qed.

Lemma cell_spec fuel s u pts don seeds c : length cells < fuel -> linv s u don seeds -> In c cells -> NoDup (don ++ [c]) ->
  exists s' u' seeds' new, seed_cell nb idof center fuel (s, u, pts) c = Finished (s', u', pts ++ new) /\ linv s' u' (don ++ [c]) (seeds ++ seeds') /\
    map Some new = map center seeds'.
Proof.
  intros Hf [HI GU LE HU HO HD IN ND ON FI] Hc NDc'. unfold seed_cell. destruct (id_def c Hc) as (i & Ei). rewrite Ei. cbn [of_opt sobind].
  assert (Nc : ~ In c don) by (intros H; apply NoDup_remove_2 in NDc'; rewrite app_nil_r in NDc'; auto).
  destruct (map_has i u) eqn:M.
  - apply (inm_has u c i GU Hc Ei) in M. destruct (center_def c Hc) as (p & Ep). rewrite Ep. cbn [of_opt sobind].
    assert (ER : forall x, inm (map_erase i u) x <-> inm u x /\ x <> c) by (intros x; apply erase_inm; auto).
    assert (LE' : length (map_erase i u) <= length u) by apply map_erase_le.
    destruct (mark_spec (map_erase i u) fuel s (map_erase i u)) as (s' & u' & E & A1 & A2 & A3 & A4 & A5); auto; [lia|now apply erase_good|intros; contradiction|].
    rewrite E. cbn [sobind fst snd]. exists s', u', [c], [p]. split; auto. split; [|cbn; now rewrite Ep].
    assert (NS : forall s0, In s0 seeds -> ~ conn s0 c) by (intros s0 H; now apply HU).
    constructor; auto; [lia|..].
    + intros a s0 Ha H Q. destruct (A4 a Ha) as [B1 B2]. apply ER in B1 as [B1 D]. apply in_app_iff in H as [H|[<-|[]]].
      * apply (HU a s0 B1 H Q).
      * apply B2 in Q; auto. apply ER in Q as [_ Q]. congruence.
    + intros a Ha Na.
      assert (OUT : forall b, In b cells -> ~ inm (map_erase i u) b -> exists s0, In s0 (seeds ++ [c]) /\ conn s0 b).
      { intros b Hb Nb. destruct (Nat.eq_dec b c) as [->|D]; [exists c; split; [apply in_app_iff; right; now left|apply conn_refl]|].
        destruct (HO b Hb) as (s0 & ? & ?); [intros X; apply Nb, ER; auto|]. exists s0. rewrite in_app_iff. auto. }
      destruct (in_dec Nat.eq_dec a (map snd (map_erase i u))) as [X|X]; [|now apply OUT].
      destruct (A5 a X Na) as (b & B1 & B2 & B3). destruct (OUT b B1 B2) as (s0 & ? & ?). exists s0. split; auto. eapply conn_trans; eauto.
    + intros x H. apply in_app_iff in H as [H|[<-|[]]].
      * destruct (HD x H) as (s0 & ? & ?). exists s0. rewrite in_app_iff. auto.
      * exists c. split; [apply in_app_iff; right; now left|apply conn_refl].
    + intros x H. apply in_app_iff in H as [H|H]; apply in_app_iff; auto.
    + clear - ND NS. assert (Nc : ~ In c seeds) by (intros H; apply (NS c H), conn_refl).
      induction seeds as [|x l IH]; cbn; [repeat constructor; auto|]. inversion ND; subst. constructor.
      * intros H. apply in_app_iff in H as [H|[<-|[]]]; auto. apply Nc. now left.
      * apply IH; auto. { intros. apply NS. now right. } intros H. apply Nc. now right.
    + intros s1 s2 H1 H2 Q. apply in_app_iff in H1 as [H1|[<-|[]]]; apply in_app_iff in H2 as [H2|[<-|[]]]; auto.
      * exfalso. eapply NS; eauto.
      * exfalso. apply (NS s2 H2). now apply conn_sym.
    + intros s0 x H Q B. apply in_app_iff in H as [H|[<-|[]]].
      * apply (FI s0 x H Q). eapply before_app; eauto. intros [<-|[]]. apply (NS c H), conn_refl.
      * apply (before_last don c x NDc') in B. destruct (HD x B) as (s1 & H1 & Q1). apply (NS s1 H1). eapply conn_trans; eauto. now apply conn_sym.
  - assert (NM : ~ inm u c) by (intros X; apply (inm_has u c i GU Hc Ei) in X; congruence).
    assert (X : exists s0, In s0 seeds /\ conn s0 c) by (apply HO; auto).
    exists s, u, [], []. rewrite !app_nil_r. split; auto. split; auto. constructor; auto.
    + intros x H. apply in_app_iff in H as [H|[<-|[]]]; auto.
    + intros x H. apply in_app_iff. auto.
    + intros s0 x H Q B. apply (FI s0 x H Q). eapply before_app; eauto. intros [<-|[]]. auto.
Qed.

Lemma cells_spec fuel : length cells < fuel -> forall l s u pts don seeds, linv s u don seeds -> don ++ l = cells ->
  exists s' u' seeds' new, sofold (seed_cell nb idof center fuel) l (s, u, pts) = Finished (s', u', pts ++ new) /\ linv s' u' cells (seeds ++ seeds') /\
    map Some new = map center seeds'.
Proof.
  intros Hf. induction l as [|c l IH]; intros s u pts don seeds LI E; cbn [sofold].
  - rewrite app_nil_r in E. subst don. exists s, u, [], []. rewrite !app_nil_r. auto.
  - assert (E' : (don ++ [c]) ++ l = cells) by (now rewrite <- app_assoc).
    destruct (cell_spec fuel s u pts don seeds c Hf LI) as (s1 & u1 & sd1 & n1 & E1 & L1 & M1).
    { rewrite <- E. apply in_app_iff. right. now left. }
    { assert (N := NDc). rewrite <- E' in N. clear - N. induction (don ++ [c]) as [|x r IH]; [constructor|]. cbn in N. inversion N as [|? ? N1 N2]; subst. constructor; [|auto]. intros H. apply N1, in_app_iff. auto. }
    rewrite E1. cbn [sobind]. destruct (IH s1 u1 (pts ++ n1) _ _ L1 E') as (s2 & u2 & sd2 & n2 & E2 & L2 & M2).
    exists s2, u2, (sd1 ++ sd2), (n1 ++ n2). rewrite !app_assoc. split; auto. split; auto. rewrite !map_app. congruence.
Qed.

Lemma start_spec : forall l u, good u -> (forall a, In a l -> ~ inm u a) -> NoDup l -> incl l cells -> 
  exists u', ofold (fun u c => option_map (fun i => map_set i c u) (idof c)) l u = Some u' /\ good u' /\ length u' = length l + length u /\
    forall a, inm u' a <-> inm u a \/ In a l.
Proof.
  induction l as [|c l IH]; intros u G D N I; cbn [ofold]; [exists u; split; auto; split; auto; split; auto; intros a; cbn; tauto|].
  inversion N as [|? ? N1 N2]; subst. assert (Hc : In c cells) by (apply I; now left). destruct (id_def c Hc) as (i & Ei). rewrite Ei. cbn [option_map].
  assert (NI : ~ In i (map fst u)).
  { intros H. apply map_has_In in H. apply (inm_has u c i G Hc Ei) in H. apply (D c); auto. now left. }
  assert (ST : forall a, inm (map_set i c u) a <-> inm u a \/ a = c).
  { intros a. unfold inm. rewrite !in_map_iff. split.
    - intros (p & E & H). apply map_set_In in H as [->|H]; auto. left. eauto.
    - intros [(p & E & H)|H]; [exists p|exists (i, c)]; split; auto; apply map_set_In; auto. }
  assert (LEN : length (map_set i c u) = S (length u)).
  { clear - NI. induction u as [|[j k] u IH]; cbn [map_set map fst In length] in *; auto. apply Decidable.not_or in NI as [N1 N2]. destruct (i <? j); auto.
    destruct (Nat.eqb_spec i j); [subst; contradiction|]. cbn [length]. now rewrite IH. }
  destruct (IH (map_set i c u)) as (u' & E & G' & L' & M'); auto.
  - destruct G as [GN G]. split; [now apply map_set_NoDup|]. intros j b H. apply map_set_In in H as [H|H]; auto. injection H as -> ->. auto.
  - intros a Ha H. apply ST in H as [H|H]; [apply (D a); auto; now right|subst; contradiction].
  - intros x Hx. apply I. now right.
  - exists u'. split; auto. split; auto. cbn [length]. split; [lia|]. intros a. rewrite M', ST. cbn [In]. intuition.
Qed.

Theorem extract_spec fuel s pts : length cells < fuel -> Inv s ->
  exists s' seeds new, extract nb idof center fuel cells s pts = Finished (s', pts ++ new) /\ Inv s' /\ one_per_component R cells seeds /\
    map Some new = map center seeds.
Proof.
  intros Hf HI. unfold extract. destruct (start_spec cells []) as (u & E & G & L & M); auto.
  { split; [constructor|]. intros i a []. } { intros x H. auto. }
  rewrite E. cbn [of_opt sobind].
  assert (L0 : linv s u [] []).
  { assert (L' : length u <= length cells) by (cbn in L; lia).
    assert (M' : forall a, In a cells -> ~ inm u a -> exists s0, In s0 [] /\ conn s0 a) by (intros a Ha N; exfalso; apply N, M; auto).
    constructor; try assumption; try (constructor; fail); try (intros x []; fail); try (intros x y []; fail); intros x y ? []. }

  destruct (cells_spec fuel Hf cells s u pts [] [] L0 eq_refl) as (s' & u' & sd & new & E1 & L1 & M1). cbn [app] in L1.
  assert (U' : u' = []).
  { destruct u' as [|[i a] u']; auto. exfalso. destruct L1 as [_ [_ G1] _ HU _ HD _ _ _ _].
    assert (Ha : In a cells) by (apply (G1 i); now left). destruct (HD a Ha) as (s0 & H0 & Q). apply (HU a s0); auto. now left. }
  subst u'. exists s', sd, new. split.
  - destruct fuel as [|fuel]; [lia|]. destruct u as [|p u].
    + assert (cells = []). { cbn in L. destruct cells; auto. cbn in L. lia. } revert E1. rewrite H. cbn [sofold]. intros E1. injection E1 as <- E1. cbn [seed_loop snd fst sobind].
      rewrite <- (app_nil_r pts) in E1 at 1. apply app_inv_head in E1. subst new. now rewrite app_nil_r.
    + cbn [seed_loop fst snd]. rewrite E1. cbn [sobind]. destruct fuel; reflexivity.
  - destruct L1. split; auto. split; auto. constructor; auto.
Qed.
End Generic.

Section Mesh.
Variable cfg : config.
Lemma center_defined (m : @mesh point) t a : ereach cfg m -> is_live m t a -> exists p, cell_center m t a = Some p.
Proof.
  intros HR [e E]. pose proof (ereach_wf cfg m HR) as W. unfold cell_center. rewrite E. cbn [obind].
  destruct (omap_total (fun x => obind (deref m Vertex x) e_pt) (e_verts e)) as (l & L).
  - intros v Hv. unfold deref in E. destruct (find_node (m_nodes m t) a) as [n|] eqn:F; [|discriminate]. injection E as <-.
    apply find_node_In in F as [F _]. assert (LV : live m Vertex v) by (eapply (r_verts m); eauto; apply W).
    apply live_is_live in LV as [ev Ev]. rewrite Ev. cbn [obind].
    unfold deref in Ev. destruct (find_node (m_nodes m Vertex) v) as [nv|] eqn:Fv; [|discriminate]. injection Ev as <-. apply find_node_In in Fv as [Fv _].
    pose proof (ereach_pointed cfg m HR nv Fv) as PN. destruct (e_pt (n_el nv)); [eauto|congruence].
  - unfold cell_points. rewrite L. cbn. eauto.
Qed.
End Mesh.
Lemma id_defined (m : @mesh point) t a : is_live m t a -> exists i, cell_id m t a = Some i.
Proof. intros [e E]. unfold cell_id. rewrite E. cbn. eauto. Qed.
Lemma bounded_live (m : @mesh point) t a c k : bounded_by m t a c k -> is_live m t a.
Proof. intros (e & E & _). exists e. auto. Qed.
Lemma share_sym (m : @mesh point) t c a b : share m t c a b -> share m t c b a.
Proof. intros [N (k & A & B)]. split; [congruence|eauto]. Qed.

Lemma C42_mesh_pf : forall cfg (q : qstate point) points, qreach cfg q ->
  let t := cfg_cell cfg in let m := q_mesh q in
  exists N, forall fuel, N <= fuel -> exists q' seeds new,
    mesh_seeds fuel t q points = Finished (q', points ++ new) /\ q_mesh q' = m /\
    one_per_component (share m t (facet_tag t)) (range m t) seeds /\ map Some new = map (cell_center m t) seeds.
Proof.
  intros cfg0 q points HQ t m. exists (S (length (range m t))). intros fuel Hf.
  pose proof (proj1 (qreach_inv cfg0 q HQ)) as HR. pose proof (ereach_wf cfg0 _ HR) as W.
  destruct (extract_spec (query_nb true t (facet_tag t)) (cell_id m t) (cell_center m t) (range m t) (share m t (facet_tag t))
    (fun q' => qreach cfg0 q' /\ q_mesh q' = m)) with (fuel := fuel) (s := q) (pts := points) as (q' & seeds & new & E & [I1 I2] & O & M); auto.
  - apply (wf_addr cfg0). exact W.
  - intros a b. apply share_sym.
  - intros a b _ [_ (k & _ & B)]. apply range_deref. eapply bounded_live; eauto.
  - intros s a [S1 S2] Ha. apply range_deref in Ha. rewrite <- S2 in Ha.
    destruct (C15_neighbours_exact_pf _ cfg0 s true t (facet_tag t) a S1 Ha) as (s' & l & E & Em & _ & L). exists s', l. split; auto. split.
    + split; [|congruence]. apply (qreach_step cfg0 s (QNb true t (facet_tag t) a)); auto. cbn [qstep]. now rewrite E.
    + intros b. rewrite L, S2. reflexivity.
  - intros a Ha. apply id_defined. now apply range_deref.
  - intros a b i _ _. apply (id_at_inj cfg0); auto.
  - intros a Ha. apply (center_defined cfg0) ; auto. now apply range_deref.
  - exists q', seeds, new. auto.
Qed.

Lemma set_con_same (s : sstate point) a : set_con s a (st_con s a) = s.
Proof.
  destruct s. unfold set_con. cbn. f_equal. unfold upd_con. apply functional_extensionality. intros b. destruct (Nat.eqb_spec a b); congruence.
Qed.
Lemma set_con_twice (s : sstate point) a k k' : set_con (set_con s a k) a k' = set_con s a k'.
Proof.
  unfold set_con. cbn. f_equal. unfold upd_con. apply functional_extensionality. intros b. destruct (Nat.eqb_spec a b); congruence.
Qed.
Lemma con_set (s : sstate point) a k : st_con (set_con s a k) a = k.
Proof. cbn. unfold upd_con. now rewrite Nat.eqb_refl. Qed.

Lemma segment_spec cfg (s : sstate point) a points fuel : cfg_cell cfg <> Hex -> sreach cfg s -> is_segment s a ->
  let t := cfg_cell cfg in let m := st_mesh s in length (k_view (st_con s a) t) < fuel ->
  exists k seeds new,
    segment_seeds fuel t s a points = Finished (k, points ++ new) /\ k_view k = k_view (st_con s a) /\ sreach cfg (set_con s a k) /\
    one_per_component (fun x y => in_segment s a t y /\ share m t (facet_tag t) x y) (k_view (st_con s a) t) seeds /\
    map Some new = map (cell_center m t) seeds.
Proof.
  intros NH HS HA t m Hf. pose proof (srun_mesh_reach cfg s NH HS) as RM. pose proof (reach_ereach cfg _ RM) as HR. pose proof (ereach_wf cfg _ HR) as W.
  destruct (C20_closure_pf _ cfg s a NH HS HA) as (_ & GV & ND).
  assert (LV : forall x, In x (k_view (st_con s a) t) -> is_live m t x).
  { intros x Hx. pose proof (increasing_live _ _ _ (GV t)) as F. rewrite Forall_forall in F. auto. }
  assert (RI : forall x y, In x (k_view (st_con s a) t) -> (in_segment s a t y /\ share m t (facet_tag t) x y <-> (in_segment s a t x /\ in_segment s a t y /\ share m t (facet_tag t) x y))).
  { intros x y Hx. unfold in_segment. tauto. }
  destruct (extract_spec (fun k => seg_nb true t (facet_tag t) m k) (cell_id m t) (cell_center m t) (k_view (st_con s a) t)
    (fun x y => in_segment s a t x /\ in_segment s a t y /\ share m t (facet_tag t) x y)
    (fun k => sreach cfg (set_con s a k) /\ k_view k = k_view (st_con s a))) with (fuel := fuel) (s := st_con s a) (pts := points) as (k & seeds & new & E & [I1 I2] & O & M); auto.
  - intros x y (A & B & C). split; auto. split; auto. now apply share_sym.
  - intros x y _ (A & B & C). exact B.
  - intros k x [S1 S2] Hx.
    assert (HA' : is_segment (set_con s a k) a) by exact HA.
    assert (Hx' : in_segment (set_con s a k) a t x) by (unfold in_segment; rewrite con_set, S2; exact Hx).
    destruct (C46_neighbors_pf _ cfg (set_con s a k) a true t (facet_tag t) x NH S1 HA' Hx') as (k' & l & E & V & _ & L).
    rewrite con_set in *. change (st_mesh (set_con s a k)) with m in *. exists k', l. split; auto. split.
    + split; [|congruence]. rewrite <- (set_con_twice s a k k'). apply (sr_step cfg (set_con s a k) (SNb a true t (facet_tag t) x)); auto; [split; auto|].
      cbn [sstep]. rewrite con_set. change (st_mesh (set_con s a k)) with m. rewrite E. reflexivity.
    + intros b. rewrite L. unfold in_segment. rewrite con_set, S2. tauto.
  - intros x Hx. apply id_defined. auto.
  - intros x y i _ _. apply (id_at_inj cfg); auto.
  - intros x Hx. apply (center_defined cfg); auto.
  - split; auto. now rewrite set_con_same.
  - exists k, seeds, new. split; [exact E|]. split; auto. split; auto. split; auto.
    destruct O as [O1 O2 O3 O4 O5].
    assert (TO : forall x y, connected (fun x y => in_segment s a t x /\ in_segment s a t y /\ share m t (facet_tag t) x y) x y ->
       connected (fun x y => in_segment s a t y /\ share m t (facet_tag t) x y) x y).
    { intros x y. induction 1 as [x y H| |]; [apply rt_step; tauto|apply rt_refl|eapply rt_trans; eauto]. }
    assert (OF : forall x y, connected (fun x y => in_segment s a t y /\ share m t (facet_tag t) x y) x y -> In x (k_view (st_con s a) t) ->
       connected (fun x y => in_segment s a t x /\ in_segment s a t y /\ share m t (facet_tag t) x y) x y /\ In y (k_view (st_con s a) t)).
    { intros x y. induction 1 as [x y H|x|x y z H1 IH1 H2 IH2]; intros Hx.
      - split; [apply rt_step; split; auto|apply H].
      - split; [apply rt_refl|auto].
      - destruct (IH1 Hx) as [A B]. destruct (IH2 B) as [C D]. split; auto. eapply rt_trans; eauto. }
    constructor; auto.
    + intros c Hc. destruct (O3 c Hc) as (s0 & ? & ?). eauto.
    + intros x y Hx Hy Q. apply O4; auto. apply OF; auto.
    + intros x y Hx Q. apply O5; auto. apply OF; auto.
Qed.

Lemma C42_segment_pf : forall cfg (s : sstate point) a points, cfg_cell cfg <> Hex -> sreach cfg s -> is_segment s a ->
  let t := cfg_cell cfg in let m := st_mesh s in
  exists N, forall fuel, N <= fuel -> exists k seeds new,
    segment_seeds fuel t s a points = Finished (k, points ++ new) /\ k_view k = k_view (st_con s a) /\
    one_per_component (fun x y => in_segment s a t y /\ share m t (facet_tag t) x y) (k_view (st_con s a) t) seeds /\
    map Some new = map (cell_center m t) seeds.
Proof.
  intros cfg s a points NH HS HA t m. exists (S (length (k_view (st_con s a) t))). intros fuel Hf.
  destruct (segment_spec cfg s a points fuel NH HS HA Hf) as (k & seeds & new & A & B & _ & C & D). exists k, seeds, new. auto.
Qed.

Lemma segments_fold cfg (s : sstate point) fuel : cfg_cell cfg <> Hex -> sreach cfg s ->
  let t := cfg_cell cfg in let m := st_mesh s in (forall a, is_segment s a -> length (k_view (st_con s a) t) < fuel) ->
  forall l s1 pts, incl l (segment_range (st_segs s)) -> sreach cfg s1 -> st_mesh s1 = m -> st_segs s1 = st_segs s -> (forall a, k_view (st_con s1 a) = k_view (st_con s a)) ->
  exists s' parts,
  sofold (fun st a =>
    sobind (segment_seeds fuel t (fst st) a []) (fun r =>
    sobind (of_opt (id_of_seg (st_segs (fst st)) a)) (fun z =>
    Finished (set_con (fst st) a (fst r), snd st ++ map (fun p => (p, z)) (snd r))))) l (s1, pts) = Finished (s', pts ++ concat parts) /\
  st_mesh s' = m /\ st_segs s' = st_segs s /\ (forall a, k_view (st_con s' a) = k_view (st_con s a)) /\
  Forall2 (fun a part => exists z seeds new, segment_has_id s a z /\ part = map (fun p => (p, z)) new /\ map Some new = map (cell_center m t) seeds /\
    one_per_component (fun x y => in_segment s a t y /\ share m t (facet_tag t) x y) (k_view (st_con s a) t) seeds) l parts.
Proof.
  intros NH HS t m HF. induction l as [|a l IH]; intros s1 pts HI R1 M1 G1 V1; cbn [sofold].
  - exists s1, []. cbn. rewrite app_nil_r. auto.
  - assert (Ha : is_segment s a) by (apply HI; now left). assert (Ha1 : is_segment s1 a) by (unfold is_segment; rewrite G1; exact Ha).
    destruct (segment_spec cfg s1 a [] fuel NH R1 Ha1) as (k & seeds & new & A & B & C & D & E). { rewrite V1. now apply HF. }
    fold t in A. cbn [fst snd]. rewrite A. cbn [sobind fst snd app].
    assert (ID : exists z, id_of_seg (st_segs s) a = Some z).
    { destruct (in_range_id (st_segs s) a) as (z & nm & Z1 & Z2); [apply (si_g cfg), (sreach_inv cfg NH), HS|exact Ha|]. exists z. unfold id_of_seg. now rewrite Z2. }
    destruct ID as (z & Z). rewrite G1, Z. cbn [of_opt sobind].
    destruct (IH (set_con s1 a k) (pts ++ map (fun p => (p, z)) new)) as (s' & parts & E2 & B1 & B2 & B3 & B4); auto.
    { intros x Hx. apply HI. now right. }
    { intros b. cbn. unfold upd_con. destruct (Nat.eqb_spec a b); [subst; rewrite B|]; apply V1. }
    rewrite E2. exists s', (map (fun p => (p, z)) new :: parts). cbn [concat]. rewrite app_assoc. do 4 (split; [now auto|]). constructor; auto.
    exists z, seeds, new. split; [split; auto|]. split; auto. fold t in D, E. rewrite M1 in D, E. split; auto.
    unfold in_segment in *. rewrite V1 in D. exact D.
Qed.

Lemma C42_segmentation_pf : forall cfg (s : sstate point) points, cfg_cell cfg <> Hex -> sreach cfg s ->
  let t := cfg_cell cfg in let m := st_mesh s in
  exists N, forall fuel, N <= fuel -> exists s' parts,
    segmentation_seeds fuel t s points = Finished (s', points ++ concat parts) /\
    st_mesh s' = m /\ st_segs s' = st_segs s /\ (forall a, k_view (st_con s' a) = k_view (st_con s a)) /\
    Forall2 (fun a part => exists z seeds new, segment_has_id s a z /\ part = map (fun p => (p, z)) new /\ map Some new = map (cell_center m t) seeds /\
      one_per_component (fun x y => in_segment s a t y /\ share m t (facet_tag t) x y) (k_view (st_con s a) t) seeds) (segment_range (st_segs s)) parts.
Proof.
  intros cfg s points NH HS t m. exists (S (list_max (map (fun a => length (k_view (st_con s a) t)) (segment_range (st_segs s))))). intros fuel Hf.
  apply segments_fold; auto; [|intros x Hx; auto].
  intros a Ha. assert (LM := proj1 (list_max_le (map (fun a => length (k_view (st_con s a) t)) (segment_range (st_segs s))) _) (le_n _)).
  rewrite Forall_forall in LM. specialize (LM _ (in_map (fun a => length (k_view (st_con s a) t)) _ _ Ha)). cbn beta in LM. unfold t in *. lia.
Qed.
