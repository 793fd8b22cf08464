(** Detection of interfaces: what one detection does to the flags. *)
From Coq Require Import List Arith ZArith Bool Lia.
From Verif Require Import ModelTopo ModelMesh ModelErase ModelAccessor ModelQuery ModelView ModelSegmentation ModelSegment ModelInterface
  SpecMesh SpecErase SpecQuery SpecView SpecSegmentation SpecSegment SpecInterface
  MeshBase MeshInv MeshIds MeshReach MeshWf MeshErase MeshSimple AccessorProofs QueryBase QueryBnd ViewBase
  SegmentationBase SegmentView SegmentBase SegmentInv SegmentStep SegmentDemo SegmentProofs.
Import ModelSegmentation ListNotations.
Open Scope nat_scope.

Lemma flag_get_set d i v j : flag_get (flag_set d i v) j = if j =? i then v else flag_get d j.
Proof.
  unfold flag_get, flag_set. rewrite list_set_nth, grow_len.
  destruct (Nat.eqb_spec j i) as [->|N]; cbn [andb].
  - destruct (Nat.ltb_spec i (Nat.max (length d) (i + 1))); [auto|lia].
  - rewrite grow_nth. destruct (Nat.ltb_spec j (length d)) as [L|L]; auto.
    assert (E : nth_error d j = None) by now apply nth_error_None. rewrite E. now destruct (j <=? i).
Qed.

Lemma set_iface_same fl t k e : set_iface fl t k e t k = e.
Proof. unfold set_iface. now rewrite tag_eqb_refl, !Z.eqb_refl. Qed.
Lemma set_iface_other fl t k e t' k' : t' <> t \/ k' <> k -> set_iface fl t k e t' k' = fl t' k'.
Proof.
  intros H. unfold set_iface. destruct (tag_eqb t t') eqn:E; auto. apply tag_eqb_eq in E. subst. cbn.
  destruct (Z.eqb_spec (fst k) (fst k')) as [E1|]; auto. destruct (Z.eqb_spec (snd k) (snd k')) as [E2|]; auto.
  destruct H as [H|H]; [congruence|]. exfalso. apply H. destruct k, k'; cbn in *; congruence.
Qed.

Section InterfaceBase.
Context {Pt : Type}.
Notation mesh := (@mesh Pt).
Variable cfg : config.
Hypothesis NH : cfg_cell cfg <> Hex.

(** Two states that differ in the caches of the segments only. *)
Record alike (s s' : sstate Pt) : Prop := mkAl {
  al_mesh : st_mesh s' = st_mesh s;
  al_segs : st_segs s' = st_segs s;
  al_view : forall b, k_view (st_con s' b) = k_view (st_con s b);
  al_cc : forall b, k_cc (st_con s' b) = k_cc (st_con s b)
}.
Lemma alike_refl s : alike s s.
Proof. constructor; auto. Qed.
Lemma alike_trans s1 s2 s3 : alike s1 s2 -> alike s2 s3 -> alike s1 s3.
Proof. intros [A B C D] [A' B' C' D']. constructor; intros; congruence. Qed.
Lemma alike_one (s s' : sstate Pt) a f : alike s s' -> (on_one_cell_of cfg s' a f <-> on_one_cell_of cfg s a f).
Proof. intros [A B C D]. unfold on_one_cell_of, in_segment. rewrite A, (C a). tauto. Qed.
Lemma alike_facet (s s' : sstate Pt) a b f : alike s s' -> (interface_facet cfg s' a b f <-> interface_facet cfg s a b f).
Proof. intros A. unfold interface_facet. rewrite (alike_one s s' a f A). unfold in_segment. now rewrite (al_view _ _ A). Qed.
Lemma alike_two (s s' : sstate Pt) a : alike s s' -> two_cells cfg s a -> two_cells cfg s' a.
Proof.
  intros [A B C D] T f n H. apply (T f n). unfold cell_count_of, in_segment in *. destruct H as (l & X & E). exists l. split; auto.
  rewrite A in X. eapply lists_exactly_iff; [|exact X]. intros x. cbn. now rewrite C.
Qed.

(** ** Step 1 *)
Lemma boundary_fold a l : forall (s : sstate Pt) set, sreach cfg s -> is_segment s a -> two_cells cfg s a ->
  (forall f, In f l -> in_segment s a (facet_tag (cfg_cell cfg)) f) ->
  exists s' set', ofold (fun (r : sstate Pt * list addr) f =>
      let '(s, set) := r in
      option_map (fun (kr : content * bool) => (set_con s a (fst kr), if snd kr then f :: set else set))
        (seg_bnd cfg (facet_tag (cfg_cell cfg)) (st_mesh s) (st_con s a) f)) l (s, set) = Some (s', set') /\
    sreach cfg s' /\ alike s s' /\ forall f, In f set' <-> In f set \/ (In f l /\ on_one_cell_of cfg s a f).
Proof.
  induction l as [|f l IH]; intros s set R Ha T HL; cbn [ofold].
  - exists s, set. split; auto. split; auto. split; [apply alike_refl|]. intros f. simpl. tauto.
  - destruct (C46_boundary_pf Pt cfg s a (facet_tag (cfg_cell cfg)) f NH R Ha (HL f (or_introl eq_refl)) (or_introl eq_refl) T) as (k & r & E & V & X).
    rewrite E. cbn [option_map obind fst snd].
    assert (V1 : valid_sop cfg s (SBnd a (facet_tag (cfg_cell cfg)) f)) by (split; [auto|split; [apply HL; now left|now left]]).
    assert (E1 : sstep cfg s (SBnd a (facet_tag (cfg_cell cfg)) f) = Some (set_con s a k)) by (cbn [sstep]; now rewrite E).
    assert (CC : k_cc k = k_cc (st_con s a)).
    { unfold seg_bnd in E. destruct (seg_q _ _) as [q|]; [|discriminate]. cbn in E. destruct (query_bnd_in _ _ _ _ _); [|discriminate].
      cbn in E. inversion E; subst. reflexivity. }
    assert (A : alike s (set_con s a k)).
    { constructor; auto; intros b; cbn; unfold upd_con; destruct (Nat.eqb_spec a b) as [<-|]; auto. }
    assert (R1 : sreach cfg (set_con s a k)) by (eapply sr_step; eauto).
    destruct (IH (set_con s a k) (if r then f :: set else set) R1) as (s' & set' & E' & R' & A' & X').
    { exact Ha. }
    { eapply alike_two; eauto. }
    { intros g Hg. unfold in_segment. rewrite (al_view _ _ A). apply HL. now right. }
    exists s', set'. split; auto. split; auto. split; [eapply alike_trans; eauto|].
    intros g. rewrite X', (alike_one s _ a g A). unfold on_boundary_of in X. rewrite tag_eqb_refl in X. simpl. destruct r.
    + simpl. assert (O : on_one_cell_of cfg s a f) by now apply X. split.
      * intros [[<-|H]|[H1 H2]]; auto.
      * intros [H|[[<-|H1] H2]]; auto.
    + split; [intros [H|[H1 H2]]; auto|]. intros [H|[[<-|H1] H2]]; auto. apply X in H2. discriminate.
Qed.

(** ** Step 2 *)
Lemma mark_spec (m : mesh) ft set l : forall d, (forall f, In f l -> is_live m ft f) ->
  exists d', mark_facets m ft set l d = Some d' /\
    forall i, flag_get d' i = true <-> flag_get d i = true \/ exists f, In f l /\ In f set /\ id_at m ft f = Some i.
Proof.
  induction l as [|f l IH]; intros d HL; unfold mark_facets; cbn [ofold].
  - exists d. split; auto. intros i. split; auto. intros [H|(f & [] & _)]; auto.
  - destruct (HL f (or_introl eq_refl)) as (e & D). rewrite D. cbn [option_map obind].
    destruct (IH (if existsb (Nat.eqb f) set then flag_set d (e_id e) true else d)) as (d' & E & X).
    { intros; apply HL; now right. }
    exists d'. split; [exact E|]. intros i. rewrite X.
    assert (Hi : id_at m ft f = Some (e_id e)) by (apply id_at_deref; eauto).
    destruct (existsb (Nat.eqb f) set) eqn:B.
    + rewrite flag_get_set. apply existsb_nat in B. destruct (Nat.eqb_spec i (e_id e)) as [->|N].
      * split; auto. intros _. right. exists f. split; [now left|auto].
      * split; [intros [H|(g & H1 & H2 & H3)]; auto; right; exists g; split; [now right|auto]|].
        intros [H|(g & [<-|H1] & H2 & H3)]; auto; [congruence|]. right. eauto.
    + split; [intros [H|(g & H1 & H2 & H3)]; auto; right; exists g; split; [now right|auto]|].
      intros [H|(g & [<-|H1] & H2 & H3)]; auto; [|right; eauto]. exfalso.
      assert (existsb (Nat.eqb f) set = true); [|congruence]. apply existsb_exists. exists f. split; auto. apply Nat.eqb_refl.
Qed.

(** ** Transfer to the other types *)
Lemma write_fold (m : mesh) t v l : forall d, (forall x, In x l -> is_live m t x) ->
  exists d', ofold (fun d x => option_map (fun e => flag_set d (e_id e) v) (deref m t x)) l d = Some d' /\
    forall i, (forall x, In x l -> id_at m t x <> Some i) /\ flag_get d' i = flag_get d i \/
              (exists x, In x l /\ id_at m t x = Some i) /\ flag_get d' i = v.
Proof.
  induction l as [|x l IH]; intros d HL; cbn [ofold].
  - exists d. split; [reflexivity|]. intros i. left. split; auto.
  - destruct (HL x (or_introl eq_refl)) as (e & D). rewrite D. cbn [option_map obind].
    destruct (IH (flag_set d (e_id e) v)) as (d' & E & X).
    { intros; apply HL; now right. }
    exists d'. split; [exact E|]. intros i. assert (Hi : id_at m t x = Some (e_id e)) by (apply id_at_deref; eauto).
    destruct (X i) as [[N G]|[(y & Hy & Iy) G]].
    + rewrite flag_get_set in G. destruct (Nat.eqb_spec i (e_id e)) as [->|Ne].
      * right. split; auto. exists x. split; [now left|auto].
      * left. split; auto. intros y [<-|Hy]; auto. congruence.
    + right. split; auto. exists y. split; [now right|auto].
Qed.

Lemma transfer_spec (m : mesh) ft t v src d : wf cfg m -> (forall t x, In x (v t) -> is_live m t x) ->
  exists d', transfer_iface m ft t v src d = Some d' /\
    forall i, flag_get d' i = true <->
      (flag_get d i = true /\ forall x, In x (v t) -> id_at m t x <> Some i) \/
      exists f j x, In f (v ft) /\ id_at m ft f = Some j /\ flag_get src j = true /\ bounded_by m ft f t x /\ id_at m t x = Some i.
Proof.
  intros W L. unfold transfer_iface. destruct (write_fold m t false (v t) d (L t)) as (d0 & -> & X0). cbn [obind].
  assert (G : forall l d0, (forall f, In f l -> In f (v ft)) -> exists d', ofold (fun d f => obind (deref m ft f) (fun e =>
      if flag_get src (e_id e)
      then ofold (fun d x => option_map (fun e' => flag_set d (e_id e') true) (deref m t x)) (boundary_of e t) d
      else Some d)) l d0 = Some d' /\ forall i, flag_get d' i = true <-> flag_get d0 i = true \/
      exists f j x, In f l /\ id_at m ft f = Some j /\ flag_get src j = true /\ bounded_by m ft f t x /\ id_at m t x = Some i).
  { clear X0 d0. induction l as [|f l IH]; intros d0 HL; cbn [ofold].
    - exists d0. split; auto. intros i. split; auto. intros [H|(f & j & x & [] & _)]; auto.
    - destruct (L ft f (HL f (or_introl eq_refl))) as (e & D). rewrite D. cbn [obind].
      assert (Hi : id_at m ft f = Some (e_id e)) by (apply id_at_deref; eauto).
      destruct (flag_get src (e_id e)) eqn:FS.
      + destruct (write_fold m t true (boundary_of e t) d0) as (d1 & -> & X1).
        { intros x Hx. apply (bounded_right_live cfg m ft f t x); auto. exists e. auto. }
        cbn [obind]. destruct (IH d1) as (d' & E & X). { intros; apply HL; now right. }
        exists d'. split; auto. intros i. rewrite X. split.
        * intros [H|(g & j & x & H1 & H2)]; [|right; exists g, j, x; split; [now right|auto]].
          destruct (X1 i) as [[_ Q]|[(x & Hx & Ix) _]]; [left; congruence|]. right. exists f, (e_id e), x.
          split; [now left|]. split; auto. split; auto. split; auto. exists e. auto.
        * intros [H|(g & j & x & [<-|H1] & H2 & H3 & H4 & H5)].
          -- left. destruct (X1 i) as [[_ Q]|[_ Q]]; congruence.
          -- left. destruct (X1 i) as [[Q _]|[_ Q]]; auto. exfalso. apply (Q x); auto. destruct H4 as (e' & D' & B).
             assert (e' = e) by congruence. now subst.
          -- right. exists g, j, x. auto.
      + cbn [obind]. destruct (IH d0) as (d' & E & X). { intros; apply HL; now right. }
        exists d'. split; auto. intros i. rewrite X. split.
        * intros [H|(g & j & x & H1 & H2)]; auto. right. exists g, j, x. split; [now right|auto].
        * intros [H|(g & j & x & [<-|H1] & H2 & H3 & H4 & H5)]; auto; [congruence|]. right. exists g, j, x. auto. }
  destruct (G (v ft) d0 (fun f H => H)) as (d' & E & X). exists d'. split; auto. intros i. rewrite X.
  destruct (X0 i) as [[N Q]|[(x & Hx & Ix) Q]]; rewrite Q.
  - split; intros [H|H]; auto. left. tauto.
  - split; [intros [H|H]; [discriminate|auto]|]. intros [[_ H]|H]; auto. now apply H in Ix.
Qed.

(** ** One detection *)
Definition itypes : list tag := facet_tag (cfg_cell cfg) :: bnd_types cfg.

Lemma bnd_not_facet t : In t (bnd_types cfg) -> t <> facet_tag (cfg_cell cfg).
Proof. intros H ->. unfold bnd_types in H. apply filter_In in H as [_ H]. apply andb_true_iff in H as [H _]. apply Nat.ltb_lt in H. lia. Qed.

(** Flags of a lower type, from the flags [src] of the facets. *)
Definition lower_spec (s : sstate Pt) (a b : nat) (src d d' : list bool) (t : tag) : Prop :=
  let ft := facet_tag (cfg_cell cfg) in
  (forall f j x i, in_segment s b ft f -> id_at (st_mesh s) ft f = Some j -> flag_get src j = true ->
     bounded_by (st_mesh s) ft f t x -> id_at (st_mesh s) t x = Some i -> flag_get d' i = true) /\
  (forall i, flag_get d' i = true -> flag_get d i = true \/
     exists f j x, id_at (st_mesh s) ft f = Some j /\ flag_get src j = true /\ bounded_by (st_mesh s) ft f t x /\ id_at (st_mesh s) t x = Some i).

Lemma types_fold (s : sstate Pt) a b k ts : sreach cfg s -> is_segment s a -> is_segment s b ->
  forall fl, (forall t, In t ts -> t <> facet_tag (cfg_cell cfg)) ->
  exists fl', ofold (set_interface_type s (facet_tag (cfg_cell cfg)) a b k) ts fl = Some fl' /\
    (forall t k', k' <> k \/ ~ In t ts -> fl' t k' = fl t k') /\
    (forall t, In t ts -> if_c0 (fl' t k) = k_cc (st_con s a) /\ if_c1 (fl' t k) = k_cc (st_con s b)) /\
    (forall t, In t ts -> lower_spec s a b (if_data (fl (facet_tag (cfg_cell cfg)) k)) (if_data (fl t k)) (if_data (fl' t k)) t).
Proof.
  intros R Ha Hb. pose proof (sreach_inv cfg NH s R) as I. pose proof (md_wf _ _ (si_mid _ _ I)) as W.
  assert (LV : forall c, is_segment s c -> forall t x, In x (k_view (st_con s c) t) -> is_live (st_mesh s) t x).
  { intros c Hc t x Hx. destruct (seg_of cfg s c I Hc) as (z & nm & Hz & _). destruct (si_con cfg s I c z Hz) as ([G _ _] & _).
    now apply (good_all_live _ _ G). }
  set (ft := facet_tag (cfg_cell cfg)).
  induction ts as [|t ts IH]; intros fl HT; cbn [ofold].
  - exists fl. split; auto. split; auto. split; intros t [].
  - unfold set_interface_type at 1.
    destruct (transfer_spec (st_mesh s) ft t (k_view (st_con s a)) (if_data (fl ft k)) (if_data (fl t k)) W (LV a Ha)) as (d1 & -> & X1). cbn [obind].
    destruct (transfer_spec (st_mesh s) ft t (k_view (st_con s b)) (if_data (fl ft k)) d1 W (LV b Hb)) as (d2 & -> & X2). cbn [obind option_map].
    assert (L2 : lower_spec s a b (if_data (fl ft k)) (if_data (fl t k)) d2 t).
    { split.
      - intros f j x i H1 H2 H3 H4 H5. apply X2. right. exists f, j, x. auto.
      - intros i H. apply X2 in H as [[H _]|(f & j & x & _ & H)]; [|right; exists f, j, x; auto].
        apply X1 in H as [[H _]|(f & j & x & _ & H)]; [auto|right; exists f, j, x; auto]. }
    set (fl1 := set_iface fl t k (mkIf (k_cc (st_con s a)) (k_cc (st_con s b)) d2)).
    destruct (IH fl1) as (fl' & E & O & C & L).
    { intros; apply HT; now right. }
    assert (F1 : fl1 ft k = fl ft k). { apply set_iface_other. left. intros Q. apply (HT t); [now left|auto]. }
    exists fl'. split; auto. split; [|split].
    + intros t' k' H. rewrite O.
      * apply set_iface_other. destruct H as [H|H]; auto. left. intros ->. apply H. now left.
      * destruct H as [H|H]; auto. right. intros Q. apply H. now right.
    + intros t' Ht. destruct (in_dec tag_eq_dec t' ts) as [Hin|Hn]; [now apply C|]. destruct Ht as [<-|Ht]; [|contradiction].
      rewrite O by auto. unfold fl1. now rewrite set_iface_same.
    + intros t' Ht. destruct (in_dec tag_eq_dec t' ts) as [Hin|Hn].
      * specialize (L t' Hin). rewrite F1 in L. destruct L as [La Lb]. split; [exact La|].
        intros i H. apply Lb in H as [H|H]; auto. unfold fl1 in H. destruct (tag_eq_dec t' t) as [->|N].
        -- rewrite set_iface_same in H. cbn [if_data] in H. now apply L2.
        -- rewrite set_iface_other in H by auto. auto.
      * destruct Ht as [<-|Ht]; [|contradiction]. rewrite (O t k) by auto. unfold fl1. rewrite set_iface_same. exact L2.
Qed.

Record detected (s : sstate Pt) (a b : nat) (k : Z * Z) (fl fl' : iflags) : Prop := mkDet {
  dt_other : forall t k', k' <> k \/ ~ In t itypes -> fl' t k' = fl t k';
  dt_count : forall t, In t itypes -> if_c0 (fl' t k) = k_cc (st_con s a) /\ if_c1 (fl' t k) = k_cc (st_con s b);
  dt_facet : forall i, flag_get (if_data (fl' (facet_tag (cfg_cell cfg)) k)) i = true <->
     flag_get (if_data (fl (facet_tag (cfg_cell cfg)) k)) i = true \/
     exists f, interface_facet cfg s a b f /\ id_at (st_mesh s) (facet_tag (cfg_cell cfg)) f = Some i;
  dt_lower : forall t, In t (bnd_types cfg) ->
     lower_spec s a b (if_data (fl' (facet_tag (cfg_cell cfg)) k)) (if_data (fl t k)) (if_data (fl' t k)) t
}.

Lemma one_cell_member (s : sstate Pt) a f : sreach cfg s -> is_segment s a -> on_one_cell_of cfg s a f ->
  in_segment s a (facet_tag (cfg_cell cfg)) f.
Proof.
  intros R Ha (c & H). destruct (proj2 (H c) eq_refl) as [Hc B].
  destruct (C20_closure_pf Pt cfg s a NH R Ha) as (C & _). eapply C; eauto.
Qed.

Lemma detect_spec a b k (S : istate Pt) : sreach cfg (is_seg S) -> is_segment (is_seg S) a -> is_segment (is_seg S) b ->
  two_cells cfg (is_seg S) a ->
  exists S', detect_interface cfg a b k S = Some S' /\ sreach cfg (is_seg S') /\ alike (is_seg S) (is_seg S') /\
    detected (is_seg S) a b k (is_flags S) (is_flags S').
Proof.
  intros R Ha Hb T. unfold detect_interface, boundary_facets. set (ft := facet_tag (cfg_cell cfg)).
  destruct (boundary_fold a (k_view (st_con (is_seg S) a) ft) (is_seg S) [] R Ha T) as (s & set & E1 & R1 & A & X1); [auto|].
  fold ft in E1. rewrite E1. cbn [obind].
  assert (Ha1 : is_segment s a) by (unfold is_segment; rewrite (al_segs _ _ A); auto).
  assert (Hb1 : is_segment s b) by (unfold is_segment; rewrite (al_segs _ _ A); auto).
  destruct (C20_closure_pf Pt cfg (is_seg S) b NH R Hb) as (_ & Gb & _).
  destruct (mark_spec (st_mesh s) ft set (k_view (st_con s b) ft) (if_data (is_flags S ft k))) as (d & -> & X2).
  { intros f Hf. rewrite (al_view _ _ A) in Hf. rewrite (al_mesh _ _ A). now apply (good_all_live _ _ Gb). }
  cbn [obind]. set (fl1 := set_iface (is_flags S) ft k _).
  assert (F1 : if_data (fl1 ft k) = d) by (unfold fl1; now rewrite set_iface_same).
  destruct (types_fold s a b k (bnd_types cfg) R1 Ha1 Hb1 fl1 bnd_not_facet) as (fl2 & E2 & O & C & L). fold ft in E2, L. rewrite E2. cbn [option_map].
  assert (NF : ~ In ft (bnd_types cfg)) by (intros H; now apply bnd_not_facet in H).
  assert (F2 : fl2 ft k = fl1 ft k) by (apply O; auto).
  eexists. split; [reflexivity|]. cbn [is_seg is_flags]. split; auto. split; auto. constructor.
  - intros t k' H. fold ft. rewrite set_iface_other.
    + rewrite O by (destruct H as [H|H]; auto; right; intros Q; apply H; now right). unfold fl1. apply set_iface_other.
      destruct H as [H|H]; auto. left. intros ->. apply H. now left.
    + destruct H as [H|H]; auto. left. intros ->. apply H. now left.
  - intros t Ht. destruct Ht as [<-|Ht].
    + fold ft. rewrite set_iface_same. cbn. now rewrite !(al_cc _ _ A).
    + rewrite set_iface_other by (left; now apply bnd_not_facet). rewrite <- !(al_cc _ _ A). now apply C.
  - intros i. fold ft. rewrite set_iface_same. cbn [if_data]. rewrite F2, F1, X2. rewrite (al_mesh _ _ A), (al_view _ _ A).
    split; intros [H|(f & H)]; auto; right; exists f.
    + destruct H as (H1 & H2 & H3). split; auto. apply X1 in H2 as [[]|[_ H2]]. split; auto.
    + destruct H as ((H1 & H2) & H3). split; auto. split; auto. apply X1. right. split; auto. now apply one_cell_member.
  - intros t Ht. fold ft. rewrite set_iface_same. cbn [if_data]. rewrite set_iface_other by (left; now apply bnd_not_facet).
    specialize (L t Ht). rewrite F2. replace (fl1 t k) with (is_flags S t k) in L.
    + unfold lower_spec in *. fold ft in L |- *. rewrite (al_mesh _ _ A) in L. unfold in_segment in *. rewrite (al_view _ _ A) in L. exact L.
    + symmetry. apply set_iface_other. left. now apply bnd_not_facet.
Qed.

End InterfaceBase.
