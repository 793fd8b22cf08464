(** Adding elements to segments and erasing them. *)
From Coq Require Import List Arith ZArith Bool Lia Permutation Sorted.
From Verif Require Import ModelTopo ModelMesh ModelErase ModelAccessor ModelQuery ModelView ModelSegmentation ModelSegment
  SpecMesh SpecErase SpecQuery SpecView SpecSegmentation SpecSegment
  MeshBase MeshInv MeshIds MeshReach MeshProofs MeshWf MeshErase MeshSimple AccessorProofs QueryBase QueryBnd QueryMono ViewBase
  SegmentationBase SegmentView.
Import ModelSegmentation ListNotations.
Open Scope nat_scope.

Section SegmentBase.
Context {Pt : Type}.
Notation mesh := (@mesh Pt).
Notation element := (@element Pt).
Notation node := (@node Pt).
Variable cfg : config.

(** Segment id [z] is in the list of the element of type [t] with id [i]. *)
Definition recorded (M : tag -> list (list Z)) (t : tag) (i : nat) (z : Z) : Prop :=
  exists info, nth_error (M t) i = Some info /\ In z info.

Record mid (s : sstate Pt) : Prop := mkMid {
  md_wf : wf cfg (st_mesh s);
  md_infos : forall t i info, nth_error (st_map s t) i = Some info -> NoDup info;
  md_good : good_view (st_mesh s) (st_all s);
  md_all : forall t x i, id_at (st_mesh s) t x = Some i -> (In x (st_all s t) <-> exists z, recorded (st_map s) t i z)
}.

Lemma info_add_spec z info info' b : info_add z info = (info', b) -> NoDup info ->
  NoDup info' /\ (forall y, In y info' <-> y = z \/ In y info) /\ (b = false <-> In z info).
Proof.
  unfold info_add. destruct (existsb (Z.eqb z) info) eqn:E; intros H ND; inversion H; subst.
  - apply existsb_exists in E as (x & Hx & E). apply Z.eqb_eq in E. subst x. split; auto. split; [intros y; intuition; now subst|tauto].
  - assert (N : ~ In z info).
    { intros Hz. assert (existsb (Z.eqb z) info = true) by (apply existsb_exists; exists z; split; auto; apply Z.eqb_refl). congruence. }
    split; [now apply NoDup_snoc|]. split; [intros y; rewrite in_app_iff; simpl; intuition|]. split; [discriminate|tauto].
Qed.

Lemma info_erase_spec z info : forall info' b, info_erase z info = (info', b) -> NoDup info ->
  NoDup info' /\ (forall y, In y info' <-> y <> z /\ In y info) /\ (b = true <-> In z info).
Proof.
  induction info as [|x r IH]; simpl; intros info' b H ND.
  - inversion H; subst. split; auto. split; [intros; simpl; tauto|]. split; [discriminate|easy].
  - inversion ND as [|? ? N1 N2]; subst. destruct (Z.eqb_spec x z) as [->|N].
    + inversion H; subst. split; auto. split; [|split; auto]. intros y. split; [intros Hy; split; auto; congruence|].
      intros [A [B|B]]; auto. congruence.
    + destruct (info_erase z r) as [r' b'] eqn:E. inversion H; subst. destruct (IH r' b eq_refl N2) as (A & B & C). split.
      * constructor; auto. rewrite B. tauto.
      * split; [|rewrite C; intuition]. intros y. simpl. rewrite B. intuition congruence.
Qed.

(** Writing the list of one element. *)
Lemma recorded_set (M : tag -> list (list Z)) t i info' t' j :
  nth_error (upd M t (list_set (dense_grow [] (M t) i) i info') t') j =
  if tag_eq_dec t t' then (if j =? i then Some info' else nth_error (dense_grow [] (M t) i) j) else nth_error (M t') j.
Proof.
  rewrite upd_spec. destruct (tag_eq_dec t t') as [<-|]; auto. rewrite list_set_nth, grow_len.
  destruct (Nat.eqb_spec j i) as [->|]; simpl; auto. destruct (Nat.ltb_spec i (Nat.max (length (M t)) (i + 1))); [auto|lia].
Qed.

Lemma grow_recorded (M : tag -> list (list Z)) t i j z :
  (exists info, nth_error (dense_grow [] (M t) i) j = Some info /\ In z info) <-> recorded M t j z.
Proof.
  unfold recorded. split; intros (info & E & H).
  - rewrite grow_nth in E. destruct (Nat.ltb_spec j (length (M t))); [eauto|]. destruct (j <=? i); inversion E; subst; easy.
  - exists info. split; auto. rewrite grow_nth. pose proof (nth_error_lt _ _ _ E). destruct (Nat.ltb_spec j (length (M t))); [auto|lia].
Qed.

Lemma grow_info (M : tag -> list (list Z)) t i : exists info, nth_error (dense_grow [] (M t) i) i = Some info /\
  forall z, In z info <-> recorded M t i z.
Proof.
  destruct (nth_error (dense_grow [] (M t) i) i) as [info|] eqn:E.
  - exists info. split; auto. intros z. rewrite <- grow_recorded with (i := i). rewrite E. split; [eauto|]. intros (x & Ex & H). congruence.
  - apply nth_error_None in E. rewrite grow_len in E. lia.
Qed.

Lemma grow_infos (M : tag -> list (list Z)) t i j info : (forall t i info, nth_error (M t) i = Some info -> NoDup info) ->
  nth_error (dense_grow [] (M t) i) j = Some info -> NoDup info.
Proof.
  intros H. rewrite grow_nth. destruct (_ <? _); [apply H|]. destruct (_ <=? _); intros E; inversion E; subst. constructor.
Qed.

Lemma recorded_write (M : tag -> list (list Z)) t i info' t' j z :
  recorded (upd M t (list_set (dense_grow [] (M t) i) i info')) t' j z <->
  (t = t' /\ i = j /\ In z info') \/ (~ (t = t' /\ i = j) /\ recorded M t' j z).
Proof.
  unfold recorded at 1. rewrite recorded_set. destruct (tag_eq_dec t t') as [<-|N].
  - destruct (Nat.eqb_spec j i) as [->|N].
    + split.
      * intros (x & E & H). inversion E; subst. auto.
      * intros [(_ & _ & H)|(H & _)]; [eauto|tauto].
    + rewrite grow_recorded. split; [right; split; auto; intros (_ & E); congruence|intros [(_ & E & _)|[_ H]]; [congruence|auto]].
  - change (exists info, nth_error (M t') j = Some info /\ In z info) with (recorded M t' j z). intuition.
Qed.

(** ** Adding *)
Record added (a : nat) (z : Z) (L : list (tag * addr)) (s s' : sstate Pt) : Prop := mkAdded {
  ad_mesh : st_mesh s' = st_mesh s;
  ad_segs : st_segs s' = st_segs s;
  ad_other : forall b, b <> a -> st_con s' b = st_con s b;
  ad_good : good_view (st_mesh s) (k_view (st_con s' a));
  ad_view : forall t x, In x (k_view (st_con s' a) t) <-> In x (k_view (st_con s a) t) \/ In (t, x) L;
  ad_cc : k_cc (st_con s a) <= k_cc (st_con s' a);
  ad_same : k_cc (st_con s' a) = k_cc (st_con s a) ->
     forall t x i, In (t, x) L -> id_at (st_mesh s) t x = Some i -> recorded (st_map s) t i z;
  ad_link : k_linked (st_con s' a) = k_linked (st_con s a);
  ad_cob : k_cob (st_con s' a) = k_cob (st_con s a);
  ad_nb : k_nb (st_con s' a) = k_nb (st_con s a);
  ad_bnd : k_bnd (st_con s' a) = k_bnd (st_con s a);
  ad_map : forall t i y, recorded (st_map s') t i y <->
     recorded (st_map s) t i y \/ (y = z /\ exists x, In (t, x) L /\ id_at (st_mesh s) t x = Some i)
}.

Lemma simple_add_spec a z nm t h (s : sstate Pt) : mid s -> find_seg a (g_segs (st_segs s)) = Some (mkSeg z nm) ->
  good_view (st_mesh s) (k_view (st_con s a)) -> is_live (st_mesh s) t h ->
  exists s', simple_add a s (t, h) = Some s' /\ mid s' /\ added a z [(t, h)] s s'.
Proof.
  intros M F G L. destruct M as [W I AG AL]. unfold simple_add. rewrite F. cbn [obind].
  destruct (view_insert_spec cfg (st_mesh s) t (k_view (st_con s a)) h W L G) as (v & Ev & Gv & Xv).
  destruct (view_insert_spec cfg (st_mesh s) t (st_all s) h W L AG) as (all & Ea & Ga & Xa).
  destruct L as (e & D). rewrite D, Ev, Ea. cbn [obind].
  assert (Ih : id_at (st_mesh s) t h = Some (e_id e)) by (apply id_at_deref; eauto).
  destruct (grow_info (st_map s) t (e_id e)) as (info & Ei & Xi). rewrite Ei. cbn [obind].
  destruct (info_add (s_id (mkSeg z nm)) info) as [info' new] eqn:EA. cbn [s_id] in EA.
  destruct (info_add_spec z info info' new EA) as (ND & XA & B).
  { eapply grow_infos; eauto. }
  assert (RW : forall t' i y, recorded (upd (st_map s) t (list_set (dense_grow [] (st_map s t) (e_id e)) (e_id e) info')) t' i y <->
     recorded (st_map s) t' i y \/ (y = z /\ exists x, In (t', x) [(t, h)] /\ id_at (st_mesh s) t' x = Some i)).
  { intros t' i y. rewrite recorded_write, XA. split.
    - intros [(<- & <- & [->|H])|(_ & H)]; auto.
      + right. split; auto. exists h. split; [now left|auto].
      + left. now apply Xi.
    - intros [H|(-> & x & [E|[]] & Hx)].
      + destruct (tag_eq_dec t t') as [<-|N]; [destruct (Nat.eq_dec (e_id e) i) as [<-|N]|]; [|right; tauto..].
        left. split; auto. split; auto. right. now apply Xi.
      + inversion E; subst. left. split; auto. rewrite Ih in Hx. inversion Hx. auto. }
  eexists. split; [reflexivity|]. split.
  - constructor; cbn [st_mesh st_map st_all]; auto.
    + intros t' j info0. rewrite recorded_set. destruct (tag_eq_dec t t') as [<-|N]; [|apply I].
      destruct (j =? e_id e); [intros E; inversion E; subst; auto|]. eapply grow_infos; eauto.
    + intros t' x i Hx. rewrite Xa, (AL t' x i Hx). setoid_rewrite RW. split.
      * intros [(-> & ->)|(y & H)]; [|eauto]. exists z. right. split; auto. exists h. split; [now left|auto].
      * intros (y & [H|(-> & x' & [E|[]] & Hx')]); [eauto|]. inversion E; subst. left. split; auto.
        eapply (id_at_inj cfg); eauto.
  - constructor; cbn [st_mesh st_segs st_con st_map]; auto; unfold upd_con; rewrite ?Nat.eqb_refl; cbn [bump with_view k_view k_cc k_linked k_cob k_nb k_bnd]; auto.
    + intros b Hb. destruct (Nat.eqb_spec a b); [congruence|auto].
    + intros t' x. rewrite Xv. simpl. intuition congruence.
    + lia.
    + intros E t' x i [H|[]] Hi. inversion H; subst. rewrite Ih in Hi. inversion Hi; subst. apply Xi, B. destruct new; auto; lia.
Qed.

Lemma added_refl a z (s : sstate Pt) : good_view (st_mesh s) (k_view (st_con s a)) -> added a z [] s s.
Proof. intros G. constructor; auto; simpl; try tauto. intros t i y. split; auto. intros [H|(_ & x & [] & _)]; auto. Qed.

Lemma added_trans a z L1 L2 (s1 s2 s3 : sstate Pt) : added a z L1 s1 s2 -> added a z L2 s2 s3 -> added a z (L1 ++ L2) s1 s3.
Proof.
  intros [A1 A2 A3 A4 A5 A6 A7 A8 A9 A10 A11 A12] [B1 B2 B3 B4 B5 B6 B7 B8 B9 B10 B11 B12]. constructor; try congruence.
  - intros b Hb. rewrite B3, A3; auto.
  - now rewrite <- A1.
  - intros t x. rewrite B5, A5, in_app_iff. tauto.
  - lia.
  - intros E t x i H Hi. apply in_app_iff in H as [H|H].
    + apply (A7 ltac:(lia) t x i); auto.
    + assert (Hi' : id_at (st_mesh s2) t x = Some i) by congruence.
      specialize (B7 ltac:(lia) t x i H Hi'). apply A12 in B7 as [B7|(_ & x' & H' & Hi2)]; auto. apply (A7 ltac:(lia) t x' i); auto.
  - intros t i y. rewrite B12, A12, A1. split.
    + intros [[H|(-> & x & H & Hi)]|(-> & x & H & Hi)]; auto; right; split; auto; exists x; split; auto; apply in_app_iff; auto.
    + intros [H|(-> & x & H & Hi)]; auto. apply in_app_iff in H as [H|H]; [left; right|right]; eauto.
Qed.

Lemma adds_spec a z nm L : forall (s : sstate Pt), mid s -> find_seg a (g_segs (st_segs s)) = Some (mkSeg z nm) ->
  good_view (st_mesh s) (k_view (st_con s a)) -> (forall t h, In (t, h) L -> is_live (st_mesh s) t h) ->
  exists s', ofold (simple_add a) L s = Some s' /\ mid s' /\ added a z L s s'.
Proof.
  induction L as [|[t h] L IH]; intros s M F G HL; cbn [ofold].
  - exists s. split; auto. split; auto. now apply added_refl.
  - destruct (simple_add_spec a z nm t h s M F G (HL t h (or_introl eq_refl))) as (s1 & -> & M1 & A1). cbn [obind].
    assert (A1' := A1). destruct A1' as [X1 X2 _ X4 _].
    destruct (IH s1) as (s2 & -> & M2 & A2); auto; rewrite ?X1, ?X2; auto.
    { intros; apply HL; now right. }
    exists s2. split; auto. split; auto. now apply (added_trans a z [(t, h)] L s s1 s2).
Qed.

Lemma boundary_handles_In (m : mesh) t h e bt b : wf cfg m -> deref m t h = Some e ->
  (In (bt, b) (boundary_handles e) <-> bounded_by m t h bt b).
Proof.
  intros W D. unfold boundary_handles. rewrite in_flat_map. split.
  - intros (t' & Ht & H). apply in_map_iff in H as (x & E & H). inversion E; subst. exists e. auto.
  - intros B. assert (B' := B). destruct B as (e' & D' & B). assert (e' = e) by congruence. subst e'.
    pose proof (bounded_dim cfg m t h bt b W B') as X.
    exists bt. split; [|apply in_map_iff; exists b; auto]. destruct bt; simpl; auto 10; destruct t; simpl in X; lia.
Qed.

(** The set of the element and its boundary. *)
Definition parts (e : element) (t : tag) (h : addr) : list (tag * addr) := (t, h) :: boundary_handles e.

Lemma parts_In (m : mesh) t h e bt b : wf cfg m -> deref m t h = Some e -> (In (bt, b) (parts e t h) <-> part_of m bt b t h).
Proof.
  intros W D. unfold parts, part_of. simpl. rewrite (boundary_handles_In m t h e bt b W D). intuition congruence.
Qed.

Lemma bounded_right_live (m : mesh) t h bt b : wf cfg m -> bounded_by m t h bt b -> is_live m bt b.
Proof.
  intros W (e & D & B). apply deref_In in D as (n & Hn & _ & <-). apply live_is_live. eapply boundary_live; eauto.
Qed.

Lemma seg_add_spec a z nm t h (s : sstate Pt) : mid s -> find_seg a (g_segs (st_segs s)) = Some (mkSeg z nm) ->
  good_view (st_mesh s) (k_view (st_con s a)) -> is_live (st_mesh s) t h ->
  exists s' L, seg_add a t h s = Some s' /\ mid s' /\ added a z L s s' /\ forall bt b, In (bt, b) L <-> part_of (st_mesh s) bt b t h.
Proof.
  intros M F G HL. unfold seg_add. destruct (simple_add_spec a z nm t h s M F G HL) as (s1 & -> & M1 & A1). cbn [obind].
  assert (A1' := A1). destruct A1' as [X1 X2 _ X4 _]. pose proof (md_wf s M) as W. destruct HL as (e & D). rewrite X1, D. cbn [obind].
  destruct (adds_spec a z nm (boundary_handles e) s1 M1) as (s2 & E2 & M2 & A2); rewrite ?X1, ?X2; auto.
  { intros bt b H. apply (boundary_handles_In (st_mesh s) t h e) in H; auto. eapply bounded_right_live; eauto. }
  exists s2, (parts e t h). split; auto. split; auto. split.
  - apply (added_trans a z [(t, h)] (boundary_handles e) s s1 s2); auto.
  - intros bt b. now apply parts_In.
Qed.

(** ** Erasing *)
Record erased (a : nat) (z : Z) (L : list (tag * addr)) (s s' : sstate Pt) : Prop := mkErased {
  er_mesh : st_mesh s' = st_mesh s;
  er_segs : st_segs s' = st_segs s;
  er_other : forall b, b <> a -> st_con s' b = st_con s b;
  er_good : good_view (st_mesh s) (k_view (st_con s' a));
  er_view : forall t x, In x (k_view (st_con s' a) t) <-> In x (k_view (st_con s a) t) /\ ~ In (t, x) L;
  er_cc : k_cc (st_con s a) <= k_cc (st_con s' a);
  er_same : k_cc (st_con s' a) = k_cc (st_con s a) ->
     forall t x i, In (t, x) L -> id_at (st_mesh s) t x = Some i -> ~ recorded (st_map s) t i z;
  er_link : k_linked (st_con s' a) = k_linked (st_con s a);
  er_cob : k_cob (st_con s' a) = k_cob (st_con s a);
  er_nb : k_nb (st_con s' a) = k_nb (st_con s a);
  er_bnd : k_bnd (st_con s' a) = k_bnd (st_con s a);
  er_map : forall t i y, recorded (st_map s') t i y <->
     recorded (st_map s) t i y /\ ~ (y = z /\ exists x, In (t, x) L /\ id_at (st_mesh s) t x = Some i)
}.

Lemma seq_erase_increasing (m : mesh) t h v : id_increasing m t v ->
  id_increasing m t (seq_erase h v) /\ forall x, In x (seq_erase h v) <-> In x v /\ x <> h.
Proof.
  intros H. assert (ND := increasing_nodup m t v H). destruct H as (ids & F & S). revert S.
  induction F as [|x i v ids Hx F IH]; intros S; simpl.
  - split; [exists []; split; constructor|]. intros x. tauto.
  - inversion S as [|? ? S' FA]; subst. inversion ND as [|? ? N1 N2]; subst. destruct (IH N2 S') as ((ids' & F' & S2) & X).
    destruct (Nat.eqb_spec x h) as [->|N].
    + split; [exists ids; auto|]. intros y. split; [intros Hy; split; auto; congruence|]. intros [[?|?] ?]; [congruence|auto].
    + split.
      * exists (i :: ids'). split; [constructor; auto|]. constructor; auto. rewrite Forall_forall in *. intros j Hj.
        assert (exists y, In y (seq_erase h v) /\ id_at m t y = Some j) as (y & Hy & Iy).
        { clear -F' Hj. induction F' as [|p q l1 l2 Hp Fp IHp]; [easy|]. destruct Hj as [<-|Hj]; [exists p; split; [now left|auto]|].
          destruct (IHp Hj) as (y & ? & ?). exists y. split; auto. now right. }
        apply X in Hy as [Hy _]. destruct (increasing_In m t v ids y F Hy) as (j' & Hj' & Ij). assert (j = j') by congruence. subst. auto.
      * intros y. simpl. rewrite X. intuition congruence.
Qed.

Lemma view_erase_good (m : mesh) (v : tag -> list addr) t h : good_view m v -> good_view m (upd v t (seq_erase h (v t))) /\
  forall t' x, In x (upd v t (seq_erase h (v t)) t') <-> In x (v t') /\ ~ (t' = t /\ x = h).
Proof.
  intros G. destruct (seq_erase_increasing m t h (v t) (G t)) as (I & X). split.
  - intros t'. rewrite upd_spec. destruct (tag_eq_dec t t') as [<-|]; auto.
  - intros t' x. rewrite upd_spec. destruct (tag_eq_dec t t') as [<-|N]; [rewrite X; intuition|]. intuition congruence.
Qed.

Lemma simple_erase_spec a z nm t h (s : sstate Pt) : mid s -> find_seg a (g_segs (st_segs s)) = Some (mkSeg z nm) ->
  good_view (st_mesh s) (k_view (st_con s a)) -> is_live (st_mesh s) t h ->
  exists s', simple_erase a s (t, h) = Some s' /\ mid s' /\ erased a z [(t, h)] s s'.
Proof.
  intros M F G L. destruct M as [W I AG AL]. unfold simple_erase. rewrite F. cbn [obind].
  destruct (view_erase_good (st_mesh s) (k_view (st_con s a)) t h G) as (Gv & Xv).
  destruct (view_erase_good (st_mesh s) (st_all s) t h AG) as (Ga & Xa).
  destruct L as (e & D). rewrite D. cbn [obind].
  assert (Ih : id_at (st_mesh s) t h = Some (e_id e)) by (apply id_at_deref; eauto).
  destruct (grow_info (st_map s) t (e_id e)) as (info & Ei & Xi). rewrite Ei. cbn [obind].
  destruct (info_erase (s_id (mkSeg z nm)) info) as [info' new] eqn:EA. cbn [s_id] in EA.
  destruct (info_erase_spec z info info' new EA) as (ND & XA & B).
  { eapply grow_infos; eauto. }
  assert (RW : forall t' i y, recorded (upd (st_map s) t (list_set (dense_grow [] (st_map s t) (e_id e)) (e_id e) info')) t' i y <->
     recorded (st_map s) t' i y /\ ~ (y = z /\ exists x, In (t', x) [(t, h)] /\ id_at (st_mesh s) t' x = Some i)).
  { intros t' i y. rewrite recorded_write, XA. split.
    - intros [(<- & <- & H1 & H2)|(N & H)].
      + split; [now apply Xi|]. tauto.
      + split; auto. intros (-> & x & [E|[]] & Hx). inversion E; subst. apply N. split; auto. congruence.
    - intros [H N]. destruct (tag_eq_dec t t') as [<-|Nt]; [destruct (Nat.eq_dec (e_id e) i) as [<-|Ni]|]; [|right; tauto..].
      left. split; auto. split; auto. split; [|now apply Xi]. intros ->. apply N. split; auto. exists h. split; [now left|auto]. }
  eexists. split; [reflexivity|]. split.
  - constructor; cbn [st_mesh st_map st_all]; auto.
    + intros t' j info0. rewrite recorded_set. destruct (tag_eq_dec t t') as [<-|N]; [|apply I].
      destruct (j =? e_id e); [intros E; inversion E; subst; auto|]. eapply grow_infos; eauto.
    + destruct info'; auto.
    + intros t' x i Hx. setoid_rewrite recorded_write. destruct info' as [|y0 r].
      * rewrite Xa, (AL t' x i Hx). split.
        -- intros ((y & H) & N). exists y. right. split; auto. intros (<- & <-). apply N. split; auto. eapply (id_at_inj cfg); eauto.
        -- intros (y & [(_ & _ & [])|(N & H)]). split; [eauto|]. intros (-> & ->). apply N. split; auto. congruence.
      * rewrite (AL t' x i Hx). split.
        -- intros (y & H). destruct (tag_eq_dec t t') as [<-|Nt]; [destruct (Nat.eq_dec (e_id e) i) as [<-|Ni]|].
           ++ exists y0. left. split; auto. split; auto. now left.
           ++ exists y. right. split; auto. tauto.
           ++ exists y. right. split; auto. tauto.
        -- intros (y & [(<- & <- & H)|(N & H)]); [|eauto]. exists y0. apply Xi. apply XA. now left.
  - constructor; cbn [st_mesh st_segs st_con st_map]; auto; unfold upd_con; rewrite ?Nat.eqb_refl; cbn [bump with_view k_view k_cc k_linked k_cob k_nb k_bnd]; auto.
    + intros b Hb. destruct (Nat.eqb_spec a b); [congruence|auto].
    + intros t' x. rewrite Xv. simpl. split; (intros [A1 A2]; split; auto); [intros [E|[]]; inversion E; auto|intros [-> ->]; apply A2; now left].
    + lia.
    + intros E t' x i [H|[]] Hi. inversion H; subst. rewrite Ih in Hi. inversion Hi; subst. rewrite <- Xi, <- B. destruct new; [lia|discriminate].
Qed.

Lemma erased_refl a z (s : sstate Pt) : good_view (st_mesh s) (k_view (st_con s a)) -> erased a z [] s s.
Proof. intros G. constructor; auto; simpl; try tauto. intros t i y. split; [intros H; split; auto|tauto]. intros (_ & x & [] & _). Qed.

Lemma erased_trans a z L1 L2 (s1 s2 s3 : sstate Pt) : erased a z L1 s1 s2 -> erased a z L2 s2 s3 -> erased a z (L1 ++ L2) s1 s3.
Proof.
  intros [A1 A2 A3 A4 A5 A6 A7 A8 A9 A10 A11 A12] [B1 B2 B3 B4 B5 B6 B7 B8 B9 B10 B11 B12]. constructor; try congruence.
  - intros b Hb. rewrite B3, A3; auto.
  - now rewrite <- A1.
  - intros t x. rewrite B5, A5, in_app_iff. tauto.
  - lia.
  - intros E t x i H Hi R. apply in_app_iff in H as [H|H].
    + apply (A7 ltac:(lia) t x i); auto.
    + assert (Hi' : id_at (st_mesh s2) t x = Some i) by congruence. apply (B7 ltac:(lia) t x i H Hi'). apply A12. split; auto.
      intros (_ & x' & H' & Hi2). apply (A7 ltac:(lia) t x' i); auto.
  - intros t i y. rewrite B12, A12, A1. split.
    + intros [[H N1] N2]. split; auto. intros (-> & x & Hx & Hi). apply in_app_iff in Hx as [Hx|Hx]; [apply N1|apply N2]; eauto.
    + intros [H N]. split; [split; auto|]; intros (-> & x & Hx & Hi); apply N; split; auto; exists x; split; auto; apply in_app_iff; auto.
Qed.

Lemma erases_spec a z nm L : forall (s : sstate Pt), mid s -> find_seg a (g_segs (st_segs s)) = Some (mkSeg z nm) ->
  good_view (st_mesh s) (k_view (st_con s a)) -> (forall t h, In (t, h) L -> is_live (st_mesh s) t h) ->
  exists s', ofold (simple_erase a) L s = Some s' /\ mid s' /\ erased a z L s s'.
Proof.
  induction L as [|[t h] L IH]; intros s M F G HL; cbn [ofold].
  - exists s. split; auto. split; auto. now apply erased_refl.
  - destruct (simple_erase_spec a z nm t h s M F G (HL t h (or_introl eq_refl))) as (s1 & -> & M1 & A1). cbn [obind].
    assert (A1' := A1). destruct A1' as [X1 X2 _ X4 _].
    destruct (IH s1) as (s2 & -> & M2 & A2); auto; rewrite ?X1, ?X2; auto.
    { intros; apply HL; now right. }
    exists s2. split; auto. split; auto. now apply (erased_trans a z [(t, h)] L s s1 s2).
Qed.

End SegmentBase.
