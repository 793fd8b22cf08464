(** Proofs of C17. *)
From Coq Require Import List Arith ZArith Bool Lia.
From Verif Require Import ModelTopo ModelMesh ModelErase ModelAccessor ModelQuery ModelView ModelSegmentation ModelSegment ModelInterface
  SpecMesh SpecErase SpecQuery SpecView SpecSegmentation SpecSegment SpecInterface
  MeshBase MeshInv MeshIds MeshReach MeshWf MeshErase MeshSimple QueryBase ViewBase MeshDemo
  SegmentationBase SegmentView SegmentBase SegmentInv SegmentStep SegmentDemo SegmentProofs InterfaceBase InterfaceDemo.
Import ModelSegmentation ListNotations.
Open Scope nat_scope.

Section Inv.
Context {Pt : Type}.
Variable cfg : config.
Hypothesis NH : cfg_cell cfg <> Hex.
Notation ft := (facet_tag (cfg_cell cfg)).

Definition either (u v a b : nat) : Prop := (u = a /\ v = b) \/ (u = b /\ v = a).
Definition was_on (H : list (istate Pt * iop Pt)) a b t x : Prop :=
  exists S u v, asked H S u v /\ either u v a b /\ on_interface cfg (is_seg S) u v t x.

Record iinv (H : list (istate Pt * iop Pt)) (S : istate Pt) : Prop := mkII {
  ii_reach : sreach cfg (is_seg S);
  ii_cc : forall a, is_segment (is_seg S) a -> 1 <= k_cc (st_con (is_seg S) a);
  ii_frame : forall S' o, In (S', o) H -> frame (st_mesh (is_seg S')) (st_mesh (is_seg S)) /\ sreach cfg (is_seg S') /\
     forall a b t x, o = IAsk a b t x -> is_segment (is_seg S') a /\ is_segment (is_seg S') b;
  ii_sound : forall t za zb a b i, In t (itypes cfg) -> In (za, a) (g_ids (st_segs (is_seg S))) -> In (zb, b) (g_ids (st_segs (is_seg S))) -> a <> b ->
     flag_get (if_data (is_flags S t (Z.min za zb, Z.max za zb))) i = true ->
     exists x, id_at (st_mesh (is_seg S)) t x = Some i /\ was_on H a b t x;
  ii_complete : forall t za zb a b, In t (itypes cfg) -> In (za, a) (g_ids (st_segs (is_seg S))) -> In (zb, b) (g_ids (st_segs (is_seg S))) -> a <> b ->
     let e := is_flags S t (Z.min za zb, Z.max za zb) in
     (if_c0 e = 0 /\ if_c1 e = 0) \/
     exists u v, either u v a b /\ (exists S', asked H S' u v) /\
       if_c0 e <= k_cc (st_con (is_seg S) u) /\ if_c1 e <= k_cc (st_con (is_seg S) v) /\
       (if_c0 e = k_cc (st_con (is_seg S) u) -> if_c1 e = k_cc (st_con (is_seg S) v) ->
        forall x, on_interface cfg (is_seg S) u v t x -> exists i, id_at (st_mesh (is_seg S)) t x = Some i /\ flag_get (if_data e) i = true);
  ii_unused : forall t k, is_flags S t k <> fresh_iface ->
     (exists a, In (fst k, a) (g_ids (st_segs (is_seg S)))) /\ (exists b, In (snd k, b) (g_ids (st_segs (is_seg S))))
}.

Lemma was_on_more H o a b t x : was_on H a b t x -> was_on (o :: H) a b t x.
Proof. intros (S & u & v & (t' & x' & A) & E & O). exists S, u, v. split; auto. exists t', x'. now right. Qed.
Lemma asked_more H o (S : istate Pt) a b : asked H S a b -> asked (o :: H) S a b.
Proof. intros (t' & x' & A). exists t', x'. now right. Qed.
Lemma either_sym u v a b : either u v a b -> either u v b a.
Proof. unfold either. tauto. Qed.
Lemma was_on_sym H a b t x : was_on H a b t x -> was_on H b a t x.
Proof. intros (S & u & v & A & E & O). exists S, u, v. split; auto. split; auto. now apply either_sym. Qed.

Lemma min_max_sym za zb : (Z.min za zb, Z.max za zb) = (Z.min zb za, Z.max zb za).
Proof. f_equal; lia. Qed.
Lemma min_max_inj za zb ya yb : (Z.min za zb, Z.max za zb) = (Z.min ya yb, Z.max ya yb) -> (za = ya /\ zb = yb) \/ (za = yb /\ zb = ya).
Proof. intros E. inversion E. lia. Qed.

(** Being on the interface of two segments whose members have not changed. *)
Lemma interface_stable (s s' : sstate Pt) u v t x : sreach cfg s -> is_segment s u -> is_segment s v -> later s s' ->
  (forall t x, In x (k_view (st_con s' u) t) <-> In x (k_view (st_con s u) t)) ->
  (forall t x, In x (k_view (st_con s' v) t) <-> In x (k_view (st_con s v) t)) ->
  on_interface cfg s' u v t x -> on_interface cfg s u v t x.
Proof.
  intros R Hu Hv [F _ _] Vu Vv.
  destruct (C20_closure_pf Pt cfg s u NH R Hu) as (_ & Gu & _). destruct (C20_closure_pf Pt cfg s v NH R Hv) as (_ & Gv & _).
  assert (IFF : forall f, interface_facet cfg s' u v f -> interface_facet cfg s u v f).
  { intros f [(c & Hc) Hf]. split; [|now apply Vv]. exists c. intros y. rewrite <- Hc. unfold in_segment. rewrite Vu. split; intros [H1 H2]; split; auto.
    - apply (frame_bounded (st_mesh s)); auto. now apply (good_all_live _ _ Gu).
    - apply (frame_bounded (st_mesh s)) in H2; auto. now apply (good_all_live _ _ Gu). }
  unfold on_interface. destruct (tag_eqb t ft); auto. intros (f & Hf & B). exists f. split; auto.
  apply IFF in Hf. apply (frame_bounded (st_mesh s)) in B; auto. apply (good_all_live _ _ Gv). apply Hf.
Qed.

Lemma is_segment_in (s : sstate Pt) a : is_segment s a <-> exists z, In (z, a) (g_ids (st_segs s)).
Proof. unfold is_segment. apply in_range. Qed.

Lemma later_segment (s s' : sstate Pt) a : later s s' -> is_segment s a -> is_segment s' a.
Proof. intros L H. apply is_segment_in in H as (z & H). apply is_segment_in. exists z. now apply (la_segs _ _ L). Qed.

Lemma iinv_new (m : @mesh Pt) : reach cfg m -> iinv [] (new_istate m).
Proof.
  intros R. constructor; cbn; try easy. now constructor.
Qed.

Lemma iinv_seg H S o s' : iinv H S -> valid_sop cfg (is_seg S) o -> sstep cfg (is_seg S) o = Some s' ->
  iinv ((S, ISeg o) :: H) (mkIs s' (is_flags S)).
Proof.
  intros I V E. pose proof (ii_reach _ _ I) as R. pose proof (sreach_inv cfg NH _ R) as SI.
  pose proof (sstep_later cfg NH _ _ o SI V E) as L. assert (R' : sreach cfg s') by (eapply sr_step; eauto).
  assert (OLD : forall z a, In (z, a) (g_ids (st_segs s')) -> is_flags S <> is_flags S \/ In (z, a) (g_ids (st_segs (is_seg S))) \/
     (g_next (st_segs (is_seg S)) <= a /\ forall b, ~ In (z, b) (g_ids (st_segs (is_seg S))))).
  { intros z a Ha. right. now apply (la_segs _ _ L). }
  assert (NEW : forall t za zb a b, In (za, a) (g_ids (st_segs s')) -> In (zb, b) (g_ids (st_segs s')) ->
     is_flags S t (Z.min za zb, Z.max za zb) = fresh_iface \/ (In (za, a) (g_ids (st_segs (is_seg S))) /\ In (zb, b) (g_ids (st_segs (is_seg S))))).
  { intros t za zb a b Ha Hb.
    destruct (OLD za a Ha) as [?|[Oa|[_ Na]]]; [congruence|..].
    - destruct (OLD zb b Hb) as [?|[Ob|[_ Nb]]]; [congruence|auto|]. left.
      destruct (is_flags S t (Z.min za zb, Z.max za zb)) as [[|c0] [|c1] [|d l]] eqn:Q; auto; exfalso;
      (destruct (ii_unused _ _ I t (Z.min za zb, Z.max za zb)) as [(x & Hx) (y & Hy)]; [rewrite Q; discriminate|]; cbn [fst snd] in *;
       destruct (Z.min_spec za zb) as [[? E1]|[? E1]], (Z.max_spec za zb) as [[? E2]|[? E2]]; rewrite E1 in Hx; rewrite E2 in Hy; try (now apply Nb in Hx); try (now apply Nb in Hy); lia).
    - left. destruct (is_flags S t (Z.min za zb, Z.max za zb)) as [[|c0] [|c1] [|d l]] eqn:Q; auto; exfalso;
      (destruct (ii_unused _ _ I t (Z.min za zb, Z.max za zb)) as [(x & Hx) (y & Hy)]; [rewrite Q; discriminate|]; cbn [fst snd] in *;
       destruct (Z.min_spec za zb) as [[? E1]|[? E1]], (Z.max_spec za zb) as [[? E2]|[? E2]]; rewrite E1 in Hx; rewrite E2 in Hy; try (now apply Na in Hx); try (now apply Na in Hy); lia). }
  constructor; cbn [is_seg is_flags]; auto.
  - intros a Ha. apply is_segment_in in Ha as (z & Hz). destruct (proj2 (proj2 (la_segs _ _ L)) z a Hz) as [Hz'|[Hn _]].
    + destruct (la_count _ _ L a) as [C _]. specialize (ii_cc _ _ I a). assert (is_segment (is_seg S) a) by (apply is_segment_in; eauto). intuition lia.
    + destruct (la_count _ _ L a) as [C _]. rewrite (si_fresh cfg _ SI a Hn) in C. cbn in C. lia.
  - intros S' o' [Q|Hin].
    + inversion Q; subst. split; [apply L|]. split; auto. discriminate.
    + destruct (ii_frame _ _ I S' o' Hin) as (F & X). split; auto. intros t a e D. apply (la_mesh _ _ L). now apply F.
  - intros t za zb a b i Ht Ha Hb N Fl. destruct (NEW t za zb a b Ha Hb) as [Q|[Oa Ob]].
    + rewrite Q in Fl. cbn in Fl. unfold flag_get in Fl. destruct i; discriminate.
    + destruct (ii_sound _ _ I t za zb a b i Ht Oa Ob N Fl) as (x & Hx & W). exists x. split; [eapply frame_id; eauto; apply L|]. now apply was_on_more.
  - intros t za zb a b Ht Ha Hb N. destruct (NEW t za zb a b Ha Hb) as [Q|[Oa Ob]]; [rewrite Q; cbn; auto|].
    destruct (ii_complete _ _ I t za zb a b Ht Oa Ob N) as [X|(u & v & EI & (S' & As) & L0 & L1 & C)]; auto. right.
    exists u, v. split; auto. split; [exists S'; now apply asked_more|].
    pose proof (la_count _ _ L u) as [Cu Cu']. pose proof (la_count _ _ L v) as [Cv Cv'].
    split; [lia|]. split; [lia|]. intros E0 E1 x Ox.
    assert (Su : is_segment (is_seg S) u /\ is_segment (is_seg S) v).
    { destruct EI as [[-> ->]|[-> ->]]; split; apply is_segment_in; eauto. }
    destruct (C ltac:(lia) ltac:(lia) x) as (i & Hi & Fi).
    + apply (interface_stable (is_seg S) s'); try tauto; [apply Cu'; lia|apply Cv'; lia].
    + exists i. split; auto. eapply frame_id; eauto. apply L.
  - intros t k Hk. destruct (ii_unused _ _ I t k Hk) as ((a & Ha) & (b & Hb)). split; [exists a|exists b]; now apply (la_segs _ _ L).
Qed.

Lemma iface_alike (s s' : sstate Pt) a b t x : alike s s' -> (on_interface cfg s' a b t x <-> on_interface cfg s a b t x).
Proof.
  intros A. unfold on_interface. destruct (tag_eqb t ft); [now apply alike_facet|]. rewrite (al_mesh _ _ A).
  split; intros (f & Hf & B); exists f; split; auto; now apply (alike_facet cfg s s' a b f A).
Qed.

(** The query: the state afterwards, and the answer. *)
Lemma ask_spec H S a b t x : iinv H S -> valid_iop cfg S (IAsk a b t x) ->
  exists S' r za zb i, is_interface cfg a b t x S = Some (S', r) /\ iinv ((S, IAsk a b t x) :: H) S' /\ alike (is_seg S) (is_seg S') /\
    In (za, a) (g_ids (st_segs (is_seg S))) /\ In (zb, b) (g_ids (st_segs (is_seg S))) /\ id_at (st_mesh (is_seg S)) t x = Some i /\
    let e := is_flags S' t (Z.min za zb, Z.max za zb) in
    r = flag_get (if_data e) i /\ if_c0 e = k_cc (st_con (is_seg S) a) /\ if_c1 e = k_cc (st_con (is_seg S) b) /\
    ((S' = S) \/ detected cfg (is_seg S) a b (Z.min za zb, Z.max za zb) (is_flags S) (is_flags S')).
Proof.
  intros I (Ha & Hb & Nab & Lx & Ht & T). pose proof (ii_reach _ _ I) as R. pose proof (sreach_inv cfg NH _ R) as SI.
  destruct (seg_of cfg _ a SI Ha) as (za & na & Hza & Fa). destruct (seg_of cfg _ b SI Hb) as (zb & nb & Hzb & Fb).
  assert (Nz : za <> zb). { intros ->. apply Nab. eapply ids_inj; eauto. apply SI. }
  assert (Ht' : In t (itypes cfg)) by (destruct Ht as [->|Ht]; [now left|now right]).
  unfold is_interface. rewrite Fa, Fb. cbn [obind s_id]. unfold iface_key. destruct (Z.eqb_spec za zb) as [?|_]; [contradiction|]. cbn [obind].
  set (k := (Z.min za zb, Z.max za zb)). destruct Lx as (el & D).
  assert (Hi : id_at (st_mesh (is_seg S)) t x = Some (e_id el)) by (apply id_at_deref; eauto).
  (* ids of the key *)
  assert (KEY : forall ya yb a' b', In (ya, a') (g_ids (st_segs (is_seg S))) -> In (yb, b') (g_ids (st_segs (is_seg S))) ->
     (Z.min ya yb, Z.max ya yb) = k -> either a b a' b').
  { intros ya yb a' b' H1 H2 Q. apply min_max_inj in Q as [[-> ->]|[-> ->]]; [left|right]; split; eapply ids_inj; eauto; apply SI. }
  destruct ((if_c0 (is_flags S t k) =? _) && _) eqn:C.
  - apply andb_true_iff in C as [C0 C1]. apply Nat.eqb_eq in C0, C1. cbn [obind]. rewrite D. cbn [option_map].
    exists S, (flag_get (if_data (is_flags S t k)) (e_id el)), za, zb, (e_id el). fold k. split; auto. split; [|split; [apply alike_refl|auto 12]].
    constructor; try apply I.
    + intros S' o' [Q|Hin]; [|now apply (ii_frame _ _ I)]. inversion Q; subst. split; [intros ? ? ?; auto|]. split; auto.
      intros a' b' t' x' Q'. inversion Q'; subst. auto.
    + intros t' ya yb a' b' i' H1 H2 H3 H4 H5. destruct (ii_sound _ _ I t' ya yb a' b' i' H1 H2 H3 H4 H5) as (y & Hy & W).
      exists y. split; auto. now apply was_on_more.
    + intros t' ya yb a' b' H1 H2 H3 H4. destruct (ii_complete _ _ I t' ya yb a' b' H1 H2 H3 H4) as [X|(u & v & EI & (S' & As) & X)]; auto.
      right. exists u, v. split; auto. split; auto. exists S'. now apply asked_more.
  - clear C. destruct (detect_spec cfg NH a b k S R Ha Hb T) as (S' & E & R' & A & DT). rewrite E. cbn [obind].
    rewrite (al_mesh _ _ A), D. cbn [option_map].
    exists S', (flag_get (if_data (is_flags S' t k)) (e_id el)), za, zb, (e_id el). fold k. split; auto.
    split; [|split; [auto|split; [auto|split; [auto|split; [auto|split; [auto|split; [apply DT; auto|split; [apply DT; auto|auto]]]]]]]].
    assert (AS : asked ((S, IAsk a b t x) :: H) S a b) by (exists t, x; now left).
    assert (FAC : forall i, flag_get (if_data (is_flags S' ft k)) i = true -> exists y, id_at (st_mesh (is_seg S)) ft y = Some i /\
       was_on ((S, IAsk a b t x) :: H) a b ft y).
    { intros i Fl. apply (dt_facet _ _ _ _ _ _ _ DT) in Fl as [Fl|(f & Hf & If)].
      - destruct (ii_sound _ _ I ft za zb a b i) as (y & Hy & W); auto; [now left|]. exists y. split; auto. now apply was_on_more.
      - exists f. split; auto. exists S, a, b. split; auto. split; [now left|]. unfold on_interface. now rewrite tag_eqb_refl. }
    constructor; rewrite ?(al_mesh _ _ A), ?(al_segs _ _ A); auto.
    + intros c Hc. rewrite (al_cc _ _ A). apply (ii_cc _ _ I). unfold is_segment in *. now rewrite (al_segs _ _ A) in Hc.
    + intros S0 o' [Q|Hin]; [|now apply (ii_frame _ _ I)]. inversion Q; subst. split; [intros ? ? ?; auto|]. split; auto.
      intros a' b' t' x' Q'. inversion Q'; subst. auto.
    + intros t' ya yb a' b' i H1 H2 H3 H4 Fl.
      destruct (Z.eq_dec (Z.min ya yb) (Z.min za zb)) as [Q1|Q1]; [destruct (Z.eq_dec (Z.max ya yb) (Z.max za zb)) as [Q2|Q2]|].
      2,3: rewrite (dt_other _ _ _ _ _ _ _ DT) in Fl by (left; intros Q; unfold k in Q; inversion Q; auto);
        destruct (ii_sound _ _ I t' ya yb a' b' i H1 H2 H3 H4 Fl) as (y & Hy & W); exists y; split; auto; now apply was_on_more.
      assert (Q : (Z.min ya yb, Z.max ya yb) = k) by (unfold k; congruence). rewrite Q in Fl.
      assert (EI := KEY ya yb a' b' H2 H3 Q).
      assert (EW : forall y, was_on ((S, IAsk a b t x) :: H) a b t' y -> was_on ((S, IAsk a b t x) :: H) a' b' t' y).
      { intros y W. destruct EI as [[<- <-]|[<- <-]]; auto. now apply was_on_sym. }
      assert (OLD : flag_get (if_data (is_flags S t' k)) i = true -> exists y, id_at (st_mesh (is_seg S)) t' y = Some i /\ was_on ((S, IAsk a b t x) :: H) a' b' t' y).
      { intros Fo. rewrite <- Q in Fo. destruct (ii_sound _ _ I t' ya yb a' b' i H1 H2 H3 H4 Fo) as (y & Hy & W). exists y. split; auto. now apply was_on_more. }
      destruct H1 as [<-|H1].
      * destruct (FAC i Fl) as (y & Hy & W). exists y. auto.
      * destruct (dt_lower _ _ _ _ _ _ _ DT t' H1) as [_ LO]. apply LO in Fl as [Fl|(f & j & y & Hf & Fj & B & Hy)]; [auto|].
        exists y. split; auto. apply EW. destruct (FAC j Fj) as (f' & Hf' & W).
        assert (f' = f). { apply (id_at_inj cfg (st_mesh (is_seg S)) ft f' f j); auto. apply (md_wf cfg _ (si_mid cfg _ SI)). } subst f'.
        destruct W as (S0 & u & v & As & EI0 & O). exists S0, u, v. split; auto. split; auto.
        unfold on_interface in *. rewrite tag_eqb_refl in O. rewrite (proj2 (tag_eqb_neq t' ft)) by now apply (bnd_not_facet cfg).
        exists f. split; auto.
        assert (frame (st_mesh (is_seg S0)) (st_mesh (is_seg S)) /\ is_live (st_mesh (is_seg S0)) ft f) as [FR LF].
        { destruct As as (t0 & x0 & Hin).
          assert (X : frame (st_mesh (is_seg S0)) (st_mesh (is_seg S)) /\ sreach cfg (is_seg S0) /\ is_segment (is_seg S0) v).
          { destruct Hin as [Q0|Hin].
            - inversion Q0; subst. split; [intros ? ? ?; auto|]. auto.
            - destruct (ii_frame _ _ I S0 _ Hin) as (F & R0 & SG). destruct (SG u v t0 x0 eq_refl). auto. }
          destruct X as (F & R0 & Sv). split; auto. destruct O as [_ Ov].
          destruct (C20_closure_pf Pt cfg (is_seg S0) v NH R0 Sv) as (_ & Gv & _). now apply (good_all_live _ _ Gv). }
        now apply (frame_bounded (st_mesh (is_seg S0)) (st_mesh (is_seg S))).
    + intros t' ya yb a' b' H1 H2 H3 H4.
      destruct (Z.eq_dec (Z.min ya yb) (Z.min za zb)) as [Q1|Q1]; [destruct (Z.eq_dec (Z.max ya yb) (Z.max za zb)) as [Q2|Q2]|].
      2,3: rewrite (dt_other _ _ _ _ _ _ _ DT) by (left; intros Q; unfold k in Q; inversion Q; auto);
        destruct (ii_complete _ _ I t' ya yb a' b' H1 H2 H3 H4) as [X|(u & v & EI & (S0 & As) & L0 & L1 & X)]; auto;
        right; exists u, v; split; auto; split; [exists S0; now apply asked_more|]; rewrite !(al_cc _ _ A); split; auto; split; auto;
        intros E0 E1 y Oy; apply X; auto; now apply (iface_alike _ _ u v t' y A).
      assert (Q : (Z.min ya yb, Z.max ya yb) = k) by (unfold k; congruence). rewrite Q.
      right. exists a, b. split; [now apply (KEY ya yb)|]. split; [exists S; auto|].
      destruct (dt_count _ _ _ _ _ _ _ DT t' H1) as [C0 C1]. rewrite !(al_cc _ _ A), C0, C1. split; auto. split; auto. intros _ _ y Oy.
      apply (iface_alike _ _ a b t' y A) in Oy. unfold on_interface in Oy.
      assert (W := md_wf cfg _ (si_mid cfg _ SI)).
      assert (LVE : forall t y, is_live (st_mesh (is_seg S)) t y -> exists i, id_at (st_mesh (is_seg S)) t y = Some i).
      { intros t0 y0 (e0 & D0). exists (e_id e0). apply id_at_deref. eauto. }
      destruct (C20_closure_pf Pt cfg (is_seg S) b NH R Hb) as (_ & Gb & _).
      destruct H1 as [<-|H1].
      * rewrite tag_eqb_refl in Oy. destruct (LVE ft y) as (i & Hiy); [apply (good_all_live _ _ Gb); apply Oy|].
        exists i. split; auto. apply (dt_facet _ _ _ _ _ _ _ DT). right. eauto.
      * rewrite (proj2 (tag_eqb_neq t' ft)) in Oy by now apply (bnd_not_facet cfg). destruct Oy as (f & Hf & B).
        destruct (LVE t' y) as (i & Hiy); [eapply (bounded_right_live cfg); eauto|]. exists i. split; auto.
        destruct (LVE ft f) as (j & Hj); [apply (good_all_live _ _ Gb); apply Hf|].
        destruct (dt_lower _ _ _ _ _ _ _ DT t' H1) as [UP _]. apply (UP f j y i); auto; [apply Hf|].
        apply (dt_facet _ _ _ _ _ _ _ DT). right. eauto.
    + intros t' k' Hk. destruct (is_flags S t' k') as [c0 c1 d] eqn:Q.
      destruct (Z.eq_dec (fst k') (fst k)) as [Q1|Q1]; [destruct (Z.eq_dec (snd k') (snd k)) as [Q2|Q2]|].
      2,3: rewrite (dt_other _ _ _ _ _ _ _ DT) in Hk by (left; intros ->; auto); now apply (ii_unused _ _ I t' k').
      rewrite Q1, Q2. unfold k. cbn [fst snd]. split; [destruct (Z.min_spec za zb) as [[_ ->]|[_ ->]]|destruct (Z.max_spec za zb) as [[_ ->]|[_ ->]]]; eauto.
Qed.

Lemma history_inv H S : history cfg H S -> iinv H S.
Proof.
  induction 1 as [m R|H S o S' Hs IH V E]; [now apply iinv_new|]. destruct o as [o|a b t x]; cbn [istep] in E.
  - destruct (sstep cfg (is_seg S) o) as [s'|] eqn:Q; [|discriminate]. inversion E; subst. now apply iinv_seg.
  - destruct (ask_spec H S a b t x IH V) as (S1 & r & za & zb & i & Q & I & _). rewrite Q in E. inversion E; subst. exact I.
Qed.
End Inv.

Lemma C17_always_defined_pf : forall Pt cfg H (S : istate Pt) o, cfg_cell cfg <> Hex -> history cfg H S -> valid_iop cfg S o ->
  exists S', istep cfg S o = Some S'.
Proof.
  intros Pt cfg H S o NH Hs V. assert (I := history_inv cfg NH H S Hs). destruct o as [o|a b t x]; cbn [istep].
  - destruct (sstep_inv cfg NH (is_seg S) o (sreach_inv cfg NH _ (ii_reach cfg H S I)) V) as (s' & -> & _). cbn. eauto.
  - destruct (ask_spec cfg NH H S a b t x I V) as (S1 & r & za & zb & i & Q & _). rewrite Q. cbn. eauto.
Qed.

Lemma C17_none_missed_pf : forall Pt cfg H (S : istate Pt) a b t x, cfg_cell cfg <> Hex -> history cfg H S -> valid_iop cfg S (IAsk a b t x) ->
  symmetric_interface cfg (is_seg S) a b \/ (forall S', ~ asked H S' b a) ->
  on_interface cfg (is_seg S) a b t x -> exists S', is_interface cfg a b t x S = Some (S', true).
Proof.
  intros Pt cfg H S a b t x NH Hs V SY O. assert (I := history_inv cfg NH H S Hs).
  destruct (ask_spec cfg NH H S a b t x I V) as (S' & r & za & zb & i & E & I' & A & Hza & Hzb & Hi & -> & C0 & C1 & DT).
  exists S'. rewrite E. do 2 f_equal. destruct V as (Ha & Hb & Nab & Lx & Ht & T).
  assert (Ht' : In t (itypes cfg)) by (destruct Ht as [->|Ht]; [now left|now right]).
  assert (SWAP : symmetric_interface cfg (is_seg S) a b -> on_interface cfg (is_seg S) b a t x).
  { intros Sy. unfold on_interface in *. destruct (tag_eqb t _); [now apply Sy|]. destruct O as (f & Hf & B). exists f. split; auto. now apply Sy. }
  pose proof (ii_complete cfg _ S' I' t za zb a b Ht') as C. rewrite (al_segs _ _ A) in C. specialize (C Hza Hzb Nab). cbv zeta in C.
  assert (CCa := ii_cc cfg _ _ I a Ha).
  destruct C as [[Z _]|(u & v & EI & AS & L0 & L1 & C)]; [lia|].
  assert (G : forall y, on_interface cfg (is_seg S) u v t y -> exists j, id_at (st_mesh (is_seg S)) t y = Some j /\ flag_get (if_data (is_flags S' t (Z.min za zb, Z.max za zb))) j = true).
  { intros y Oy. rewrite !(al_cc _ _ A) in *. rewrite (al_mesh _ _ A) in C.
    apply C; [destruct EI as [[-> ->]|[-> ->]]; lia..|]. now apply (iface_alike cfg _ _ u v t y A). }
  assert (exists j, id_at (st_mesh (is_seg S)) t x = Some j /\ flag_get (if_data (is_flags S' t (Z.min za zb, Z.max za zb))) j = true) as (j & Hj & Fj); [|congruence].
  destruct EI as [[-> ->]|[-> ->]]; [auto|]. apply G. destruct SY as [SY|NA]; [auto|].
  exfalso. destruct AS as (S0 & t0 & x0 & [Q|Hin]); [inversion Q; subst; congruence|]. apply (NA S0). exists t0, x0. auto.
Qed.

Lemma C17_now_or_earlier_pf : forall Pt cfg H (S : istate Pt) a b t x S', cfg_cell cfg <> Hex -> history cfg H S -> valid_iop cfg S (IAsk a b t x) ->
  is_interface cfg a b t x S = Some (S', true) ->
  on_interface cfg (is_seg S) a b t x \/
  exists S0, (asked H S0 a b /\ on_interface cfg (is_seg S0) a b t x) \/ (asked H S0 b a /\ on_interface cfg (is_seg S0) b a t x).
Proof.
  intros Pt cfg H S a b t x S' NH Hs V E. assert (I := history_inv cfg NH H S Hs).
  destruct (ask_spec cfg NH H S a b t x I V) as (S1 & r & za & zb & i & E1 & I' & A & Hza & Hzb & Hi & Er & C0 & C1 & DT).
  rewrite E in E1. assert (S1 = S') by congruence. subst S1. assert (Et : r = true) by congruence. rewrite Et in Er. clear E1 Et. destruct V as (Ha & Hb & Nab & Lx & Ht & T).
  assert (Ht' : In t (itypes cfg)) by (destruct Ht as [->|Ht]; [now left|now right]).
  pose proof (ii_sound cfg _ S' I' t za zb a b i Ht') as C. rewrite (al_segs _ _ A), (al_mesh _ _ A) in C.
  destruct (C Hza Hzb Nab (eq_sym Er)) as (y & Hy & S0 & u & v & (t0 & x0 & Hin) & EI & O).
  assert (y = x). { apply (id_at_inj cfg (st_mesh (is_seg S)) t y x i); auto. apply (md_wf cfg _ (si_mid cfg _ (sreach_inv cfg NH _ (ii_reach cfg _ _ I)))). }
  subst y. destruct Hin as [Q|Hin].
  - inversion Q; subst. left. destruct EI as [[X Y]|[X Y]]; [exact O|congruence].
  - right. exists S0. destruct EI as [[-> ->]|[-> ->]]; [left|right]; (split; [exists t0, x0; auto|auto]).
Qed.

Lemma C17_exact_partial_pf : forall Pt cfg H (S : istate Pt) a b t x, cfg_cell cfg <> Hex -> history cfg H S -> valid_iop cfg S (IAsk a b t x) ->
  symmetric_interface cfg (is_seg S) a b \/ (forall S', ~ asked H S' b a) ->
  (forall S0, asked H S0 a b -> on_interface cfg (is_seg S0) a b t x -> on_interface cfg (is_seg S) a b t x) ->
  (forall S0, asked H S0 b a -> on_interface cfg (is_seg S0) b a t x -> on_interface cfg (is_seg S) a b t x) ->
  exists S' r, is_interface cfg a b t x S = Some (S', r) /\ (r = true <-> on_interface cfg (is_seg S) a b t x).
Proof.
  intros Pt cfg H S a b t x NH Hs V SY K1 K2. assert (I := history_inv cfg NH H S Hs).
  destruct (ask_spec cfg NH H S a b t x I V) as (S' & r & za & zb & i & E & _). exists S', r. split; auto. split.
  - intros ->. destruct (C17_now_or_earlier_pf Pt cfg H S a b t x S' NH Hs V E) as [O|(S0 & [[X O]|[X O]])]; eauto.
  - intros O. destruct (C17_none_missed_pf Pt cfg H S a b t x NH Hs V SY O) as (S1 & E1). congruence.
Qed.

Lemma C17_first_query_pf : forall Pt cfg H (S : istate Pt) a b t x, cfg_cell cfg <> Hex -> history cfg H S -> valid_iop cfg S (IAsk a b t x) ->
  (forall S', ~ asked H S' a b) -> (forall S', ~ asked H S' b a) ->
  exists S' r, is_interface cfg a b t x S = Some (S', r) /\ (r = true <-> on_interface cfg (is_seg S) a b t x).
Proof.
  intros Pt cfg H S a b t x NH Hs V N1 N2. apply C17_exact_partial_pf with (H := H); auto.
  - intros S0 A. now apply N1 in A.
  - intros S0 A. now apply N2 in A.
Qed.

Lemma C17_symmetric_pf : forall Pt cfg (s : sstate Pt) a b, cfg_cell cfg <> Hex -> sreach cfg s -> is_segment s a -> is_segment s b ->
  (forall c, in_segment s a (cfg_cell cfg) c -> ~ in_segment s b (cfg_cell cfg) c) ->
  at_most_two_cells cfg (st_mesh s) -> facets_of_cells cfg s a -> facets_of_cells cfg s b ->
  symmetric_interface cfg s a b.
Proof.
  intros Pt cfg s a b NH R Ha Hb Dis Two Fa Fb.
  assert (K : forall a b, is_segment s a -> is_segment s b ->
    (forall c, in_segment s a (cfg_cell cfg) c -> ~ in_segment s b (cfg_cell cfg) c) ->
    facets_of_cells cfg s b ->
    forall f, interface_facet cfg s a b f -> interface_facet cfg s b a f).
  { clear a b Ha Hb Dis Fa Fb. intros a b Ha Hb Dis Fb f [(c & Hc) Hf].
    destruct (proj2 (Hc c) eq_refl) as [Ca Bc]. destruct (Fb f Hf) as (d & Db & Bd).
    split; [|eapply one_cell_member; eauto; now exists c].
    exists d. intros y. split; [|intros ->; auto]. intros [Yb By].
    destruct (Two f c d y Bc Bd By) as [Q|[Q|Q]]; [| |congruence]; exfalso; subst; eapply Dis; eauto. }
  intros f. split; apply K; auto. intros c H1 H2. eapply Dis; eauto.
Qed.

Lemma C17_stale_refuted_pf : exists cfg H (S S' : istate unit) a b f, cfg_cell cfg <> Hex /\ history cfg H S /\
  valid_iop cfg S (IAsk a b Line f) /\ symmetric_interface cfg (is_seg S) a b /\
  is_interface cfg a b Line f S = Some (S', true) /\ ~ on_interface cfg (is_seg S) a b Line f.
Proof.
  pose (cfg := full_config Triangle).
  pose (ops := map (fun o => ISeg (SMesh o)) [OVertex tt; OVertex tt; OVertex tt; OVertex tt] ++
     map (fun o => ISeg o) [SManage SgMake; SManage SgMake; SCreate 0 (OElement Triangle [0;1;2]); SCreate 1 (OElement Triangle [1;2;3])]
     ++ [IAsk 0 1 Line 2; ISeg (SErase 1 Vertex 1)]).
  exists cfg, (history_of cfg ops).
  assert (Hs : history cfg (history_of cfg ops) (istate_of cfg ops)) by (apply idemo_ok; vm_compute; reflexivity).
  assert (V : valid_iop cfg (istate_of cfg ops) (IAsk 0 1 Line 2)) by (apply valid_iopb_sound; vm_compute; reflexivity).
  assert (E1 : iface_list cfg (is_seg (istate_of cfg ops)) 0 1 = []) by (vm_compute; reflexivity).
  assert (E2 : iface_list cfg (is_seg (istate_of cfg ops)) 1 0 = []) by (vm_compute; reflexivity).
  assert (E3 : option_map snd (is_interface cfg 0 1 Line 2 (istate_of cfg ops)) = Some true) by (vm_compute; reflexivity).
  revert Hs V E1 E2 E3. generalize (history_of cfg ops). generalize (istate_of cfg ops). intros S H Hs V E1 E2 E3.
  destruct (is_interface cfg 0 1 Line 2 S) as [[S' r]|] eqn:Q; [|discriminate]. cbn in E3. inversion E3; subst r.
  exists S, S', 0, 1, 2. split; [discriminate|]. split; [exact Hs|]. split; [exact V|].
  assert (N1 : forall f, ~ interface_facet cfg (is_seg S) 0 1 f) by (intros f X; apply iface_list_spec in X; rewrite E1 in X; exact X).
  assert (N2 : forall f, ~ interface_facet cfg (is_seg S) 1 0 f) by (intros f X; apply iface_list_spec in X; rewrite E2 in X; exact X).
  split; [|split; [exact Q|]].
  - intros f. split; intros X; exfalso; [now apply (N1 f)|now apply (N2 f)].
  - exact (N1 2).
Qed.

Lemma C17_order_refuted_pf : exists cfg H (S S' : istate unit) a b f, cfg_cell cfg <> Hex /\ history cfg H S /\
  valid_iop cfg S (IAsk a b Line f) /\ on_interface cfg (is_seg S) a b Line f /\
  is_interface cfg a b Line f S = Some (S', false).
Proof.
  pose (cfg := full_config Triangle).
  pose (ops := map (fun o => ISeg (SMesh o)) [OVertex tt; OVertex tt; OVertex tt; OVertex tt] ++
     map (fun o => ISeg o) [SManage SgMake; SManage SgMake; SCreate 0 (OElement Triangle [0;1;2]); SCreate 1 (OElement Triangle [1;2;3]);
       SAdd 1 Triangle 0; SCreate 0 (OVertex tt); SCreate 0 (OVertex tt)]
     ++ [IAsk 1 0 Line 2]).
  exists cfg, (history_of cfg ops).
  assert (Hs : history cfg (history_of cfg ops) (istate_of cfg ops)) by (apply idemo_ok; vm_compute; reflexivity).
  assert (V : valid_iop cfg (istate_of cfg ops) (IAsk 0 1 Line 2)) by (apply valid_iopb_sound; vm_compute; reflexivity).
  assert (E1 : iface_list cfg (is_seg (istate_of cfg ops)) 0 1 = [0; 1; 2]) by (vm_compute; reflexivity).
  assert (E3 : option_map snd (is_interface cfg 0 1 Line 2 (istate_of cfg ops)) = Some false) by (vm_compute; reflexivity).
  revert Hs V E1 E3. generalize (history_of cfg ops). generalize (istate_of cfg ops). intros S H Hs V E1 E3.
  destruct (is_interface cfg 0 1 Line 2 S) as [[S' r]|] eqn:Q; [|discriminate]. cbn in E3. inversion E3; subst r.
  exists S, S', 0, 1, 2. split; [discriminate|]. split; [exact Hs|]. split; [exact V|]. split; [|exact Q].
  assert (X : interface_facet cfg (is_seg S) 0 1 2) by (apply iface_list_spec; rewrite E1; simpl; auto). exact X.
Qed.
