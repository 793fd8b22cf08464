(** Boundary extraction with segments. *)
From Coq Require Import List Arith ZArith Bool Lia.
From Verif Require Import ModelTopo ModelMesh ModelErase ModelQuery ModelView ModelSegmentation ModelSegment ModelCopy ModelCopySeg ModelExtract
  SpecMesh SpecErase SpecQuery SpecView SpecSegmentation SpecSegment SpecCopy SpecCopySeg SpecExtract
  MeshBase MeshInv MeshReach MeshWf MeshErase MeshSimple QueryBase QueryDemo SegmentationBase ViewBase SegmentView SegmentBase SegmentInv SegmentStep SegmentProofs
  CopyBase CopyProofs CopySegBase CopySegProofs SegmentDemo MeshDemo.
Import ModelSegmentation ListNotations.
Open Scope nat_scope.

Lemma zip_impl {A B} (R R' : A -> B -> Prop) l r : Forall2 R l r -> (forall x y, In (x, y) (combine l r) -> R x y -> R' x y) -> Forall2 R' l r.
Proof. intros F. induction F; intros H0; constructor; [apply H0; simpl; auto|]. apply IHF. intros. apply H0; simpl; auto. Qed.
Lemma zip_in {A B} (R : A -> B -> Prop) l r x : Forall2 R l r -> In x l -> exists y, In (x, y) (combine l r) /\ R x y.
Proof. intros F. induction F; intros []; [subst; exists y; simpl; auto|]. destruct (IHF H0) as (y' & ? & ?). exists y'. simpl. auto. Qed.
Lemma zip_inj {A B} (l : list A) (r : list B) x x' y : NoDup r -> In (x, y) (combine l r) -> In (x', y) (combine l r) -> x = x'.
Proof.
  revert r. induction l as [|a l IH]; intros [|b r] ND; cbn; try tauto. inversion ND; subst.
  intros [E|H] [E'|H']; try congruence.
  - inversion E; subst. apply in_combine_r in H'. contradiction.
  - inversion E'; subst. apply in_combine_r in H. contradiction.
  - eauto.
Qed.

Section Parts.
Context {Pt : Type}.
Variable cfg : config.
Variable src : @mesh Pt.
Hypothesis Wsrc : exists cfgs, wf cfgs src.
Hypothesis Psrc : pointed src.
Hypothesis Ssrc : simple src.
Variable Q : @mesh Pt -> Prop.
Hypothesis Qstep : forall d o d', Q d -> valid_op cfg d o -> o <> OClear -> step cfg d o = Some d' -> Q d'.
Variable t : tag.
Hypothesis Tc : t = cfg_cell cfg.
Hypothesis Tv : t <> Vertex.

(** The first half of copy_element. *)
Lemma copy_element_parts d vm cs c e : cinv cfg src Q t d vm cs -> deref src t c = Some e ->
  exists d1 vm1 ys, copy_vertices cfg src (d, vm) (e_verts e) = Some ((d1, vm1), ys) /\ valid_op cfg d1 (OElement t ys) /\ Q d1.
Proof.
  intros [V C RE] D. destruct (src_verts src Wsrc Ssrc t Tv c e D) as (Lv & ND & Len).
  destruct (copy_vertices_spec cfg src Wsrc Psrc Q Qstep [] (e_verts e) d vm _ V Lv) as (d1 & vm1 & ys & E1 & V1 & M1 & MM1 & L1 & F1 & N1).
  exists d1, vm1, ys. split; [exact E1|]. split; [|exact (vi_q _ _ _ _ _ _ _ V1)].
  split; [split; auto; subst t; auto|]. split; [|split; auto].
  - assert (X : length (e_verts e) = length ys) by (clear - M1; induction M1; simpl; auto). congruence.
  - apply (NoDup_mapped cfg src Q t Tc Tv [] d1 vm1 (corners src t cs ++ e_verts e) (e_verts e)); auto. intros z Hz. apply in_app_iff. auto.
Qed.
End Parts.

Section Hull.
Context {Pt : Type}.
Variable cfg : config.
Hypothesis NH : cfg_cell cfg <> Hex.

Lemma make_id_spec (h : sstate Pt) z : sreach cfg h -> numbered (st_segs h) ->
  exists g b, get_make_id z (st_segs h) = SRet g b /\ sreach cfg (with_segs h g) /\ numbered g /\ In (z, b) (g_ids g) /\
    (forall z' t x, in_segment_id (with_segs h g) z' t x <-> in_segment_id h z' t x) /\
    (forall z', has_id g z' <-> has_id (st_segs h) z' \/ z' = z).
Proof.
  intros R DN. pose proof (sreach_inv cfg NH h R) as I. pose proof (si_g cfg h I) as G.
  destruct (get_make_id_spec z (st_segs h) G) as [(a & Ha & E)|(N & g' & W & X)].
  - assert (Es : with_segs h (st_segs h) = h) by (destruct h; reflexivity). exists (st_segs h), a. rewrite Es.
    split; auto. split; auto. split; auto. split; auto. split; [reflexivity|]. intros z'. split; auto. intros [H| ->]; auto. apply has_id_iff; eauto.
  - assert (F : find_name (decimal z) (g_names (st_segs h)) = None) by (apply DN; auto).
    destruct X as [(F' & M & E)|(F' & M & E)]; [|congruence].
    assert (G' : ginv g') by (eapply ginv_with; eauto; eapply get_make_id_names; eauto).
    assert (R1 : sreach cfg (with_segs h g')).
    { eapply (sr_step cfg h (SManage (SgId z))); eauto; cbn [valid_sop sstep sgstep]; [repeat split; discriminate|]. rewrite E. reflexivity. }
    set (a := g_next (st_segs h)) in *. destruct W as (W1 & W2 & W3 & W4).
    assert (FR : forall t' x, ~ In x (k_view (st_con h a) t')).
    { intros t' x Hx. rewrite (si_fresh cfg h I a) in Hx; [destruct Hx|unfold a; auto]. }
    exists g', a. split; auto. split; auto. split; [|split; [rewrite W2; apply id_insert_In; auto|split]].
    + intros z'. rewrite M, W2. cbn. destruct (String.eqb_spec (decimal z') (decimal z)) as [Q|Q].
      * apply decimal_inj in Q. subst z'. split; [discriminate|]. intros H. destruct (H a). apply id_insert_In. auto.
      * rewrite (DN z'). split; intros H b Hb.
        -- apply id_insert_In in Hb as [Hb|Hb]; [inversion Hb; subst; congruence|]. eapply H; eauto.
        -- apply (H b). apply id_insert_In. auto.
    + intros z' t' x. rewrite (inid_iff cfg NH _ z' t' x R1), (inid_iff cfg NH _ z' t' x R). cbn [with_segs st_segs]. rewrite W2. split.
      * intros (b & Hb & H). apply id_insert_In in Hb as [Hb|Hb]; [|eauto]. injection Hb as _ Hb2. subst b. destruct (FR _ _ H).
      * intros (b & Hb & H). exists b. split; [apply id_insert_In; auto|exact H].
    + intros z'. rewrite !has_id_iff by auto. rewrite W2. split.
      * intros (b & Hb). apply id_insert_In in Hb as [Hb|Hb]; [inversion Hb; auto|eauto].
      * intros [(b & Hb)| ->]; [exists b|exists a]; apply id_insert_In; auto.
Qed.

Lemma by_id (h h' : sstate Pt) b z (P : tag -> addr -> Prop) : sreach cfg h -> sreach cfg h' -> st_segs h' = st_segs h -> In (z, b) (g_ids (st_segs h)) ->
  other_segments_same h h' b -> (forall t x, in_segment h' b t x <-> in_segment h b t x \/ P t x) ->
  forall z' t x, in_segment_id h' z' t x <-> in_segment_id h z' t x \/ (z' = z /\ P t x).
Proof.
  intros R R' GS Hb O IN z' t x. pose proof (si_g cfg h (sreach_inv cfg NH h R)) as G.
  rewrite (inid_iff cfg NH _ z' t x R'), (inid_iff cfg NH _ z' t x R), GS. split.
  - intros (c & Hc & H). destruct (Nat.eq_dec c b) as [->|Nb].
    + apply IN in H as [H|H]; [left; eauto|]. right. split; auto. eapply ids_fun; eauto.
    + left. exists c. split; auto. unfold in_segment in *. now rewrite (O c Nb) in H.
  - intros [(c & Hc & H)|[-> H]].
    + exists c. split; auto. destruct (Nat.eq_dec c b) as [->|Nb]; [apply IN; auto|]. unfold in_segment in *. now rewrite (O c Nb).
    + exists b. split; auto. apply IN. auto.
Qed.
End Hull.

Section Loop.
Context {Pt : Type}.
Variables cfgv cfg : config.
Notation t := (cfg_cell cfg).
Hypothesis NHv : cfg_cell cfgv <> Hex.
Hypothesis HT : t = facet_tag (cfg_cell cfgv) \/ In t (bnd_types cfgv).
Hypothesis TV : t <> Vertex.
Variable s0 : sstate Pt.
Hypothesis R0 : sreach cfgv s0.
Hypothesis A2 : segments_at_most_two cfgv s0.
Notation m := (st_mesh s0).

Lemma hull_not_hex : t <> Hex.
Proof.
  intros E. destruct HT as [H|H].
  - rewrite E in H. destruct (cfg_cell cfgv); discriminate.
  - rewrite E in H. unfold bnd_types in H. apply filter_In in H as [_ H]. destruct (cfg_cell cfgv); discriminate.
Qed.
Notation NHh := hull_not_hex.

Lemma ERS0 : ereach cfgv m. Proof. apply reach_ereach, (si_reach cfgv), sreach_inv; auto. Qed.
Lemma WS0 : exists c, wf c m. Proof. exists cfgv. apply ereach_wf, ERS0. Qed.
Lemma PS0 : pointed m. Proof. apply (ereach_pointed cfgv), ERS0. Qed.
Lemma SS0 : simple m. Proof. apply (ereach_simple cfgv), ERS0. Qed.
Lemma id_inj x y i : id_at m t x = Some i -> id_at m t y = Some i -> x = y.
Proof. destruct WS0 as (c & W). apply (id_at_inj c); auto. Qed.

Record xinv (x : @extraction Pt) (ps : list (Z * addr)) : Prop := mkXI {
  xi_vr : sreach cfgv (x_vol x);
  xi_vm : st_mesh (x_vol x) = m;
  xi_vs : st_segs (x_vol x) = st_segs s0;
  xi_vv : forall a, k_view (st_con (x_vol x) a) = k_view (st_con s0 a);
  xi_r : sreach cfg (x_hull x);
  xi_n : numbered (st_segs (x_hull x));
  xi_c : cinv cfg m (reach cfg) t (st_mesh (x_hull x)) (x_verts x) (fu [] (map snd ps));
  xi_e : Forall2 (fun f g => (exists i, id_at m t f = Some i /\ vlookup i (x_elems x) = Some g) /\
            forall z, in_segment_id (x_hull x) z t g <-> In (z, f) ps) (fu [] (map snd ps)) (range (st_mesh (x_hull x)) t);
  xi_o : forall i g, vlookup i (x_elems x) = Some g -> exists f, In f (fu [] (map snd ps)) /\ id_at m t f = Some i
}.

Lemma map_snd_app (ps : list (Z * addr)) z f : map snd (ps ++ [(z, f)]) = map snd ps ++ [f].
Proof. rewrite map_app. reflexivity. Qed.

Lemma hull_part (h : sstate Pt) x g : sreach cfg h -> (part_of (st_mesh h) t x t g <-> x = g).
Proof.
  intros R. pose proof (reach_wf cfg _ (si_reach cfg _ (sreach_inv cfg NHh _ R))) as W.
  split; [|intros ->; left; auto]. intros [[_ E']|B]; auto. pose proof (bounded_dim cfg _ t g t x W B). lia.
Qed.

Lemma hull_range_NoDup (h : sstate Pt) : sreach cfg h -> NoDup (range (st_mesh h) t).
Proof. intros R. apply (reach_wf cfg _ (si_reach cfg _ (sreach_inv cfg NHh _ R))). Qed.

Lemma element_step a b z x ps f : xinv x ps -> is_segment s0 a -> In f (k_view (st_con s0 a) t) -> In (z, b) (g_ids (st_segs (x_hull x))) ->
  exists x', extract_element cfgv cfg a b x f = Some x' /\ st_segs (x_hull x') = st_segs (x_hull x) /\
    ((on_boundary_of cfgv s0 a t f /\ xinv x' (ps ++ [(z, f)])) \/ (~ on_boundary_of cfgv s0 a t f /\ xinv x' ps)).
Proof.
  intros [VR VM VS VV R N C E O] Ha Hf Hb.
  assert (Ha' : is_segment (x_vol x) a) by (unfold is_segment; rewrite VS; exact Ha).
  assert (Lf : in_segment (x_vol x) a t f) by (unfold in_segment; now rewrite VV).
  assert (A2' : forall g n, cell_count_of cfgv (x_vol x) a g n -> n <= 2).
  { intros g n (k & [Nk Xk] & Ek). apply (A2 a g n Ha). exists k. split; auto. split; auto. intros y. rewrite Xk. unfold in_segment. now rewrite VV, VM. }
  destruct (C46_boundary_pf _ cfgv (x_vol x) a t f NHv VR Ha' Lf HT A2') as (k & r & EB & KV & RR).
  unfold extract_element. cbv zeta. rewrite EB. cbn [obind fst snd]. set (s1 := set_con (x_vol x) a k).
  assert (R1 : sreach cfgv s1).
  { apply (sr_step cfgv (x_vol x) (SBnd a t f) s1 VR); [split; [exact Ha'|split; [exact Lf|exact HT]]|]. cbn [sstep]. rewrite EB. reflexivity. }
  assert (V1 : forall c, k_view (st_con s1 c) = k_view (st_con s0 c)).
  { intros c. unfold s1, set_con. cbn. unfold upd_con. destruct (Nat.eqb_spec a c) as [<-|]; [rewrite KV|]; apply VV. }
  assert (OB : r = true <-> on_boundary_of cfgv s0 a t f).
  { rewrite RR. unfold on_boundary_of. assert (X : forall g, on_one_cell_of cfgv (x_vol x) a g <-> on_one_cell_of cfgv s0 a g).
    { intros g. unfold on_one_cell_of, in_segment. now rewrite VV, VM. }
    destruct (tag_eqb t (facet_tag (cfg_cell cfgv))); [apply X|]. unfold in_segment. rewrite VV, VM.
    split; intros (g & Y1 & Y2 & Y3); exists g; (split; [auto|split; [now apply X|auto]]). }
  change (st_mesh s1) with (st_mesh (x_vol x)). rewrite VM.
  destruct r.
  2:{ eexists. split; [reflexivity|]. split; [reflexivity|]. right. split; [intros B; apply OB in B; discriminate|]. constructor; cbn; auto. }
  assert (B : on_boundary_of cfgv s0 a t f) by (now apply OB).
  pose proof (sreach_inv cfgv NHv s0 R0) as I0.
  assert (LIV : is_live m t f).
  { destruct (seg_of cfgv s0 a I0 Ha) as (z' & nm & Hz & _). destruct (si_con cfgv s0 I0 a z' Hz) as (K & _). exact (good_all_live _ _ (co_good _ _ _ K) t f Hf). }
  assert (LIV' := LIV). destruct LIV' as (e & D). rewrite D. cbn [obind].
  assert (IE : id_at m t f = Some (e_id e)) by (unfold id_at; now rewrite D).
  pose proof (sreach_inv cfg NHh _ R) as IH.
  assert (Sb : is_segment (x_hull x) b) by (apply in_range; eauto).
  destruct (vlookup (e_id e) (x_elems x)) as [g|] eqn:LK.
  - (* the hull element is already there *)
    destruct (O _ _ LK) as (f' & Hf' & If'). assert (f' = f) by (eapply id_inj; eauto). subst f'.
    destruct (zip_in _ _ _ f E Hf') as (g' & Hz & (i & Ii & Li) & _). assert (g' = g) by congruence. subst g'.
    assert (Lg : is_live (st_mesh (x_hull x)) t g) by (apply (proj1 (range_deref _ _ _)); apply in_combine_r in Hz; exact Hz).
    destruct (C20_add_pf Pt cfg _ b t g NHh R Sb Lg) as (h' & E' & M & GS & OS & IN). rewrite E'. cbn [option_map].
    assert (R' : sreach cfg h') by (eapply (sr_step cfg _ (SAdd b t g)); eauto; cbn; auto).
    eexists. split; [reflexivity|]. split; [exact GS|]. left. split; auto.
    pose proof (by_id cfg NHh _ h' b z _ R R' GS Hb OS IN) as ID.
    assert (FU : fu [] (map snd (ps ++ [(z, f)])) = fu [] (map snd ps)).
    { rewrite map_snd_app, fu_last. apply memb_In in Hf'. now rewrite Hf'. }
    constructor; cbn [x_vol x_hull x_verts x_elems]; rewrite ?M, ?GS, ?FU; auto.
    eapply zip_impl; [exact E|]. intros f1 g1 Z1 [(j & Ij & Lj) IN1]. split; [eauto|]. intros z1. rewrite ID, IN1, (hull_part _ g1 g R), in_app_iff.
    cbn [In]. assert (X : g1 = g <-> f = f1).
    { split; [intros ->|intros <-; congruence]. eapply zip_inj; [apply (hull_range_NoDup _ R)| |]; eauto. }
    rewrite X. split; [intros [Y|[-> ->]]; auto|intros [Y|[Y|[]]]; [auto|inversion Y; auto]].
  - (* a new hull element *)
    assert (NI : ~ In f (fu [] (map snd ps))).
    { intros H. destruct (zip_in _ _ _ f E H) as (g' & _ & (i & Ii & Li) & _). congruence. }
    set (h := x_hull x) in *.
    assert (Es : with_mesh h (st_mesh h) = h) by (destruct h; reflexivity).
    assert (C1 : cinv cfg m (fun d => sreach cfg (with_mesh h d)) t (st_mesh h) (x_verts x) (fu [] (map snd ps))).
    { eapply cinv_swap; eauto. cbn. now rewrite Es. }
    destruct (copy_element_parts cfg m WS0 PS0 SS0 _ (fun d o d' => sreach_vstep cfg h d d' o) t eq_refl TV _ _ _ f e C1 D) as (d1 & vm1 & ys & EV & VO & R2).
    destruct (copy_element_spec cfg m WS0 PS0 SS0 _ (fun d o d' => sreach_vstep cfg h d d' o) t eq_refl TV _ _ _ f C1 LIV) as (d' & vm' & g & EC & C2 & RG & _).
    unfold copy_element in EC. rewrite D in EC. cbn [obind] in EC. rewrite EV in EC |- *. cbn [obind fst snd] in EC |- *.
    destruct (make_element cfg t d1 ys) as [[d2 g2]|] eqn:EM; [|discriminate]. cbn [option_map obind fst snd] in EC |- *. inversion EC; subst d2 vm1 g2. clear EC.
    assert (S1 : is_segment (with_mesh h d1) b) by exact Sb.
    destruct (C20_create_pf Pt cfg (with_mesh h d1) b t ys NHh R2 S1 VO) as (h' & d2 & g2 & EM' & E' & M & GS & OS & IN).
    cbn [with_mesh st_mesh] in EM'. assert (X1 : d2 = d') by congruence. assert (X2 : g2 = g) by congruence. rewrite X1 in M, IN. rewrite X2 in IN. clear X1 X2 EM'. rewrite E'. cbn [option_map].
    assert (R' : sreach cfg h') by (eapply (sr_step cfg _ (SCreate b (OElement t ys))); [exact R2| |exact E']; cbn; auto).
    eexists. split; [reflexivity|]. split; [exact GS|]. left. split; auto.
    pose proof (by_id cfg NHh (with_mesh h d1) h' b z _ R2 R' GS Hb OS IN) as ID.
    assert (ID' : forall z' y, in_segment_id h' z' t y <-> in_segment_id h z' t y \/ (z' = z /\ y = g)).
    { intros z' y. rewrite ID, <- M, (hull_part _ y g R'). reflexivity. }
    assert (ND : NoDup (range d' t)) by (rewrite <- M; apply hull_range_NoDup; exact R'). rewrite RG in ND.
    assert (Na : ~ In g (range (st_mesh h) t)).
    { intros H. apply NoDup_remove_2 with (l := range (st_mesh h) t) (l' := []) in ND. apply ND. now rewrite app_nil_r. }
    assert (FU : fu [] (map snd (ps ++ [(z, f)])) = fu [] (map snd ps) ++ [f]).
    { rewrite map_snd_app, fu_last. destruct (memb f (fu [] (map snd ps))) eqn:MB; auto. apply memb_In in MB. contradiction. }
    assert (NG : forall z', ~ in_segment_id h z' t g).
    { intros z' X. apply Na. apply (inid_iff cfg NHh) in X as (c & Hc & X); auto. destruct (si_con cfg h IH _ _ Hc) as ([GV _ _] & _).
      pose proof (good_all_live _ _ GV t g X) as L. apply live_is_live in L. exact L. }
    assert (NP : forall z', ~ In (z', f) ps).
    { intros z' Y. apply NI. apply fu_In. right. change f with (snd (z', f)). now apply in_map. }
    constructor; cbn [x_vol x_hull x_verts x_elems]; auto.
    + rewrite GS. exact N.
    + rewrite M, FU. eapply cinv_swap; [exact C2|]. rewrite <- M. apply (si_reach cfg), (sreach_inv cfg NHh), R'.
    + rewrite M, FU, RG. apply Forall2_app; [|constructor; [|constructor]].
      * eapply zip_impl; [exact E|]. intros f1 g1 Z1 [(j & Ij & Lj) IN1].
        assert (F1 : f1 <> f) by (intros ->; apply in_combine_l in Z1; contradiction).
        assert (G1 : g1 <> g) by (intros ->; apply in_combine_r in Z1; contradiction).
        split.
        -- exists j. split; auto. rewrite vlookup_cons. destruct (Nat.eqb_spec j (e_id e)) as [->|]; auto. elim F1. eapply id_inj; eauto.
        -- intros z1. rewrite ID', IN1, in_app_iff. cbn [In]. split; [intros [Y|[_ Y]]; auto; contradiction|intros [Y|[Y|[]]]; auto; inversion Y; congruence].
      * split.
        -- exists (e_id e). split; auto. rewrite vlookup_cons. now rewrite Nat.eqb_refl.
        -- intros z1. rewrite ID', in_app_iff. cbn [In]. specialize (NG z1). specialize (NP z1). split; [intros [Y|[-> _]]; [contradiction|auto]|intros [Y|[Y|[]]]; [contradiction|inversion Y; auto]].
    + intros i g0. rewrite vlookup_cons, FU. destruct (Nat.eqb_spec i (e_id e)) as [->|].
      * intros _. exists f. rewrite in_app_iff. cbn. auto.
      * intros L. destruct (O i g0 L) as (f1 & ? & ?). exists f1. rewrite in_app_iff. auto.
Qed.

(** What is_boundary says about the elements of the segments at the beginning. *)
Definition onb (a : nat) (f : addr) : bool :=
  match seg_bnd cfgv t m (st_con s0 a) f with Some (_, r) => r | None => false end.

Lemma onb_iff a f : is_segment s0 a -> In f (k_view (st_con s0 a) t) -> (onb a f = true <-> on_boundary_of cfgv s0 a t f).
Proof.
  intros Ha Hf. destruct (C46_boundary_pf _ cfgv s0 a t f NHv R0 Ha Hf HT (fun g n => A2 a g n Ha)) as (k & r & EB & KV & RR).
  unfold onb. rewrite EB. exact RR.
Qed.

Lemma elements_loop a b z l : forall x ps, xinv x ps -> is_segment s0 a -> incl l (k_view (st_con s0 a) t) -> In (z, b) (g_ids (st_segs (x_hull x))) ->
  exists x', ofold (extract_element cfgv cfg a b) l x = Some x' /\ st_segs (x_hull x') = st_segs (x_hull x) /\
    xinv x' (ps ++ map (pair z) (filter (onb a) l)).
Proof.
  induction l as [|f l IH]; intros x ps X Ha HI Hb; cbn [ofold filter].
  - exists x. rewrite app_nil_r. auto.
  - assert (Hf : In f (k_view (st_con s0 a) t)) by (apply HI; now left).
    destruct (element_step a b z x ps f X Ha Hf Hb) as (x1 & E1 & G1 & D). rewrite E1. cbn [obind].
    assert (HI' : incl l (k_view (st_con s0 a) t)) by (intros y Hy; apply HI; now right).
    destruct D as [[B X1]|[B X1]]; (destruct (IH x1 _ X1 Ha HI') as (x2 & E2 & G2 & X2); [now rewrite G1|]); exists x2; (split; [exact E2|]); (split; [congruence|]).
    + apply (onb_iff a f Ha Hf) in B. rewrite B. cbn [map]. rewrite <- app_assoc in X2. exact X2.
    + destruct (onb a f) eqn:OB; [apply (onb_iff a f Ha Hf) in OB; contradiction|exact X2].
Qed.

Definition marked (L : list (Z * nat)) : list (Z * addr) :=
  flat_map (fun za => map (pair (fst za)) (filter (onb (snd za)) (k_view (st_con s0 (snd za)) t))) L.

Lemma segments_loop L : forall x ps, xinv x ps -> incl L (g_ids (st_segs s0)) ->
  exists x', rfold (extract_segment cfgv cfg) L x = Done x' /\ xinv x' (ps ++ marked L) /\
    forall z, has_id (st_segs (x_hull x')) z <-> has_id (st_segs (x_hull x)) z \/ In z (map fst L).
Proof.
  induction L as [|[z a] L IH]; intros x ps X HI; cbn [rfold].
  - exists x. unfold marked. cbn. rewrite app_nil_r. split; auto. split; auto. intros. tauto.
  - assert (Ha : is_segment s0 a) by (apply in_range; exists z; apply HI; now left).
    unfold extract_segment at 1. cbn [fst snd]. pose proof X as [VR VM VS VV R N C E O].
    destruct (make_id_spec cfg NHh (x_hull x) z R N) as (g & b & EG & RG & NG & Hb & ID & HID). rewrite EG.
    assert (X0 : xinv (mkX (x_vol x) (with_segs (x_hull x) g) (x_verts x) (x_elems x)) ps).
    { constructor; cbn [x_vol x_hull x_verts x_elems]; auto. eapply zip_impl; [exact E|]. intros f1 g1 _ [Y1 Y2]. split; auto. intros z'. rewrite ID. apply Y2. }
    rewrite VV.
    destruct (elements_loop a b z (k_view (st_con s0 a) t) _ ps X0 Ha (fun y Hy => Hy) Hb) as (x1 & E1 & G1 & X1).
    rewrite E1. cbn [of_option rbind].
    assert (HI' : incl L (g_ids (st_segs s0))) by (intros y Hy; apply HI; now right).
    destruct (IH x1 _ X1 HI') as (x2 & E2 & X2 & H2). exists x2. split; [exact E2|]. split.
    + rewrite <- app_assoc in X2. exact X2.
    + intros z'. rewrite H2, G1. cbn [x_hull with_segs st_segs map fst In]. rewrite HID. intuition.
Qed.

Lemma xinv_start dm : reach cfg dm -> xinv (mkX s0 (clear_segmentation (with_mesh (new_sstate dm) (clear_mesh dm))) [] []) [].
Proof.
  intros R. assert (RC : reach cfg (clear_mesh dm)) by (eapply (reach_step cfg dm OClear); eauto; exact I).
  constructor; cbn [x_vol x_hull x_verts x_elems]; auto.
  - apply (sr_new cfg (clear_mesh dm) RC).
  - apply decnames_new.
  - apply cinv_clear. exact RC.
  - constructor.
  - discriminate.
Qed.

Lemma boundary_member a f : is_segment s0 a -> on_boundary_of cfgv s0 a t f -> In f (k_view (st_con s0 a) t).
Proof.
  intros Ha B. destruct (C20_closure_pf _ cfgv s0 a NHv R0 Ha) as (BC & _). unfold on_boundary_of in B.
  destruct (tag_eqb t (facet_tag (cfg_cell cfgv))) eqn:ET.
  - apply tag_eqb_eq in ET. rewrite ET. destruct B as (c & Hc). destruct (proj2 (Hc c) eq_refl) as [H1 H2]. exact (BC _ _ _ _ H1 H2).
  - destruct B as (g & H1 & _ & H2). exact (BC _ _ _ _ H1 H2).
Qed.

Lemma marked_iff z f : In (z, f) (marked (g_ids (st_segs s0))) <-> on_boundary_of_id cfgv s0 z t f.
Proof.
  pose proof (si_g cfgv s0 (sreach_inv cfgv NHv s0 R0)) as G.
  unfold marked. rewrite in_flat_map. unfold on_boundary_of_id, segment_has_id. split.
  - intros ([z' a] & H & X). cbn [fst snd] in X. apply in_map_iff in X as (f' & E & X). inversion E; subst. apply filter_In in X as [X1 X2].
    assert (Ha : is_segment s0 a) by (apply in_range; eauto). exists a. split; [split; auto; now apply id_in_ids|]. now apply onb_iff.
  - intros (a & [Ha E] & B). exists (z, a). split; [now apply id_in_ids|]. cbn [fst snd]. apply in_map. apply filter_In. split; [|apply onb_iff; auto]; now apply boundary_member.
Qed.

Lemma marked_snd L : map snd (marked L) = flat_map (fun a => filter (onb a) (k_view (st_con s0 a) t)) (map snd L).
Proof.
  induction L as [|[z a] L IH]; auto. unfold marked in *. cbn [flat_map map fst snd]. rewrite map_app, IH. f_equal.
  rewrite map_map. cbn. apply map_id.
Qed.
End Loop.

Lemma C57_segments_pf : forall Pt cfgv cfgh (q : qstate Pt) (s : sstate Pt) (hull : @mesh Pt), let t := cfg_cell cfgh in
  t = facet_tag (cfg_cell cfgv) \/ In t (bnd_types cfgv) -> t <> Vertex -> cfg_cell cfgv <> Hex ->
  sreach cfgv s -> segments_at_most_two cfgv s -> segment_count (st_segs s) <> 0 -> reach cfgh hull ->
  exists s' h' fs phi, extract_boundary_seg cfgv cfgh q s (new_sstate hull) = Done (q, s', h') /\
    sreach cfgv s' /\ st_mesh s' = st_mesh s /\ st_segs s' = st_segs s /\ (forall a t x, in_segment s' a t x <-> in_segment s a t x) /\
    sreach cfgh h' /\ is_copy (st_mesh s) (st_mesh h') t fs phi /\
    (exists onb, (forall a f, is_segment s a -> In f (k_view (st_con s a) t) -> (onb a f = true <-> on_boundary_of cfgv s a t f)) /\
       fs = first_uses (flat_map (fun a => filter (onb a) (k_view (st_con s a) t)) (segment_range (st_segs s)))) /\
    (forall f, In f fs <-> exists z, on_boundary_of_id cfgv s z t f) /\
    Forall2 (fun f g => forall z, in_segment_id h' z t g <-> on_boundary_of_id cfgv s z t f) fs (range (st_mesh h') t) /\
    (forall z, has_id (st_segs h') z <-> has_id (st_segs s) z).
Proof.
  intros Pt cfgv cfgh q s hull t HT TV NH R A2 NE RH.
  pose proof (si_g cfgv s (sreach_inv cfgv NH s R)) as G.
  destruct (segments_loop cfgv cfgh NH HT TV s R A2 (g_ids (st_segs s)) _ [] (xinv_start cfgv cfgh s R hull RH) (fun y Hy => Hy)) as (x & E & X & H).
  unfold extract_boundary_seg. cbv zeta. destruct (segment_count (st_segs s)) as [|n] eqn:SC; [contradiction|]. cbn [rbind fst snd].
  change (st_mesh (new_sstate hull)) with hull. rewrite E. cbn [rbind].
  destruct X as [VR VM VS VV RX N C F O]. cbn [app] in *. destruct (cinv_copy cfgh (st_mesh s) (reach cfgh) t eq_refl TV _ _ _ C) as (phi & IC).
  exists (x_vol x), (x_hull x), (fu [] (map snd (marked cfgv cfgh s (g_ids (st_segs s))))), phi.
  split; [reflexivity|]. split; [exact VR|]. split; [exact VM|]. split; [exact VS|]. split; [intros a t' y; unfold in_segment; now rewrite VV|].
  split; [exact RX|]. split; [exact IC|]. split; [|split; [|split]].
  - exists (onb cfgv cfgh s). split; [exact (onb_iff cfgv cfgh NH HT s R A2)|]. now rewrite marked_snd.
  - intros f. rewrite fu_In. cbn [In]. split.
    + intros [[]|Hf]. apply in_map_iff in Hf as ([z f'] & Ef & Hf). cbn in Ef. subst f'. exists z. now apply (marked_iff cfgv cfgh NH HT s R A2).
    + intros (z & B). right. apply (marked_iff cfgv cfgh NH HT s R A2) in B. exact (in_map snd _ _ B).
  - eapply zip_impl; [exact F|]. intros f g _ [_ Y] z. etransitivity; [apply Y|]. now apply marked_iff.
  - intros z. rewrite H, (has_id_iff (st_segs s)) by auto. split.
    + intros [(b & [] & _)|Hz]. apply in_map_iff in Hz as ([z' a] & Ez & Hz). cbn in Ez. subst z'. eauto.
    + intros (a & Ha). right. exact (in_map fst _ _ Ha).
Qed.

Lemma C57_no_segments_pf : forall Pt cfgv cfgh (q : qstate Pt) (s : sstate Pt) (hull : @mesh Pt), let t := cfg_cell cfgh in
  t = facet_tag (cfg_cell cfgv) \/ In t (bnd_types cfgv) -> t <> Vertex ->
  qreach cfgv q -> q_mesh q = st_mesh s -> at_most_two cfgv (q_mesh q) -> segment_count (st_segs s) = 0 -> reach cfgh hull ->
  exists q' h' fs phi, extract_boundary_seg cfgv cfgh q s (new_sstate hull) = Done (q', s, h') /\
    q_mesh q' = q_mesh q /\ is_copy (st_mesh s) (st_mesh h') t fs phi /\
    (exists onb, fs = filter onb (range (st_mesh s) t)) /\
    (forall f, In f fs <-> In f (range (st_mesh s) t) /\ on_boundary cfgv (st_mesh s) t f) /\
    (forall z, ~ has_id (st_segs h') z).
Proof.
  intros Pt cfgv cfgh q s hull t HT TV RQ QM A2 SC RH. assert (RC : ereach cfgh (clear_mesh hull)).
  { apply reach_ereach. eapply (reach_step cfgh hull OClear); eauto; exact I. }
  destruct (C41_extract_boundary_pf Pt cfgv cfgh q (clear_mesh hull) HT TV RQ A2 RC) as (q' & h' & fs & phi & E & QM' & _ & ON & B & IC).
  exists q', (with_mesh (clear_segmentation (with_mesh (new_sstate hull) (clear_mesh hull))) h'), fs, phi.
  unfold extract_boundary_seg. cbv zeta. rewrite SC. change (st_mesh (clear_segmentation (with_mesh (new_sstate hull) (clear_mesh (st_mesh (new_sstate hull)))))) with (clear_mesh hull).
  rewrite E. cbn [of_option rbind fst snd].
  assert (EI : g_ids (st_segs s) = []) by (unfold segment_count in SC; destruct (g_ids (st_segs s)); [auto|discriminate]).
  rewrite EI. cbn [rfold rbind x_vol x_hull]. split; [reflexivity|]. split; [exact QM'|]. rewrite <- QM. split; [exact IC|]. split; [exact ON|]. split; [exact B|].
  intros z (a & [] & _).
Qed.

Lemma C57_again_refuted_pf : forall Pt cfgv cfgh (q : qstate Pt) (s : sstate Pt) (hull : @mesh Pt), let t := cfg_cell cfgh in
  t = facet_tag (cfg_cell cfgv) \/ In t (bnd_types cfgv) -> t <> Vertex -> cfg_cell cfgv <> Hex ->
  sreach cfgv s -> segments_at_most_two cfgv s -> segment_count (st_segs s) <> 0 -> reach cfgh hull ->
  exists s' h', extract_boundary_seg cfgv cfgh q s (new_sstate hull) = Done (q, s', h') /\
    extract_boundary_seg cfgv cfgh q s' h' = Thrown.
Proof.
  intros Pt cfgv cfgh q s hull t HT TV NH R A2 NE RH.
  pose proof (si_g cfgv s (sreach_inv cfgv NH s R)) as G. pose proof (hull_not_hex cfgv cfgh NH HT) as NHh.
  destruct (segments_loop cfgv cfgh NH HT TV s R A2 (g_ids (st_segs s)) _ [] (xinv_start cfgv cfgh s R hull RH) (fun y Hy => Hy)) as (x & E & X & H).
  destruct X as [VR VM VS VV RX N C F O]. pose proof (si_g cfgh _ (sreach_inv cfgh NHh _ RX)) as GX.
  exists (x_vol x), (x_hull x). unfold extract_boundary_seg. cbv zeta. rewrite VS. destruct (segment_count (st_segs s)) as [|n] eqn:SC; [contradiction|]. cbn [rbind fst snd].
  change (st_mesh (new_sstate hull)) with hull. rewrite E. cbn [rbind]. split; [reflexivity|].
  unfold segment_count in SC. destruct (g_ids (st_segs s)) as [|[z a] L] eqn:EI; [discriminate|]. cbn [rfold].
  unfold extract_segment at 1. cbn [fst snd x_hull clear_segmentation with_mesh st_segs].
  assert (HZ : has_id (st_segs (x_hull x)) z) by (apply H; right; now left).
  unfold get_make_id. cbn [clear_segs g_ids g_names find_id].
  destruct (find_name (decimal z) (g_names (st_segs (x_hull x)))) eqn:FN; [reflexivity|].
  pose proof (proj1 (N z) FN) as FN1. apply has_id_iff in HZ as (b & Hb); auto. exact (False_ind _ (FN1 b Hb)).
Qed.

Lemma mesh_at_most_two Pt cfg (s : sstate Pt) : cfg_cell cfg <> Hex -> sreach cfg s -> at_most_two cfg (st_mesh s) -> segments_at_most_two cfg s.
Proof.
  intros NH R A2 a f n Ha (l & [N X] & <-).
  pose proof (md_wf _ _ (si_mid _ _ (sreach_inv cfg NH s R))) as W.
  destruct (cobs_exact cfg (st_mesh s) (facet_tag (cfg_cell cfg)) (cfg_cell cfg) f W) as [N' X'].
  apply Nat.le_trans with (length (cobs (st_mesh s) (facet_tag (cfg_cell cfg)) (cfg_cell cfg) f)).
  - apply NoDup_incl_length; auto. intros c Hc. apply X'. apply X in Hc. tauto.
  - apply (A2 f). exists (cobs (st_mesh s) (facet_tag (cfg_cell cfg)) (cfg_cell cfg) f). split; [split; auto|reflexivity].
Qed.
