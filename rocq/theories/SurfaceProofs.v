(** Surfaces. *)
From Coq Require Import Reals List Arith Lia Lra Permutation Bool.
From Verif Require Import ModelTopo ModelMesh ModelErase ModelQuery ModelSegmentation ModelSegment ModelGeom ModelVolume ModelDistance ModelSurface
  SpecMesh SpecErase SpecQuery SpecSegmentation SpecSegment SpecRefine SpecGeom SpecDistance SpecSurface.
From Verif Require Import MeshBase MeshInv MeshIds MeshReach MeshProofs MeshWf MeshErase MeshSimple CopyBase CopyProofs QueryBase QueryBnd QueryProofs RefineGeom UniqueProofs DistanceProofs MeshDemo QueryDemo SegmentDemo
  ViewBase SegmentationBase SegmentView SegmentBase SegmentInv SegmentStep SegmentationProofs SegmentProofs.
Import ModelSegmentation ListNotations.
Local Open Scope R_scope.

Lemma volume_defined cfg d (m : @mesh point) t a : ereach cfg m -> is_live m t a -> measured d t ->
  exists v, element_volume d m t a = Some v /\ has_volume d m t a v.
Proof.
  intros ER L M. destruct (points_defined cfg m t a ER L) as (ps & E & HP & LP).
  assert (G : exists v, volume_cell d (shape_of t) ps = Some v).
  { destruct t; cbn [nverts] in LP; repeat (destruct ps as [|? ps]; try discriminate LP); cbn in M; try (destruct M as [->| ->]); subst; cbn; eauto. }
  destruct G as (v & Ev). exists v. unfold element_volume. rewrite E. cbn [obind]. split; [exact Ev|]. exists ps. auto.
Qed.

Lemma Rsum_cons x l : Rsum (x :: l) = x + Rsum l.
Proof. reflexivity. Qed.
Section Sums.
Variable V : addr -> R.
Definition total (l : list addr) : R := Rsum (map V l).
Lemma total_perm l l' : Permutation l l' -> total l = total l'.
Proof. intros P. apply Rsum_perm. now apply Permutation_map. Qed.
Lemma perm_filter l fs : NoDup l -> NoDup fs -> incl l fs -> Permutation l (filter (fun f => memb f l) fs).
Proof.
  intros N1 N2 I. apply NoDup_Permutation; auto; [now apply NoDup_filter|]. intros x. rewrite filter_In, memb_In. firstorder.
Qed.
Lemma total_filter fs (p : addr -> bool) : total (filter p fs) = Rsum (map (fun f => V f * (if p f then 1 else 0)) fs).
Proof. unfold total. induction fs as [|f fs IH]; [reflexivity|]. cbn [filter map]. destruct (p f); cbn [map]; rewrite ?Rsum_cons, IH; ring. Qed.
Lemma Rsum_plus {A} (f g : A -> R) l : Rsum (map f l) + Rsum (map g l) = Rsum (map (fun x => f x + g x) l).
Proof. induction l; [cbn; ring|]. cbn [map]. rewrite ?Rsum_cons, <- IHl. ring. Qed.
Lemma Rsum_scale {A} c (f : A -> R) l : c * Rsum (map f l) = Rsum (map (fun x => c * f x) l).
Proof. induction l; [cbn; ring|]. cbn [map]. rewrite ?Rsum_cons, <- IHl. ring. Qed.
Lemma Rsum_ext {A} (f g : A -> R) l : (forall x, In x l -> f x = g x) -> Rsum (map f l) = Rsum (map g l).
Proof. intros H. f_equal. now apply map_ext_in. Qed.
Lemma double_count {A} (F : A -> list addr) fs cs : NoDup fs -> (forall c, In c cs -> NoDup (F c) /\ incl (F c) fs) ->
  Rsum (map (fun c => total (F c)) cs) = Rsum (map (fun f => V f * INR (length (filter (fun c => memb f (F c)) cs))) fs).
Proof.
  intros N. induction cs as [|c cs IH]; intros H.
  - cbn [map filter length INR]. clear. induction fs; [reflexivity|]. cbn [map]. rewrite Rsum_cons, <- IHfs. cbn. ring.
  - cbn [map filter]. rewrite Rsum_cons. rewrite IH by (intros; apply H; now right).
    destruct (H c (or_introl eq_refl)) as [N1 I]. rewrite (total_perm _ _ (perm_filter _ _ N1 N I)), total_filter, Rsum_plus.
    apply Rsum_ext. intros f _. destruct (memb f (F c)); cbn [length]; [rewrite S_INR|]; ring.
Qed.
Lemma split_count (n : addr -> nat) fs : (forall f, In f fs -> (n f <= 2)%nat) ->
  Rsum (map (fun f => V f * INR (n f)) fs) = total (filter (fun f => n f =? 1)%nat fs) + 2 * total (filter (fun f => n f =? 2)%nat fs).
Proof.
  intros H. rewrite !total_filter, Rsum_scale, Rsum_plus. apply Rsum_ext. intros f Hf. specialize (H f Hf).
  destruct (n f) as [|[|[|k]]]; cbn; try ring; lia.
Qed.
End Sums.

Definition Vof (d : nat) (m : @mesh point) (t : tag) (f : addr) : R := match element_volume d m t f with Some v => v | None => 0 end.
Lemma Vof_eq cfg d m t f : ereach cfg m -> is_live m t f -> measured d t -> element_volume d m t f = Some (Vof d m t f).
Proof. intros ER L M. destruct (volume_defined cfg d m t f ER L M) as (v & E & _). unfold Vof. now rewrite E. Qed.
Lemma Vof_has cfg d m t f : ereach cfg m -> is_live m t f -> measured d t -> has_volume d m t f (Vof d m t f).
Proof. intros ER L M. destruct (volume_defined cfg d m t f ER L M) as (v & E & H). unfold Vof. now rewrite E. Qed.
Lemma Vof_all cfg d m t l : ereach cfg m -> measured d t -> (forall f, In f l -> is_live m t f) -> Forall2 (has_volume d m t) l (map (Vof d m t) l).
Proof. intros ER M. induction l; cbn; intros H; constructor; [apply (Vof_has cfg); auto|apply IHl; auto]. Qed.

Definition count (cfg : config) (m : @mesh point) (f : addr) : nat := length (cobs m (facet_tag (cfg_cell cfg)) (cfg_cell cfg) f).
Lemma live_of_count cfg (m : @mesh point) f : ereach cfg m -> count cfg m f <> 0%nat -> is_live m (facet_tag (cfg_cell cfg)) f.
Proof.
  intros ER C. pose proof (ereach_wf cfg m ER) as W. unfold count in C. destruct (cobs_exact cfg m (facet_tag (cfg_cell cfg)) (cfg_cell cfg) f W) as [_ X].
  destruct (cobs m _ _ f) as [|c l]; [now elim C|]. destruct (proj1 (X c) (or_introl eq_refl)) as (e & De & HB).
  exact (wf_no_dangling cfg m W _ _ _ _ _ De HB).
Qed.
Lemma count_two cfg (m : @mesh point) f n : wf cfg m -> cell_count cfg m f n <-> n = count cfg m f.
Proof.
  intros W. split.
  - intros (l & [N X] & <-). destruct (cobs_exact cfg m (facet_tag (cfg_cell cfg)) (cfg_cell cfg) f W) as [N' X'].
    apply Permutation_length, NoDup_Permutation; auto. intros a. now rewrite X, X'.
  - intros ->. now apply count_cobs.
Qed.

Lemma mesh_loop cfg d (m : @mesh point) : ereach cfg m -> at_most_two cfg m -> measured d (facet_tag (cfg_cell cfg)) ->
  forall l q acc, qreach cfg q -> q_mesh q = m -> (forall f, In f l -> is_live m (facet_tag (cfg_cell cfg)) f) ->
  exists q', ofold (fun st f =>
    obind (query_bnd cfg (facet_tag (cfg_cell cfg)) (fst st) f) (fun r =>
    if snd r then option_map (fun v => (fst r, snd st + v)) (element_volume d (q_mesh (fst r)) (facet_tag (cfg_cell cfg)) f)
    else Some (fst r, snd st))) l (q, acc)
   = Some (q', acc + total (Vof d m (facet_tag (cfg_cell cfg))) (filter (fun f => count cfg m f =? 1)%nat l)) /\ qreach cfg q' /\ q_mesh q' = m.
Proof.
  intros ER A2 M. set (ft := facet_tag (cfg_cell cfg)) in *. pose proof (ereach_wf cfg m ER) as W.
  induction l as [|f l IH]; intros q acc HQ QM LV; cbn [ofold filter].
  { exists q. split; auto. cbn. unfold total. cbn. now rewrite Rplus_0_r. }
  assert (Lf : is_live (q_mesh q) ft f) by (rewrite QM; apply LV; now left).
  assert (A2' : at_most_two cfg (q_mesh q)) by now rewrite QM.
  destruct (C16_boundary_exact_pf _ cfg q ft f HQ (or_introl eq_refl) Lf A2') as (q1 & r & E & Q1 & R).
  assert (HQ1 : qreach cfg q1).
  { apply (qreach_step cfg q (QBnd ft f) q1 HQ); [split; auto|]. cbn [qstep]. now rewrite E. }
  cbn [fst snd]. rewrite E. cbn [obind fst snd]. rewrite QM in Q1. unfold on_boundary in R. fold ft in R. rewrite tag_eqb_refl, QM in R.
  rewrite (one_cobs cfg m f W) in R. fold ft in R. change (length (cobs m ft (cfg_cell cfg) f)) with (count cfg m f) in R.
  assert (LV' : forall g, In g l -> is_live m ft g) by (intros g Hg; apply LV; now right).
  destruct r.
  - rewrite Q1, (Vof_eq cfg d m ft f ER (LV f (or_introl eq_refl)) M). cbn [option_map obind].
    destruct (IH q1 (acc + Vof d m ft f) HQ1 Q1 LV') as (q' & Eq & H1 & H2). exists q'. split; [|auto]. rewrite Eq. do 2 f_equal.
    rewrite (proj2 (Nat.eqb_eq _ _) (proj1 R eq_refl)). unfold total. cbn [map]. rewrite Rsum_cons. ring.
  - cbn [obind]. destruct (IH q1 acc HQ1 Q1 LV') as (q' & Eq & H1 & H2). exists q'. split; [|auto]. rewrite Eq. do 2 f_equal.
    destruct (Nat.eqb_spec (count cfg m f) 1) as [C|C]; auto. apply R in C. discriminate.
Qed.

Lemma range_iff (m : @mesh point) t f : In f (range m t) <-> is_live m t f.
Proof. apply range_deref. Qed.

Lemma mesh_value cfg d q : qreach cfg q -> at_most_two cfg (q_mesh q) -> measured d (facet_tag (cfg_cell cfg)) ->
  exists q', surface_mesh cfg d q = Some (q', total (Vof d (q_mesh q) (facet_tag (cfg_cell cfg))) (filter (fun f => count cfg (q_mesh q) f =? 1)%nat (range (q_mesh q) (facet_tag (cfg_cell cfg))))) /\
    q_mesh q' = q_mesh q /\ qreach cfg q'.
Proof.
  intros HQ A2 M. pose proof (proj1 (qreach_inv cfg q HQ)) as ER. unfold surface_mesh.
  destruct (mesh_loop cfg d (q_mesh q) ER A2 M (range (q_mesh q) (facet_tag (cfg_cell cfg))) q 0 HQ eq_refl) as (q' & E & H1 & H2); [intros f; apply range_iff|].
  exists q'. split; [|auto]. cbv zeta. rewrite E. do 2 f_equal. ring.
Qed.

Lemma C56_mesh_pf : forall cfg d q, qreach cfg q -> at_most_two cfg (q_mesh q) -> measured d (facet_tag (cfg_cell cfg)) ->
  exists q' r fs vs, surface_mesh cfg d q = Some (q', r) /\ q_mesh q' = q_mesh q /\ qreach cfg q' /\
    lists_exactly fs (on_one_cell cfg (q_mesh q)) /\
    Forall2 (has_volume d (q_mesh q) (facet_tag (cfg_cell cfg))) fs vs /\ r = Rsum vs.
Proof.
  intros cfg d q HQ A2 M. set (ft := facet_tag (cfg_cell cfg)) in *. pose proof (proj1 (qreach_inv cfg q HQ)) as ER. pose proof (ereach_wf cfg _ ER) as W.
  destruct (mesh_value cfg d q HQ A2 M) as (q' & E & Q & H). fold ft in E.
  eexists q', _, (filter (fun f => count cfg (q_mesh q) f =? 1)%nat (range (q_mesh q) ft)), _. split; [exact E|]. split; [exact Q|]. split; [exact H|]. split; [|split; [|reflexivity]].
  - split; [apply NoDup_filter; apply W|]. intros f. rewrite filter_In, range_iff, Nat.eqb_eq, (one_cobs cfg _ f W). fold ft.
    change (length (cobs (q_mesh q) ft (cfg_cell cfg) f)) with (count cfg (q_mesh q) f). split; [tauto|]. intros C. split; auto. apply (live_of_count cfg); auto. lia.
  - apply (Vof_all cfg); auto. intros f Hf. apply filter_In in Hf. now apply range_iff.
Qed.

Lemma elem_loop cfg d m t l : ereach cfg m -> measured d t -> (forall f, In f l -> is_live m t f) -> forall acc,
  ofold (fun r f => option_map (fun v => r + v) (element_volume d m t f)) l acc = Some (acc + total (Vof d m t) l).
Proof.
  intros ER M. induction l as [|f l IH]; intros LV acc; cbn [ofold].
  - unfold total. cbn. now rewrite Rplus_0_r.
  - rewrite (Vof_eq cfg d m t f ER (LV f (or_introl eq_refl)) M). cbn [option_map obind]. rewrite IH by (intros; apply LV; now right).
    f_equal. unfold total. cbn [map]. rewrite Rsum_cons. ring.
Qed.

Lemma C56_element_pf : forall cfg d (m : @mesh point) t a e, ereach cfg m -> deref m t a = Some e -> measured d (facet_tag t) ->
  exists vs, surface_element d m t a = Some (Rsum vs) /\ Forall2 (has_volume d m (facet_tag t)) (boundary_of e (facet_tag t)) vs.
Proof.
  intros cfg d m t a e ER D M. assert (LV : forall f, In f (boundary_of e (facet_tag t)) -> is_live m (facet_tag t) f).
  { intros f Hf. exact (wf_no_dangling cfg m (ereach_wf cfg m ER) _ _ _ _ _ D Hf). }
  eexists. unfold surface_element. rewrite D. cbn [obind]. split; [|apply (Vof_all cfg d m _ _ ER M LV)].
  rewrite (elem_loop cfg d m _ _ ER M LV). unfold total. now rewrite Rplus_0_l.
Qed.

Lemma C56_cells_pf : forall cfg d q, qreach cfg q -> at_most_two cfg (q_mesh q) -> measured d (facet_tag (cfg_cell cfg)) ->
  exists q' r ss fs vs, surface_mesh cfg d q = Some (q', r) /\
    Forall2 (fun c s => surface_element d (q_mesh q) (cfg_cell cfg) c = Some s) (range (q_mesh q) (cfg_cell cfg)) ss /\
    lists_exactly fs (fun f => cell_count cfg (q_mesh q) f 2) /\
    Forall2 (has_volume d (q_mesh q) (facet_tag (cfg_cell cfg))) fs vs /\
    Rsum ss = r + 2 * Rsum vs.
Proof.
  intros cfg d q HQ A2 M. set (ft := facet_tag (cfg_cell cfg)) in *. set (m := q_mesh q) in *. pose proof (proj1 (qreach_inv cfg q HQ)) as ER. fold m in ER. pose proof (ereach_wf cfg _ ER) as W.
  destruct (mesh_value cfg d q HQ A2 M) as (q' & E & Q & H). fold ft m in E. set (V := Vof d m ft) in *.
  assert (NF : NoDup (range m ft)) by apply W.
  assert (FB : forall n, In n (m_nodes m (cfg_cell cfg)) -> NoDup (boundary_of (n_el n) ft) /\ incl (boundary_of (n_el n) ft) (range m ft)).
  { intros n Hn. split; [apply (simple_boundary m (cfg_cell cfg) n); auto; now apply (ereach_simple cfg)|]. intros f Hf. apply range_iff, live_is_live. now apply (boundary_live cfg m (cfg_cell cfg) n). }
  exists q', (total V (filter (fun f => count cfg m f =? 1)%nat (range m ft))), (map (fun n => total V (boundary_of (n_el n) ft)) (m_nodes m (cfg_cell cfg))),
    (filter (fun f => count cfg m f =? 2)%nat (range m ft)), (map V (filter (fun f => count cfg m f =? 2)%nat (range m ft))).
  split; [exact E|]. split; [|split; [|split]].
  - unfold range. assert (G : forall l, incl l (m_nodes m (cfg_cell cfg)) -> Forall2 (fun c s => surface_element d m (cfg_cell cfg) c = Some s) (map n_addr l) (map (fun n => total V (boundary_of (n_el n) ft)) l)); [|apply G; intros x; auto].
    induction l as [|n l IH]; intros I; cbn; constructor; [|apply IH; intros x Hx; apply I; now right].
    assert (Hn : In n (m_nodes m (cfg_cell cfg))) by (apply I; now left). unfold surface_element. rewrite (wf_In_deref cfg m (cfg_cell cfg) n W Hn). cbn [obind].
    fold ft. rewrite (elem_loop cfg d m ft _ ER M); [now rewrite Rplus_0_l|]. intros f Hf. apply range_iff. now apply (proj2 (FB n Hn)).
  - split; [now apply NoDup_filter|]. intros f. rewrite filter_In, range_iff, Nat.eqb_eq, (count_two cfg m f 2 W). split; [intuition|]. intros C. split; [|auto]. apply (live_of_count cfg); auto. lia.
  - apply (Vof_all cfg); auto. intros f Hf. apply filter_In in Hf. now apply range_iff.
  - rewrite (double_count V (fun n => boundary_of (n_el n) ft) (range m ft) (m_nodes m (cfg_cell cfg)) NF FB).
    rewrite (Rsum_ext _ (fun f => V f * INR (count cfg m f))).
    + apply split_count. intros f _. apply (A2 f). now apply count_cobs.
    + intros f _. unfold count, cobs. now rewrite map_length.
Qed.

(** ** Segments *)
Definition seg_cells (cfg : config) (s : sstate point) (a : nat) (f : addr) : list addr :=
  filter (fun c => memb c (k_view (st_con s a) (cfg_cell cfg))) (cobs (st_mesh s) (facet_tag (cfg_cell cfg)) (cfg_cell cfg) f).
Definition scount cfg s a f : nat := length (seg_cells cfg s a f).
Lemma seg_cells_exact cfg s a f : wf cfg (st_mesh s) -> lists_exactly (seg_cells cfg s a f) (fun x => in_segment s a (cfg_cell cfg) x /\
    bounded_by (st_mesh s) (cfg_cell cfg) x (facet_tag (cfg_cell cfg)) f).
Proof.
  intros W. destruct (cobs_exact cfg (st_mesh s) (facet_tag (cfg_cell cfg)) (cfg_cell cfg) f W) as [N X]. split; [now apply NoDup_filter|].
  intros x. unfold seg_cells. rewrite filter_In, memb_In, X. unfold in_segment. tauto.
Qed.
Lemma one_list (l : list addr) (P : addr -> Prop) : lists_exactly l P -> (exists c, forall x, P x <-> x = c) <-> length l = 1%nat.
Proof.
  intros [N X]. split.
  - intros (c & H). destruct l as [|x [|y l]]; auto.
    + exfalso. apply (X c). now apply H.
    + exfalso. assert (x = c) by (apply H, X; cbn; auto). assert (y = c) by (apply H, X; cbn; auto). subst. inversion N as [|? ? A]; subst. apply A. now left.
  - destruct l as [|x [|y l]]; try discriminate. intros _. exists x. intros y. rewrite <- X. cbn. intuition.
Qed.
Lemma scount_one cfg s a f : wf cfg (st_mesh s) -> on_one_cell_of cfg s a f <-> scount cfg s a f = 1%nat.
Proof. intros W. apply one_list. now apply seg_cells_exact. Qed.
Lemma scount_count cfg s a f n : wf cfg (st_mesh s) -> cell_count_of cfg s a f n -> n = scount cfg s a f.
Proof.
  intros W (l & [N X] & <-). destruct (seg_cells_exact cfg s a f W) as [N' X']. apply Permutation_length, NoDup_Permutation; auto. intros x. now rewrite X, X'.
Qed.

Lemma seg_loop cfg d s0 a : cfg_cell cfg <> Hex -> sreach cfg s0 -> is_segment s0 a -> measured d (facet_tag (cfg_cell cfg)) ->
  (forall f n, cell_count_of cfg s0 a f n -> (n <= 2)%nat) ->
  forall l s acc, sreach cfg s -> st_mesh s = st_mesh s0 -> st_segs s = st_segs s0 -> k_view (st_con s a) = k_view (st_con s0 a) ->
    (forall f, In f l -> In f (k_view (st_con s0 a) (facet_tag (cfg_cell cfg)))) ->
  exists s', ofold (fun st f =>
    let s1 := fst st in
    obind (seg_bnd cfg (facet_tag (cfg_cell cfg)) (st_mesh s1) (st_con s1 a) f) (fun r =>
    let s2 := set_con s1 a (fst r) in
    if snd r then option_map (fun v => (s2, snd st + v)) (element_volume d (st_mesh s2) (facet_tag (cfg_cell cfg)) f)
    else Some (s2, snd st))) l (s, acc)
   = Some (s', acc + total (Vof d (st_mesh s0) (facet_tag (cfg_cell cfg))) (filter (fun f => scount cfg s0 a f =? 1)%nat l)) /\
   sreach cfg s' /\ st_mesh s' = st_mesh s0 /\ st_segs s' = st_segs s0 /\ k_view (st_con s' a) = k_view (st_con s0 a).
Proof.
  intros NH R0 Ha M A2. set (ft := facet_tag (cfg_cell cfg)) in *.
  pose proof (sreach_inv cfg NH s0 R0) as I0. pose proof (md_wf _ _ (si_mid _ _ I0)) as W. pose proof (reach_ereach cfg _ (si_reach _ _ I0)) as ER.
  induction l as [|f l IH]; intros s acc R SM SS SV LV; cbn [ofold filter].
  { exists s. split; auto. unfold total. cbn. now rewrite Rplus_0_r. }
  assert (Ha' : is_segment s a) by (unfold is_segment; rewrite SS; exact Ha).
  assert (Hf : In f (k_view (st_con s0 a) ft)) by (apply LV; now left).
  assert (Lf : in_segment s a ft f) by (unfold in_segment; now rewrite SV).
  assert (A2' : forall g n, cell_count_of cfg s a g n -> (n <= 2)%nat).
  { intros g n (k & [Nk Xk] & Ek). apply (A2 g n). exists k. split; auto. split; auto. intros x. rewrite Xk. unfold in_segment. now rewrite SV, SM. }
  destruct (C46_boundary_pf _ cfg s a ft f NH R Ha' Lf (or_introl eq_refl) A2') as (k & r & E & KV & RR).
  cbn [fst snd]. rewrite E. cbn [obind fst snd]. set (s2 := set_con s a k).
  assert (C2 : st_con s2 a = k) by (unfold s2, set_con; cbn; unfold upd_con; now rewrite Nat.eqb_refl).
  assert (R2 : sreach cfg s2).
  { apply (sr_step cfg s (SBnd a ft f) s2 R); [split; [exact Ha'|split; [exact Lf|now left]]|]. cbn [sstep]. rewrite E. reflexivity. }
  assert (SV2 : k_view (st_con s2 a) = k_view (st_con s0 a)) by (rewrite C2, KV; exact SV).
  assert (O : r = true <-> scount cfg s0 a f = 1%nat).
  { rewrite RR, <- (scount_one cfg s0 a f W). unfold on_boundary_of. fold ft. rewrite tag_eqb_refl. unfold on_one_cell_of, in_segment. rewrite SV, SM. reflexivity. }
  assert (LV' : forall g, In g l -> In g (k_view (st_con s0 a) ft)) by (intros g Hg; apply LV; now right).
  assert (LIV : is_live (st_mesh s0) ft f).
  { destruct (seg_of cfg s0 a I0 Ha) as (z & nm & Hz & _). destruct (si_con cfg s0 I0 a z Hz) as (K & _). exact (good_all_live _ _ (co_good _ _ _ K) ft f Hf). }
  destruct r.
  - change (st_mesh s2) with (st_mesh s). rewrite SM, (Vof_eq cfg d (st_mesh s0) ft f ER LIV M). cbn [option_map obind].
    destruct (IH s2 (acc + Vof d (st_mesh s0) ft f) R2 SM SS SV2 LV') as (s' & Es & H). exists s'. split; [|exact H]. etransitivity; [exact Es|]. do 2 f_equal.
    rewrite (proj2 (Nat.eqb_eq _ _) (proj1 O eq_refl)). unfold total. cbn [map]. rewrite Rsum_cons. ring.
  - cbn [obind]. destruct (IH s2 acc R2 SM SS SV2 LV') as (s' & Es & H). exists s'. split; [|exact H]. etransitivity; [exact Es|]. do 2 f_equal.
    destruct (Nat.eqb_spec (scount cfg s0 a f) 1) as [C|C]; auto. apply O in C. discriminate.
Qed.

Lemma segment_value cfg d s a : cfg_cell cfg <> Hex -> sreach cfg s -> is_segment s a -> measured d (facet_tag (cfg_cell cfg)) ->
  (forall f n, cell_count_of cfg s a f n -> (n <= 2)%nat) ->
  exists s', surface_segment cfg d s a = Some (s', total (Vof d (st_mesh s) (facet_tag (cfg_cell cfg)))
       (filter (fun f => scount cfg s a f =? 1)%nat (k_view (st_con s a) (facet_tag (cfg_cell cfg))))) /\
    sreach cfg s' /\ st_mesh s' = st_mesh s /\ st_segs s' = st_segs s /\ k_view (st_con s' a) = k_view (st_con s a).
Proof.
  intros NH R Ha M A2. unfold surface_segment. cbv zeta.
  destruct (seg_loop cfg d s a NH R Ha M A2 (k_view (st_con s a) (facet_tag (cfg_cell cfg))) s 0 R eq_refl eq_refl eq_refl (fun f H => H)) as (s' & E & H).
  exists s'. split; [|exact H]. etransitivity; [exact E|]. do 2 f_equal. ring.
Qed.

Lemma one_of_member cfg s a f : cfg_cell cfg <> Hex -> sreach cfg s -> is_segment s a -> scount cfg s a f <> 0%nat ->
  In f (k_view (st_con s a) (facet_tag (cfg_cell cfg))).
Proof.
  intros NH R Ha C. pose proof (sreach_inv cfg NH s R) as I. pose proof (md_wf _ _ (si_mid _ _ I)) as W.
  destruct (seg_cells_exact cfg s a f W) as [_ X]. unfold scount in C. destruct (seg_cells cfg s a f) as [|c l]; [now elim C|].
  destruct (proj1 (X c) (or_introl eq_refl)) as [Hc B]. destruct (C20_closure_pf _ cfg s a NH R Ha) as (BC & _). exact (BC _ _ _ _ Hc B).
Qed.

Lemma C56_segment_pf : forall cfg d (s : sstate point) a, cfg_cell cfg <> Hex -> sreach cfg s -> is_segment s a ->
  measured d (facet_tag (cfg_cell cfg)) -> (forall f n, cell_count_of cfg s a f n -> (n <= 2)%nat) ->
  exists s' r fs vs, surface_segment cfg d s a = Some (s', r) /\ sreach cfg s' /\ st_mesh s' = st_mesh s /\
    lists_exactly fs (on_one_cell_of cfg s a) /\
    Forall2 (has_volume d (st_mesh s) (facet_tag (cfg_cell cfg))) fs vs /\ r = Rsum vs.
Proof.
  intros cfg d s a NH R Ha M A2. set (ft := facet_tag (cfg_cell cfg)) in *. pose proof (sreach_inv cfg NH s R) as I. pose proof (md_wf _ _ (si_mid _ _ I)) as W.
  pose proof (reach_ereach cfg _ (si_reach _ _ I)) as ER. destruct (C20_closure_pf _ cfg s a NH R Ha) as (BC & GV & ND).
  destruct (segment_value cfg d s a NH R Ha M A2) as (s' & E & R' & SM & _). fold ft in E.
  eexists s', _, (filter (fun f => scount cfg s a f =? 1)%nat (k_view (st_con s a) ft)), _. split; [exact E|]. split; [exact R'|]. split; [exact SM|]. split; [|split; [|reflexivity]].
  - split; [now apply NoDup_filter|]. intros f. rewrite filter_In, Nat.eqb_eq, (scount_one cfg s a f W). split; [tauto|]. intros C. split; auto. apply (one_of_member cfg); auto. lia.
  - apply (Vof_all cfg); auto. intros f Hf. apply filter_In in Hf as [Hf _]. exact (good_all_live _ _ GV ft f Hf).
Qed.

Lemma scount_le cfg s a f : (scount cfg s a f <= count cfg (st_mesh s) f)%nat.
Proof. unfold scount, seg_cells, count. induction (cobs _ _ _ f) as [|x l IH]; cbn; [auto|]. destruct (memb x _); cbn; lia. Qed.

Lemma two_list (l : list addr) x y : NoDup l -> x <> y -> (forall a, In a l <-> a = x \/ a = y) -> length l = 2%nat.
Proof.
  intros N D X. assert (P : Permutation l [x; y]).
  { apply NoDup_Permutation; auto; [repeat constructor; cbn; intuition|]. intros a. rewrite X. cbn. intuition. }
  now rewrite (Permutation_length P).
Qed.

Lemma C56_segments_pf : forall cfg d (s : sstate point) q, cfg_cell cfg <> Hex -> sreach cfg s -> qreach cfg q -> q_mesh q = st_mesh s ->
  at_most_two cfg (q_mesh q) -> measured d (facet_tag (cfg_cell cfg)) ->
  (forall c, is_live (st_mesh s) (cfg_cell cfg) c -> exists a, forall b, is_segment s b /\ in_segment s b (cfg_cell cfg) c <-> b = a) ->
  exists q' r ss fs vs, surface_mesh cfg d q = Some (q', r) /\
    Forall2 (fun a x => exists s', surface_segment cfg d s a = Some (s', x)) (segment_range (st_segs s)) ss /\
    lists_exactly fs (between_segments cfg s) /\
    Forall2 (has_volume d (st_mesh s) (facet_tag (cfg_cell cfg))) fs vs /\
    Rsum ss = r + 2 * Rsum vs.
Proof.
  intros cfg d s q NH R HQ QM A2 M PART. set (ft := facet_tag (cfg_cell cfg)) in *. set (m := st_mesh s) in *.
  pose proof (sreach_inv cfg NH s R) as I. pose proof (md_wf _ _ (si_mid _ _ I)) as W. fold m in W.
  pose proof (reach_ereach cfg _ (si_reach _ _ I)) as ER. fold m in ER. rewrite QM in A2.
  destruct (mesh_value cfg d q HQ) as (q' & E & Q & _); [now rewrite QM|exact M|]. rewrite QM in E. fold ft in E. set (V := Vof d m ft) in *.
  assert (NF : NoDup (range m ft)) by apply W.
  assert (NS : NoDup (segment_range (st_segs s))).
  { pose proof (si_g cfg s I) as G. assert (U : forall z z' a, In (z, a) (g_ids (st_segs s)) -> In (z', a) (g_ids (st_segs s)) -> z = z').
    { intros z z' a H H'. apply (id_in_ids _ _ _ G) in H. apply (id_in_ids _ _ _ G) in H'. congruence. }
    unfold segment_range. pose proof (gi_sorted _ G) as S. clear - U S. induction S as [|[k b] l S IH F]; cbn; constructor.
    - rewrite in_map_iff. intros ([k' b'] & E & H). cbn in E. subst b'. assert (k = k') by (eapply U; [left; reflexivity|right; exact H]). subst.
      rewrite Forall_forall in F. apply F in H. unfold idlt in H. cbn in H. lia.
    - apply IH. intros z z' a H H'. eapply U; right; eauto. }
  assert (C2 : forall f, (count cfg m f <= 2)%nat) by (intros f; apply (A2 f); now apply count_cobs).
  assert (S2 : forall a f n, cell_count_of cfg s a f n -> (n <= 2)%nat).
  { intros a f n H. rewrite (scount_count cfg s a f n W H). pose proof (scount_le cfg s a f). specialize (C2 f). unfold m in C2. lia. }
  set (F := fun a => filter (fun f => scount cfg s a f =? 1)%nat (k_view (st_con s a) ft)).
  assert (FM : forall a, is_segment s a -> forall f, In f (F a) <-> scount cfg s a f = 1%nat).
  { intros a Ha f. unfold F. rewrite filter_In, Nat.eqb_eq. split; [tauto|]. intros C. split; auto. apply (one_of_member cfg); auto. lia. }
  assert (FP : forall a, In a (segment_range (st_segs s)) -> NoDup (F a) /\ incl (F a) (range m ft)).
  { intros a Ha. destruct (C20_closure_pf _ cfg s a NH R Ha) as (_ & GV & ND). split; [now apply NoDup_filter|]. intros f Hf. apply filter_In in Hf as [Hf _]. apply range_iff. exact (good_all_live _ _ GV ft f Hf). }
  set (N := fun f => length (filter (fun a => memb f (F a)) (segment_range (st_segs s)))).
  assert (NP : forall f a, In a (filter (fun a => memb f (F a)) (segment_range (st_segs s))) <-> is_segment s a /\ scount cfg s a f = 1%nat).
  { intros f a. rewrite filter_In, memb_In. split; intros [H1 H2]; split; auto; now apply (FM a H1). }
  (* the cells of a facet and their segments *)
  assert (SC : forall a f, is_segment s a -> forall x, In x (seg_cells cfg s a f) <-> In x (cobs m ft (cfg_cell cfg) f) /\ in_segment s a (cfg_cell cfg) x).
  { intros a f Ha x. unfold seg_cells. rewrite filter_In, memb_In. fold ft m. reflexivity. }
  assert (LC : forall f x, In x (cobs m ft (cfg_cell cfg) f) -> is_live m (cfg_cell cfg) x).
  { intros f x Hx. destruct (cobs_exact cfg m ft (cfg_cell cfg) f W) as [_ X]. apply X in Hx as (e & D & _). exists e. exact D. }
  assert (BW : forall f, between_segments cfg s f <-> exists a b x y, is_segment s a /\ is_segment s b /\ a <> b /\
     in_segment s a (cfg_cell cfg) x /\ in_segment s b (cfg_cell cfg) y /\ In x (cobs m ft (cfg_cell cfg) f) /\ In y (cobs m ft (cfg_cell cfg) f)).
  { intros f. destruct (cobs_exact cfg m ft (cfg_cell cfg) f W) as [_ X]. unfold between_segments. fold ft m.
    split; intros (a & b & x & y & P1 & P2 & P3 & P4 & P5 & P6 & P7); exists a, b, x, y; repeat (split; auto); now apply X. }
  assert (KEY : forall f, (count cfg m f <> 2%nat /\ N f = count cfg m f /\ ~ between_segments cfg s f) \/
     (count cfg m f = 2%nat /\ N f = 0%nat /\ ~ between_segments cfg s f) \/ (count cfg m f = 2%nat /\ N f = 2%nat /\ between_segments cfg s f)).
  { intros f. specialize (C2 f). pose proof (LC f) as LCf. pose proof (BW f) as BWf. unfold count in *. fold ft in C2 |- *.
    pose proof (proj1 (cobs_exact cfg m ft (cfg_cell cfg) f W)) as NC.
    assert (SCf : forall a, seg_cells cfg s a f = filter (fun c => memb c (k_view (st_con s a) (cfg_cell cfg))) (cobs m ft (cfg_cell cfg) f)) by reflexivity.
    assert (NPf := NP f). unfold scount in NPf. 
    assert (NN : NoDup (filter (fun a => memb f (F a)) (segment_range (st_segs s)))) by now apply NoDup_filter.
    destruct (cobs m ft (cfg_cell cfg) f) as [|x [|y [|z l]]]; cbn [length] in *; [| | |lia].
    - left. split; [lia|]. split.
      + unfold N. destruct (filter _ (segment_range (st_segs s))) as [|a l] eqn:Ef; auto. exfalso.
        destruct (proj1 (NPf a) (or_introl eq_refl)) as [_ C]. rewrite (SCf a) in C. cbn in C. discriminate.
      + rewrite BWf. intros (a & b & x & y & _ & _ & _ & _ & _ & [] & _).
    - left. split; [lia|]. destruct (PART x (LCf x (or_introl eq_refl))) as (a0 & PA). split.
      + unfold N. apply (one_list _ (fun a => is_segment s a /\ length (seg_cells cfg s a f) = 1%nat)); [split; [exact NN|exact NPf]|]. exists a0. intros b. rewrite <- (PA b).
        rewrite (SCf b). cbn. unfold in_segment. rewrite <- memb_In. destruct (memb x _); cbn; intuition discriminate.
      + rewrite BWf. intros (a & b & u & v & Ha & Hb & D & Hu & Hv & [<-|[]] & [<-|[]]). apply D. transitivity a0; [|symmetry]; apply PA; auto.
    - right. destruct (PART x (LCf x (or_introl eq_refl))) as (a0 & PA). destruct (PART y (LCf y (or_intror (or_introl eq_refl)))) as (b0 & PB).
      assert (XY : x <> y) by (inversion NC as [|? ? A]; subst; intros ->; apply A; now left).
      destruct (Nat.eq_dec a0 b0) as [<-|D].
      + left. split; auto. split.
        * unfold N. destruct (filter _ (segment_range (st_segs s))) as [|a l] eqn:Ef; auto. exfalso.
          destruct (proj1 (NPf a) (or_introl eq_refl)) as [Ha C]. rewrite (SCf a) in C. cbn in C.
          pose proof (PA a) as PAa. pose proof (PB a) as PBa. unfold in_segment in *. rewrite <- memb_In in PAa, PBa.
          destruct (memb x _), (memb y _); cbn in C; try discriminate; intuition.
        * rewrite BWf. intros (a & b & u & v & Ha & Hb & D & Hu & Hv & Iu & Iv). apply D. transitivity a0; [|symmetry].
          -- destruct Iu as [<-|[<-|[]]]; [apply PA|apply PB]; auto.
          -- destruct Iv as [<-|[<-|[]]]; [apply PA|apply PB]; auto.
      + right. split; auto. split.
        * unfold N. apply (two_list _ a0 b0); auto. intros a. rewrite NPf, (SCf a). cbn. rewrite <- (PA a), <- (PB a). unfold in_segment. rewrite <- !memb_In.
          pose proof (PA a) as PAa. pose proof (PB a) as PBa. unfold in_segment in PAa, PBa. rewrite <- memb_In in PAa, PBa.
          destruct (memb x _), (memb y _); cbn; try (intuition discriminate). split; [|intuition].
          intros [Ha C]. discriminate.
        * apply BWf. exists a0, b0, x, y. destruct (proj2 (PA a0) eq_refl), (proj2 (PB b0) eq_refl). repeat (split; auto); cbn; auto. }
  set (betw := fun f => (count cfg m f =? 2)%nat && (N f =? 2)%nat).
  assert (BB : forall f, betw f = true <-> between_segments cfg s f).
  { intros f. unfold betw. rewrite andb_true_iff, !Nat.eqb_eq. destruct (KEY f) as [(A & B & C)|[(A & B & C)|(A & B & C)]]; rewrite ?A, ?B; intuition lia. }
  exists q', (total V (filter (fun f => count cfg m f =? 1)%nat (range m ft))), (map (fun a => total V (F a)) (segment_range (st_segs s))),
    (filter betw (range m ft)), (map V (filter betw (range m ft))).
  split; [exact E|]. split; [|split; [|split]].
  - assert (G : forall l, incl l (segment_range (st_segs s)) -> Forall2 (fun a x => exists s', surface_segment cfg d s a = Some (s', x)) l (map (fun a => total V (F a)) l)); [|apply G; intros x; auto].
    induction l as [|a l IH]; intros IL; cbn; constructor; [|apply IH; intros x Hx; apply IL; now right].
    destruct (segment_value cfg d s a NH R (IL a (or_introl eq_refl)) M (S2 a)) as (s' & Es & _). exists s'. exact Es.
  - split; [now apply NoDup_filter|]. intros f. rewrite filter_In, range_iff, BB. split; [tauto|]. intros B. split; auto.
    apply (live_of_count cfg); auto. apply BB in B. unfold betw in B. apply andb_true_iff in B as [B _]. apply Nat.eqb_eq in B. lia.
  - apply (Vof_all cfg); auto. intros f Hf. apply filter_In in Hf. now apply range_iff.
  - rewrite (double_count V F (range m ft) (segment_range (st_segs s)) NF FP).
    change (Rsum (map V (filter betw (range m ft)))) with (total V (filter betw (range m ft))). rewrite !total_filter, Rsum_scale, Rsum_plus. apply Rsum_ext. intros f _.
    fold (N f). unfold betw. destruct (KEY f) as [(A & B & C)|[(A & B & C)|(A & B & C)]]; rewrite B.
    + rewrite (proj2 (Nat.eqb_neq _ _) A). cbn [andb]. specialize (C2 f). destruct (count cfg m f) as [|[|[|k]]]; cbn; try ring; lia.
    + rewrite A. cbn. ring.
    + rewrite A. cbn. ring.
Qed.

(** The mesh of a concrete history, for the examples. *)
Definition keeps_mesh (o : sop point) : bool := match o with SManage _ | SAdd _ _ _ => true | _ => false end.
Lemma smesh_of cfg ops extra s : forallb keeps_mesh extra = true ->
  srun cfg (map (fun o => SMesh o) ops ++ extra) (new_sstate empty_mesh) = Some s -> st_mesh s = mesh_of cfg ops.
Proof.
  intros K. assert (SA : forall a th (s s' : sstate point), simple_add a s th = Some s' -> st_mesh s' = st_mesh s).
  { intros a [t h] s0 s'. unfold simple_add. destruct (find_seg a _); cbn [obind]; [|discriminate]. destruct (deref _ _ _); cbn [obind]; [|discriminate].
    destruct (ModelView.view_insert _ _ _ _); cbn [obind]; [|discriminate]. destruct (ModelView.view_insert _ _ _ _); cbn [obind]; [|discriminate].
    destruct (nth_error _ _); cbn [obind]; [|discriminate]. destruct (info_add _ _). intros E. injection E as <-. reflexivity. }
  assert (SF : forall a l (s s' : sstate point), ofold (simple_add a) l s = Some s' -> st_mesh s' = st_mesh s).
  { intros a. induction l as [|th l IH]; intros s0 s'; cbn [ofold]; [intros E; injection E as <-; reflexivity|].
    destruct (simple_add a s0 th) as [s1|] eqn:E; cbn [obind]; [|discriminate]. intros H. rewrite (IH _ _ H). now apply (SA a th). }
  assert (SX : forall o (s s' : sstate point), keeps_mesh o = true -> sstep cfg s o = Some s' -> st_mesh s' = st_mesh s).
  { intros o s0 s' Ko. destruct o; try discriminate; cbn [sstep].
    - destruct (sgstep o (st_segs s0)); try discriminate; intros E; injection E as <-; reflexivity.
    - unfold seg_add. destruct (simple_add a s0 (t, h)) as [s1|] eqn:E; cbn [obind]; [|discriminate]. destruct (deref _ _ _); cbn [obind]; [|discriminate].
      intros H. rewrite (SF _ _ _ _ H). now apply (SA a (t, h)). }
  unfold srun, mesh_of, run. change (@empty_mesh point) with (st_mesh (new_sstate (@empty_mesh point))) at 2 3. generalize (new_sstate (@empty_mesh point)).
  assert (G : forall ops (s0 : sstate point), ofold (sstep cfg) (map (fun o => SMesh o) ops ++ extra) s0 = Some s -> ofold (step cfg) ops (st_mesh s0) = Some (st_mesh s)).
  { clear ops. induction ops as [|o ops IH]; intros s0; cbn [map app ofold].
    - intros H. f_equal. revert s0 H. induction extra as [|o l IH]; intros s0; cbn [ofold]; [intros E; injection E as <-; reflexivity|].
      cbn [forallb] in K. apply andb_true_iff in K as [K1 K2]. destruct (sstep cfg s0 o) as [s1|] eqn:E; cbn [obind]; [|discriminate].
      intros H. rewrite <- (IH K2 s1 H). symmetry. now apply (SX o).
    - cbn [sstep]. destruct (step cfg (st_mesh s0) o) as [m1|]; cbn [option_map obind]; [|discriminate]. intros H. now apply IH in H. }
  intros s0 H. now rewrite (G ops s0 H).
Qed.
Lemma smesh_eq cfg ops extra : forallb keeps_mesh extra = true -> valid_srunb cfg (map (fun o => SMesh o) ops ++ extra) (new_sstate empty_mesh) = true ->
  st_mesh (sstate_of cfg (map (fun o => SMesh o) ops ++ extra)) = mesh_of cfg ops.
Proof.
  intros K V. apply (smesh_of cfg ops extra); auto. unfold sstate_of. destruct (srun cfg _ _) eqn:E; auto.
  exfalso. revert E V. unfold srun. generalize (new_sstate (@empty_mesh point)). generalize (map (fun o => SMesh o) ops ++ extra).
  induction l as [|o l IH]; intros s0; cbn [ofold valid_srunb]; [discriminate|]. destruct (sstep cfg s0 o) as [s1|]; cbn [obind].
  - intros E V. apply andb_true_iff in V as [_ V]. eauto.
  - intros _ V. apply andb_true_iff in V as [_ V]. discriminate.
Qed.
