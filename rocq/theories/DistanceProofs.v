(** Distances to boundaries and between lines. *)
From Coq Require Import Reals List Arith Lia Lra Permutation.
From Verif Require Import ModelTopo ModelMesh ModelErase ModelQuery ModelGeom ModelVolume ModelClosest ModelDistance SpecMesh SpecErase SpecQuery SpecRefine SpecGeom SpecClosest SpecDistance.
From Verif Require Import MeshBase MeshInv MeshWf MeshErase CopyBase QueryBase QueryBnd QueryProofs UniqueProofs ClosestProofs.
Import ListNotations.
Local Open Scope R_scope.

Lemma points_defined cfg (m : @mesh point) t a : ereach cfg m -> is_live m t a ->
  exists ps, element_points m t a = Some ps /\ has_points m t a ps /\ length ps = match t with Vertex => 1%nat | _ => nverts t end.
Proof.
  intros HR [e E]. pose proof (ereach_wf cfg m HR) as W. unfold element_points, has_points. rewrite E. cbn [obind].
  assert (PT : forall v ev, deref m Vertex v = Some ev -> exists p, e_pt ev = Some p).
  { intros v ev Ev. unfold deref in Ev. destruct (find_node (m_nodes m Vertex) v) as [nv|] eqn:Fv; [|discriminate]. injection Ev as <-. apply find_node_In in Fv as [Fv _].
    pose proof (ereach_pointed cfg m HR nv Fv) as PN. destruct (e_pt (n_el nv)); [eauto|congruence]. }
  assert (G : t <> Vertex -> exists ps, cell_points m e = Some ps /\
    (exists e', Some e = Some e' /\ Forall2 (fun v p => exists ev, deref m Vertex v = Some ev /\ e_pt ev = Some p) (e_verts e') ps) /\ length ps = nverts t).
  { intros NV. unfold cell_points.
    assert (LV : forall v, In v (e_verts e) -> exists ev, deref m Vertex v = Some ev).
    { intros v Hv. pose proof E as E'. unfold deref in E'. destruct (find_node (m_nodes m t) a) as [n|] eqn:F; [|discriminate]. injection E' as <-.
      apply find_node_In in F as [F _]. assert (LV : live m Vertex v) by (eapply (r_verts m); eauto; apply W). now apply live_is_live in LV. }
    destruct (omap_total (fun x => obind (deref m Vertex x) e_pt) (e_verts e)) as (l & L).
    { intros v Hv. destruct (LV v Hv) as (ev & Ev). rewrite Ev. exact (PT v ev Ev). }
    exists l. split; [exact L|]. split.
    - exists e. split; [reflexivity|]. clear - L. revert l L. generalize (e_verts e) as vs. induction vs as [|v vs IH]; intros l L; cbn in L.
      + injection L as <-. constructor.
      + destruct (deref m Vertex v) as [ev|] eqn:Ev; [|discriminate]. cbn [obind] in L. destruct (e_pt ev) as [p|] eqn:Ep; [|discriminate]. cbn [obind] in L.
        destruct (omap _ vs) as [l'|] eqn:El; [|discriminate]. cbn in L. injection L as <-. constructor; eauto.
    - rewrite (omap_length _ _ _ L). pose proof (deref_In _ _ _ _ E) as (n & Hn & _ & <-). destruct W as (_ & _ & [_ Le _ _]). now apply (Le t n). }
  destruct t; try (destruct (G ltac:(discriminate)) as (ps & A & (e' & B & C) & D); injection B as <-; exists ps; split; [exact A|split; [exists e; split; [reflexivity|exact C]|exact D]]).
  destruct (PT a e E) as (p & Ep). exists [p]. rewrite Ep. split; [reflexivity|]. split; [|reflexivity]. exists e. split; [reflexivity|]. exists p. auto.
Qed.
Lemma has_points_fun (m : @mesh point) t a ps ps' : has_points m t a ps -> has_points m t a ps' -> ps = ps'.
Proof.
  intros (e & E & H) (e' & E' & H'). rewrite E in E'. injection E' as <-.
  assert (G : forall vs l l', Forall2 (fun v p => exists ev, deref m Vertex v = Some ev /\ e_pt ev = Some p) vs l ->
    Forall2 (fun v p => exists ev, deref m Vertex v = Some ev /\ e_pt ev = Some p) vs l' -> l = l').
  { induction vs as [|v vs IH]; intros l l' F F'; inversion F as [|? p1 ? l1 P1 F1]; inversion F' as [|? p2 ? l2 P2 F2]; subst; auto. f_equal; [|now apply IH].
    destruct P1 as (e1 & A & B), P2 as (e2 & A' & B'). congruence. }
  destruct t; try (now apply (G (e_verts e))).
  destruct H as (p & A & ->), H' as (p' & A' & ->). congruence.
Qed.

Lemma hull1 d a x : in_hull d [a] x -> forall i, (i < d)%nat -> x i = a i.
Proof.
  intros (wps & E & F & W & X) i Hi. destruct wps as [|[w q] [|]]; try discriminate. cbn in E. injection E as <-.
  unfold weight_sum in W. cbn in W. rewrite (X i Hi). unfold weighted_coord. cbn. replace w with 1 by lra. ring.
Qed.
Lemma elem_near d t p ps : length ps = match t with Vertex => 1%nat | _ => nverts t end -> solid d t ps ->
  exists y, closest_to_element d t p ps = Some (p, y) /\ near d p (in_element d t ps) y.
Proof.
  intros L S. destruct t; cbn [nverts] in L.
  - destruct ps as [|a [|]]; try discriminate. exists a. split; [reflexivity|]. split.
    + exists [(1, a)]. split; [reflexivity|]. split; [fall|]. split; [unfold weight_sum; cbn; lra|]. intros i _. unfold weighted_coord. cbn. ring.
    + intros x X. right. apply D2_ext; auto. intros i Hi. symmetry. now apply (hull1 d).
  - destruct ps as [|a [|b [|]]]; try discriminate. exists (snd (closest_point_line d p a b)). split; [reflexivity|]. exact (line_near d p a b).
  - destruct ps as [|a [|b [|c [|]]]]; try discriminate. exact (triangle_near d p a b c S).
  - destruct ps as [|a [|b [|c [|e [|]]]]]; try discriminate. destruct S as [S1 S2]. exact (quad_near d p a b c e S1 S2).
  - destruct ps as [|a [|b [|c [|e [|]]]]]; try discriminate. exact (tet_near d p a b c e S).
  - destruct ps as [|v0 [|v1 [|v2 [|v3 [|v4 [|v5 [|v6 [|v7 [|]]]]]]]]]; try discriminate. exact (hex_near d p v0 v1 v2 v3 v4 v5 v6 v7 S).
Qed.

Section Boundary.
Variables (cfg : config) (d : nat) (p : point) (m : @mesh point).
Let ft := facet_tag (cfg_cell cfg).
Hypothesis A2 : at_most_two cfg m.
Hypothesis SOL : forall f ps, on_one_cell cfg m f -> has_points m ft f ps -> solid d ft ps.
Hypothesis ER : ereach cfg m.
Definition region (l : list addr) (x : point) := exists f ps, In f l /\ on_one_cell cfg m f /\ has_points m ft f ps /\ in_element d ft ps x.
Definition best_ok (l : list addr) (b : option (point * point)) :=
  match b with
  | None => forall f, In f l -> ~ on_one_cell cfg m f
  | Some (x, y) => x = p /\ near d p (region l) y
  end.
Lemma region_app l f x : region (l ++ [f]) x <-> region l x \/ region [f] x.
Proof.
  split.
  - intros (g & ps & I & R). apply in_app_iff in I. destruct I as [I|I]; [left|right]; exists g, ps; tauto.
  - intros [(g & ps & I & R)|(g & ps & I & R)]; exists g, ps; rewrite in_app_iff; tauto.
Qed.
Lemma boundary_loop l : forall done q b, qreach cfg q -> q_mesh q = m -> (forall f, In f l -> is_live m ft f) -> best_ok done b ->
  exists q' b', ofold (boundary_facet_step cfg d p) l (q, b) = Some (q', b') /\ qreach cfg q' /\ q_mesh q' = m /\ best_ok (done ++ l) b'.
Proof.
  induction l as [|f l IH]; intros done q b HQ QM LV B; [exists q, b; rewrite app_nil_r; auto|].
  cbn [ofold]. unfold boundary_facet_step at 1. cbn [fst snd]. fold ft.
  assert (Lf : is_live (q_mesh q) ft f) by (rewrite QM; apply LV; now left).
  assert (A2' : at_most_two cfg (q_mesh q)) by now rewrite QM.
  destruct (C16_boundary_exact_pf _ cfg q ft f HQ (or_introl eq_refl) Lf A2') as (q1 & r & E & Q1 & R).
  assert (HQ1 : qreach cfg q1).
  { apply (qreach_step cfg q (QBnd ft f) q1 HQ); [split; auto|]. cbn [qstep]. now rewrite E. }
  rewrite E. cbn [obind fst snd]. rewrite QM in Q1. unfold on_boundary in R. fold ft in R. rewrite tag_eqb_refl, QM in R.
  replace (done ++ f :: l) with ((done ++ [f]) ++ l) by now rewrite <- app_assoc.
  assert (LV' : forall g, In g l -> is_live m ft g) by (intros g Hg; apply LV; now right).
  destruct r.
  - assert (O : on_one_cell cfg m f) by now apply R.
    rewrite Q1. destruct (points_defined cfg m ft f ER (LV f (or_introl eq_refl))) as (ps & EP & HP & LP). rewrite EP. cbn [obind].
    destruct (elem_near d ft p ps LP (SOL f ps O HP)) as (y & EY & NY1 & NY2). rewrite EY. cbn [option_map obind].
    apply IH; auto.
    assert (RF : forall x, region [f] x <-> in_element d ft ps x).
    { intros x. split.
      - intros (g & ps' & [<-|[]] & _ & HP' & X). now rewrite (has_points_fun m ft f ps ps').
      - intros X. exists f, ps. repeat split; auto. now left. }
    destruct b as [[x z]|]; cbn [keep_shorter best_ok] in *.
    + destruct B as [-> [B1 B2]]. destruct Rlt_dec as [H|H]; rewrite !pd_D2 in H; cbn [fst snd] in H.
      * split; auto. assert (H' : D2 d p y < D2 d p z) by (apply sqrt_lt_0_alt in H; exact H).
        split; [apply region_app; right; now apply RF|]. intros x X. apply region_app in X. destruct X as [X|X]; [specialize (B2 x X); lra|apply NY2; now apply RF].
      * split; auto. apply Rnot_lt_le in H. apply sqrt_le_0 in H; try apply D2_nonneg.
        split; [apply region_app; now left|]. intros x X. apply region_app in X. destruct X as [X|X]; [auto|]. apply RF in X. specialize (NY2 x X). lra.
    + split; auto. split; [apply region_app; right; now apply RF|]. intros x X. apply region_app in X. destruct X as [(g & ps' & I & O' & _)|X]; [elim (B g I O')|]. apply NY2. now apply RF.
  - assert (O : ~ on_one_cell cfg m f) by (intros O; apply R in O; discriminate). cbn [obind].
    apply IH; auto. destruct b as [[x z]|]; cbn [best_ok] in *.
    + destruct B as [-> [B1 B2]]. split; auto. split; [apply region_app; now left|]. intros x X. apply region_app in X. destruct X as [X|(g & ps' & [<-|[]] & O' & _)]; [auto|contradiction].
    + intros g Hg. apply in_app_iff in Hg. destruct Hg as [Hg|[<-|[]]]; auto.
Qed.
End Boundary.

Lemma C50_mesh_boundary_pf : forall cfg d p (s : qstate point), qreach cfg s -> at_most_two cfg (q_mesh s) ->
  (forall f ps, on_one_cell cfg (q_mesh s) f -> has_points (q_mesh s) (facet_tag (cfg_cell cfg)) f ps -> solid d (facet_tag (cfg_cell cfg)) ps) ->
  exists s' r, closest_on_boundary cfg d p s = Some (s', r) /\ q_mesh s' = q_mesh s /\
    match r with
    | Some (x, y) => x = p /\ nearest d p (on_mesh_boundary cfg d (q_mesh s)) y
    | None => forall f, ~ on_one_cell cfg (q_mesh s) f
    end.
Proof.
  intros cfg d p s HQ A2 SOL. set (ft := facet_tag (cfg_cell cfg)). pose proof (proj1 (qreach_inv cfg s HQ)) as ER.
  assert (LV : forall f, In f (range (q_mesh s) ft) <-> is_live (q_mesh s) ft f) by (intros f; apply range_deref).
  destruct (boundary_loop cfg d p (q_mesh s) A2 SOL ER (range (q_mesh s) ft) [] s None HQ eq_refl) as (q' & b & E & _ & QM & B).
  { intros f. apply LV. }
  { intros f []. }
  exists q', b. split; [exact E|]. split; [exact QM|]. cbn [app] in B.
  assert (OL : forall f, on_one_cell cfg (q_mesh s) f -> is_live (q_mesh s) ft f).
  { intros f (c & O). destruct (proj2 (O c) eq_refl) as (e & De & HB). exact (wf_no_dangling cfg _ (ereach_wf cfg _ ER) _ _ _ _ _ De HB). }
  destruct b as [[x y]|]; cbn [best_ok] in B.
  - destruct B as [-> B]. split; auto. apply near_nearest.
    assert (RB : forall z, region cfg d (q_mesh s) (range (q_mesh s) ft) z <-> on_mesh_boundary cfg d (q_mesh s) z).
    { intros z. split; intros (f & ps & H); exists f, ps; [tauto|]. split; [apply LV, OL; tauto|tauto]. }
    destruct B as [B1 B2]. split; [now apply RB|]. intros z Z. apply B2. now apply RB.
  - intros f O. apply (B f); auto. apply LV. now apply OL.
Qed.

(** ** Lines *)
Lemma closest_lines d l1 l2 : comparable d l1 l2 -> exists x y, closest_line_line d (fst l1) (snd l1) (fst l2) (snd l2) = Some (x, y) /\
  (near_pair d (in_hull d [fst l1; snd l1]) (in_hull d [fst l2; snd l2]) x y \/ near_pair d (in_hull d [fst l2; snd l2]) (in_hull d [fst l1; snd l1]) x y).
Proof.
  intros (A & B & C). destruct (C48_lines_partial_pf d _ _ _ _ A B C) as (x & y & E & M). exists x, y. split; [exact E|]. now rewrite !near_pair_nearest.
Qed.
Definition pair_ok d (P : (point * point) -> (point * point) -> Prop) (b : option (point * point)) :=
  match b with
  | None => forall l1 l2, ~ P l1 l2
  | Some (x, y) =>
      (exists l1 l2, P l1 l2 /\ (in_hull d [fst l1; snd l1] x /\ in_hull d [fst l2; snd l2] y \/ in_hull d [fst l2; snd l2] x /\ in_hull d [fst l1; snd l1] y)) /\
      forall l1 l2 x' y', P l1 l2 -> in_hull d [fst l1; snd l1] x' -> in_hull d [fst l2; snd l2] y' -> D2 d x y <= D2 d x' y'
  end.
Lemma keep_ok d P b l1 l2 pq : comparable d l1 l2 -> closest_line_line d (fst l1) (snd l1) (fst l2) (snd l2) = Some pq -> pair_ok d P b ->
  pair_ok d (fun k1 k2 => P k1 k2 \/ (k1 = l1 /\ k2 = l2)) (keep_shorter d b pq).
Proof.
  intros C E B. destruct (closest_lines d l1 l2 C) as (x & y & E' & M). rewrite E in E'. injection E' as ->.
  assert (XY : in_hull d [fst l1; snd l1] x /\ in_hull d [fst l2; snd l2] y \/ in_hull d [fst l2; snd l2] x /\ in_hull d [fst l1; snd l1] y).
  { destruct M as [(A1 & A3 & _)|(A1 & A3 & _)]; tauto. }
  assert (MIN : forall x' y', in_hull d [fst l1; snd l1] x' -> in_hull d [fst l2; snd l2] y' -> D2 d x y <= D2 d x' y').
  { intros x' y' X Y. destruct M as [(_ & _ & M)|(_ & _ & M)]; [auto|]. rewrite (D2_sym d x' y'). auto. }
  destruct b as [[u v]|]; cbn [keep_shorter].
  - destruct B as [(k1 & k2 & K & KK) B]. destruct Rlt_dec as [H|H]; rewrite !pd_D2 in H; cbn [fst snd] in H.
    + apply sqrt_lt_0_alt in H. split; [exists l1, l2; split; [right; auto|exact XY]|].
      intros j1 j2 x' y' [J|[-> ->]] X Y; [specialize (B j1 j2 x' y' J X Y); lra|auto].
    + apply Rnot_lt_le in H. apply sqrt_le_0 in H; try apply D2_nonneg. split; [exists k1, k2; split; [left; auto|exact KK]|].
      intros j1 j2 x' y' [J|[-> ->]] X Y; [eauto|]. specialize (MIN x' y' X Y). lra.
  - split; [exists l1, l2; split; [right; auto|exact XY]|]. intros j1 j2 x' y' [J|[-> ->]] X Y; [elim (B j1 j2 J)|auto].
Qed.
Lemma pair_ok_ext d P Q b : (forall k1 k2, P k1 k2 <-> Q k1 k2) -> pair_ok d P b -> pair_ok d Q b.
Proof.
  intros H. destruct b as [[x y]|]; cbn.
  - intros [(l1 & l2 & A & B) C]. split; [exists l1, l2; split; [now apply H|exact B]|]. intros j1 j2 x' y' J. apply C. now apply H.
  - intros K l1 l2 A. apply (K l1 l2). now apply H.
Qed.
Lemma inner_loop d l1 ls2 : forall P b, (forall l2, In l2 ls2 -> comparable d l1 l2) -> pair_ok d P b ->
  exists b', ofold (fun best l2 => option_map (keep_shorter d best) (closest_line_line d (fst l1) (snd l1) (fst l2) (snd l2))) ls2 b = Some b' /\
    pair_ok d (fun k1 k2 => P k1 k2 \/ (k1 = l1 /\ In k2 ls2)) b'.
Proof.
  induction ls2 as [|l2 ls IH]; intros P b C B; cbn [ofold].
  - exists b. split; auto. revert B. apply pair_ok_ext. intros. cbn. tauto.
  - destruct (closest_lines d l1 l2 (C l2 (or_introl eq_refl))) as (x & y & E & _). rewrite E. cbn [option_map obind].
    destruct (IH (fun k1 k2 => P k1 k2 \/ (k1 = l1 /\ k2 = l2)) (keep_shorter d b (x, y))) as (b' & E' & B').
    + intros k K. apply C. now right.
    + apply keep_ok; auto. apply C. now left.
    + exists b'. split; [exact E'|]. revert B'. apply pair_ok_ext. intros k1 k2. cbn [In]. intuition congruence.
Qed.
Lemma outer_loop d ls2 ls1 : forall P b, (forall l1 l2, In l1 ls1 -> In l2 ls2 -> comparable d l1 l2) -> pair_ok d P b ->
  exists b', ofold (fun best l1 => ofold (fun best l2 => option_map (keep_shorter d best) (closest_line_line d (fst l1) (snd l1) (fst l2) (snd l2))) ls2 best) ls1 b = Some b' /\
    pair_ok d (fun k1 k2 => P k1 k2 \/ (In k1 ls1 /\ In k2 ls2)) b'.
Proof.
  induction ls1 as [|l1 ls IH]; intros P b C B; cbn [ofold].
  - exists b. split; auto. revert B. apply pair_ok_ext. intros. cbn. tauto.
  - destruct (inner_loop d l1 ls2 P b) as (b1 & E1 & B1); auto. { intros l2 L2. apply C; auto. now left. }
    rewrite E1. cbn [obind]. destruct (IH (fun k1 k2 => P k1 k2 \/ (k1 = l1 /\ In k2 ls2)) b1) as (b' & E' & B'); auto.
    { intros k1 k2 K1 K2. apply C; auto. now right. }
    exists b'. split; [exact E'|]. revert B'. apply pair_ok_ext. intros k1 k2. cbn [In]. intuition congruence.
Qed.
Lemma lines_result d ls1 ls2 : (forall l1 l2, In l1 ls1 -> In l2 ls2 -> comparable d l1 l2) ->
  exists r, closest_between_lines d ls1 ls2 = Some r /\ pair_ok d (fun k1 k2 => In k1 ls1 /\ In k2 ls2) r.
Proof.
  intros C. destruct (outer_loop d ls2 ls1 (fun _ _ => False) None) as (b & E & B); auto. { intros l1 l2 []. }
  exists b. split; [exact E|]. revert B. apply pair_ok_ext. tauto.
Qed.
Lemma pair_ok_nearest d ls1 ls2 x y : pair_ok d (fun k1 k2 => In k1 ls1 /\ In k2 ls2) (Some (x, y)) ->
  nearest_pair d (on_lines d ls1) (on_lines d ls2) x y \/ nearest_pair d (on_lines d ls2) (on_lines d ls1) x y.
Proof.
  intros [(l1 & l2 & (I1 & I2) & XY) M].
  destruct XY as [[X Y]|[X Y]]; [left|right]; (split; [eexists; eauto|split; [eexists; eauto|]]); intros x' y' (k1 & K1 & X') (k2 & K2 & Y'); apply dist_le.
  - eauto.
  - rewrite (D2_sym d x' y'). eauto.
Qed.

Lemma C50_between_lines_partial_pf : forall d ls1 ls2,
  (forall l1 l2, In l1 ls1 -> In l2 ls2 -> comparable d l1 l2) ->
  exists r, closest_between_lines d ls1 ls2 = Some r /\
    match r with
    | Some (x, y) => nearest_pair d (on_lines d ls1) (on_lines d ls2) x y \/ nearest_pair d (on_lines d ls2) (on_lines d ls1) x y
    | None => ls1 = [] \/ ls2 = []
    end.
Proof.
  intros d ls1 ls2 C. destruct (lines_result d ls1 ls2 C) as (r & E & B). exists r. split; [exact E|].
  destruct r as [[x y]|]; [now apply pair_ok_nearest|].
  destruct ls1 as [|l1 ls1]; auto. destruct ls2 as [|l2 ls2]; auto. elim (B l1 l2). split; now left.
Qed.

Lemma distance_lines_set d l1 l2 : comparable d l1 l2 -> exists r, distance_lines d l1 l2 = Some r /\
  set_distance d (in_hull d [fst l1; snd l1]) (in_hull d [fst l2; snd l2]) r.
Proof.
  intros C. destruct (closest_lines d l1 l2 C) as (x & y & E & M). unfold distance_lines. rewrite E. cbn [option_map].
  eexists. split; [reflexivity|]. rewrite pd_D2. cbn [fst snd]. destruct M as [M|(A & B & M)].
  - exists x, y. split; [now apply near_pair_nearest|]. now rewrite dist_D2.
  - exists y, x. split; [|rewrite dist_D2; now rewrite D2_sym]. apply near_pair_nearest. split; [exact B|]. split; [exact A|].
    intros x' y' X Y. rewrite (D2_sym d y x), (D2_sym d x' y'). auto.
Qed.
Lemma C50_lines_pf : forall d l1 l2, comparable d l1 l2 -> exists r, distance_lines d l1 l2 = Some r /\
  set_distance d (in_hull d [fst l1; snd l1]) (in_hull d [fst l2; snd l2]) r.
Proof. exact distance_lines_set. Qed.

Lemma set_distance_fun d S T r r' : set_distance d S T r -> set_distance d S T r' -> r = r'.
Proof. intros (x & y & (A & B & C) & ->) (x' & y' & (A' & B' & C') & ->). apply Rle_antisym; auto. Qed.

Lemma seg_loop d l ls : (forall k, In k ls -> comparable d l k) -> forall done min, (exists k, In k done) ->
  set_distance d (in_hull d [fst l; snd l]) (on_lines d done) min ->
  exists r, ofold (fun min l' => option_map (fun cur => if Rlt_dec cur min then cur else min) (distance_lines d l l')) ls min = Some r /\
    set_distance d (in_hull d [fst l; snd l]) (on_lines d (done ++ ls)) r.
Proof.
  induction ls as [|k ls IH]; intros C done min NE S; cbn [ofold]; [exists min; now rewrite app_nil_r|].
  destruct (distance_lines_set d l k (C k (or_introl eq_refl))) as (r & E & K). rewrite E. cbn [option_map obind].
  replace (done ++ k :: ls) with ((done ++ [k]) ++ ls) by now rewrite <- app_assoc.
  apply IH.
  - intros k' K'. apply C. now right.
  - exists k. apply in_or_app. right. now left.
  - assert (OA : forall z, on_lines d (done ++ [k]) z <-> on_lines d done z \/ in_hull d [fst k; snd k] z).
    { intros z. unfold on_lines. split.
      - intros (j & J & Z). apply in_app_iff in J. destruct J as [J|[<-|[]]]; eauto.
      - intros [(j & J & Z)|Z]; [exists j|exists k]; rewrite in_app_iff; cbn; auto. }
    destruct S as (x & y & (A & B & M) & ->), K as (x' & y' & (A' & B' & M') & ->). destruct Rlt_dec as [H|H].
    + exists x', y'. split; [|reflexivity]. split; [exact A'|]. split; [apply OA; now right|]. intros u v U V. apply OA in V. destruct V as [V|V]; [specialize (M u v U V); lra|auto].
    + exists x, y. split; [|reflexivity]. split; [exact A|]. split; [apply OA; now left|]. intros u v U V. apply OA in V. destruct V as [V|V]; [auto|]. specialize (M' u v U V). lra.
Qed.

Lemma C50_first_line_refuted_pf : forall d l l0 l1 ls,
  (forall k, In k (l1 :: ls) -> comparable d l k) ->
  exists r, distance_line_segment d l (l0 :: l1 :: ls) = Some r /\
    set_distance d (in_hull d [fst l; snd l]) (on_lines d (l1 :: ls)) r.
Proof.
  intros d l l0 l1 ls C. unfold distance_line_segment.
  destruct (distance_lines_set d l l1 (C l1 (or_introl eq_refl))) as (r & E & K). rewrite E. cbn [obind].
  destruct (seg_loop d l (l1 :: ls) C [l1] r) as (r' & E' & S).
  - exists l1. now left.
  - destruct K as (x & y & (A & B & M) & ->). exists x, y. split; [|reflexivity]. split; [exact A|]. split; [exists l1; split; [now left|exact B]|].
    intros u v U (j & [<-|[]] & V). auto.
  - exists r'. split; [exact E'|]. destruct S as (x & y & (A & B & M) & ->). exists x, y. split; [|reflexivity].
    assert (OA : forall z, on_lines d ([l1] ++ l1 :: ls) z <-> on_lines d (l1 :: ls) z).
    { intros z. unfold on_lines. cbn [app In]. split; intros (j & J & Z); exists j; tauto. }
    split; [exact A|]. split; [now apply OA|]. intros u v U V. apply M; auto. now apply OA.
Qed.

Lemma C50_segment_refuted_pf :
  (let l := (pt2 0 0, pt2 1 0) in let k := (pt2 0 2, pt2 1 2) in
   exists r, distance_line_segment 2 l [l; k] = Some r /\ 0 < r) /\
  forall d l l0, distance_line_segment d l [l0] = None.
Proof.
  split; [|reflexivity]. cbv zeta.
  assert (C : comparable 2 (pt2 0 0, pt2 1 0) (pt2 0 2, pt2 1 2)).
  { split; [|split].
    - intros H. specialize (H 0%nat ltac:(auto)). cbn in H. lra.
    - intros H. specialize (H 0%nat ltac:(auto)). cbn in H. lra.
    - left. exists 1. intros [|[|i]] Hi; cbn; lra. }
  destruct (C50_first_line_refuted_pf 2 (pt2 0 0, pt2 1 0) (pt2 0 0, pt2 1 0) (pt2 0 2, pt2 1 2) []) as (r & E & x & y & (A & (j & [<-|[]] & B) & _) & ->).
  { intros k [<-|[]]. exact C. }
  exists (dist 2 x y). split; [exact E|]. cbn [fst snd] in A, B. rewrite dist_D2. apply sqrt_lt_R0.
  apply hull2 in A. apply hull2 in B. destruct A as (s & S & A), B as (t & T & B).
  pose proof (A 1%nat ltac:(auto)) as A1. pose proof (B 1%nat ltac:(auto)) as B1. cbn in A1, B1.
  unfold D2, inner_prod, psub. cbn. rewrite A1, B1. pose proof (Rle_0_sqr (x 0%nat - y 0%nat)) as Q. unfold Rsqr in Q. nra.
Qed.

Lemma C50_no_lines_pf : forall d l ls r, distance_line_segment d l ls = Some r -> (r < 0 <-> ls = []).
Proof.
  intros d l ls r. assert (P : forall k x, distance_lines d l k = Some x -> 0 <= x).
  { intros k x E. unfold distance_lines in E. destruct (closest_line_line d (fst l) (snd l) (fst k) (snd k)) as [pq|]; [|discriminate E]. cbn [option_map] in E. injection E as <-.
    unfold pair_distance. rewrite norm_inner. apply sqrt_pos. }
  destruct ls as [|l0 [|l1 ls]]; intros E.
  - cbn in E. injection E as <-. split; [reflexivity|lra].
  - discriminate E.
  - split; [|discriminate]. intros N. exfalso. cbn [distance_line_segment] in E.
    destruct (distance_lines d l l1) as [x|] eqn:E1; [|discriminate E]. cbn [obind] in E. pose proof (P l1 x E1) as X. clear E1.
    revert x X E. generalize (l1 :: ls). intros ks. induction ks as [|k ks IH]; intros x X E; cbn [ofold] in E.
    + injection E as <-. lra.
    + destruct (distance_lines d l k) as [y|] eqn:E1; [|discriminate E]. cbn [option_map obind] in E. pose proof (P k y E1) as Y. eapply IH; [|exact E]. destruct (Rlt_dec y x); assumption.
Qed.

Lemma C50_segment_partial_pf : forall d l l0 l1 ls,
  (forall k, In k (l1 :: ls) -> comparable d l k) ->
  (forall x y, in_hull d [fst l; snd l] x -> in_hull d [fst l0; snd l0] y ->
     exists x' y', in_hull d [fst l; snd l] x' /\ on_lines d (l1 :: ls) y' /\ dist d x' y' <= dist d x y) ->
  exists r, distance_line_segment d l (l0 :: l1 :: ls) = Some r /\
    set_distance d (in_hull d [fst l; snd l]) (on_lines d (l0 :: l1 :: ls)) r.
Proof.
  intros d l l0 l1 ls C N. destruct (C50_first_line_refuted_pf d l l0 l1 ls C) as (r & E & x & y & (A & B & M) & ->).
  exists (dist d x y). split; [exact E|]. exists x, y. split; [|reflexivity]. split; [exact A|]. split.
  { destruct B as (j & J & B). exists j. split; [now right|exact B]. }
  intros u v U (j & [<-|J] & V).
  - destruct (N u v U V) as (u' & v' & U' & V' & L). specialize (M u' v' U' V'). lra.
  - apply M; auto. exists j. auto.
Qed.
