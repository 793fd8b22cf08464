(** Bounding boxes, orthogonalisation, normal vectors, determinants. *)
From Coq Require Import Reals List Arith Lia Lra Permutation.
From Verif Require Import ModelTopo ModelMesh ModelErase ModelGeom ModelVolume ModelGeometry SpecMesh SpecErase SpecQuery SpecRefine SpecGeom SpecClosest SpecDistance SpecGeometry.
From Verif Require Import MeshBase MeshInv MeshWf MeshErase CopyBase QueryBase VectorProofs CenterProofs SpannedProofs InsideProofs UniqueProofs ClosestProofs DistanceProofs.
Import ListNotations.
Local Open Scope R_scope.

(** * Bounding boxes *)
Lemma bbox_fold (ps : list point) : forall bb i,
  let r := fold_left (fun bb p => (pmin (fst bb) p, pmax (snd bb) p)) ps bb in
  (fst r i <= fst bb i /\ snd bb i <= snd r i) /\
  (forall p, In p ps -> fst r i <= p i <= snd r i) /\
  (fst r i = fst bb i \/ exists p, In p ps /\ fst r i = p i) /\ (snd r i = snd bb i \/ exists p, In p ps /\ snd r i = p i).
Proof.
  induction ps as [|p ps IH]; intros bb i; cbn [fold_left].
  - cbn. split; [split; lra|]. split; [tauto|]. split; left; reflexivity.
  - destruct (IH (pmin (fst bb) p, pmax (snd bb) p) i) as (A & B & C & D). revert A B C D.
    set (r := fold_left _ ps _). cbn [fst snd]. intros [A1 A2] B C D.
    assert (E1 : pmin (fst bb) p i <= fst bb i /\ pmin (fst bb) p i <= p i /\ (pmin (fst bb) p i = fst bb i \/ pmin (fst bb) p i = p i)).
    { unfold pmin. destruct (Rlt_dec (p i) (fst bb i)); repeat split; try lra; auto. }
    assert (E2 : snd bb i <= pmax (snd bb) p i /\ p i <= pmax (snd bb) p i /\ (pmax (snd bb) p i = snd bb i \/ pmax (snd bb) p i = p i)).
    { unfold pmax. destruct (Rlt_dec (snd bb i) (p i)); repeat split; try lra; auto. }
    split; [lra|]. split.
    + intros q [<-|Hq]; [lra|]. now apply B.
    + split.
      * destruct C as [C|(q & Hq & C)]; [|right; exists q; split; [now right|exact C]].
        destruct E1 as (_ & _ & [E1|E1]); [left; lra|right; exists p; split; [now left|lra]].
      * destruct D as [D|(q & Hq & D)]; [|right; exists q; split; [now right|exact D]].
        destruct E2 as (_ & _ & [E2|E2]); [left; lra|right; exists p; split; [now left|lra]].
Qed.

Lemma C51_points_pf : forall d big ps, ps <> [] -> representable d big ps ->
  smallest_box d ps (fst (bounding_box big ps)) (snd (bounding_box big ps)).
Proof.
  intros d big ps NE R. assert (X : forall i, (i < d)%nat ->
     (forall p, In p ps -> fst (bounding_box big ps) i <= p i <= snd (bounding_box big ps) i) /\
     (exists p, In p ps /\ fst (bounding_box big ps) i = p i) /\ (exists p, In p ps /\ snd (bounding_box big ps) i = p i)).
  { intros i Hi. unfold bounding_box. destruct (bbox_fold ps (fun _ => big, fun _ => - big) i) as (A & B & C & D). revert A B C D. cbn [fst snd].
    set (r := fold_left _ ps _). intros A B C D. split; [exact B|].
    destruct ps as [|p0 ps']; [congruence|]. pose proof (B p0 (or_introl eq_refl)) as B0. pose proof (R p0 i (or_introl eq_refl) Hi) as R0.
    split.
    - destruct C as [C|C]; [|exact C]. exists p0. split; [now left|]. lra.
    - destruct D as [D|D]; [|exact D]. exists p0. split; [now left|]. lra. }
  split.
  - intros p Hp i Hi. now apply X.
  - intros lo' hi' H i Hi. destruct (X i Hi) as (_ & (p & Hp & E1) & (q & Hq & E2)).
    pose proof (H p Hp i Hi). pose proof (H q Hq i Hi). lra.
Qed.

Lemma vertex_points_spec cfg (m : @mesh point) : ereach cfg m ->
  exists ps, vertex_points m = Some ps /\ mesh_points m ps.
Proof.
  intros HR. pose proof (ereach_wf cfg m HR) as W.
  assert (PT : forall v ev, deref m Vertex v = Some ev -> exists p, e_pt ev = Some p).
  { intros v ev Ev. unfold deref in Ev. destruct (find_node (m_nodes m Vertex) v) as [nv|] eqn:Fv; [|discriminate]. injection Ev as <-. apply find_node_In in Fv as [Fv _].
    pose proof (ereach_pointed cfg m HR nv Fv) as PN. destruct (e_pt (n_el nv)); [eauto|congruence]. }
  assert (RL : forall v, In v (range m Vertex) <-> exists ev, deref m Vertex v = Some ev).
  { intros v. split.
    - intros Hv. unfold range in Hv. apply in_map_iff in Hv as (n & <- & Hn). unfold deref.
      destruct (find_node (m_nodes m Vertex) (n_addr n)) as [n0|] eqn:F; [exists (n_el n0); reflexivity|]. exfalso. eapply find_node_None; [exact F|now apply in_map].
    - intros (ev & Ev). apply deref_In in Ev as (n & Hn & E & _). unfold range. rewrite <- E. now apply in_map. }
  destruct (omap_total (fun v => obind (deref m Vertex v) e_pt) (range m Vertex)) as (ps & E).
  { intros v Hv. apply RL in Hv as (ev & Ev). destruct (PT v ev Ev) as (p & Ep). exists p. rewrite Ev. exact Ep. }
  exists ps. split; [exact E|]. intros p. split.
  - intros Hp. assert (exists v, In v (range m Vertex) /\ obind (deref m Vertex v) e_pt = Some p) as (v & Hv & Ev).
    { clear - E Hp. revert ps E Hp. induction (range m Vertex) as [|v vs IH]; intros ps E Hp; cbn in E.
      - injection E as <-. destruct Hp.
      - destruct (obind (deref m Vertex v) e_pt) as [q|] eqn:Eq; [|discriminate]. cbn [obind] in E.
        destruct (omap _ vs) as [l|] eqn:El; [|discriminate]. cbn in E. injection E as <-. destruct Hp as [<-|Hp]; [exists v; split; [now left|exact Eq]|].
        destruct (IH l eq_refl Hp) as (w & Hw & Ew). exists w. split; [now right|exact Ew]. }
    destruct (deref m Vertex v) as [ev|] eqn:Ed; [|discriminate]. eauto.
  - intros (v & ev & Ev & Ep). assert (Hv : In v (range m Vertex)) by (apply RL; eauto).
    clear - E Hv Ev Ep. revert ps E Hv. induction (range m Vertex) as [|w vs IH]; intros ps E Hv; [destruct Hv|]. cbn in E.
    destruct (obind (deref m Vertex w) e_pt) as [q|] eqn:Eq; [|discriminate]. cbn [obind] in E.
    destruct (omap _ vs) as [l|] eqn:El; [|discriminate]. cbn in E. injection E as <-. destruct Hv as [<-|Hv].
    + rewrite Ev in Eq. cbn in Eq. left. congruence.
    + right. now apply IH.
Qed.

Lemma vertex_points_mesh cfg (m : @mesh point) ps : ereach cfg m -> vertex_points m = Some ps -> mesh_points m ps.
Proof. intros HR E. destruct (vertex_points_spec cfg m HR) as (ps' & E' & MP). rewrite E in E'. injection E' as ->. exact MP. Qed.
Lemma Rsum_bounds (wps : list (R * point)) i lo hi : Forall (fun wp => 0 <= fst wp) wps -> (forall wp, In wp wps -> lo <= snd wp i <= hi) ->
  lo * weight_sum wps <= weighted_coord wps i <= hi * weight_sum wps.
Proof.
  intros F B. unfold weight_sum, weighted_coord. induction wps as [|[w p] wps IH]; cbn; [lra|]. apply Forall_cons_iff in F as [F0 F]. cbn in F0.
  destruct (IH F ltac:(intros; apply B; now right)) as [I1 I2]. pose proof (B (w, p) (or_introl eq_refl)) as B0. cbn in B0.
  pose proof (Rmult_le_compat_l w lo (p i) F0 (proj1 B0)). pose proof (Rmult_le_compat_l w (p i) hi F0 (proj2 B0)). unfold Rsum in *. split; lra.
Qed.
Lemma hull_in_box d lo hi ps x : (forall p, In p ps -> in_box d lo hi p) -> in_hull d ps x -> in_box d lo hi x.
Proof.
  intros B (wps & <- & F & W & C) i Hi. rewrite (C i Hi).
  pose proof (Rsum_bounds wps i (lo i) (hi i) F) as X. rewrite W in X. rewrite !Rmult_1_r in X. apply X.
  intros wp Hwp. apply B; [|exact Hi]. now apply in_map.
Qed.

Lemma dist_box d lo hi p q : in_box d lo hi p -> in_box d lo hi q -> dist d p q <= dist d lo hi.
Proof.
  intros P Q. unfold dist. apply sqrt_le_1_alt. rewrite !dist_inner. unfold inner_prod. revert P Q. induction d as [|d IH]; intros P Q; cbn; [lra|].
  assert (IHd : sum_upto d (fun i => psub p q i * psub p q i) <= sum_upto d (fun i => psub lo hi i * psub lo hi i)).
  { apply IH; intros i Hi; [apply P|apply Q]; lia. }
  pose proof (P d ltac:(lia)). pose proof (Q d ltac:(lia)). unfold psub in *.
  assert ((p d - q d) * (p d - q d) <= (lo d - hi d) * (lo d - hi d)); [|lra].
  assert (- (hi d - lo d) <= p d - q d <= hi d - lo d) by lra.
  replace ((lo d - hi d) * (lo d - hi d)) with ((hi d - lo d) * (hi d - lo d)) by ring.
  assert (0 <= ((hi d - lo d) - (p d - q d)) * ((hi d - lo d) + (p d - q d))) by (apply Rmult_le_pos; lra). lra.
Qed.

Lemma C51_mesh_pf : forall cfg d big (m : @mesh point) ps, ereach cfg m -> mesh_points m ps -> ps <> [] -> representable d big ps ->
  exists lo hi s, mesh_bounding_box big m = Some (lo, hi) /\ mesh_size d big m = Some s /\
    smallest_box d ps lo hi /\
    (forall t a cps x, has_points m t a cps -> in_hull d cps x -> in_box d lo hi x) /\
    s = dist d lo hi /\
    (forall p q, In p ps -> In q ps -> dist d p q <= s) /\
    (s = 0 <-> forall p q, In p ps -> In q ps -> same_point d p q).
Proof.
  intros cfg d big m ps HR MP NE RP. destruct (vertex_points_spec cfg m HR) as (ps' & E & MP').
  assert (EQ : forall p, In p ps <-> In p ps') by (intros p; rewrite (MP p), (MP' p); tauto).
  assert (NE' : ps' <> []). { destruct ps as [|p ps]; [congruence|]. intros ->. apply (EQ p). now left. }
  assert (RP' : representable d big ps') by (intros p i Hp; apply RP; now apply EQ).
  pose proof (C51_points_pf d big ps' NE' RP') as SB'.
  assert (SB : smallest_box d ps (fst (bounding_box big ps')) (snd (bounding_box big ps'))).
  { destruct SB' as [S1 S2]. split; [intros p Hp; apply S1; now apply EQ|]. intros lo' hi' H. apply S2. intros p Hp. apply H. now apply EQ. }
  unfold mesh_size, mesh_bounding_box. rewrite E. cbn [option_map]. destruct (bounding_box big ps') as [lo hi] eqn:Ebb. cbn [fst snd] in *.
  exists lo, hi, (norm_2 d (psub hi lo)). split; [reflexivity|]. split; [reflexivity|]. split; [exact SB|].
  assert (SD : norm_2 d (psub hi lo) = dist d lo hi).
  { rewrite norm_inner. unfold dist. rewrite dist_inner. f_equal. unfold inner_prod. clear. induction d as [|d IH]; cbn; [reflexivity|]. rewrite IH. unfold psub. ring. }
  split; [|split; [exact SD|]].
  - intros t a cps x HP HX. eapply hull_in_box; [|exact HX]. intros p Hp. apply SB. apply MP.
    destruct HP as (e & Ee & HP). assert (G : Forall2 (fun v p => exists ev, deref m Vertex v = Some ev /\ e_pt ev = Some p) (e_verts e) cps -> exists v ev, deref m Vertex v = Some ev /\ e_pt ev = Some p).
    { intros F. clear - F Hp. induction F as [|v q vs qs (ev & A & B) F IH]; [destruct Hp|]. destruct Hp as [<-|Hp]; eauto. }
    destruct t; try now apply G. destruct HP as (q & Eq & ->). destruct Hp as [<-|[]]. eauto.
  - split.
    + intros p q Hp Hq. rewrite SD. apply dist_box; now apply SB.
    + rewrite SD. split.
      * intros Z p q Hp Hq. assert (D0 : dist d p q = 0).
        { apply Rle_antisym; [rewrite <- Z; apply dist_box; now apply SB|unfold dist; apply sqrt_pos]. }
        unfold dist in D0. apply sqrt_eq_0 in D0; [|rewrite dist_inner; apply inner_nonneg]. rewrite dist_inner in D0.
        intros i Hi. pose proof (inner_zero d _ D0 i Hi) as Z'. unfold psub in Z'. lra.
      * intros S. destruct SB as [S1 S2]. assert (Z : forall i, (i < d)%nat -> psub lo hi i = 0).
        { destruct ps as [|p0 ps0]; [congruence|]. intros i Hi. destruct (S2 p0 p0) with (i := i) as [A B]; [|exact Hi|].
          - intros p Hp j Hj. pose proof (S p p0 Hp (or_introl eq_refl) j Hj). lra.
          - pose proof (S1 p0 (or_introl eq_refl) i Hi). unfold psub. lra. }
        unfold dist. rewrite dist_inner, (inner_zero_l d _ _ Z). apply sqrt_0.
Qed.

Lemma C51_empty_refuted_pf : forall cfg d big (m : @mesh point), ereach cfg m -> (forall v ev, deref m Vertex v <> Some ev) -> (0 < d)%nat -> 0 < big ->
  exists lo hi s, mesh_bounding_box big m = Some (lo, hi) /\ (forall x, ~ in_box d lo hi x) /\ mesh_size d big m = Some s /\ 2 * big <= s.
Proof.
  intros cfg d big m HR NV Hd Hb. destruct (vertex_points_spec cfg m HR) as (ps & E & MP).
  assert (ps = []) as ->. { destruct ps as [|p ps]; [reflexivity|]. exfalso. destruct (proj1 (MP p) (or_introl eq_refl)) as (v & ev & A & _). exact (NV v ev A). }
  unfold mesh_size, mesh_bounding_box. rewrite E. cbn. exists (fun _ => big), (fun _ => - big). eexists. split; [reflexivity|]. split; [|split; [reflexivity|]].
  - intros x B. specialize (B 0%nat Hd). lra.
  - rewrite norm_inner. rewrite <- (sqrt_square (2 * big)) by lra. apply sqrt_le_1_alt. unfold inner_prod. destruct d as [|d]; [lia|]. clear Hd. induction d as [|d IH].
    + cbn. unfold psub. lra.
    + eapply Rle_trans; [exact IH|]. cbn [sum_upto]. pose proof (Rle_0_sqr (psub (fun _ => - big) (fun _ => big) (S d))) as Q. unfold Rsqr in Q. cbn [sum_upto] in *. lra.
Qed.

(** * Orthogonalisation *)
Lemma taxicab_norm d p : taxicab d p = norm_1 d p.
Proof.
  unfold taxicab, norm_1. induction d as [|d IH]; [reflexivity|]. rewrite seq_S, map_app. cbn [plus]. unfold Rsum in *. rewrite fold_right_app. cbn.
  rewrite <- IH. clear. generalize (map (fun i => Rabs (p i)) (seq 0 d)) as l. induction l as [|x l IH]; cbn; [ring|]. rewrite IH. ring.
Qed.
Lemma norm1_zero d p : (forall i, (i < d)%nat -> p i = 0) -> norm_1 d p = 0.
Proof. intros H. unfold norm_1. induction d as [|d IH]; cbn; [reflexivity|]. rewrite IH, (H d), Rabs_R0 by (intros; try apply H; lia). ring. Qed.
Lemma norm1_ext d p q : (forall i, (i < d)%nat -> p i = q i) -> norm_1 d p = norm_1 d q.
Proof. intros H. unfold norm_1. induction d as [|d IH]; cbn; [reflexivity|]. rewrite IH, (H d) by (intros; try apply H; lia). reflexivity. Qed.
Lemma inner_pos_norm d p : 0 < norm_1 d p -> inner_prod d p p <> 0.
Proof. intros N Z. rewrite (norm1_zero d p) in N; [lra|]. now apply inner_zero. Qed.

Lemma comb_cons c cs v vs i : combination (c :: cs) (v :: vs) i = c * v i + combination cs vs i.
Proof. reflexivity. Qed.
Lemma comb_lin a b : forall vs cs cs' i, length cs = length vs -> length cs' = length vs ->
  combination (map (fun p => a * fst p + b * snd p) (combine cs cs')) vs i = a * combination cs vs i + b * combination cs' vs i.
Proof.
  induction vs as [|v vs IH]; intros [|c cs] [|c' cs'] i L L'; try discriminate; cbn [combine map].
  - unfold combination. cbn. ring.
  - rewrite !comb_cons, IH by (cbn in *; lia). cbn [fst snd]. ring.
Qed.
Lemma comb_zero vs i : combination (repeat 0 (length vs)) vs i = 0.
Proof. induction vs as [|v vs IH]; [reflexivity|]. cbn [length repeat]. rewrite comb_cons, IH. ring. Qed.
Lemma comb_app : forall c1 v1 c2 v2 i, length c1 = length v1 -> combination (c1 ++ c2) (v1 ++ v2) i = combination c1 v1 i + combination c2 v2 i.
Proof.
  induction c1 as [|c c1 IH]; intros [|v v1] c2 v2 i L; try discriminate; cbn [app].
  - unfold combination at 2. cbn. ring.
  - rewrite !comb_cons, IH by (cbn in L; lia). ring.
Qed.
Lemma span_zero d vs : in_span d vs (fun _ => 0).
Proof. exists (repeat 0 (length vs)). rewrite repeat_length. split; [reflexivity|]. intros. now rewrite comb_zero. Qed.
Lemma span_ext d vs x y : (forall i, (i < d)%nat -> x i = y i) -> in_span d vs x -> in_span d vs y.
Proof. intros H (cs & L & C). exists cs. split; [exact L|]. intros i Hi. rewrite <- H by exact Hi. now apply C. Qed.
Lemma span_lin d vs x y a b : in_span d vs x -> in_span d vs y -> in_span d vs (fun i => a * x i + b * y i).
Proof.
  intros (cs & L & C) (cs' & L' & C'). exists (map (fun p => a * fst p + b * snd p) (combine cs cs')).
  split; [rewrite map_length, combine_length; lia|]. intros i Hi. rewrite comb_lin by assumption. now rewrite C, C'.
Qed.
Lemma span_In d vs v : In v vs -> in_span d vs v.
Proof.
  induction vs as [|w vs IH]; [intros []|]. intros [->|H].
  - exists (1 :: repeat 0 (length vs)). split; [cbn; now rewrite repeat_length|]. intros i Hi. rewrite comb_cons, comb_zero. ring.
  - destruct (IH H) as (cs & L & C). exists (0 :: cs). split; [cbn; lia|]. intros i Hi. rewrite comb_cons, C by exact Hi. ring.
Qed.
Lemma span_trans d us vs x : (forall v, In v vs -> in_span d us v) -> in_span d vs x -> in_span d us x.
Proof.
  intros H (cs & L & C). revert cs x L C. induction vs as [|v vs IH]; intros [|c cs] x L C; try discriminate.
  - eapply span_ext; [|apply span_zero]. intros i Hi. rewrite C by exact Hi. reflexivity.
  - apply (span_ext d us (fun i => c * v i + 1 * combination cs vs i)).
    + intros i Hi. rewrite C by exact Hi. rewrite comb_cons. ring.
    + apply span_lin; [apply H; now left|]. apply (IH ltac:(intros; apply H; now right) cs); [cbn in L; lia|reflexivity].
Qed.
Lemma span_mono d us vs x : incl vs us -> in_span d vs x -> in_span d us x.
Proof. intros I. apply span_trans. intros v Hv. apply span_In. now apply I. Qed.
Lemma comb_orth d vs u : forall cs, (forall v, In v vs -> inner_prod d v u = 0) -> inner_prod d (combination cs vs) u = 0.
Proof.
  induction vs as [|v vs IH]; intros [|c cs] H; try (apply inner_zero_l; reflexivity).
  rewrite (inner_ext d _ u (fun i => c * v i + 1 * combination cs vs i) u) by (try reflexivity; intros i Hi; rewrite comb_cons; ring).
  rewrite inner_lin, (H v (or_introl eq_refl)), (IH cs) by (intros; apply H; now right). ring.
Qed.
Lemma span_orth d vs x u : in_span d vs x -> (forall v, In v vs -> inner_prod d v u = 0) -> inner_prod d x u = 0.
Proof.
  intros (cs & L & C) H. rewrite (inner_ext d x u (combination cs vs) u) by (try reflexivity; exact C). now apply comb_orth.
Qed.

Lemma rev_is_nil {A} (l : list A) : rev l = [] -> l = [].
Proof. intros E. rewrite <- (rev_involutive l), E. reflexivity. Qed.
Lemma rev_is_cons {A} (l : list A) x r : rev l = x :: r -> l = rev r ++ [x].
Proof. intros E. rewrite <- (rev_involutive l), E. reflexivity. Qed.
Definition orth (d : nat) (vs : list point) : Prop := ForallOrdPairs (fun u v => inner_prod d u v = 0) vs.
Definition big (d : nat) (tol : R) (vs : list point) : Prop := Forall (fun v => tol <= norm_1 d v) vs.
Lemma orthogonalize_vector_spec d tol bs : 0 < tol -> orth d bs -> big d tol bs -> forall v,
  exists v', orthogonalize_vector d bs v = Some v' /\ in_span d bs (fun i => v i - v' i) /\ forall b, In b bs -> inner_prod d v' b = 0.
Proof.
  intros T. induction bs as [|b bs IH]; intros O B v; cbn [orthogonalize_vector].
  - exists v. split; [reflexivity|]. split; [|intros b []]. apply (span_ext d [] (fun _ => 0)); [intros; ring|apply span_zero].
  - inversion O as [|? ? O1 O2]; subst. apply Forall_cons_iff in B as [B1 B2].
    assert (NZ : inner_prod d b b <> 0) by (apply inner_pos_norm; lra).
    destruct (Req_EM_T (inner_prod d b b) 0) as [E|_]; [contradiction|].
    set (c := inner_prod d v b / inner_prod d b b). set (v1 := psub v (pscale c b)).
    destruct (IH O2 B2 v1) as (v' & E & S & P). exists v'. split; [exact E|]. split.
    + apply (span_ext d (b :: bs) (fun i => c * b i + 1 * (v1 i - v' i))); [intros i Hi; unfold v1, psub, pscale; ring|].
      apply span_lin; [apply span_In; now left|]. revert S. apply span_mono. intros x Hx. now right.
    + intros b' [<-|Hb']; [|now apply P]. rewrite Forall_forall in O1.
      assert (V1 : inner_prod d v1 b = 0).
      { rewrite (inner_ext d v1 b (fun i => 1 * v i + (- c) * b i) b) by (try reflexivity; intros; unfold v1, psub, pscale; ring).
        rewrite inner_lin. unfold c. field. exact NZ. }
      pose proof (span_orth d bs _ b S ltac:(intros w Hw; rewrite inner_comm; now apply O1)) as Q.
      rewrite (inner_ext d _ b (fun i => 1 * v1 i + (-1) * v' i) b) in Q by (try reflexivity; intros; ring). rewrite inner_lin in Q. lra.
Qed.
Lemma orth_snoc d vs v : orth d vs -> (forall b, In b vs -> inner_prod d v b = 0) -> orth d (vs ++ [v]).
Proof.
  unfold orth. induction vs as [|w vs IH]; intros O H; cbn; [constructor; constructor|]. inversion O as [|? ? O1 O2]; subst. constructor.
  - apply Forall_app. split; [exact O1|]. constructor; [|constructor]. rewrite inner_comm. apply H. now left.
  - apply IH; [exact O2|]. intros; apply H; now right.
Qed.
Lemma orth_pairwise d vs : orth d vs -> pairwise_orthogonal d vs.
Proof.
  induction 1 as [|u vs F O IH]; intros i j x y N Hi Hj.
  - destruct i; discriminate.
  - rewrite Forall_forall in F. destruct i as [|i], j as [|j]; cbn in Hi, Hj; try (now exfalso; apply N).
    + injection Hi as <-. rewrite dot_inner. apply F. now apply nth_error_In in Hj.
    + injection Hj as <-. rewrite dot_inner, inner_comm. apply F. now apply nth_error_In in Hi.
    + apply (IH i j); auto.
Qed.

Record oinv (d : nat) (tol : R) (vs done rest moved : list point) : Prop := {
  o_orth : orth d done;
  o_big : big d tol done;
  o_moved : Forall (fun v => norm_1 d v < tol) moved;
  o_near : forall v, In v vs -> In v rest \/ exists w, in_span d done w /\ norm_1 d (fun i => v i - w i) < tol;
  o_rest : incl rest vs;
  o_done : forall v, In v done -> in_span d vs v;
  o_out : forall v, In v moved -> in_span d vs v;
  o_len : (length done + length rest + length moved = length vs)%nat }.

Lemma oloop d tol vs : 0 < tol -> forall k done rest moved, length rest = k -> oinv d tol vs done rest moved ->
  exists done' moved', orthogonalize_loop d tol k done rest moved = Some (done' ++ moved', length done') /\ oinv d tol vs done' [] moved'.
Proof.
  intros T. induction k as [|k IH]; intros done rest moved L I; cbn [orthogonalize_loop].
  - destruct rest; [|discriminate]. exists done, moved. auto.
  - destruct rest as [|v rest]; [discriminate|].
    destruct (orthogonalize_vector_spec d tol done T (o_orth _ _ _ _ _ _ I) (o_big _ _ _ _ _ _ I) v) as (v' & E & S & P). rewrite E.
    assert (SV' : in_span d vs v').
    { apply (span_ext d vs (fun i => 1 * v i + (-1) * (v i - v' i))); [intros; ring|]. apply span_lin; [apply span_In; apply (o_rest _ _ _ _ _ _ I); now left|].
      revert S. apply span_trans. apply (o_done _ _ _ _ _ _ I). }
    destruct (Rlt_dec (norm_1 d v') tol) as [LT|GE].
    + assert (G : forall rest', (forall x, In x rest' <-> In x rest) -> length rest' = length rest -> oinv d tol vs done rest' (v' :: moved)).
      { intros rest' HIn HL. destruct I as [I1 I2 I3 I4 I5 I6 I7 I8]. constructor; auto.
        - intros u Hu. destruct (I4 u Hu) as [[<-|X]|X]; [|left; now apply HIn|now right]. right. exists (fun i => v i - v' i). split; [exact S|].
          rewrite (norm1_ext d _ v'); [exact LT|]. intros; ring.
        - intros u Hu. apply I5. right. now apply HIn.
        - intros u [<-|Hu]; [exact SV'|now apply I7].
        - cbn in I8 |- *. lia. }
      destruct (rev rest) as [|l rinit] eqn:Er.
      * apply rev_is_nil in Er. subst rest. apply IH; [cbn in L |- *; lia|]. now apply G.
      * pose proof (rev_is_cons _ _ _ Er) as ER.
        assert (HL : length (l :: rev rinit) = length rest) by (rewrite ER, app_length; cbn; lia).
        apply IH; [cbn [length] in *; lia|]. apply G; [|exact HL]. intros x. rewrite ER, in_app_iff. cbn. tauto.
    + apply IH; [cbn in L; lia|]. destruct I as [I1 I2 I3 I4 I5 I6 I7 I8]. constructor; auto.
      * now apply orth_snoc.
      * apply Forall_app. split; [exact I2|]. constructor; [lra|constructor].
      * intros u Hu. destruct (I4 u Hu) as [[<-|X]|(w & W & N)]; [|now left|].
        -- right. exists v. split.
           ++ apply (span_ext d _ (fun i => 1 * (v i - v' i) + 1 * v' i)); [intros; ring|]. apply span_lin; [|apply span_In; apply in_app_iff; right; now left].
              revert S. apply span_mono. intros x Hx. apply in_app_iff. now left.
           ++ rewrite norm1_zero; [exact T|]. intros; ring.
        -- right. exists w. split; [|exact N]. revert W. apply span_mono. intros x Hx. apply in_app_iff. now left.
      * intros u Hu. apply I5. now right.
      * intros u Hu. apply in_app_iff in Hu as [Hu|[<-|[]]]; auto.
      * rewrite app_length. cbn in *. lia.
Qed.
Lemma oinv_init d tol vs : oinv d tol vs [] vs [].
Proof. constructor; try constructor; auto; try (intros; contradiction); try apply incl_refl; cbn; lia. Qed.

Lemma C52_orthogonalize_pf : forall d tol vs, 0 < tol ->
  exists indep rest, orthogonalize d tol vs = Some (indep ++ rest, length indep) /\
    length (indep ++ rest) = length vs /\
    pairwise_orthogonal d indep /\
    Forall (fun v => tol <= taxicab d v) indep /\ Forall (fun v => taxicab d v < tol) rest /\
    (forall v, In v vs -> exists w, in_span d indep w /\ taxicab d (fun i => v i - w i) < tol) /\
    (forall v, In v (indep ++ rest) -> in_span d vs v).
Proof.
  intros d tol vs T. destruct (oloop d tol vs T (length vs) [] vs [] eq_refl (oinv_init d tol vs)) as (a & b & E & I).
  destruct I as [I1 I2 I3 I4 I5 I6 I7 I8]. exists a, b. split; [exact E|]. split; [rewrite app_length; cbn in I8; lia|]. split; [now apply orth_pairwise|].
  split; [|split; [|split]].
  - eapply Forall_impl; [|exact I2]. intros v. now rewrite taxicab_norm.
  - eapply Forall_impl; [|exact I3]. intros v. now rewrite taxicab_norm.
  - intros v Hv. destruct (I4 v Hv) as [[]|(w & W & N)]. exists w. split; [exact W|]. now rewrite taxicab_norm.
  - intros v Hv. apply in_app_iff in Hv as [Hv|Hv]; auto.
Qed.

Lemma orth_indep d tol vs : 0 < tol -> orth d vs -> big d tol vs -> lin_independent d vs.
Proof.
  intros T. induction vs as [|v vs IH]; intros O B cs L Z; [destruct cs; [constructor|discriminate]|].
  destruct cs as [|c cs]; [discriminate|]. inversion O as [|? ? O1 O2]; subst. apply Forall_cons_iff in B as [B1 B2]. rewrite Forall_forall in O1.
  assert (Q : inner_prod d (fun i => c * v i + 1 * combination cs vs i) v = 0).
  { apply inner_zero_l. intros i Hi. rewrite <- (Z i Hi), comb_cons. ring. }
  rewrite inner_lin, (comb_orth d vs v cs) in Q by (intros; rewrite inner_comm; now apply O1).
  assert (NZ : inner_prod d v v <> 0) by (apply inner_pos_norm; lra). assert (C0 : c = 0) by (apply Rmult_eq_reg_r with (inner_prod d v v); lra).
  constructor; [exact C0|]. apply IH; auto. intros i Hi. pose proof (Z i Hi) as Zi. rewrite comb_cons, C0 in Zi. lra.
Qed.
Lemma length_split {A} (l : list A) : forall n m, length l = (n + m)%nat -> exists a b, l = a ++ b /\ length a = n /\ length b = m.
Proof.
  intros n m L. exists (firstn n l), (skipn n l). split; [now rewrite firstn_skipn|]. rewrite firstn_length, skipn_length. split; lia.
Qed.
Lemma indep_change d ds v v' rs : in_span d ds (fun i => v i - v' i) -> lin_independent d (ds ++ v' :: rs) -> lin_independent d (ds ++ v :: rs).
Proof.
  intros (es & Le & Ce) I cs L Z. rewrite app_length in L. cbn in L.
  assert (exists c1 c c2, cs = c1 ++ c :: c2 /\ length c1 = length ds /\ length c2 = length rs) as (c1 & c & c2 & -> & L1 & L2).
  { destruct (length_split cs (length ds) (S (length rs)) L) as (c1 & [|c c2] & -> & L1 & L2); [discriminate|].
    exists c1, c, c2. split; [reflexivity|]. split; [exact L1|]. cbn in L2. now injection L2. }
  specialize (I (map (fun p => 1 * fst p + c * snd p) (combine c1 es) ++ c :: c2)).
  assert (LM : length (map (fun p => 1 * fst p + c * snd p) (combine c1 es)) = length ds) by (rewrite map_length, combine_length; lia).
  assert (X : Forall (fun c => c = 0) (map (fun p => 1 * fst p + c * snd p) (combine c1 es) ++ c :: c2)).
  { apply I; [rewrite !app_length, LM; cbn [length]; now rewrite L2|]. intros i Hi. rewrite comb_app by exact LM. rewrite comb_cons, comb_lin by assumption.
    pose proof (Z i Hi) as Zi. rewrite comb_app in Zi by exact L1. rewrite comb_cons in Zi. rewrite <- (Ce i Hi). rewrite <- Zi. ring. }
  apply Forall_app in X as [X1 X2]. apply Forall_cons_iff in X2 as [C0 X2]. apply Forall_app. split; [|constructor; assumption].
  subst c. clear - X1 L1 Le. rewrite <- L1 in Le. clear L1. revert es Le X1. induction c1 as [|x c1 IH]; intros [|e es] Le X1; try discriminate; constructor.
  - cbn in X1. apply Forall_cons_iff in X1 as [X1 _]. cbn in X1. lra.
  - cbn in X1. apply Forall_cons_iff in X1 as [_ X1]. apply (IH es); [cbn in Le; lia|exact X1].
Qed.
Lemma oloop_count d tol : forall k done rest moved out c, length rest = k -> orthogonalize_loop d tol k done rest moved = Some (out, c) -> (c <= length done + k)%nat.
Proof.
  induction k as [|k IH]; intros done rest moved out c L E; cbn [orthogonalize_loop] in E.
  - injection E as _ <-. lia.
  - destruct rest as [|v rest]; [discriminate|]. destruct (orthogonalize_vector d done v) as [v'|]; [|discriminate]. destruct (Rlt_dec (norm_1 d v') tol).
    + destruct (rev rest) as [|l ri] eqn:Er.
      * apply rev_is_nil in Er. subst rest. apply IH in E; cbn in L |- *; lia.
      * apply IH in E; [lia|]. apply (f_equal (@length point)) in Er. rewrite rev_length in Er. cbn in *. rewrite rev_length. lia.
    + apply IH in E; [|cbn in L; lia]. rewrite app_length in E. cbn in E. lia.
Qed.
Lemma oloop_indep d tol : 0 < tol -> forall k done rest moved out, length rest = k -> orth d done -> big d tol done ->
  orthogonalize_loop d tol k done rest moved = Some (out, (length done + k)%nat) -> lin_independent d (done ++ rest).
Proof.
  intros T. induction k as [|k IH]; intros done rest moved out L O B E.
  - destruct rest; [|discriminate]. rewrite app_nil_r. now apply (orth_indep d tol).
  - cbn [orthogonalize_loop] in E. destruct rest as [|v rest]; [discriminate|].
    destruct (orthogonalize_vector_spec d tol done T O B v) as (v' & Ev & S & P). rewrite Ev in E. destruct (Rlt_dec (norm_1 d v') tol).
    + exfalso. destruct (rev rest) as [|l ri] eqn:Er.
      * apply rev_is_nil in Er. subst rest. apply oloop_count in E; cbn in L |- *; lia.
      * apply oloop_count in E; [lia|]. apply (f_equal (@length point)) in Er. rewrite rev_length in Er. cbn in *. rewrite rev_length. lia.
    + apply (indep_change d done v v' rest S). assert (X : lin_independent d ((done ++ [v']) ++ rest)); [|now rewrite <- app_assoc in X].
      apply (IH _ _ moved out); [exact (f_equal pred L)|now apply orth_snoc| |].
      * apply Forall_app. split; [exact B|]. constructor; [lra|constructor].
      * rewrite E. f_equal. f_equal. rewrite app_length. cbn. lia.
Qed.
Lemma oloop_full d tol vs : 0 < tol ->
  (forall l1 v l2 w, vs = l1 ++ v :: l2 -> in_span d (l1 ++ l2) w -> tol <= norm_1 d (fun i => v i - w i)) ->
  forall k pre done rest, vs = pre ++ rest -> length rest = k -> orth d done -> big d tol done -> (forall v, In v done -> in_span d pre v) ->
  exists out, orthogonalize_loop d tol k done rest [] = Some (out, (length done + k)%nat).
Proof.
  intros T H. induction k as [|k IH]; intros pre done rest EV L O B SP; cbn [orthogonalize_loop].
  - exists (done ++ []). f_equal. f_equal. lia.
  - destruct rest as [|v rest]; [discriminate|]. destruct (orthogonalize_vector_spec d tol done T O B v) as (v' & Ev & S & P). rewrite Ev.
    assert (SPv : in_span d pre (fun i => v i - v' i)) by (revert S; now apply span_trans).
    destruct (Rlt_dec (norm_1 d v') tol) as [LT|GE].
    + exfalso. pose proof (H pre v rest _ EV (span_mono d (pre ++ rest) pre _ ltac:(intros x Hx; apply in_app_iff; now left) SPv)) as Q.
      rewrite (norm1_ext d _ v') in Q; [lra|]. intros; ring.
    + destruct (IH (pre ++ [v]) (done ++ [v']) rest) as (out & E).
      * rewrite EV, <- app_assoc. reflexivity.
      * exact (f_equal pred L).
      * now apply orth_snoc.
      * apply Forall_app. split; [exact B|]. constructor; [lra|constructor].
      * assert (M : forall x, in_span d pre x -> in_span d (pre ++ [v]) x) by (intros x; apply span_mono; intros y Hy; apply in_app_iff; now left).
        intros u Hu. apply in_app_iff in Hu as [Hu|[<-|[]]]; [apply M; now apply SP|].
        apply (span_ext d _ (fun i => 1 * v i + (-1) * (v i - v' i))); [intros; ring|]. apply span_lin; [apply span_In, in_app_iff; right; now left|]. now apply M.
      * exists out. rewrite E. f_equal. f_equal. rewrite app_length. cbn. lia.
Qed.

Lemma C52_count_pf : forall d tol vs, 0 < tol ->
  (forall out, orthogonalize d tol vs = Some (out, length vs) -> lin_independent d vs) /\
  ((forall l1 v l2 w, vs = l1 ++ v :: l2 -> in_span d (l1 ++ l2) w -> tol <= taxicab d (fun i => v i - w i)) ->
   exists out, orthogonalize d tol vs = Some (out, length vs)).
Proof.
  intros d tol vs T. split.
  - intros out E. apply (oloop_indep d tol T (length vs) [] vs [] out); auto; constructor.
  - intros H. apply (oloop_full d tol vs T) with (pre := []); [|reflexivity|reflexivity|constructor|constructor|intros v []].
    intros l1 v l2 w EV S. rewrite <- taxicab_norm. now apply (H l1 v l2 w).
Qed.

(** * Normal vectors and determinants *)
(** The normal of a line in the plane: orthogonal to it, as long as the line, and
    pointing to its left. *)
Lemma C53_line_pf : forall p0 p1, exists n, normal_vector 2 Line [p0; p1] = Some n /\
  orthogonal_to 2 [p0; p1] n /\ dot 2 n n = dist_sq 2 p0 p1 /\ det (columns 2 [fun i => p1 i - p0 i; n]) = dist_sq 2 p0 p1.
Proof.
  intros p0 p1. eexists. split; [reflexivity|]. split; [|split].
  - intros p q [<-|[<-|[]]] [<-|[<-|[]]]; cbn; ring.
  - cbn. ring.
  - cbn. ring.
Qed.

Lemma C53_triangle_pf : forall p0 p1 p2, exists n, normal_vector 3 Triangle [p0; p1; p2] = Some n /\
  orthogonal_to 3 [p0; p1; p2] n /\
  dot 3 n n = det (gram 3 (edge_vectors [p0; p1; p2])) /\
  det (columns 3 [fun i => p1 i - p0 i; fun i => p2 i - p0 i; n]) = dot 3 n n /\
  (dot 3 n n <> 0 <-> independent 3 [p0; p1; p2]).
Proof.
  intros p0 p1 p2. eexists. split; [reflexivity|]. split; [|split; [|split]].
  - intros p q [<-|[<-|[<-|[]]]] [<-|[<-|[<-|[]]]]; cbn; unfold psub; ring.
  - cbn. unfold psub. ring.
  - cbn. unfold psub. ring.
  - rewrite dot_inner. rewrite indep3_lin. symmetry. apply lin2_cross.
Qed.

Lemma C53_quadrilateral_pf : forall p0 p1 p2 p3 x y, same_point 3 p3 (fun i => p0 i + x * (p1 i - p0 i) + y * (p2 i - p0 i)) ->
  exists n, normal_vector 3 Quad [p0; p1; p2; p3] = Some n /\ normal_vector 3 Triangle [p0; p1; p2] = Some n /\
    orthogonal_to 3 [p0; p1; p2; p3] n.
Proof.
  intros p0 p1 p2 p3 x y H. eexists. split; [reflexivity|]. split; [reflexivity|].
  pose proof (H 0%nat ltac:(lia)) as H0. pose proof (H 1%nat ltac:(lia)) as H1. pose proof (H 2%nat ltac:(lia)) as H2.
  intros p q [<-|[<-|[<-|[<-|[]]]]] [<-|[<-|[<-|[<-|[]]]]]; cbn; unfold psub; rewrite ?H0, ?H1, ?H2; ring.
Qed.

Lemma lin_independent1 d a : lin_independent d [a] <-> exists i, (i < d)%nat /\ a i <> 0.
Proof.
  split.
  - intros I. induction d as [|d IH].
    + exfalso. specialize (I [1] eq_refl ltac:(intros; lia)). apply Forall_cons_iff in I as [I _]. lra.
    + destruct (Req_EM_T (a d) 0) as [E|N]; [|exists d; split; [lia|exact N]].
      destruct IH as (i & Hi & N); [|exists i; split; [lia|exact N]]. intros cs L Z. apply I; [exact L|]. intros i Hi.
      destruct (Nat.eq_dec i d) as [->|]; [|apply Z; lia]. destruct cs as [|c [|]]; try discriminate. rewrite comb_cons, E. unfold combination. cbn. ring.
  - intros (i & Hi & N) cs L Z. destruct cs as [|c [|]]; try discriminate. constructor; [|constructor]. specialize (Z i Hi). rewrite comb_cons in Z. unfold combination in Z. cbn in Z.
    apply Rmult_eq_reg_r with (a i); [lra|exact N].
Qed.
Lemma lin_independent2 d a b : lin_independent d [a; b] <-> lin2 d a b.
Proof.
  split.
  - intros I x y H. specialize (I [x; y] eq_refl). apply Forall_cons_iff in I as [I1 I2]; [apply Forall_cons_iff in I2 as [I2 _]; auto|].
    intros i Hi. rewrite <- (H i Hi). unfold combination. cbn. ring.
  - intros I cs L Z. destruct cs as [|x [|y [|]]]; try discriminate. destruct (I x y) as [-> ->]; [|repeat constructor].
    intros i Hi. rewrite <- (Z i Hi). unfold combination. cbn. ring.
Qed.
Lemma lin_independent3 d a b c : lin_independent d [a; b; c] <-> lin3 d a b c.
Proof.
  split.
  - intros I x y z H. specialize (I [x; y; z] eq_refl). apply Forall_cons_iff in I as [I1 I2]; [apply Forall_cons_iff in I2 as [I2 I3]; apply Forall_cons_iff in I3 as [I3 _]; auto|].
    intros i Hi. rewrite <- (H i Hi). unfold combination. cbn. ring.
  - intros I cs L Z. destruct cs as [|x [|y [|z [|]]]]; try discriminate. destruct (I x y z) as (-> & -> & ->); [|repeat constructor].
    intros i Hi. rewrite <- (Z i Hi). unfold combination. cbn. ring.
Qed.
Lemma det2_lin a b : determinant2 a b <> 0 <-> lin2 2 a b.
Proof.
  unfold determinant2. split.
  - intros N x y H. pose proof (H 0%nat ltac:(lia)) as H0. pose proof (H 1%nat ltac:(lia)) as H1.
    split; (apply Rmult_eq_reg_r with (a 0%nat * b 1%nat - a 1%nat * b 0%nat); [|exact N]).
    + transitivity ((x * a 0%nat + y * b 0%nat) * b 1%nat - (x * a 1%nat + y * b 1%nat) * b 0%nat); [ring|]. rewrite H0, H1. ring.
    + transitivity (- ((x * a 0%nat + y * b 0%nat) * a 1%nat) + (x * a 1%nat + y * b 1%nat) * a 0%nat); [ring|]. rewrite H0, H1. ring.
  - intros I Z.
    assert (E1 : b 1%nat = 0 /\ - a 1%nat = 0). { apply I. intros i Hi. destruct i as [|[|i]]; [lra|ring|lia]. }
    assert (E0 : b 0%nat = 0 /\ - a 0%nat = 0). { apply I. intros i Hi. destruct i as [|[|i]]; [ring|lra|lia]. }
    destruct (I 1 0) as [Q _]; [|lra]. intros i Hi. destruct i as [|[|i]]; [lra|lra|lia].
Qed.
Lemma det3_lin a b c : determinant3 a b c <> 0 <-> lin3 3 a b c.
Proof.
  rewrite lin3_det. replace (det3 a b c) with (determinant3 a b c); [tauto|]. unfold determinant3, det3, inner_prod, cross_prod. cbn. ring.
Qed.

Lemma C53_determinant_pf : forall a b c,
  (determinant1 a = det (columns 1 [a]) /\ (determinant1 a <> 0 <-> lin_independent 1 [a])) /\
  (determinant2 a b = det (columns 2 [a; b]) /\ (determinant2 a b <> 0 <-> lin_independent 2 [a; b])) /\
  (determinant3 a b c = det (columns 3 [a; b; c]) /\ (determinant3 a b c <> 0 <-> lin_independent 3 [a; b; c])).
Proof.
  intros a b c. split; [|split]; (split; [cbn; unfold determinant1, determinant2, determinant3; ring|]).
  - rewrite lin_independent1. unfold determinant1. split; [intros N; exists 0%nat; auto|]. intros (i & Hi & N). now replace i with 0%nat in N by lia.
  - rewrite lin_independent2. apply det2_lin.
  - rewrite lin_independent3. apply det3_lin.
Qed.
