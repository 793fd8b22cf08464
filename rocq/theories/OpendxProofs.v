(** Proofs for C77. *)
From Coq Require Import Reals List Arith ZArith Bool String Lia Lra.
From Verif Require Import ModelTopo ModelMesh ModelErase ModelOpendx
  SpecMesh SpecErase SpecCopy SpecOpendx MeshBase MeshInv MeshReach MeshWf MeshErase MeshDemo CopyBase MphtxtFile.
Import ListNotations.
Open Scope nat_scope.

Lemma Int_part_bounds x : (IZR (Int_part x) <= x < IZR (Int_part x) + 1)%R.
Proof. destruct (base_Int_part x). lra. Qed.
Lemma Int_part_unique x z : (IZR z <= x < IZR z + 1)%R -> Int_part x = z.
Proof.
  intros H. pose proof (Int_part_bounds x) as B. assert (X : (z < Int_part x + 1)%Z) by (apply lt_IZR; rewrite plus_IZR; lra).
  assert (Y : (Int_part x < z + 1)%Z) by (apply lt_IZR; rewrite plus_IZR; lra). lia.
Qed.

Lemma truncate_near x : (Rabs (x - IZR (truncate x)) < 1)%R.
Proof.
  unfold truncate. destruct (Rle_dec 0 x); apply Rabs_def1.
  - pose proof (Int_part_bounds x). lra.
  - pose proof (Int_part_bounds x). lra.
  - rewrite opp_IZR. pose proof (Int_part_bounds (- x)). lra.
  - rewrite opp_IZR. pose proof (Int_part_bounds (- x)). lra.
Qed.

Lemma fixer_spec v w : dx_fixer v = Some w -> w = (v + / 100000)%R.
Proof.
  unfold dx_fixer, to_long. destruct (_ && _)%bool; [|discriminate]. cbn [obind]. pose proof (truncate_near (v * 10000)).
  destruct (Rlt_dec _ 1); [|contradiction]. now intros [= <-].
Qed.
Lemma fixer_defined v : (Rabs v * 10000 < 2 ^ 63)%R -> dx_fixer v = Some (v + / 100000)%R.
Proof.
  intros H. destruct (dx_fixer v) as [w|] eqn:E; [now rewrite (fixer_spec v w E)|]. exfalso. unfold dx_fixer, to_long in E.
  set (z := truncate (v * 10000)) in E. assert (X : (- 2 ^ 63 <= z < 2 ^ 63)%Z).
  { pose proof (truncate_near (v * 10000)) as N. fold z in N. apply Rabs_def2 in N.
    assert (P : (IZR (2 ^ 63) = 2 ^ 63)%R) by (change (2 ^ 63)%Z with (2 ^ Z.of_nat 63)%Z; now rewrite <- pow_IZR).
    assert (Q : (Rabs (v * 10000) < IZR (2 ^ 63))%R) by (rewrite P, Rabs_mult, (Rabs_pos_eq 10000) by lra; exact H).
    apply Rabs_def2 in Q. unfold z, truncate in *. destruct (Rle_dec 0 (v * 10000)).
    - pose proof (Int_part_bounds (v * 10000)). split.
      + apply Z.lt_pred_le. apply lt_IZR. unfold Z.pred. rewrite plus_IZR, opp_IZR. lra.
      + apply lt_IZR. lra.
    - pose proof (Int_part_bounds (- (v * 10000))). split.
      + apply le_IZR. rewrite !opp_IZR. lra.
      + apply lt_IZR. rewrite opp_IZR. assert (0 <= IZR (Int_part (- (v * 10000))))%R; [|lra].
        apply IZR_le. assert (-1 < Int_part (- (v * 10000)))%Z; [|lia]. apply lt_IZR. lra. }
  destruct X as [X1 X2]. apply Z.leb_le in X1. apply Z.ltb_lt in X2. rewrite X1, X2 in E. discriminate.
Qed.
Lemma fixer_too_large v : (Rabs v * 10000 >= 2 ^ 63 + 1)%R -> dx_fixer v = None.
Proof.
  intros H. unfold dx_fixer, to_long. set (z := truncate (v * 10000)).
  assert (X : ~ (- 2 ^ 63 <= z < 2 ^ 63)%Z).
  { intros (A & B). apply IZR_le in A. apply IZR_lt in B. pose proof (truncate_near (v * 10000)) as N. fold z in N. apply Rabs_def2 in N.
    assert (P : (IZR (2 ^ 63) = 2 ^ 63)%R) by (change (2 ^ 63)%Z with (2 ^ Z.of_nat 63)%Z; now rewrite <- pow_IZR).
    rewrite opp_IZR, P in A. rewrite P in B.
    assert (Q : (Rabs (v * 10000) >= 2 ^ 63 + 1)%R) by (rewrite Rabs_mult, (Rabs_pos_eq 10000) by lra; exact H).
    unfold Rabs in Q. destruct (Rcase_abs (v * 10000)); lra. }
  destruct (- 2 ^ 63 <=? z)%Z eqn:A; [|reflexivity]. destruct (z <? 2 ^ 63)%Z eqn:B; [|reflexivity].
  apply Z.leb_le in A. apply Z.ltb_lt in B. tauto.
Qed.

Lemma number_bounds v z : dx_number v = Some z -> (/ 200000 <= IZR z / 100000 - v <= 3 / 200000)%R.
Proof.
  unfold dx_number. destruct (dx_fixer v) as [w|] eqn:E; [|discriminate]. cbn [option_map]. intros [= <-]. rewrite (fixer_spec v w E). unfold five_digits.
  pose proof (Int_part_bounds ((v + / 100000) * 100000 + / 2)). lra.
Qed.

Lemma C77_values_pf : forall v z, dx_number v = Some z -> (/ 200000 <= IZR z / 100000 - v <= 3 / 200000)%R.
Proof. exact number_bounds. Qed.

Lemma C77_values_refuted_pf : forall k z, dx_number (IZR k / 100000) = Some z -> z = (k + 1)%Z.
Proof.
  intros k z. unfold dx_number. destruct (dx_fixer _) as [w|] eqn:E; [|discriminate]. cbn [option_map]. intros [= <-]. apply fixer_spec in E as ->.
  unfold five_digits. apply Int_part_unique. rewrite plus_IZR. lra.
Qed.

Lemma C77_values_defined_pf : forall v, (Rabs v * 10000 < 2 ^ 63)%R -> exists z, dx_number v = Some z.
Proof. intros v H. unfold dx_number. rewrite (fixer_defined v H). eexists. reflexivity. Qed.

Lemma points_written {Pt} cfg (m : @mesh Pt) : ereach cfg m ->
  exists pts, omap (fun n => e_pt (n_el n)) (m_nodes m Vertex) = Some pts /\ map (point_at m) (range m Vertex) = map Some pts.
Proof.
  intros R. pose proof (ereach_pointed cfg m R) as P. pose proof (ereach_wf cfg m R) as W.
  assert (G : forall l, incl l (m_nodes m Vertex) -> exists pts, omap (fun n => e_pt (n_el n)) l = Some pts /\ map (point_at m) (map n_addr l) = map Some pts).
  { induction l as [|n l IH]; intros I; [exists []; auto|]. destruct IH as (pts & E & M); [intros x Hx; apply I; now right|].
    assert (Hn : In n (m_nodes m Vertex)) by (apply I; now left). specialize (P n Hn). destruct (e_pt (n_el n)) as [q|] eqn:Eq; [|congruence].
    exists (q :: pts). cbn [omap map]. rewrite Eq, E. cbn [obind]. split; auto. rewrite M. f_equal.
    unfold point_at. rewrite (wf_In_deref cfg _ _ n W Hn). exact Eq. }
  apply G, incl_refl.
Qed.

(** The line of a cell. *)
Definition line_of {Pt} (m : @mesh Pt) (t : tag) (c : addr) (ix : list nat) : Prop :=
  exists vs, vertices_at m t c = Some vs /\ map (id_at m Vertex) vs = map Some ix.
Lemma lines_written {Pt} cfg (m : @mesh Pt) : ereach cfg m ->
  exists ls, omap (cell_ids m (cfg_cell cfg)) (range m (cfg_cell cfg)) = Some ls /\ Forall2 (line_of m (cfg_cell cfg)) (range m (cfg_cell cfg)) ls.
Proof.
  intros R. pose proof (ereach_wf cfg m R) as (W1 & W2 & W3). apply omap_forall2. intros c Hc. apply range_deref in Hc as (e & D).
  pose proof (deref_In m _ c e D) as (n & Hn & _ & <-). unfold cell_ids, line_of, vertices_at. rewrite D. cbn [obind option_map].
  assert (L : forall v, In v (e_verts (n_el n)) -> exists k, id_at m Vertex v = Some k).
  { intros v Hv. pose proof (r_verts m W3 _ n v Hn Hv) as X. apply range_deref in X as (u & X). unfold id_at. rewrite X. cbn. eauto. }
  assert (G : forall l, (forall v, In v l -> exists k, id_at m Vertex v = Some k) ->
    exists ix, omap (fun v => option_map e_id (deref m Vertex v)) l = Some ix /\ map (id_at m Vertex) l = map Some ix).
  { induction l as [|v l IH]; intros H; [exists []; auto|]. destruct (H v (or_introl eq_refl)) as (k & K). destruct IH as (ix & E & M); [intros; apply H; now right|].
    exists (k :: ix). cbn [omap map]. rewrite M, E, K. unfold id_at in K. rewrite K. auto. }
  destruct (G _ L) as (ix & E & M). exists ix. split; auto. eauto.
Qed.

Lemma write_inv {Pt} cfg d w (m : @mesh Pt) f : write_opendx cfg d w m = Some f ->
  exists a pts ls data, dx_attribute d = Some a /\ omap (fun n => e_pt (n_el n)) (m_nodes m Vertex) = Some pts /\
    omap (cell_ids m (cfg_cell cfg)) (range m (cfg_cell cfg)) = Some ls /\ vis_data m (cfg_cell cfg) w = Some data /\
    f = mkDx d (List.length (range m Vertex)) pts (d + 1) (List.length (range m (cfg_cell cfg))) ls a data ["VisData"; "points"; "grid_Line_One"]%string.
Proof.
  unfold write_opendx. intros H. apply obind_Some in H as (a & A & H). apply obind_Some in H as (pts & B & H). apply obind_Some in H as (ls & C & H). apply obind_Some in H as (data & D & H).
  injection H as <-. exists a, pts, ls, data. auto.
Qed.

Lemma C77_mesh_partial_pf : forall (Pt : Type) cfg d w (m : @mesh Pt) f, ereach cfg m -> write_opendx cfg d w m = Some f ->
  map (point_at m) (range m Vertex) = map Some (dx_points f) /\ dx_dim f = d /\ dx_items f = List.length (dx_points f) /\
  dx_cell_items f = List.length (dx_cells f) /\
  (ids_are_positions m -> Forall2 (cell_at m (cfg_cell cfg)) (range m (cfg_cell cfg)) (dx_cells f)).
Proof.
  intros Pt cfg d w m f R H. apply write_inv in H as (a & pts & ls & data & _ & B & C & _ & ->). cbn.
  destruct (points_written cfg m R) as (pts' & B' & MP). rewrite B in B'. injection B' as <-.
  destruct (lines_written cfg m R) as (ls' & C' & F). rewrite C in C'. injection C' as <-.
  split; auto. split; auto. split; [apply (f_equal (@List.length _)) in MP; now rewrite !map_length in MP|].
  split; [now apply omap_length in C|]. intros P.
  pose proof (ereach_wf cfg m R) as (W1 & W2 & W3).
  assert (G : forall l ls, incl l (range m (cfg_cell cfg)) -> Forall2 (line_of m (cfg_cell cfg)) l ls -> Forall2 (cell_at m (cfg_cell cfg)) l ls).
  { intros l ls0 I F0. induction F0 as [|c ix l ls0 (vs & V & M) F0 IH]; constructor; [|apply IH; intros x Hx; apply I; now right].
    exists vs. split; auto.
    assert (L : forall v, In v vs -> In v (range m Vertex)).
    { unfold vertices_at in V. destruct (deref m (cfg_cell cfg) c) as [e|] eqn:D; [|discriminate]. injection V as <-. apply deref_In in D as (n & Hn & _ & <-). intros v Hv. apply (r_verts m W3 _ n v Hn Hv). }
    clear V. revert ix M. induction vs as [|v vs IHv]; intros ix M; destruct ix as [|k ix]; try discriminate; [reflexivity|].
    cbn [map] in *. injection M as M1 M2. f_equal; [|apply IHv; auto; intros u Hu; apply L; now right].
    destruct (In_nth_error _ _ (L v (or_introl eq_refl))) as (j & J). rewrite (P j v J) in M1. injection M1 as ->. exact J. }
  apply (G _ _ (incl_refl _) F).
Qed.

Lemma C77_plain_history_pf : forall (Pt : Type) cfg (m : @mesh Pt), plain_reach cfg m -> ereach cfg m /\ ids_are_positions m.
Proof.
  intros Pt cfg m H. assert (G : reach cfg m /\ m_idgen m Vertex = List.length (m_nodes m Vertex) /\
    forall k n, nth_error (m_nodes m Vertex) k = Some n -> e_id (n_el n) = k).
  { induction H as [|m o m' H (R & L & I) P V S]; [split; [constructor|split; [reflexivity|intros [|k] n; discriminate]]|].
    assert (R' : reach cfg m') by (econstructor; eauto). split; auto. destruct o as [p|i p|t vs|view|]; try contradiction; cbn [step] in S.
    - destruct (make_vertex_added cfg m p) as (m1 & E & (A & _) & G). rewrite E in S. injection S as <-. rewrite G, A, app_length, L. split; [reflexivity|].
      intros k n Hk. destruct (Nat.lt_ge_cases k (List.length (m_nodes m Vertex))) as [Q|Q]; [rewrite nth_error_app1 in Hk by auto; eauto|].
      rewrite nth_error_app2 in Hk by auto. destruct (k - List.length (m_nodes m Vertex)) as [|j] eqn:J; [|destruct j; discriminate]. injection Hk as <-. cbn. lia.
    - destruct (valid_element_spec cfg m t vs (reach_inv cfg m R) V) as (m1 & a & fr & E & _ & PO). rewrite E in S. injection S as <-. cbn.
      destruct (p_vert _ _ _ _ _ _ _ _ PO) as (N & _ & G). rewrite N, G. auto.
    - injection S as <-. split; [reflexivity|intros [|k] n; discriminate]. }
  destruct G as (R & _ & I). pose proof (reach_ereach cfg m R) as ER. split; auto. intros k v Hv. unfold range in Hv. rewrite nth_error_map in Hv.
  destruct (nth_error (m_nodes m Vertex) k) as [n|] eqn:En; [|discriminate]. injection Hv as <-. unfold id_at.
  rewrite (wf_In_deref cfg m Vertex n (ereach_wf cfg m ER) (nth_error_In _ _ En)). cbn. f_equal. eauto.
Qed.

Lemma C77_positions_refuted_pf : forall (Pt : Type) cfg d w (m : @mesh Pt) f c vs v k, ereach cfg m -> write_opendx cfg d w m = Some f ->
  In c (range m (cfg_cell cfg)) -> vertices_at m (cfg_cell cfg) c = Some vs -> In v vs ->
  id_at m Vertex v = Some k -> nth_error (range m Vertex) k <> Some v ->
  ~ Forall2 (cell_at m (cfg_cell cfg)) (range m (cfg_cell cfg)) (dx_cells f).
Proof.
  intros Pt cfg d w m f c vs v k R H Hc V Hv K N F. apply write_inv in H as (a & pts & ls & data & _ & _ & C & _ & ->). cbn in F.
  destruct (lines_written cfg m R) as (ls' & C' & G). rewrite C in C'. injection C' as <-.
  assert (X : exists ix, cell_at m (cfg_cell cfg) c ix /\ line_of m (cfg_cell cfg) c ix).
  { clear - Hc F G. induction F as [|x ix l ls A F IH]; [destruct Hc|]. inversion G; subst. destruct Hc as [->|Hc]; [eauto|apply IH; auto]. }
  destruct X as (ix & (us & U1 & U2) & (us' & U1' & U3)). rewrite V in U1, U1'. injection U1 as <-. injection U1' as <-.
  clear - Hv K N U2 U3. revert ix U2 U3. induction vs as [|u vs IH]; intros ix U2 U3; [destruct Hv|]. destruct ix as [|j ix]; [discriminate|].
  cbn [map] in *. injection U2 as A1 A2. injection U3 as B1 B2. destruct Hv as [->|Hv]; [|eapply IH; eauto]. rewrite K in B1. injection B1 as ->. contradiction.
Qed.

Lemma C77_element_type_partial_pf : forall (Pt : Type) cfg d w (m : @mesh Pt) f, ereach cfg m -> write_opendx cfg d w m = Some f ->
  (d = 1 /\ cfg_cell cfg = Line) \/ (d = 2 /\ cfg_cell cfg = Triangle) \/ (d = 3 /\ cfg_cell cfg = Tet) ->
  dx_names (dx_type f) (cfg_cell cfg) /\ forall l, In l (dx_cells f) -> List.length l = dx_shape f.
Proof.
  intros Pt cfg d w m f R H T. apply write_inv in H as (a & pts & ls & data & A & _ & C & _ & ->). cbn.
  destruct (lines_written cfg m R) as (ls' & C' & G). rewrite C in C'. injection C' as <-.
  assert (L : forall l, In l ls -> List.length l = nverts (cfg_cell cfg)).
  { pose proof (ereach_wf cfg m R) as (W1 & W2 & W3). clear C. assert (NV : cfg_cell cfg <> Vertex) by (destruct T as [(_ & ->)|[(_ & ->)|(_ & ->)]]; discriminate).
    induction G as [|c ix l0 ls (vs & V & M) G IH]; intros l Hl; [destruct Hl|]. destruct Hl as [<-|Hl]; auto.
    unfold vertices_at in V. destruct (deref m (cfg_cell cfg) c) as [e|] eqn:D; [|discriminate]. injection V as <-. apply deref_In in D as (n & Hn & _ & <-).
    apply (f_equal (@List.length _)) in M. rewrite !map_length in M. rewrite <- M. now apply (r_len m W3). }
  destruct T as [(-> & E)|[(-> & E)|(-> & E)]]; rewrite E in *; injection A as <-; (split; [unfold dx_names; auto|exact L]).
Qed.

Lemma C77_element_type_refuted_pf : forall (Pt : Type) cfg d w (m : @mesh Pt) f, write_opendx cfg d w m = Some f ->
  ~ ((d = 1 /\ cfg_cell cfg = Line) \/ (d = 2 /\ cfg_cell cfg = Triangle) \/ (d = 3 /\ cfg_cell cfg = Tet)) ->
  ~ dx_names (dx_type f) (cfg_cell cfg).
Proof.
  intros Pt cfg d w m f H N X. apply write_inv in H as (a & pts & ls & data & A & _ & _ & _ & ->). cbn in X. apply N. unfold dx_names in X.
  destruct d as [|[|[|[|d]]]]; try discriminate; injection A as <-; destruct X as [(X & E)|[(X & E)|(X & E)]]; try discriminate; auto.
Qed.

Lemma ascii_lt_trans a b c : Ascii.compare a b = Lt -> Ascii.compare b c = Lt -> Ascii.compare a c = Lt.
Proof. unfold Ascii.compare. rewrite !N.compare_lt_iff. intros. eapply N.lt_trans; eauto. Qed.
Lemma ascii_refl a : Ascii.compare a a = Eq.
Proof. unfold Ascii.compare. apply N.compare_refl. Qed.
Lemma compare_refl s : String.compare s s = Eq.
Proof. induction s as [|a s IH]; [reflexivity|]. cbn. now rewrite ascii_refl. Qed.
Lemma lt_trans : forall a b c, String.compare a b = Lt -> String.compare b c = Lt -> String.compare a c = Lt.
Proof.
  induction a as [|x a IH]; intros [|y b] [|z c] H1 H2; try discriminate; try reflexivity. cbn in *.
  destruct (Ascii.compare x y) eqn:XY; try discriminate; destruct (Ascii.compare y z) eqn:YZ; try discriminate.
  - apply Ascii.compare_eq_iff in XY as ->. rewrite YZ. eauto.
  - apply Ascii.compare_eq_iff in XY as ->. now rewrite YZ.
  - apply Ascii.compare_eq_iff in YZ as ->. now rewrite XY.
  - now rewrite (ascii_lt_trans x y z).
Qed.
Lemma gt_lt a b : String.compare a b = Gt <-> String.compare b a = Lt.
Proof. rewrite (String.compare_antisym b a). destruct (String.compare a b); cbn; split; congruence. Qed.

(** The quantities in the map are sorted by name. *)
Fixpoint by_name (l : list quantity) : Prop :=
  match l with [] => True | q :: l' => (forall r, In r l' -> String.compare (fst q) (fst r) = Lt) /\ by_name l' end.
Lemma add_spec q l : by_name l -> by_name (add_quantity q l) /\ forall r, In r (add_quantity q l) <-> r = q \/ (In r l /\ fst r <> fst q).
Proof.
  induction l as [|p l IH]; intros B; [cbn; split; [tauto|intros r; split; [intros [<-|[]]; auto|intros [->|([] & _)]; auto]]|].
  destruct B as (B1 & B2). destruct (IH B2) as (I1 & I2). cbn [add_quantity].
  assert (NE : forall a b : quantity, String.compare (fst a) (fst b) = Lt -> fst a <> fst b).
  { intros a b H E. rewrite E, compare_refl in H. discriminate. }
  destruct (String.compare (fst q) (fst p)) eqn:C.
  - apply String.compare_eq_iff in C. split; [split; auto; rewrite C; auto|]. intros r. cbn [In]. split.
    + intros [<-|H]; [auto|]. right. split; auto. rewrite C. intros X. apply (NE p r); auto.
    + intros [->|([<-|H] & N)]; auto. congruence.
  - split.
    + split; [|split; auto]. intros r [<-|H]; auto. eapply lt_trans; eauto.
    + intros r. cbn [In]. split.
      * intros [<-|[<-|H]]; auto; right; (split; [auto|]); intros X; symmetry in X; revert X; apply NE; auto. eapply lt_trans; eauto.
      * intros [->|([<-|H] & _)]; auto.
  - apply gt_lt in C. split.
    + split; auto. intros r H. apply I2 in H as [->|(H & _)]; auto.
    + intros r. cbn [In]. split.
      * intros [<-|H]; [right; split; auto|]. apply I2 in H as [->|(H & N)]; auto.
      * intros [->|([<-|H] & N)]; auto; right; apply I2; auto.
Qed.

Definition on (w : target) (s : writer) : list quantity := match w with OnVertices => w_vertex s | OnCells => w_cell s end.
Lemma latest_snoc w l w' q r : latest w (l ++ [(w', q)]) r <-> (w = w' /\ r = q) \/ (latest w l r /\ ~ (w = w' /\ fst q = fst r)).
Proof.
  split.
  - intros (a & b & E & N). destruct b as [|x b _] using rev_ind.
    + apply app_inj_tail in E as (_ & E). injection E as -> ->. auto.
    + change (a ++ (w, r) :: b ++ [x]) with (a ++ ((w, r) :: b) ++ [x]) in E. rewrite app_assoc in E. apply app_inj_tail in E as (-> & <-). right. split.
      * exists a, b. split; auto. intros s Hs. apply N. apply in_or_app. auto.
      * intros (-> & E). apply (N q); auto. apply in_or_app. right. now left.
  - intros [(-> & ->)|((a & b & -> & N) & D)].
    + exists l, []. split; [reflexivity|]. intros s [].
    + exists a, (b ++ [(w', q)]). split; [now rewrite <- app_assoc|]. intros s Hs. apply in_app_or in Hs as [Hs|[Hs|[]]]; [now apply N|]. injection Hs as -> ->. intros E. apply D. auto.
Qed.
Lemma register_spec l : forall w, by_name (on w (fold_left register l no_data)) /\ forall q, In q (on w (fold_left register l no_data)) <-> latest w l q.
Proof.
  induction l as [|(w', q') l IH] using rev_ind; intros w.
  - cbn. split; [destruct w; exact I|]. intros q. split; [destruct w; intros []|intros (a & b & E & _); destruct a; discriminate].
  - rewrite fold_left_app. cbn [fold_left]. destruct (IH w) as (B & X). set (s := fold_left register l no_data) in *.
    assert (E : on w (register s (w', q')) = on w s /\ w <> w' \/ on w (register s (w', q')) = add_quantity q' (on w s) /\ w = w') by (destruct w, w'; cbn; auto; left; split; auto; discriminate).
    destruct E as [(-> & N)|(-> & ->)].
    + split; auto. intros q. rewrite latest_snoc, X. tauto.
    + destruct (add_spec q' _ B) as (B' & A). split; auto. intros q. rewrite A, X, latest_snoc. intuition congruence.
Qed.
Lemma least_first w l q : least w l q -> exists r, on w (fold_left register l no_data) = q :: r.
Proof.
  intros (L & M). destruct (register_spec l w) as (B & X). apply X in L as HL. destruct (on w (fold_left register l no_data)) as [|h r] eqn:E; [destruct HL|].
  exists r. f_equal. destruct HL as [->|HL]; auto. exfalso. destruct B as (B & _). specialize (B q HL). apply (M h).
  - assert (Y : latest w l h) by (apply X; now left). destruct Y as (a & b & -> & _). unfold registered. apply in_or_app. right. now left.
  - now apply gt_lt.
Qed.
Lemma none_registered w l : (forall q, ~ registered w l q) -> on w (fold_left register l no_data) = [].
Proof.
  intros N. destruct (register_spec l w) as (_ & X). destruct (on w (fold_left register l no_data)) as [|h r]; auto. exfalso.
  assert (Y : latest w l h) by (apply X; now left). destruct Y as (a & b & -> & _). apply (N h). unfold registered. apply in_or_app. right. now left.
Qed.
Lemma numbers_near q l zs : omap (fun v : addr => dx_number (q v)) l = Some zs -> Forall2 (fun v z => (/ 200000 <= IZR z / 100000 - q v <= 3 / 200000)%R) l zs.
Proof.
  revert zs. induction l as [|v l IH]; intros zs H; cbn [omap] in H; [injection H as <-; constructor|].
  apply obind_Some in H as (z & Z & H). apply obind_Some in H as (zs' & E & H). injection H as <-. constructor; auto. now apply number_bounds.
Qed.

Lemma C77_quantity_pf : forall (Pt : Type) cfg d l (m : @mesh Pt) f, write_opendx cfg d (fold_left register l no_data) m = Some f ->
  (forall q, least OnVertices l q -> exists zs, dx_data f = Some (List.length zs, zs, OnVertices) /\
     Forall2 (fun v z => (/ 200000 <= IZR z / 100000 - snd q v <= 3 / 200000)%R) (range m Vertex) zs) /\
  (forall q, (forall r, ~ registered OnVertices l r) -> least OnCells l q -> exists zs, dx_data f = Some (List.length zs, zs, OnCells) /\
     Forall2 (fun c z => (/ 200000 <= IZR z / 100000 - snd q c <= 3 / 200000)%R) (range m (cfg_cell cfg)) zs) /\
  ((forall w r, ~ registered w l r) -> dx_data f = None).
Proof.
  intros Pt cfg d l m f H. apply write_inv in H as (a & pts & ls & data & _ & _ & _ & D & ->). cbn [dx_data]. unfold vis_data in D.
  split; [|split].
  - intros q L. destruct (least_first _ _ _ L) as (r & E). cbn [on] in E. rewrite E in D.
    destruct (omap _ (range m Vertex)) as [zs|] eqn:O; [|discriminate]. injection D as <-. exists zs. split; [now rewrite (omap_length _ _ _ O)|]. now apply numbers_near.
  - intros q N L. pose proof (none_registered _ _ N) as E0. cbn [on] in E0. destruct (least_first _ _ _ L) as (r & E). cbn [on] in E. rewrite E, E0 in D.
    destruct (omap _ (range m (cfg_cell cfg))) as [zs|] eqn:O; [|discriminate]. injection D as <-. exists zs. split; [now rewrite (omap_length _ _ _ O)|]. now apply numbers_near.
  - intros N. pose proof (none_registered OnVertices l (N _)) as E0. pose proof (none_registered OnCells l (N _)) as E1. cbn [on] in *. rewrite E0, E1 in D. now injection D as <-.
Qed.

Lemma C77_ignored_refuted_pf : forall (Pt : Type) cfg d q r (m : @mesh Pt) f, String.compare (fst r) (fst q) = Lt ->
  write_opendx cfg d (fold_left register [(OnVertices, q); (OnVertices, r)] no_data) m = Some f ->
  exists zs, dx_data f = Some (List.length zs, zs, OnVertices) /\
    Forall2 (fun v z => (/ 200000 <= IZR z / 100000 - snd r v <= 3 / 200000)%R) (range m Vertex) zs.
Proof.
  intros Pt cfg d q r m f C H. apply (proj1 (C77_quantity_pf Pt cfg d _ m f H)). split.
  - exists [(OnVertices, q)], []. split; [reflexivity|]. intros s [].
  - intros s [E|[E|[]]]; injection E as <-; [rewrite C; discriminate|rewrite compare_refl; discriminate].
Qed.

Lemma C77_no_quantity_refuted_pf : forall (Pt : Type) cfg d (m : @mesh Pt) f, write_opendx cfg d no_data m = Some f ->
  exists s, In s (dx_uses f) /\ ~ In s (dx_objects f).
Proof.
  intros Pt cfg d m f H. apply write_inv in H as (a & pts & ls & data & _ & _ & _ & D & ->). injection D as <-.
  exists "VisData"%string. cbn. split; auto. intros [H|[H|[]]]; discriminate.
Qed.

Lemma C77_written_pf : forall (Pt : Type) cfg d l (m : @mesh Pt), ereach cfg m -> 1 <= d <= 3 ->
  (forall w q x, registered w l q -> (Rabs (snd q x) * 10000 < 2 ^ 63)%R) -> exists f, write_opendx cfg d (fold_left register l no_data) m = Some f.
Proof.
  intros Pt cfg d l m R Hd V. unfold write_opendx. destruct (dx_attribute d) as [a|] eqn:A; [|destruct d as [|[|[|[|d]]]]; try discriminate; lia]. cbn [obind].
  destruct (points_written cfg m R) as (pts & -> & _). cbn [obind]. destruct (lines_written cfg m R) as (ls & -> & _). cbn [obind].
  assert (N : forall w q xs, In q (on w (fold_left register l no_data)) -> exists zs, omap (fun x : addr => dx_number (snd q x)) xs = Some zs).
  { intros w q xs Hq. apply (proj2 (register_spec l w)) in Hq. assert (Rq : registered w l q) by (destruct Hq as (u & v & -> & _); apply in_or_app; right; now left).
    destruct (omap_forall2 (fun x : addr => dx_number (snd q x)) (fun _ _ => True) xs) as (zs & E & _); [|eauto]. intros x _. destruct (C77_values_defined_pf (snd q x) (V w q x Rq)) as (z & Z). eauto. }
  unfold vis_data. pose proof (N OnVertices) as N1. pose proof (N OnCells) as N2. cbn [on] in *.
  destruct (w_vertex (fold_left register l no_data)) as [|q qs]; [destruct (w_cell (fold_left register l no_data)) as [|q qs]; [cbn; eauto|]|].
  - destruct (N2 q (range m (cfg_cell cfg)) (or_introl eq_refl)) as (zs & ->). cbn. eauto.
  - destruct (N1 q (range m Vertex) (or_introl eq_refl)) as (zs & ->). cbn. eauto.
Qed.

Lemma C77_large_value_refuted_pf : forall (Pt : Type) cfg d q (m : @mesh Pt) v, In v (range m Vertex) -> (Rabs (snd q v) * 10000 >= 2 ^ 63 + 1)%R ->
  write_opendx cfg d (register no_data (OnVertices, q)) m = None.
Proof.
  intros Pt cfg d q m v Hv L. unfold write_opendx. destruct (dx_attribute d); auto. cbn [obind]. destruct (omap (fun n => e_pt (n_el n)) _); auto. cbn [obind].
  destruct (omap (cell_ids m (cfg_cell cfg)) _); auto. cbn [obind]. unfold vis_data. cbn [register fst snd w_vertex no_data add_quantity].
  assert (E : omap (fun x : addr => dx_number (snd q x)) (range m Vertex) = None).
  { induction (range m Vertex) as [|u r IH]; [destruct Hv|]. cbn [omap]. destruct Hv as [->|Hv].
    - unfold dx_number at 1. now rewrite (fixer_too_large _ L).
    - rewrite (IH Hv). now destruct (dx_number (snd q u)). }
  now rewrite E.
Qed.
