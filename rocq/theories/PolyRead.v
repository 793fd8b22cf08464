(** Lemmas for C73: the loops of the reader of .poly files. *)
From Coq Require Import Ascii String List Arith ZArith Bool Lia Permutation.
From Verif Require Import ModelTopo ModelMesh ModelErase ModelCopySeg ModelXml ModelVtk ModelNetgen ModelPoly
  SpecMesh SpecErase SpecCopy SpecVtk SpecNetgen SpecPoly MeshBase NetgenText PolyText PolyBuild.
Import ListNotations.
Open Scope nat_scope.

(** A loop which takes the lines of one thing after the other. *)
Lemma loop_lines {A S} (one : stream * S -> nat -> result (stream * S)) (R : A -> list text -> Prop) (I : list A -> S -> Prop) :
  (forall pre x ls rest st s j, I pre s -> R x ls -> ahead st (ls ++ rest) -> exists st' s', one (st, s) j = Done (st', s') /\ ahead st' rest /\ I (pre ++ [x]) s') ->
  forall xs lss, Forall2 R xs lss -> forall pre st s rest j, ahead st (List.concat lss ++ rest) -> I pre s ->
  exists st' s', rfold one (seq j (List.length xs)) (st, s) = Done (st', s') /\ ahead st' rest /\ I (pre ++ xs) s'.
Proof.
  intros St xs lss H. induction H as [|x ls xs lss Hx H IH]; intros pre st s rest j Ah Hi; cbn [List.length seq rfold List.concat] in *.
  - exists st, s. rewrite app_nil_r. auto.
  - rewrite <- app_assoc in Ah. destruct (St pre x ls _ st s j Hi Hx Ah) as (st1 & s1 & E1 & A1 & I1). rewrite E1. cbn [rbind].
    destruct (IH (pre ++ [x]) st1 s1 rest (Datatypes.S j) A1 I1) as (st2 & s2 & E2 & A2 & I2). rewrite <- app_assoc in I2. exists st2, s2. auto.
Qed.
Lemma loop_line {A S} (one : stream * S -> nat -> result (stream * S)) (R : A -> text -> Prop) (I : list A -> S -> Prop) :
  (forall pre x l rest st s j, I pre s -> R x l -> ahead st (l :: rest) -> exists st' s', one (st, s) j = Done (st', s') /\ ahead st' rest /\ I (pre ++ [x]) s') ->
  forall xs ls, Forall2 R xs ls -> forall pre st s rest j, ahead st (ls ++ rest) -> I pre s ->
  exists st' s', rfold one (seq j (List.length xs)) (st, s) = Done (st', s') /\ ahead st' rest /\ I (pre ++ xs) s'.
Proof.
  intros St xs ls H pre st s rest j Ah Hi.
  apply (loop_lines one (fun x l => exists l0, l = [l0] /\ R x l0) I) with (lss := map (fun l => [l]) ls); auto.
  - intros pre' x l rest' st' s' j' Hi' (l0 & -> & Hr) A'. exact (St pre' x l0 rest' st' s' j' Hi' Hr A').
  - clear - H. induction H; cbn [map]; constructor; eauto.
  - replace (List.concat (map (fun l => [l]) ls)) with ls; auto. clear. induction ls as [|l ls IH]; cbn; congruence.
Qed.
Lemma Forall2_both {A B} (P : A -> Prop) (R : A -> B -> Prop) xs ys : Forall P xs -> Forall2 R xs ys -> Forall2 (fun x y => P x /\ R x y) xs ys.
Proof. intros H H'. induction H'; inversion H; subst; constructor; auto. Qed.

Section Read.
Context {K : Type}.
Variable F : format K.
Notation pt := (list K).
Notation mesh := (@mesh pt).

Lemma point_spec n (p : pt) rest l st ls : right_dim F p -> point_line F n p rest l -> ahead st (l :: ls) ->
  exists c st' c1 c2, need_line st = Done (c, st') /\ ahead st' ls /\ need_int c = Done (n, c1) /\ next_int c = Done (Some n, c1) /\
    read_coords F (f_dim F) c1 = Done (p, c2) /\ exists more, fed c2 (rest ++ more).
Proof.
  intros D (ws & Hp & more & W) A. destruct (need_some st l ls A) as (c & st' & E & Fc & A'). rewrite W in Fc. cbn [app] in Fc. rewrite <- app_assoc in Fc.
  destruct (next_int_spec c n _ Fc) as (c1 & E1 & F1). destruct (need_int_spec c n _ Fc) as (c1' & E1' & _).
  assert (c1' = c1). { unfold need_int in E1'. rewrite E1 in E1'. cbn in E1'. congruence. } subst c1'.
  destruct (coords_spec F ws p _ Hp c1 F1) as (c2 & E2 & F2 & _). exists c, st', c1, c2. rewrite <- D.
  split; [exact E|]. split; [exact A'|]. split; [exact E1'|]. split; [exact E1|]. split; [exact E2|]. exists more. exact F2.
Qed.

(** The vertices. *)
Definition has_vertices (V : list (nat * pt)) (m : mesh) : Prop :=
  drawn V (fun _ => False) m /\ m_next m Vertex = List.length V /\ m_nodes m Line = [].

Lemma vertex_step (pre : list (nat * pt)) x l rest st (m : mesh) (j : nat) : has_vertices pre m -> (right_dim F (snd x) /\ vertex_line F x l) -> ahead st (l :: rest) ->
  exists st' m', read_poly_vertex F (st, m) j = Done (st', m') /\ ahead st' rest /\ has_vertices (pre ++ [x]) m'.
Proof.
  intros (D & Nx & NL) [Dx V] A. destruct (point_spec _ _ _ _ _ _ Dx V A) as (c & st' & c1 & c2 & E & A' & E1 & _ & E2 & _).
  unfold read_poly_vertex. cbn [fst snd]. rewrite E. cbn [rbind fst snd]. rewrite E1. cbn [rbind fst snd]. rewrite E2. cbn [rbind fst snd].
  unfold as_id. replace (Z.of_nat (fst x) <? 0)%Z with false by (symmetry; apply Z.ltb_ge; lia). rewrite Nat2Z.id. cbn [of_option rbind].
  unfold make_vertex_with_id. cbn [insert push keyed]. unfold push. replace (keyed plc_cfg Vertex) with false by reflexivity. cbn [obind]. replace (btab plc_cfg Vertex) with (@nil (tag * list nat)) by reflexivity.
  cbn [option_map fst snd of_option rbind]. eexists _, _. split; [reflexivity|]. split; [exact A'|]. split; [|split].
  - destruct D as [D1 D2 D3 D4 D5 D6]. constructor; try exact D3; try exact D4; try exact D5.
    + cbn. rewrite D1, Nx. now rewrite vnodes_snoc.
    + cbn. rewrite NL. intros n [].
    + intros t T T'. cbn. unfold upd. destruct (tag_eqb Vertex t) eqn:Q; [destruct t; try discriminate Q; congruence|]. now apply D6.
  - cbn. rewrite Nx, app_length. reflexivity.
  - exact NL.
Qed.

(** The polygons. *)
Lemma ids_spec V E (m : mesh) p : drawn V E m -> incl p (map fst V) -> forall st more, fed st (nums p ++ more) ->
  exists vs, read_ids m (List.length p) st = Done vs /\ Forall2 (fun i v => id_at m Vertex v = Some i) p vs.
Proof.
  intros D. induction p as [|i p IH]; intros I st more Fd; cbn [List.length read_ids nums map app] in *; [eauto|].
  destruct (need_int_spec st _ _ Fd) as (st1 & E1 & F1). rewrite E1. cbn [rbind fst snd]. unfold as_id. replace (Z.of_nat i <? 0)%Z with false by (symmetry; apply Z.ltb_ge; lia). rewrite Nat2Z.id. cbn [obind].
  destruct (vnodes_find_id V i) as (k & v & E2 & E3 & E4); [apply I; now left|]. rewrite (dw_verts _ _ _ D), E2. cbn [option_map of_option rbind vnode n_addr].
  destruct (IH (fun x Hx => I x (or_intror Hx)) st1 more F1) as (vs & E5 & H). rewrite E5. cbn [rbind]. exists (k :: vs). split; auto. constructor; auto.
  rewrite (drawn_id _ _ _ _ D), E3. cbn. congruence.
Qed.

Lemma polygon_step V E (pre : list (list nat)) p l rest st (d : drawing K) (j : nat) : NoDup (map fst V) ->
  drew V E pre d -> (p <> [] /\ incl p (map fst V) /\ (forall ij, In ij (sides p) -> E ij)) /\ polygon_line p l -> ahead st (l :: rest) ->
  exists st' d', read_polygon (st, d) j = Done (st', d') /\ ahead st' rest /\ drew V E (pre ++ [p]) d' /\ kept (dr_mesh d) (dr_mesh d').
Proof.
  intros N D [(P1 & P2 & P3) (more & W)] A. destruct (need_some st l rest A) as (c & st' & E1 & Fc & A'). rewrite W in Fc. cbn [app] in Fc.
  destruct (need_int_spec c _ _ Fc) as (c1 & E2 & F1). destruct D as (D1 & D2 & D3). destruct (ids_spec V E (dr_mesh d) p D1 P2 c1 more F1) as (vs & E3 & H).
  destruct (draw_spec V E pre p vs d N (conj D1 (conj D2 D3)) P1 H P3) as (d' & E4 & D' & Kp).
  unfold read_polygon. cbn [fst snd]. rewrite E1. cbn [rbind fst snd]. rewrite E2. cbn [rbind fst snd].
  replace (Z.of_nat (List.length p) <? 0)%Z with false by (symmetry; apply Z.ltb_ge; lia). rewrite Nat2Z.id, E3. cbn [rbind]. rewrite E4. cbn [of_option rbind]. eauto 6.
Qed.

Lemma hole_step (pre : list pt) p l rest st (hs : list pt) (j : nat) : hs = pre -> right_dim F p /\ hole_line F p l -> ahead st (l :: rest) ->
  exists st' hs', read_hole F (st, hs) j = Done (st', hs') /\ ahead st' rest /\ hs' = pre ++ [p].
Proof.
  intros -> [D (n & H)] A. destruct (point_spec _ _ _ _ _ _ D H A) as (c & st' & c1 & c2 & E & A' & _ & E1 & E2 & _).
  unfold read_hole. cbn [fst snd]. rewrite E. cbn [rbind fst snd]. rewrite E1. cbn [rbind fst snd]. rewrite E2. cbn [rbind fst snd]. eauto.
Qed.
Lemma seed_step (pre : list (pt * Z)) s l rest st ss (j : nat) : ss = pre -> right_dim F (fst s) /\ seed_line F s l -> ahead st (l :: rest) ->
  exists st' ss', read_region F (st, ss) j = Done (st', ss') /\ ahead st' rest /\ ss' = pre ++ [s].
Proof.
  intros -> [D (n & H)] A. destruct (point_spec _ _ _ _ _ _ D H A) as (c & st' & c1 & c2 & E & A' & _ & E1 & E2 & more & F2). cbn [app] in F2.
  destruct (need_int_spec c2 _ _ F2) as (c3 & E3 & _). unfold read_region. cbn [fst snd]. rewrite E. cbn [rbind fst snd]. rewrite E1. cbn [rbind fst snd]. rewrite E2. cbn [rbind fst snd].
  rewrite E3. cbn [rbind fst]. destruct s. eauto.
Qed.

(** The PLCs. *)
Lemma sides_in p ij : In ij (sides p) -> In (fst ij) p /\ In (snd ij) p.
Proof.
  unfold sides. intros H. apply in_app_iff in H as [H|H].
  - destruct ij as [i j]. split; [eapply in_combine_l; eauto|]. apply in_combine_r in H. destruct p; auto. now right.
  - destruct (2 <? List.length p) eqn:L; [|destruct H]. destruct H as [<-|[]]. apply Nat.ltb_lt in L. destruct p as [|i p]; [cbn in L; lia|]. cbn [fst snd hd]. split; [|now left].
    destruct (@exists_last _ (i :: p)) as (q & x & Eq); [discriminate|]. rewrite Eq, last_last. apply in_app_iff. right. now left.
Qed.
Lemma in_sides p i : In i p -> p = [i] \/ exists ij, In ij (sides p) /\ (i = fst ij \/ i = snd ij).
Proof.
  intros H. destruct p as [|a [|b p]]; [destruct H|destruct H as [->|[]]; auto|]. right.
  assert (X : exists ij, In ij (combine (a :: b :: p) (b :: p)) /\ (i = fst ij \/ i = snd ij)).
  { revert a b H. induction p as [|c p IH]; intros a b H.
    - exists (a, b). split; [now left|]. destruct H as [->|[->|[]]]; auto.
    - destruct H as [->|H]; [exists (i, b); split; [now left|auto]|]. destruct (IH b c H) as (ij & Hij & Q). exists ij. split; [now right|auto]. }
  destruct X as (ij & Hij & Q). exists ij. split; auto. unfold sides. apply in_app_iff. auto.
Qed.

(** The invariant of the PLC of a facet, which does not depend on later lines. *)
Record plc_weak (m : mesh) (f : facet K) (c : plc K) : Prop := {
  pw_lines : exists ls, lines_for m (facet_sides f) ls /\ forall a, In a (plc_lines c) <-> In a ls;
  pw_once : NoDup (plc_lines c);
  pw_verts : forall v, In v (plc_verts c) <-> exists p i, In p (fa_polygons f) /\ In i p /\ id_at m Vertex v = Some i;
  pw_verts_once : NoDup (plc_verts c);
  pw_holes : plc_holes c = fa_holes f
}.
Lemma plc_weak_kept V E m m' f c : drawn V E m -> kept m m' -> plc_weak m f c -> plc_weak m' f c.
Proof.
  intros D Kp [(ls & H1 & H2) H3 H4 H5 H6]. constructor; auto.
  - exists ls. split; auto. eapply lines_for_kept; eauto.
  - intros v. rewrite H4. split; intros (p & i & A & B & C); exists p, i; [rewrite <- (proj1 Kp)|rewrite (proj1 Kp)]; auto.
Qed.
Lemma Forall2_In_r {A B} (R : A -> B -> Prop) l l' y : Forall2 R l l' -> In y l' -> exists x, In x l /\ R x y.
Proof. intros H. induction H as [|x z l l' Hx H IH]; [intros []|]. intros [->|Hy]; [exists x; split; [now left|auto]|]. destruct (IH Hy) as (x' & A1 & A2). exists x'. split; [now right|auto]. Qed.
Lemma Forall2_In_l {A B} (R : A -> B -> Prop) l l' x : Forall2 R l l' -> In x l -> exists y, In y l' /\ R x y.
Proof. intros H. induction H as [|z y l l' Hx H IH]; [intros []|]. intros [->|Hy]; [exists y; split; [now left|auto]|]. destruct (IH Hy) as (x' & A1 & A2). exists x'. split; [now right|auto]. Qed.

Lemma omap_verts (m : mesh) ls : (forall a, In a ls -> exists vs, vertices_at m Line a = Some vs) ->
  exists vss, omap (fun a => option_map e_verts (deref m Line a)) ls = Some vss /\ forall v, In v (List.concat vss) <-> exists a vs, In a ls /\ vertices_at m Line a = Some vs /\ In v vs.
Proof.
  induction ls as [|a ls IH]; intros H.
  - exists []. split; [reflexivity|]. intros v. cbn. split; [intros []|intros (? & ? & [] & _)].
  - destruct (H a (or_introl eq_refl)) as (vs & Ea). destruct IH as (vss & E1 & E2); [intros b Hb; apply H; now right|].
    exists (vs :: vss). cbn [omap]. unfold vertices_at in Ea. rewrite Ea. cbn [obind]. rewrite E1. cbn [obind]. split; [reflexivity|].
    intros v. cbn [List.concat]. rewrite in_app_iff, E2. split.
    + intros [Hv|(b & ws & A1 & A2 & A3)]; [exists a, vs; repeat split; auto; now left|exists b, ws; repeat split; auto; now right].
    + intros (b & ws & [<-|A1] & A2 & A3); [left; unfold vertices_at in A2; congruence|right; exists b, ws; auto].
Qed.

Lemma make_plc_spec V E f (d : drawing K) : NoDup (map fst V) -> Forall (fun p => p <> []) (fa_polygons f) -> drew V E (fa_polygons f) d ->
  exists c, make_plc (dr_mesh d) (dr_lines d) (dr_loose d) (fa_holes f) = Some c /\ plc_weak (dr_mesh d) f c.
Proof.
  intros N NE (D & L & S). unfold make_plc.
  assert (HL : forall a, In a (fold_left insert_unique (dr_lines d) []) <-> In a (dr_lines d)) by (intros a; rewrite In_unique; cbn; tauto).
  destruct (omap_verts (dr_mesh d) (fold_left insert_unique (dr_lines d) [])) as (vss & E1 & E2).
  { intros a Ha. apply HL in Ha. destruct (Forall2_In_r _ _ _ _ L Ha) as (ij & _ & _ & u & v & J & _). eauto. }
  rewrite E1. cbn [obind]. eexists. split; [reflexivity|]. constructor; cbn [plc_lines plc_verts plc_holes].
  - exists (dr_lines d). auto.
  - apply NoDup_unique. constructor.
  - intros v. rewrite !In_unique, E2, S. cbn. split.
    + intros [[[]|(i & H1 & H2)]|(a & vs & H1 & H2 & H3)].
      * exists [i], i. repeat split; auto. now left.
      * apply HL in H1. destruct (Forall2_In_r _ _ _ _ L H1) as (ij & Hij & _ & u & w & J & Q). rewrite J in H2. injection H2 as <-.
        apply in_flat_map in Hij as (p & Hp & Hij). apply sides_in in Hij as [I1 I2].
        destruct H3 as [->|[->|[]]], Q as [[Q1 Q2]|[Q1 Q2]]; [exists p, (fst ij)|exists p, (snd ij)|exists p, (snd ij)|exists p, (fst ij)]; auto.
    + intros (p & i & Hp & Hi & Iv). destruct (in_sides p i Hi) as [->|(ij & Hij & Q)]; [left; right; eauto|]. right.
      assert (Hf : In ij (flat_map sides (fa_polygons f))) by (apply in_flat_map; eauto).
      destruct (Forall2_In_l _ _ _ _ L Hf) as (a & Ha & _ & u & w & J & R). exists a, [u; w]. split; [now apply HL|]. split; [exact J|].
      destruct Q as [-> | ->], R as [[R1 R2]|[R1 R2]]; first [left; eapply drawn_same; eassumption | right; left; eapply drawn_same; eassumption].
  - apply NoDup_unique, NoDup_unique. constructor.
  - reflexivity.
Qed.

Lemma facet_step V E (pre : list (facet K)) f ls rest st (m : mesh) (cs : list (plc K)) (j : nat) : NoDup (map fst V) ->
  drawn V E m /\ Forall2 (plc_weak m) pre cs ->
  (Forall (fun p => p <> [] /\ incl p (map fst V) /\ (forall ij, In ij (sides p) -> E ij)) (fa_polygons f) /\ Forall (right_dim F) (fa_holes f)) /\ facet_lines F f ls ->
  ahead st (ls ++ rest) ->
  exists st' m' cs', read_facet F (st, (m, cs)) j = Done (st', (m', cs')) /\ ahead st' rest /\ drawn V E m' /\ Forall2 (plc_weak m') (pre ++ [f]) cs'.
Proof.
  intros N [D W] [[O1 O2] (l & lps & lhs & -> & (more & Hl) & Hp & Hh)] A. cbn [app] in A. rewrite <- app_assoc in A.
  destruct (need_some st l _ A) as (c & st1 & E1 & Fc & A1). rewrite Hl in Fc. cbn [nums map app] in Fc.
  destruct (need_int_spec c _ _ Fc) as (c1 & E2 & F1). destruct (need_int_spec c1 _ _ F1) as (c2 & E3 & _).
  unfold read_facet. rewrite E1. cbn [rbind fst snd]. rewrite E2. cbn [rbind fst snd]. rewrite E3. cbn [rbind fst snd].
  replace (Z.of_nat (List.length (fa_polygons f)) <? 0)%Z with false by (symmetry; apply Z.ltb_ge; lia). replace (Z.of_nat (List.length (fa_holes f)) <? 0)%Z with false by (symmetry; apply Z.ltb_ge; lia). rewrite !Nat2Z.id.
  destruct (loop_line read_polygon (fun p l => (p <> [] /\ incl p (map fst V) /\ (forall ij, In ij (sides p) -> E ij)) /\ polygon_line p l) (fun ps d => drew V E ps d /\ kept m (dr_mesh d))) with (xs := fa_polygons f) (ls := lps) (pre := @nil (list nat)) (st := st1) (s := mkDr m [] []) (rest := lhs ++ rest) (j := 0) as (st2 & d & E4 & A2 & D2 & K2).
  { intros pre' x l' rest' st' s' j' [Hi Hk] Hr Ha. destruct (polygon_step V E pre' x l' rest' st' s' j' N Hi Hr Ha) as (st2 & d & X1 & X2 & X3 & X4). exists st2, d. split; auto. split; auto. split; auto. eapply kept_trans; eauto. }
  { now apply Forall2_both. }
  { exact A1. }
  { split; [|apply kept_refl]. split; [exact D|]. split; [constructor|]. intros v. cbn. split; [intros []|intros (? & [] & _)]. }
  rewrite E4. cbn [rbind fst snd app] in *.
  destruct (loop_line (read_hole F) (fun p l => right_dim F p /\ hole_line F p l) (fun pre s => s = pre)) with (xs := fa_holes f) (ls := lhs) (pre := @nil pt) (st := st2) (s := @nil pt) (rest := rest) (j := 0) as (st3 & hs & E5 & A3 & H3).
  { intros. eapply hole_step; eauto. }
  { now apply Forall2_both. }
  { exact A2. }
  { reflexivity. }
  rewrite E5. cbn [rbind fst snd app] in *. subst hs.
  destruct (make_plc_spec V E f d N) as (cc & E6 & W6); auto.
  { eapply Forall_impl; [|exact O1]. intros p (P & _). exact P. }
  rewrite E6. cbn [of_option rbind]. eexists _, _, _. split; [reflexivity|]. split; [exact A3|]. split; [exact (proj1 D2)|]. apply Forall2_app; [|constructor; auto].
  clear - W K2 D. induction W; constructor; auto. eapply plc_weak_kept; eauto.
Qed.

(** The result. *)
Lemma plc_strong V E m f c : drawn V E m -> plc_weak m f c -> plc_of_facet m f c.
Proof.
  intros D [(ls & H1 & H2) H3 H4 H5 H6]. constructor; auto.
  - intros a. rewrite H2. split.
    + intros Ha. destruct (Forall2_In_r _ _ _ _ H1 Ha) as (ij & A & B & C). eauto.
    + intros (Ha & ij & A & B). destruct (Forall2_In_l _ _ _ _ H1 A) as (b & B1 & B2 & B3). rewrite (joins_unique V E m b a ij D); auto.
  - intros v. rewrite H4. split; [|tauto]. intros (p & i & A & B & C). split; [|eauto]. rewrite (drawn_vrange _ _ _ D), in_seq.
    rewrite (drawn_id _ _ _ _ D) in C. destruct (nth_error V v) eqn:Q; [|discriminate]. assert (v < List.length V) by (apply nth_error_Some; congruence). lia.
Qed.

Lemma map_seq_nth {A B} (g : nat -> B) (h : A -> B) (l : list A) : (forall k x, nth_error l k = Some x -> g k = h x) -> map g (seq 0 (List.length l)) = map h l.
Proof.
  revert g. induction l as [|x l IH]; intros g H; cbn [List.length seq map]; auto. f_equal; [apply (H 0); reflexivity|]. rewrite <- seq_shift, map_map. apply IH. intros k y Hk. apply (H (S k)). exact Hk.
Qed.

Lemma mesh_result (P : poly K) m cs : drawn (po_vertices P) (fun ij => In ij (flat_map facet_sides (po_facets P))) m -> Forall2 (plc_weak m) (po_facets P) cs -> mesh_of_poly P m cs.
Proof.
  intros D W. constructor.
  - rewrite (drawn_vrange _ _ _ D). apply map_seq_nth. intros k x Hk. rewrite (drawn_id _ _ _ _ D), Hk. reflexivity.
  - rewrite (drawn_vrange _ _ _ D). apply map_seq_nth. intros k x Hk. unfold point_at. rewrite (drawn_deref _ _ _ _ D), Hk. reflexivity.
  - intros ij H. apply in_flat_map in H as (f & Hf & H). destruct (Forall2_In_l _ _ _ _ W Hf) as (c & _ & Wc). destruct (pw_lines _ _ _ Wc) as (ls & L & _).
    destruct (Forall2_In_l _ _ _ _ L H) as (a & _ & A1 & A2). exists a. split; auto. split; auto. intros b B1 B2. exact (joins_unique _ _ m a b ij D A1 B1 A2 B2).
  - intros a H. unfold range in H. apply in_map_iff in H as (n & <- & H). destruct (dw_lines _ _ _ D n H) as (u & v & i & j & Q1 & Q2 & Q3 & Q4 & Q5). exists (i, j). split; auto.
    apply (proj2 (key_joins _ _ _ n (i, j) D H)). exact Q4.
  - intros t T T'. unfold range. now rewrite (dw_rest _ _ _ D).
  - assert (Q : forall f c, plc_weak m f c -> plc_of_facet m f c) by (intros f c; apply (plc_strong _ _ m f c D)). clear - W Q. induction W; constructor; auto.
Qed.

End Read.

Lemma rfold_app {A B} (f : A -> B -> result A) l1 : forall l2 x, rfold f (l1 ++ l2) x = rbind (rfold f l1 x) (rfold f l2).
Proof. induction l1 as [|b l1 IH]; intros l2 x; cbn [app rfold]; [reflexivity|]. destruct (f x b); cbn [rbind]; auto. Qed.

(** A loop that comes to a thing on which it fails. *)
Lemma loop_stops {A S} (one : stream * S -> nat -> result (stream * S)) (R : A -> list text -> Prop) (I : list A -> S -> Prop) o :
  (forall pre x ls rest st s j, I pre s -> R x ls -> ahead st (ls ++ rest) -> exists st' s', one (st, s) j = Done (st', s') /\ ahead st' rest /\ I (pre ++ [x]) s') ->
  forall xs lss n pre st s rest j, Forall2 R xs lss -> List.length xs < n -> ahead st (List.concat lss ++ rest) -> I pre s ->
  (forall st s j, ahead st rest -> I (pre ++ xs) s -> one (st, s) j = o) -> (o = Thrown \/ o = Undefined) ->
  rfold one (seq j n) (st, s) = o.
Proof.
  intros St xs lss n pre st s rest j H L Ah Hi Hb Ho. destruct (loop_lines one R I St xs lss H pre st s rest j Ah Hi) as (st' & s' & E & A' & I').
  replace n with (List.length xs + (1 + (n - List.length xs - 1))) by lia. rewrite !seq_app, rfold_app, E. cbn [rbind]. rewrite rfold_app. cbn [seq rfold].
  rewrite (Hb st' s' _ A' I'). destruct Ho as [-> | ->]; reflexivity.
Qed.

Lemma firstn_concat {A} (k : nat) (ls : list A) rest : firstn k (ls ++ rest) = if k <? List.length ls then firstn k ls else ls ++ firstn (k - List.length ls) rest.
Proof.
  rewrite firstn_app. destruct (Nat.ltb_spec k (List.length ls)).
  - replace (k - List.length ls) with 0 by lia. cbn. apply app_nil_r.
  - now rewrite firstn_all2 by lia.
Qed.

(** A loop that comes to the end of the file. *)
Lemma loop_short {A S} (one : stream * S -> nat -> result (stream * S)) (R : A -> list text -> Prop) (I : list A -> S -> Prop) :
  (forall pre x ls rest st s j, I pre s -> R x ls -> ahead st (ls ++ rest) -> exists st' s', one (st, s) j = Done (st', s') /\ ahead st' rest /\ I (pre ++ [x]) s') ->
  (forall pre x ls k st s j, I pre s -> R x ls -> k < List.length ls -> ahead st (firstn k ls) -> one (st, s) j = Thrown) ->
  forall xs lss, Forall2 R xs lss -> forall k pre st s j, k < List.length (List.concat lss) -> ahead st (firstn k (List.concat lss)) -> I pre s ->
  rfold one (seq j (List.length xs)) (st, s) = Thrown.
Proof.
  intros St Sh xs lss H. induction H as [|x ls xs lss Hx H IH]; intros k pre st s j L Ah Hi; cbn [List.concat List.length seq rfold] in *; [lia|].
  rewrite firstn_concat in Ah. destruct (Nat.ltb_spec k (List.length ls)) as [Lk|Lk].
  - rewrite (Sh pre x ls k st s j Hi Hx Lk Ah). reflexivity.
  - destruct (St pre x ls _ st s j Hi Hx Ah) as (st1 & s1 & E1 & A1 & I1). rewrite E1. cbn [rbind]. rewrite app_length in L. apply (IH (k - List.length ls) (pre ++ [x])); auto. lia.
Qed.
Lemma loop_short_line {A S} (one : stream * S -> nat -> result (stream * S)) (R : A -> text -> Prop) (I : list A -> S -> Prop) :
  (forall pre x l rest st s j, I pre s -> R x l -> ahead st (l :: rest) -> exists st' s', one (st, s) j = Done (st', s') /\ ahead st' rest /\ I (pre ++ [x]) s') ->
  (forall st s j, ahead st [] -> one (st, s) j = Thrown) ->
  forall xs ls, Forall2 R xs ls -> forall k pre st s j, k < List.length ls -> ahead st (firstn k ls) -> I pre s ->
  rfold one (seq j (List.length xs)) (st, s) = Thrown.
Proof.
  intros St Sh xs ls H. induction H as [|x l xs ls Hx H IH]; intros k pre st s j L Ah Hi; cbn [List.length seq rfold] in *; [lia|].
  destruct k as [|k]; cbn [firstn] in Ah.
  - rewrite (Sh st s j Ah). reflexivity.
  - destruct (St pre x l _ st s j Hi Hx Ah) as (st1 & s1 & E1 & A1 & I1). rewrite E1. cbn [rbind]. apply (IH k (pre ++ [x])); auto. lia.
Qed.

Section Whole.
Context {K : Type}.
Variable F : format K.
Notation pt := (list K).
Notation mesh := (@mesh pt).

Definition rest_of (f : stream * (mesh * list (plc K))) : result (mesh * list (plc K) * list pt * list (pt * Z)) :=
  let '(m', ps) := snd f in
  rbind (read_part (read_hole F) (fst f)) (fun h =>
  match h with
  | None => Done (m', ps, [], [])
  | Some (st, hs) => rbind (read_part (read_region F) st) (fun g => match g with None => Done (m', ps, hs, []) | Some (_, gs) => Done (m', ps, hs, gs) end)
  end).

Lemma has_empty : has_vertices (K := K) [] empty_mesh.
Proof. split; [|split; reflexivity]. constructor; try reflexivity; try (intros n []); cbn; constructor. Qed.
Lemma has_drawn V E (m : mesh) : has_vertices V m -> drawn V E m.
Proof. intros ([D1 D2 D3 D4 D5 D6] & _ & N). constructor; auto. intros n. rewrite N. intros []. Qed.

Lemma marker_ok w : marker w -> exists z, w = num z /\ (z <? 0)%Z = false /\ (1 <? z)%Z = false.
Proof. intros [-> | ->]; [exists 0%Z|exists 1%Z]; auto. Qed.

(** The first line. *)
Lemma first_spec n l st : first_line F n l -> fed st (words_of l) ->
  exists a b s1 s2 s3 s4, int_or 0 st = Done (Z.of_nat n, s1) /\ int_or 0 s1 = Done (Z.of_nat (f_dim F), s2) /\ int_or 0 s2 = Done (a, s3) /\ int_or 0 s3 = Done (b, s4) /\
    (a <? 0)%Z = false /\ (b <? 0)%Z = false /\ (1 <? b)%Z = false.
Proof.
  intros (rest & W & Q) Fd. rewrite W in Fd. destruct (int_or_num 0 st _ _ Fd) as (s1 & E1 & F1). destruct (int_or_num 0 s1 _ _ F1) as (s2 & E2 & F2).
  destruct rest as [|x rest].
  - destruct (int_or_none 0 s2 F2) as (s3 & E3 & F3). destruct (int_or_none 0 s3 F3) as (s4 & E4 & _). exists 0%Z, 0%Z, s1, s2, s3, s4. auto 10.
  - destruct Q as [(k & ->) Q]. destruct (int_or_num 0 s2 _ _ F2) as (s3 & E3 & F3). assert (Ka : (Z.of_nat k <? 0)%Z = false) by (apply Z.ltb_ge; lia). destruct rest as [|b rest].
    + destruct (int_or_none 0 s3 F3) as (s4 & E4 & _). exists (Z.of_nat k), 0%Z, s1, s2, s3, s4. auto 10.
    + destruct (marker_ok b Q) as (z & -> & Z1 & Z2). destruct (int_or_num 0 s3 _ _ F3) as (s4 & E4 & _). exists (Z.of_nat k), z, s1, s2, s3, s4. auto 10.
Qed.
Lemma facets_line_spec n l st d : facets_line n l -> (d <? 0)%Z = false -> (1 <? d)%Z = false -> fed st (words_of l) ->
  exists b s1 s2, int_or 0 st = Done (Z.of_nat n, s1) /\ int_or d s1 = Done (b, s2) /\ (b <? 0)%Z = false /\ (1 <? b)%Z = false.
Proof.
  intros (rest & W & Q) D1 D2 Fd. rewrite W in Fd. destruct (int_or_num 0 st _ _ Fd) as (s1 & E1 & F1). destruct rest as [|x rest].
  - destruct (int_or_none d s1 F1) as (s2 & E2 & F2). exists d, s1, s2. auto.
  - destruct (marker_ok x Q) as (z & -> & Z1 & Z2). destruct (int_or_num d s1 _ _ F1) as (s2 & E2 & _). exists z, s1, s2. auto.
Qed.

Lemma vertices_both (P : poly K) rest : vertices_ok F P -> Forall2 (vertex_line F) (po_vertices P) rest -> Forall2 (fun x l => right_dim F (snd x) /\ vertex_line F x l) (po_vertices P) rest.
Proof. intros [_ O] V. now apply Forall2_both. Qed.

Lemma upto_facets (P : poly K) file ls1 n l rest : vertices_ok F P -> vertices_lines F P ls1 -> facets_line n l -> lines_of file = ls1 ++ l :: rest ->
  exists st m, ahead st rest /\ has_vertices (po_vertices P) m /\
    read_poly F (Some file) empty_mesh = rbind (rfold (read_facet F) (seq 0 n) (st, (m, []))) rest_of.
Proof.
  intros O (l1 & lvs & -> & H1 & Hv) Hf W. pose proof (ahead_text file) as A. rewrite W in A. cbn [app] in A.
  destruct (need_some _ _ _ A) as (c & st1 & E1 & F1 & A1). destruct (first_spec _ _ _ H1 F1) as (a & b & s1 & s2 & s3 & s4 & I1 & I2 & I3 & I4 & Q1 & Q2 & Q3).
  destruct (loop_line (read_poly_vertex F) (fun x l => right_dim F (snd x) /\ vertex_line F x l) has_vertices (vertex_step F) (po_vertices P) lvs (vertices_both P lvs O Hv) [] st1 empty_mesh (l :: rest) 0 A1 has_empty)
    as (st2 & m & E2 & A2 & Hm). cbn [app] in Hm.
  destruct (need_some _ _ _ A2) as (c' & st3 & E3 & F3 & A3). destruct (facets_line_spec n l c' b Hf Q2 Q3 F3) as (b' & s5 & s6 & I5 & I6 & Q5 & Q6).
  exists st3, m. split; [exact A3|]. split; [exact Hm|].
  unfold read_poly. rewrite E1. cbn [rbind fst snd]. rewrite I1. cbn [rbind fst snd]. rewrite I2. cbn [rbind fst snd]. rewrite I3. cbn [rbind fst snd]. rewrite I4. cbn [rbind fst snd].
  replace (Z.of_nat (List.length (po_vertices P)) <? 0)%Z with false by (symmetry; apply Z.ltb_ge; lia). rewrite Z.eqb_refl, Q1, Q2, Q3, Nat2Z.id. cbn [negb orb].
  rewrite E2. cbn [rbind fst snd]. rewrite (ahead_good _ _ _ A2). cbn [negb]. rewrite E3. cbn [rbind fst snd]. rewrite I5. cbn [rbind fst snd]. rewrite I6. cbn [rbind fst snd].
  replace (Z.of_nat n <? 0)%Z with false by (symmetry; apply Z.ltb_ge; lia). rewrite Q5, Q6, Nat2Z.id. cbn [orb]. reflexivity.
Qed.

(** The facets. *)
Definition facets_inv V E (pre : list (facet K)) (x : mesh * list (plc K)) : Prop := drawn V E (fst x) /\ Forall2 (plc_weak (fst x)) pre (snd x).
Definition facet_good (V : list (nat * pt)) (E : nat * nat -> Prop) (f : facet K) : Prop :=
  Forall (fun p => p <> [] /\ incl p (map fst V) /\ (forall ij, In ij (sides p) -> E ij)) (fa_polygons f) /\ Forall (right_dim F) (fa_holes f).
Lemma facet_step' V E : NoDup (map fst V) -> forall pre f ls rest st x j, facets_inv V E pre x -> facet_good V E f /\ facet_lines F f ls -> ahead st (ls ++ rest) ->
  exists st' x', read_facet F (st, x) j = Done (st', x') /\ ahead st' rest /\ facets_inv V E (pre ++ [f]) x'.
Proof.
  intros N pre f ls rest st [m cs] j Hi Hr A. destruct (facet_step F V E pre f ls rest st m cs j N Hi Hr A) as (st' & m' & cs' & E1 & A1 & D1 & W1).
  exists st', (m', cs'). split; auto. split; auto. split; auto.
Qed.
Lemma good_facet (P : poly K) (E : nat * nat -> Prop) f : facet_ok F P f -> (forall ij, In ij (facet_sides f) -> E ij) -> facet_good (po_vertices P) E f.
Proof.
  intros [O1 O2] HE. split; auto. rewrite Forall_forall in *. intros p Hp. destruct (O1 p Hp) as [A B]. repeat split; auto. intros ij H. apply HE. apply in_flat_map. eauto.
Qed.

(** The last parts. *)
Lemma part_spec {A} (one : stream * list A -> nat -> result (stream * list A)) (ok : A -> Prop) (R : A -> text -> Prop) xs ls rest st :
  (forall pre x l rest st s j, s = pre -> ok x /\ R x l -> ahead st (l :: rest) -> exists st' s', one (st, s) j = Done (st', s') /\ ahead st' rest /\ s' = pre ++ [x]) ->
  part R xs ls -> Forall ok xs -> ahead st (ls ++ rest) -> exists st', read_part one st = Done (Some (st', xs)) /\ ahead st' rest.
Proof.
  intros St (l & ls' & -> & (more & W) & H) O Ah. cbn [app] in Ah. destruct (get_some st l _ Ah) as (s & st1 & E1 & W1 & A1).
  unfold read_part. rewrite E1. cbn [rbind fst snd]. assert (Fd : fed (mkStream s true) (num (Z.of_nat (List.length xs)) :: more)) by (split; [cbn [sm_text]; rewrite W1; exact W|auto]).
  destruct (need_int_spec _ _ _ Fd) as (s2 & E2 & _). rewrite E2. cbn [rbind fst snd]. replace (Z.of_nat (List.length xs) <? 0)%Z with false by (symmetry; apply Z.ltb_ge; lia). rewrite Nat2Z.id.
  destruct (loop_line one (fun x l => ok x /\ R x l) (fun pre s => s = pre) St xs ls' (Forall2_both _ _ _ _ O H) [] st1 [] rest 0 A1 eq_refl) as (st2 & s3 & E3 & A3 & ->).
  rewrite E3. cbn [rbind app]. eauto.
Qed.
Lemma part_none {A} (one : stream * list A -> nat -> result (stream * list A)) st : ahead st [] -> read_part one st = Done None.
Proof. intros Ah. destruct (get_none st Ah) as (st' & E). unfold read_part. rewrite E. reflexivity. Qed.

Lemma rest_spec (P : poly K) st (m : mesh) cs ls : poly_ok F P -> last_parts F P ls -> ahead st ls -> rest_of (st, (m, cs)) = Done (m, cs, po_holes P, po_seeds P).
Proof.
  intros (_ & _ & O1 & O2) L A. unfold rest_of. cbn [snd fst]. destruct L as [(-> & H & S)|[(H & S)|(ls1 & ls2 & more & -> & H & S)]].
  - rewrite part_none by auto. cbn [rbind]. now rewrite H, S.
  - rewrite <- (app_nil_r ls) in A. destruct (part_spec (read_hole F) (right_dim F) (hole_line F) _ _ _ _ (hole_step F) H O1 A) as (st1 & E1 & A1). rewrite E1. cbn [rbind].
    rewrite part_none by auto. cbn [rbind]. now rewrite S.
  - destruct (part_spec (read_hole F) (right_dim F) (hole_line F) _ _ _ _ (hole_step F) H O1 A) as (st1 & E1 & A1). rewrite E1. cbn [rbind].
    destruct (part_spec (read_region F) (fun s => right_dim F (fst s)) (seed_line F) _ _ _ _ (seed_step F) S O2 A1) as (st2 & E2 & A2). rewrite E2. reflexivity.
Qed.

(** Facets that end too early, or that are wrong. *)
Lemma facet_short V E : NoDup (map fst V) -> forall pre f ls k st x j, facets_inv V E pre x -> facet_good V E f /\ facet_lines F f ls -> k < List.length ls -> ahead st (firstn k ls) ->
  read_facet F (st, x) j = Thrown.
Proof.
  intros N pre f ls k st [m cs] j [D W] [[O1 O2] (l & lps & lhs & -> & (more & Hl) & Hp & Hh)] L A. cbn [fst snd] in *. unfold read_facet.
  destruct k as [|k]; cbn [firstn] in A; [now rewrite need_none by auto|].
  destruct (need_some st l _ A) as (c & st1 & E1 & Fc & A1). rewrite Hl in Fc. cbn [nums map app] in Fc.
  destruct (need_int_spec c _ _ Fc) as (c1 & E2 & F1). destruct (need_int_spec c1 _ _ F1) as (c2 & E3 & _).
  rewrite E1. cbn [rbind fst snd]. rewrite E2. cbn [rbind fst snd]. rewrite E3. cbn [rbind fst snd].
  replace (Z.of_nat (List.length (fa_polygons f)) <? 0)%Z with false by (symmetry; apply Z.ltb_ge; lia). replace (Z.of_nat (List.length (fa_holes f)) <? 0)%Z with false by (symmetry; apply Z.ltb_ge; lia). rewrite !Nat2Z.id.
  set (R := fun p l => (p <> [] /\ incl p (map fst V) /\ (forall ij, In ij (sides p) -> E ij)) /\ polygon_line p l).
  assert (St : forall pre x l rest st s j, drew V E pre s -> R x l -> ahead st (l :: rest) -> exists st' s', @read_polygon K (st, s) j = Done (st', s') /\ ahead st' rest /\ drew V E (pre ++ [x]) s').
  { intros pre' x l' rest' st' s' j' Hi Hr Ha. destruct (polygon_step V E pre' x l' rest' st' s' j' N Hi Hr Ha) as (st2 & d & X1 & X2 & X3 & X4). eauto. }
  assert (H0 : drew V E [] (mkDr m [] [])). { split; [exact D|]. split; [constructor|]. intros v. cbn. split; [intros []|intros (? & [] & _)]. }
  assert (HR : Forall2 R (fa_polygons f) lps) by now apply Forall2_both.
  rewrite firstn_concat in A1. destruct (Nat.ltb_spec k (List.length lps)) as [Lk|Lk].
  - rewrite (loop_short_line read_polygon R (drew V E) St) with (ls := lps) (k := k) (pre := []); auto. intros st' s' j' Ha. unfold read_polygon. cbn [fst snd]. now rewrite need_none.
  - destruct (loop_line read_polygon R (drew V E) St _ _ HR [] st1 _ _ 0 A1 H0) as (st2 & d & E4 & A2 & D2). rewrite E4. cbn [rbind fst snd].
    rewrite (loop_short_line (read_hole F) (fun p l => right_dim F p /\ hole_line F p l) (fun pre s => s = pre) (hole_step F)) with (ls := lhs) (k := k - List.length lps) (pre := []); auto.
    + intros st' s' j' Ha. unfold read_hole. cbn [fst snd]. now rewrite need_none.
    + now apply Forall2_both.
    + cbn [List.length] in L. rewrite app_length in L. lia.
Qed.

Lemma bad_ids V E (m : mesh) p : drawn V E m -> ~ incl p (map fst V) -> forall st more, fed st (nums p ++ more) -> read_ids m (List.length p) st = Undefined.
Proof.
  intros D. induction p as [|i p IH]; intros I st more Fd; cbn [List.length read_ids nums map app] in *; [exfalso; apply I; intros x []|].
  destruct (need_int_spec st _ _ Fd) as (st1 & E1 & F1). rewrite E1. cbn [rbind fst snd]. unfold as_id. replace (Z.of_nat i <? 0)%Z with false by (symmetry; apply Z.ltb_ge; lia). rewrite Nat2Z.id. cbn [obind].
  rewrite (dw_verts _ _ _ D). destruct (in_dec Nat.eq_dec i (map fst V)) as [H|H].
  - destruct (vnodes_find_id V i H) as (k & v & E2 & E3 & E4). rewrite E2. cbn [option_map of_option rbind vnode n_addr].
    rewrite (IH) with (more := more); auto. intros Q. apply I. intros x [<-|Hx]; auto.
  - rewrite (vnodes_find_none V i H). reflexivity.
Qed.
Lemma bad_polygon V E p l rest st (d : drawing K) j : drawn V E (dr_mesh d) -> ~ (p <> [] /\ incl p (map fst V)) -> polygon_line p l -> ahead st (l :: rest) ->
  read_polygon (st, d) j = Undefined.
Proof.
  intros D B (more & W) A. destruct (need_some st l rest A) as (c & st' & E1 & Fc & A'). rewrite W in Fc. cbn [app] in Fc.
  destruct (need_int_spec c _ _ Fc) as (c1 & E2 & F1). unfold read_polygon. cbn [fst snd]. rewrite E1. cbn [rbind fst snd]. rewrite E2. cbn [rbind fst snd].
  replace (Z.of_nat (List.length p) <? 0)%Z with false by (symmetry; apply Z.ltb_ge; lia). rewrite Nat2Z.id. destruct p as [|i p].
  - reflexivity.
  - rewrite (bad_ids V E (dr_mesh d) (i :: p) D) with (more := more); auto. intros Q. apply B. split; [discriminate|auto].
Qed.

End Whole.
