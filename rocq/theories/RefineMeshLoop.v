(** The loops of the mesh refinement. *)
From Coq Require Import Reals List Arith Bool Lia Lra Permutation.
From Verif Require Import ModelTopo ModelMesh ModelErase ModelGeom ModelRefine ModelVolume ModelCopy ModelLongest ModelRefineMesh
  SpecMesh SpecErase SpecCopy SpecRefine SpecTri SpecRefineMesh
  MeshBase MeshInv MeshIds MeshReach MeshProofs MeshWf MeshErase MeshSimple CopyBase RefineMeshBase.
Import ListNotations.

Definition edge_ends (t : tag) (k : nat) : nat * nat := match t with Triangle => tri_edge k | _ => tet_edge k end.

Lemma reach_wf {Pt} cfg (m : @mesh Pt) : reach cfg m -> wf cfg m.
Proof. intros. now apply ereach_wf, reach_ereach. Qed.

(* not an equation, because [subst] would use it *)
Definition cell_type (cfg : config) (t : tag) : Prop := t = cfg_cell cfg.

Section Loop.
Variable d : nat.
Notation mesh := (@mesh point).
Variables cfgs cfg : config.
Variable src out : mesh.
Variable t : tag.
Variable fl : flags.
Variable np : point -> point -> point -> Prop.
Hypothesis Rsrc : reach cfgs src.
Hypothesis Keep : cfg_keep cfgs Line = true.
Hypothesis T : t = Triangle \/ t = Tet.
Hypothesis Tc : cell_type cfg t.
(** What is known about the destination: [reach], or more. *)
Variable q : mesh -> Prop.
Hypothesis q_reach : forall m, q m -> reach cfg m.
Hypothesis Qstep : forall m o m', q m -> valid_op cfg m o -> o <> OClear -> step cfg m o = Some m' -> q m'.
Hypothesis Rout : q out.

Lemma TV : t <> Vertex. Proof. destruct T as [E|E]; rewrite E; congruence. Qed.
Lemma TL : t <> Line. Proof. destruct T as [E|E]; rewrite E; congruence. Qed.
Lemma Wsrc : exists c, wf c src. Proof. exists cfgs. now apply reach_wf. Qed.
Lemma Psrc : pointed src. Proof. apply (ereach_pointed cfgs). now apply reach_ereach. Qed.
Lemma Ssrc : simple src. Proof. apply (ereach_simple cfgs). now apply reach_ereach. Qed.

Lemma edge_ends_lt k : k < nedges t -> fst (edge_ends t k) < nverts t /\ snd (edge_ends t k) < nverts t /\ fst (edge_ends t k) <> snd (edge_ends t k).
Proof.
  intros H. clear - H T. destruct T as [E|E]; rewrite E in *; cbn [nedges nverts edge_ends] in *.
  - do 3 (destruct k as [|k]; [cbn; lia|]); lia.
  - do 6 (destruct k as [|k]; [cbn; lia|]); lia.
Qed.

(** ** Cells and edges of the source *)
Lemma src_edges c e : deref src t c = Some e ->
  length (boundary_of e Line) = nedges t /\ NoDup (boundary_of e Line) /\
  forall k, k < nedges t -> exists f, deref src Line (nth k (boundary_of e Line) 0) = Some f /\
    Permutation (e_verts f) [nth (fst (edge_ends t k)) (e_verts e) 0; nth (snd (edge_ends t k)) (e_verts e) 0].
Proof.
  intros D. destruct (C03_boundary_complete_pf point cfgs src Rsrc t c e D Line) as [L F]; auto; try discriminate.
  { destruct T as [E|E]; rewrite E; discriminate. }
  assert (N : NoDup (boundary_of e Line)).
  { pose proof D as D'. apply deref_In in D' as (n & Hn & _ & <-). apply (simple_boundary src t n); auto. apply Ssrc. }
  assert (Len : length (ref_facets t Line) = nedges t) by (destruct T as [E|E]; rewrite E; reflexivity).
  split; [congruence|]. split; auto. intros k Hk.
  assert (HR : nth_error (ref_facets t Line) k = Some [fst (edge_ends t k); snd (edge_ends t k)]).
  { clear - Hk T. destruct T as [E|E]; rewrite E in *; cbn [nedges] in Hk.
    - do 3 (destruct k as [|k]; [reflexivity|]); lia.
    - do 6 (destruct k as [|k]; [reflexivity|]); lia. }
  destruct (F k _ HR) as (h & f & vs & E1 & E2 & E3 & E4). exists f. rewrite (nth_error_nth _ _ 0 E1). split; auto.
  unfold selects in E3. inversion E3 as [|? x1 ? l1 X1 X2]; subst. inversion X2 as [|? x2 ? l2 Y1 Y2]; subst. inversion Y2; subst.
  rewrite (nth_error_nth _ _ 0 X1), (nth_error_nth _ _ 0 Y1). exact E4.
Qed.

Lemma edge_points a f : deref src Line a = Some f -> exists v w p r,
  e_verts f = [v; w] /\ point_at src v = Some p /\ point_at src w = Some r /\ cell_points src f = Some [p; r].
Proof.
  intros D. destruct (C03_vertices_stored_pf point cfgs src Rsrc Line a f) as (L & N & F); auto; [discriminate|].
  destruct (e_verts f) as [|v [|w [|? ?]]] eqn:E; try discriminate. inversion F; subst. inversion H2; subst.
  assert (P : forall x, is_live src Vertex x -> exists p, obind (deref src Vertex x) e_pt = Some p).
  { intros x (e & De). rewrite De. cbn [obind]. apply deref_In in De as (n & Hn & _ & <-). pose proof (Psrc n Hn). destruct (e_pt (n_el n)); [eauto|congruence]. }
  destruct (P v H1) as (p & Ep), (P w H3) as (r & Eq). exists v, w, p, r. split; auto. unfold point_at. split; auto. split; auto.
  unfold cell_points. rewrite E. cbn [omap]. rewrite Ep. cbn [obind option_map]. rewrite Eq. reflexivity.
Qed.

(** ** The vertices of the edges *)
Definition emapped (em : vmap) (a y : addr) : Prop := exists i, id_at src Line a = Some i /\ vlookup i em = Some y.
Definition middle (m : mesh) (a y : addr) : Prop := exists v w p r mp,
  vertices_at src Line a = Some [v; w] /\ point_at src v = Some p /\ point_at src w = Some r /\
  point_at m y = Some mp /\ np p r mp.

Definition frame (m m' : mesh) : Prop := forall t' a e, deref m t' a = Some e -> deref m' t' a = Some e.
Lemma frame_trans m1 m2 m3 : frame m1 m2 -> frame m2 m3 -> frame m1 m3.
Proof. unfold frame. auto. Qed.
Lemma frame_point m m' y p : frame m m' -> point_at m y = Some p -> point_at m' y = Some p.
Proof. intros F. unfold point_at. destruct (deref m Vertex y) as [e|] eqn:E; [|discriminate]. now rewrite (F _ _ _ E). Qed.

Record einv (m : mesh) (em : vmap) (don : list addr) : Prop := mkEI {
  ei_reach : reach cfg m;
  ei_range : exists new, range m Vertex = range out Vertex ++ new /\
    Forall2 (fun a y => emapped em a y /\ middle m a y) (filter fl don) new;
  ei_only : forall i y, vlookup i em = Some y -> exists a, In a don /\ id_at src Line a = Some i;
  ei_frame : frame out m;
  ei_other : forall t', t' <> Vertex -> m_nodes m t' = m_nodes out t'
}.

Lemma NoDup_not_last {A} (l : list A) x : NoDup (l ++ [x]) -> ~ In x l.
Proof. intros H. apply NoDup_remove_2 in H. now rewrite app_nil_r in H. Qed.

(** a flagged edge with its new vertex at [x] *)
Lemma einv_new m em don a f v w p r x : q m -> einv m em don -> NoDup (don ++ [a]) -> deref src Line a = Some f -> fl a = true ->
  e_verts f = [v; w] -> point_at src v = Some p -> point_at src w = Some r -> np p r x ->
  exists m' y, make_vertex cfg m x = Some (m', y) /\ q m' /\ einv m' ((e_id f, y) :: em) (don ++ [a]).
Proof.
  intros HQ [HR (new & RN & F) O FR OT] ND D Fa Ev Pv Pw NPx.
  destruct (make_vertex_added cfg m x) as (m' & E' & A & G).
  assert (HI := reach_inv cfg m HR).
  assert (R' : q m') by (eapply (Qstep m (OVertex x)); eauto; [exact I|discriminate|cbn [step]; now rewrite E']).
  pose proof (vertex_added_deref cfg m m' _ x [] HI A) as DD.
  assert (FR1 : frame m m').
  { intros t0 a0 e X. rewrite DD. destruct (tag_eq_dec t0 Vertex) as [->|]; auto. destruct (Nat.eqb_spec a0 (m_next m Vertex)) as [->|]; auto.
    exfalso. apply (fresh_addr cfg m [] Vertex HI). apply range_deref. eauto. }
  assert (Dy : deref m' Vertex (m_next m Vertex) = Some (mkE (m_idgen m Vertex) [] [] (Some x))).
  { rewrite DD. destruct (tag_eq_dec Vertex Vertex); [|congruence]. now rewrite Nat.eqb_refl. }
  assert (Ia : id_at src Line a = Some (e_id f)) by (unfold id_at; now rewrite D).
  assert (NI : forall a0, In a0 don -> id_at src Line a0 <> Some (e_id f)).
  { intros a0 H0 E0. apply (NoDup_not_last _ _ ND). destruct Wsrc as (c & W). now rewrite (id_at_inj c src Line a a0 (e_id f)). }
  exists m', (m_next m Vertex). split; [exact E'|]. split; auto. constructor; auto.
  + exists (new ++ [m_next m Vertex]). split; [unfold range in *; rewrite (proj1 A), map_app, RN, app_assoc; reflexivity|].
    rewrite filter_app. cbn [filter]. rewrite Fa. apply Forall2_app_one.
    * assert (FI : forall a0, In a0 (filter fl don) -> In a0 don) by (intros a0 H0; now apply filter_In in H0).
      revert FI. clear - F NI FR1. induction F as [|a0 y0 l l2 (M & v & w & p & r & mp & E1 & E2 & E3 & E4 & E5) F IH]; intros FI; constructor.
      -- split.
         ++ destruct M as (i & I1 & L1). exists i. split; auto. rewrite vlookup_cons. destruct (Nat.eqb_spec i (e_id f)) as [->|]; auto.
            exfalso. apply (NI a0); auto. apply FI. now left.
         ++ exists v, w, p, r, mp. repeat split; auto. eapply frame_point; eauto.
      -- apply IH. intros. apply FI. now right.
    * split.
      -- exists (e_id f). split; auto. rewrite vlookup_cons. now rewrite Nat.eqb_refl.
      -- exists v, w, p, r, x. unfold vertices_at. rewrite D. cbn [option_map]. rewrite Ev. repeat split; auto.
         ++ unfold point_at. rewrite Dy. reflexivity.
  + intros i y. rewrite vlookup_cons. destruct (Nat.eqb_spec i (e_id f)) as [->|].
    * intros _. exists a. split; auto. apply in_app_iff. simpl. auto.
    * intros L. destruct (O i y L) as (a0 & ? & ?). exists a0. rewrite in_app_iff. auto.
  + now apply (frame_trans _ m).
  + intros t' T'. rewrite <- (OT t' T'). apply (proj1 (proj2 A) t' T').
Qed.
Lemma einv_skip m em don a : einv m em don -> fl a = false -> einv m em (don ++ [a]).
Proof.
  intros [HR (new & RN & F) O FR OT] Fa. constructor; auto.
  - exists new. split; auto. rewrite filter_app. cbn [filter]. rewrite Fa. now rewrite app_nil_r.
  - intros i y L. destruct (O i y L) as (a0 & ? & ?). exists a0. rewrite in_app_iff. auto.
Qed.
Lemma einv_start : reach cfg out -> einv out [] [].
Proof.
  intros HR. constructor; auto.
  - exists []. rewrite app_nil_r. split; auto. constructor.
  - discriminate.
  - intros t' a e; auto.
Qed.
(** only the entries of the map matter *)
Lemma einv_ext m em em' don : (forall i, vlookup i em' = vlookup i em) -> einv m em don -> einv m em' don.
Proof.
  intros E [HR (new & RN & F) O FR OT]. constructor; auto.
  - exists new. split; auto. eapply Forall2_impl'; [|exact F]. intros a y [(i & A & B) M]. split; auto. exists i. now rewrite E.
  - intros i y. rewrite E. apply O.
Qed.

Hypothesis NP : forall p r, np p r (centroid [p; r]).
Lemma edge_vertex_spec m em don a : q m -> einv m em don -> NoDup (don ++ [a]) -> is_live src Line a ->
  exists m' em', edge_vertex cfg src fl (m, em) a = Some (m', em') /\ q m' /\ einv m' em' (don ++ [a]).
Proof.
  intros HQ EI ND (f & D). unfold edge_vertex. destruct (fl a) eqn:Fa.
  - rewrite D. cbn [obind]. destruct (edge_points a f D) as (v & w & p & r & Ev & Pv & Pw & Ec). rewrite Ec. cbn [obind fst snd].
    destruct (einv_new m em don a f v w p r (centroid [p; r])) as (m' & y & E & Q' & EI'); auto. rewrite E. cbn [option_map fst snd]. eauto.
  - exists m, em. split; auto. split; auto. now apply einv_skip.
Qed.

Lemma edge_vertices_spec : exists m em, edge_vertices cfg src fl out = Some (m, em) /\ q m /\ einv m em (range src Line).
Proof.
  assert (Loop : forall l don m em, NoDup (don ++ l) -> Forall (is_live src Line) l -> q m -> einv m em don ->
    exists m' em', ofold (edge_vertex cfg src fl) l (m, em) = Some (m', em') /\ q m' /\ einv m' em' (don ++ l)).
  { induction l as [|a l IH]; intros don m em ND FL HQ EI; cbn [ofold].
    - exists m, em. rewrite app_nil_r. auto.
    - inversion FL; subst. assert (E : don ++ a :: l = (don ++ [a]) ++ l) by (rewrite <- app_assoc; reflexivity).
      rewrite E in *. assert (ND1 : NoDup (don ++ [a])).
      { clear - ND. revert ND. generalize (don ++ [a]). intros l0. induction l0 as [|x l0 IH]; cbn; constructor; inversion ND; subst; auto. intros Hx. apply H1. apply in_app_iff. auto. }
      destruct (edge_vertex_spec m em don a HQ EI ND1 H1) as (m1 & em1 & E1 & HQ1 & EI1). rewrite E1. cbn [obind]. apply IH; auto. }
  destruct (Loop (range src Line) [] out []) as (m & em & E & HQ & EI).
  - cbn. destruct (reach_wf cfgs src Rsrc) as (W & _). apply W.
  - apply Forall_forall. intros a Ha. now apply range_deref.
  - exact Rout.
  - constructor; cbn; auto; try discriminate; [|intros t' a e; auto]. exists []. rewrite app_nil_r. auto.
  - exists m, em. auto.
Qed.

(** ** Making cells *)
Notation vinv := (vinv cfg src q).
Notation mapped := (mapped src).

Lemma range_frame m m' t0 a : frame m m' -> In a (range m t0) -> In a (range m' t0).
Proof. intros F H. apply range_deref in H as (e & D). apply range_deref. exists e. auto. Qed.

Lemma make_one_spec pre m vm used vs : vinv pre m vm used -> length vs = nverts t -> NoDup vs -> Forall (is_live m Vertex) vs ->
  exists m' a, make_element cfg t m vs = Some (m', a) /\ vinv pre m' vm used /\ range m' t = range m t ++ [a] /\ vertices_at m' t a = Some vs /\
    frame m m' /\ valid_op cfg m (OElement t vs) /\
    (forall t' a' e, t' <> Vertex -> deref m' t' a' = Some e -> deref m t' a' = Some e \/ incl (e_verts e) vs).
Proof.
  intros [HQ HI (new & RN & F) O] Len ND LV.
  assert (VO : valid_op cfg m (OElement t vs)) by (split; [split; [apply TV|auto]|auto]).
  destruct (valid_element_spec cfg m t vs HI VO) as (m2 & a & fr & E2 & HI2 & P). rewrite E2.
  assert (K : keyed cfg t = false) by (unfold keyed; rewrite <- Tc, tag_eqb_refl; apply andb_false_r).
  destruct (p_self _ _ _ _ _ _ _ _ P K) as [RA ->]. destruct (p_elem _ _ _ _ _ _ _ _ P) as (e2 & D2 & _ & X). destruct (X eq_refl) as (EV & _).
  destruct (p_vert _ _ _ _ _ _ _ _ P) as (PV & _).
  exists m2, a. split; auto. split.
  { constructor; auto.
    - eapply Qstep; eauto; [discriminate|]. cbn [step]. now rewrite E2.
    - exists new. split; [unfold range in *; now rewrite PV|]. eapply Forall2_impl'; [|exact F]. intros x y (A1 & A2 & A3). split; auto. split; auto. rewrite <- A2.
      unfold point_at, deref. now rewrite PV. }
  split; auto. split; [unfold vertices_at; rewrite D2; cbn; now rewrite EV|]. split; [exact (p_frame _ _ _ _ _ _ _ _ P)|]. split; auto.
  intros t' a' e' T' D'. destruct (p_new _ _ _ _ _ _ _ _ P _ _ _ D') as [H|(_ & [(-> & -> & _)|(_ & _ & _ & H & _)])]; auto.
  right. assert (e' = e2) by congruence. subst. intros z; auto.
Qed.

Definition fromcells (m m' : mesh) (new : list addr) : Prop := forall t' a' e, t' <> Vertex -> deref m' t' a' = Some e ->
  deref m t' a' = Some e \/ exists c ec, In c new /\ deref m' t c = Some ec /\ incl (e_verts e) (e_verts ec).

Lemma vertices_at_frame m m' t0 a vs : frame m m' -> vertices_at m t0 a = Some vs -> vertices_at m' t0 a = Some vs.
Proof. intros F. unfold vertices_at. destruct (deref m t0 a) as [e|] eqn:E; [|discriminate]. now rewrite (F _ _ _ E). Qed.

Lemma make_cells_spec pre vm used css : forall m, vinv pre m vm used ->
  Forall (fun vs => length vs = nverts t /\ NoDup vs /\ Forall (is_live m Vertex) vs) css ->
  exists m' new, make_cells cfg t m css = Some m' /\ vinv pre m' vm used /\ range m' t = range m t ++ new /\
    map (vertices_at m' t) new = map Some css /\ frame m m' /\ fromcells m m' new.
Proof.
  induction css as [|vs css IH]; intros m V FV; unfold make_cells; cbn [ofold].
  - exists m, []. rewrite app_nil_r. split; auto. split; auto. split; auto. split; auto. split; [intros ? ? ?; auto|]. intros ? ? ?; auto.
  - inversion FV as [|x l (H1 & H2 & H3) H4 E0]; subst. destruct (make_one_spec pre m vm used vs V H1 H2 H3) as (m1 & a & E & V1 & R1 & A1 & F1 & _ & N1).
    rewrite E. cbn [option_map obind fst]. destruct (IH m1 V1) as (m2 & new & E2 & V2 & R2 & A2 & F2 & N2).
    { eapply Forall_impl; [|exact H4]. intros x (X1 & X2 & X3). split; auto. split; auto. eapply Forall_impl; [|exact X3]. intros z (e & D). exists e. now apply F1. }
    exists m2, (a :: new). split; [exact E2|]. split; auto. split; [rewrite R2, R1, <- app_assoc; reflexivity|].
    split; [cbn [map]; rewrite A2; f_equal; eapply vertices_at_frame; eauto|]. split; [now apply (frame_trans _ m1)|].
    intros t' a' e T' D'. destruct (N2 t' a' e T' D') as [D1|(c & ec & H & D & I)].
    + destruct (N1 t' a' e T' D1) as [D0|I]; auto. right. unfold vertices_at in A1. destruct (deref m1 t a) as [ea|] eqn:Ea; [|discriminate].
      exists a, ea. split; [now left|]. split; [now apply F2|]. cbn in A1. inversion A1; subst. auto.
    + right. exists c, ec. split; [now right|auto].
Qed.

(** ** One cell *)
Variable em : vmap.
Variable m0 : mesh.
Hypothesis EI : einv m0 em (range src Line).
Definition mu (a : addr) : addr := match id_at src Line a with Some i => match vlookup i em with Some y => y | None => 0 end | None => 0 end.
Definition pre : list addr := range m0 Vertex.

Lemma emapped_mu a y : emapped em a y -> mu a = y.
Proof. intros (i & I1 & L1). unfold mu. now rewrite I1, L1. Qed.
Lemma mids : range m0 Vertex = range out Vertex ++ map mu (filter fl (range src Line)) /\
  forall a, In a (range src Line) -> fl a = true -> emapped em a (mu a) /\ middle m0 a (mu a).
Proof.
  destruct EI as [_ (new & RN & F) _ _ _]. split.
  - rewrite RN. f_equal. clear - F. induction F as [|a y l r (M & _) F IH]; cbn [map]; auto. f_equal; auto. symmetry. now apply emapped_mu.
  - intros a Ha Fa. assert (Hf : In a (filter fl (range src Line))) by (apply filter_In; auto).
    destruct (Forall2_in_l _ _ _ a F Hf) as (y & _ & M & Mi). rewrite (emapped_mu a y M). auto.
Qed.
Lemma mu_in a : In a (range src Line) -> fl a = true -> In (mu a) pre.
Proof. intros H F. unfold pre. rewrite (proj1 mids). apply in_app_iff. right. apply in_map. apply filter_In. auto. Qed.

Lemma NoDup_map_inj {A B} (f : A -> B) l x y : NoDup (map f l) -> In x l -> In y l -> f x = f y -> x = y.
Proof.
  induction l as [|z l IH]; cbn [map]; intros N; [intros []|]. inversion N; subst. intros [->|Hx] [->|Hy] E; auto.
  - exfalso. apply H1. rewrite E. now apply in_map.
  - exfalso. apply H1. rewrite <- E. now apply in_map.
Qed.
Lemma mu_inj a b : In a (range src Line) -> fl a = true -> In b (range src Line) -> fl b = true -> mu a = mu b -> a = b.
Proof.
  intros A1 A2 B1 B2 E. assert (N : NoDup (range m0 Vertex)) by (apply (inv_winv cfg m0 []), (reach_inv cfg); apply EI).
  rewrite (proj1 mids) in N. apply NoDup_app_r in N. eapply NoDup_map_inj; eauto; apply filter_In; auto.
Qed.

Definition split_of (m : mesh) (vm : vmap) (c : addr) (cs : list (list addr)) : Prop :=
  exists e vs, deref src t c = Some e /\ Forall2 (mapped vm) (e_verts e) vs /\
    forall pos vid, reads m pos vid ->
      children d t pos vid (fun i => nth i vs 0) (fun k => mu (nth k (boundary_of e Line) 0)) (fun k => fl (nth k (boundary_of e Line) 0)) = Some cs.

Lemma reads_pos m : reach cfg m -> reads m (pos_in m) (vid_in m).
Proof.
  intros HR a e D. unfold pos_in, vid_in. rewrite D. cbn [obind]. split; auto.
  assert (P : pointed m) by (apply (ereach_pointed cfg), reach_ereach; auto).
  apply deref_In in D as (n & Hn & _ & <-). specialize (P n Hn). destruct (e_pt (n_el n)); congruence.
Qed.
Lemma live_has_point m a : reach cfg m -> is_live m Vertex a -> has_point m a = true.
Proof. intros HR (e & D). destruct (reads_pos m HR a e D) as [P _]. unfold has_point. rewrite D. cbn [obind]. now rewrite P. Qed.

Lemma Forall2_nth {A B} (R : A -> B -> Prop) l r : Forall2 R l r -> forall i a b, i < length l -> R (nth i l a) (nth i r b).
Proof. induction 1; intros i a b Hi; [cbn in Hi; lia|]. destruct i; cbn; auto. apply IHForall2. cbn in Hi. lia. Qed.

Lemma children_loop m vm c e vs used : vinv pre m vm used -> frame m0 m -> deref src t c = Some e -> incl (e_verts e) used ->
  Forall2 (mapped vm) (e_verts e) vs -> Forall (is_live m Vertex) vs ->
  exists cs, (forall pos vid, reads m pos vid -> 
      children d t pos vid (fun i => nth i vs 0) (fun k => mu (nth k (boundary_of e Line) 0)) (fun k => fl (nth k (boundary_of e Line) 0)) = Some cs) /\
    Forall (fun ws => length ws = nverts t /\ NoDup ws /\ Forall (is_live m Vertex) ws) cs /\
    length vs = nverts t.
Proof.
  intros V FR D I M LV. destruct (src_verts src Wsrc Ssrc t TV c e D) as (_ & ND & Len). destruct (src_edges c e D) as (LE & NE & FE).
  assert (Lvs : length vs = nverts t) by (rewrite <- Len; symmetry; eapply Forall2_len; eauto).
  assert (HR : reach cfg m) by (apply q_reach; apply (vi_q _ _ _ _ _ _ _ V)).
  assert (RA := reads_pos m HR).
  assert (NV : NoDup vs) by (eapply (NoDup_mapped cfg src q t Tc TV pre m vm used); eauto).
  assert (IL : forall i, i < nverts t -> is_live m Vertex (nth i vs 0)).
  { intros i Hi. apply (proj1 (Forall_forall _ _) LV). apply nth_In. lia. }
  assert (EL : forall k, k < nedges t -> In (nth k (boundary_of e Line) 0) (range src Line)).
  { intros k Hk. destruct (FE k Hk) as (f & Df & _). apply range_deref. eauto. }
  assert (ML : forall k, k < nedges t -> fl (nth k (boundary_of e Line) 0) = true -> is_live m Vertex (mu (nth k (boundary_of e Line) 0))).
  { intros k Hk Fk. pose proof (mu_in _ (EL k Hk) Fk) as H. unfold pre in H. apply range_deref in H as (x & Dx). exists x. auto. }
  assert (DJ : forall i y, i < nverts t -> In y pre -> nth i vs 0 <> y).
  { intros i y Hi Hy E. destruct V as [_ HI (new & RN & F) _].
    assert (Nr : NoDup (range m Vertex)) by apply (inv_winv cfg m [] HI). rewrite RN in Nr.
    assert (Hn : In (nth i vs 0) new).
    { assert (Mi : mapped vm (nth i (e_verts e) 0) (nth i vs 0)) by (apply Forall2_nth; auto; lia).
      assert (Hu : In (nth i (e_verts e) 0) (fu [] used)) by (apply fu_In; right; apply I; apply nth_In; lia).
      destruct (Forall2_in_l _ _ _ _ F Hu) as (z & Hz & Mz & _). now rewrite (mapped_fun src vm _ _ _ Mi Mz). }
    rewrite E in Hn. revert Nr Hy Hn. clear. generalize pre. intros l. induction l as [|x l IH]; cbn; intros N; [easy|]. inversion N; subst.
    intros [->|H] Hn; auto. apply H1. apply in_app_iff. auto. }
  destruct (children_ok d t (pos_in m) (vid_in m) (fun i => nth i vs 0) (fun k => mu (nth k (boundary_of e Line) 0)) (fun k => fl (nth k (boundary_of e Line) 0)) T)
    as (cs & E & OK).
  - intros i j Hi Hj Eij. destruct (IL i Hi) as (ei & Di), (IL j Hj) as (ej & Dj). unfold vid_in in Eij. rewrite Di, Dj in Eij.
    assert (W : wf cfg m) by (now apply reach_wf). assert (nth i vs 0 = nth j vs 0).
    { apply (id_at_inj cfg m Vertex _ _ (e_id ei) W); unfold id_at; [now rewrite Di|now rewrite Dj, Eij]. }
    apply (proj1 (NoDup_nth vs 0) NV); auto; lia.
  - intros i j Hi Hj Eij. apply (proj1 (NoDup_nth vs 0) NV); auto; lia.
  - intros i k Hi Hk Fk. apply DJ; auto. apply mu_in; auto.
  - intros k l Hk Hl Fk Fl E. apply mu_inj in E; auto. apply (proj1 (NoDup_nth (boundary_of e Line) 0) NE); auto; lia.
  - exists cs. split; [|split; auto].
    + intros pos vid RD. rewrite <- E. apply children_ext; auto.
      * intros i Hi. destruct (IL i Hi) as (x & Dx). destruct (RD _ _ Dx) as [A B], (RA _ _ Dx) as [A' B']. split; congruence.
      * intros k Hk Fk. destruct (ML k Hk Fk) as (x & Dx). destruct (RD _ _ Dx) as [A B], (RA _ _ Dx) as [A' B']. split; congruence.
    + apply Forall_forall. intros ws Hw. destruct (OK ws Hw) as (A & B & C). split; auto. split; auto.
      apply Forall_forall. intros u Hu. destruct (C u Hu) as [(i & Hi & ->)|(k & Hk & Fk & ->)]; auto.
Qed.

Lemma element_refinement_spec m vm used c : vinv pre m vm used -> frame m0 m -> is_live src t c ->
  exists m1 vm1 cs e, element_refinement d cfg src t fl em (m, vm) c = Some ((m1, vm1), cs) /\
    deref src t c = Some e /\ vinv pre m1 vm1 (used ++ e_verts e) /\ frame m m1 /\ (forall t', t' <> Vertex -> m_nodes m1 t' = m_nodes m t') /\
    (forall x y, mapped vm x y -> mapped vm1 x y) /\ split_of m1 vm1 c cs /\
    Forall (fun ws => length ws = nverts t /\ NoDup ws /\ Forall (is_live m1 Vertex) ws) cs.
Proof.
  intros V FR (e & D). unfold element_refinement. rewrite D. cbn [obind].
  destruct (src_verts src Wsrc Ssrc t TV c e D) as (Lv & ND & Len). destruct (src_edges c e D) as (LE & NE & FE).
  destruct (copy_vertices_spec cfg src Wsrc Psrc q Qstep pre (e_verts e) m vm used V Lv) as (m1 & vm1 & vs & E1 & V1 & M1 & MM1 & L1 & F1 & N1).
  rewrite E1. cbn [obind fst snd].
  assert (HR : reach cfg m1) by (apply q_reach; apply (vi_q _ _ _ _ _ _ _ V1)).
  assert (F01 : frame m0 m1) by (apply (frame_trans _ m); auto).
  destruct (children_loop m1 vm1 c e vs (used ++ e_verts e) V1 F01 D) as (cs & CS & OK & Lvs); auto. { intros z Hz. apply in_app_iff. auto. }
  set (g := fun a => if fl a then obind (deref src Line a) (fun x => vlookup (e_id x) em) else Some 0).
  assert (EG : omap g (boundary_of e Line) = Some (map (fun a => if fl a then mu a else 0) (boundary_of e Line))).
  { apply omap_Forall2. assert (EL : forall a, In a (boundary_of e Line) -> In a (range src Line)).
    { intros a Ha. apply (In_nth _ _ 0) in Ha as (k & Hk & <-). rewrite LE in Hk. destruct (FE k Hk) as (f & Df & _). apply range_deref. eauto. }
    clear - EL EI. induction (boundary_of e Line) as [|a l IH]; cbn [map]; constructor.
    - unfold g. destruct (fl a) eqn:Fa; auto. destruct (proj2 mids a (EL a (or_introl eq_refl)) Fa) as [(i & I1 & L1) _].
      unfold id_at in I1. destruct (deref src Line a) as [x|]; [|discriminate]. cbn in I1. inversion I1; subst. exact L1.
    - apply IH. intros a' Ha'. apply EL. now right. }
  rewrite EG. cbn [obind]. rewrite map_length, Lvs, LE, !Nat.eqb_refl. cbn [andb].
  assert (H1 : forallb (has_point m1) vs = true).
  { apply forallb_forall. intros x Hx. apply live_has_point; auto. now apply (proj1 (Forall_forall _ _) L1). }
  assert (H2 : forallb (fun p => negb (fl (fst p)) || has_point m1 (snd p)) (combine (boundary_of e Line) (map (fun a => if fl a then mu a else 0) (boundary_of e Line))) = true).
  { apply forallb_forall. intros [a y] Hay. cbn [fst snd].
    assert (Ey : In a (boundary_of e Line) /\ y = if fl a then mu a else 0).
    { clear - Hay. induction (boundary_of e Line) as [|b l IH]; cbn in Hay; [easy|]. destruct Hay as [E|H]; [inversion E; subst; split; simpl; auto|]. destruct (IH H). simpl. auto. }
    destruct Ey as (Ha & ->). destruct (fl a) eqn:Fa; auto. cbn [negb orb]. apply live_has_point; auto.
    apply (In_nth _ _ 0) in Ha as (k & Hk & <-). rewrite LE in Hk. destruct (FE k Hk) as (f & Df & _).
    assert (Hr : In (nth k (boundary_of e Line) 0) (range src Line)) by (apply range_deref; eauto).
    pose proof (mu_in _ Hr Fa) as H. unfold pre in H. apply range_deref in H as (x & Dx). exists x. auto. }
  rewrite H1, H2. cbn [andb].
  assert (EC : children d t (pos_in m1) (vid_in m1) (fun i => nth i vs 0) (fun k => nth k (map (fun a => if fl a then mu a else 0) (boundary_of e Line)) 0)
     (fun k => fl (nth k (boundary_of e Line) 0)) = Some cs).
  { rewrite <- (CS _ _ (reads_pos m1 HR)). apply children_ext; auto. intros k Hk Fk.
    rewrite <- LE in Hk. revert Hk Fk. clear. generalize (boundary_of e Line). intros l Hk Fk.
    revert k Hk Fk. induction l as [|a l IH]; intros [|k] Hk Fk; cbn in *; try lia; [now rewrite Fk|apply IH; auto; lia]. }
  rewrite EC. cbn [option_map]. exists m1, vm1, cs, e. split; [reflexivity|]. split; auto. split; auto. split; auto. split; auto. split; auto. split; auto.
  exists e, vs. auto.
Qed.

(** ** All cells *)
Record rinv (m : mesh) (vm : vmap) (don : list addr) : Prop := mkRI {
  ri_v : vinv pre m vm (corners src t don);
  ri_frame : frame m0 m;
  ri_cells : exists new css, range m t = range out t ++ new /\ map (vertices_at m t) new = map Some (concat css) /\
     Forall2 (split_of m vm) don css /\ fromcells m0 m new
}.

Lemma split_mono m m' vm vm' c cs : frame m m' -> (forall x y, mapped vm x y -> mapped vm' x y) -> split_of m vm c cs -> split_of m' vm' c cs.
Proof.
  intros F M (e & vs & D & MV & CS). exists e, vs. split; auto. split; [eapply Forall2_impl'; eauto|].
  intros pos vid RD. apply CS. intros a x Dx. apply RD. now apply F.
Qed.

Lemma map_vertices_frame m m' new l : frame m m' -> map (vertices_at m t) new = map Some l -> map (vertices_at m' t) new = map Some l.
Proof.
  intros F. revert l. induction new as [|a new IH]; intros [|x l]; cbn [map]; try discriminate; auto. intros E. injection E as E1 E2.
  f_equal; auto. eapply vertices_at_frame; eauto.
Qed.
Lemma fromcells_trans m1 m2 m3 n1 n2 : frame m2 m3 -> fromcells m1 m2 n1 -> fromcells m2 m3 n2 -> fromcells m1 m3 (n1 ++ n2).
Proof.
  intros F A B t' a e T' D. destruct (B t' a e T' D) as [H|(c & ec & H1 & H2 & H3)].
  - destruct (A t' a e T' H) as [H0|(c & ec & H1 & H2 & H3)]; auto. right. exists c, ec. rewrite in_app_iff. auto.
  - right. exists c, ec. rewrite in_app_iff. auto.
Qed.
Lemma fromcells_nodes m1 m2 : (forall t', t' <> Vertex -> m_nodes m2 t' = m_nodes m1 t') -> fromcells m1 m2 [].
Proof. intros N t' a e T' D. left. rewrite <- D. symmetry. apply deref_nodes_eq. auto. Qed.

Lemma refine_cell_spec m vm don c : rinv m vm don -> is_live src t c ->
  exists m' vm', refine_cell d cfg src t fl em (m, vm) c = Some (m', vm') /\ rinv m' vm' (don ++ [c]).
Proof.
  intros [V FR (new & css & RC & VC & SP & FC)] L. unfold refine_cell.
  destruct (element_refinement_spec m vm _ c V FR L) as (m1 & vm1 & cs & e & E1 & D & V1 & F1 & N1 & MM1 & S1 & OK).
  rewrite E1. cbn [obind fst snd].
  destruct (make_cells_spec pre vm1 _ cs m1 V1 OK) as (m2 & new2 & E2 & V2 & R2 & A2 & F2 & N2). rewrite E2. cbn [option_map].
  exists m2, vm1. split; [reflexivity|]. assert (F12 : frame m m2) by (apply (frame_trans _ m1); auto). constructor.
  - now rewrite (corners_app src t don c e D).
  - now apply (frame_trans _ m).
  - exists (new ++ new2), (css ++ [cs]). split; [|split; [|split]].
    + rewrite R2. unfold range at 1. rewrite (N1 t TV). change (map n_addr (m_nodes m t)) with (range m t). now rewrite RC, app_assoc.
    + rewrite concat_app, !map_app. cbn [concat]. rewrite app_nil_r. f_equal; auto. eapply map_vertices_frame; eauto.
    + apply Forall2_app_one.
      * eapply Forall2_impl'; [|exact SP]. intros x y. apply split_mono; auto.
      * eapply split_mono; [exact F2| |exact S1]; auto.
    + apply (fromcells_trans m0 m m2); auto. apply (fromcells_trans m m1 m2 [] new2); auto. now apply fromcells_nodes.
Qed.

Hypothesis Q0 : q m0.
Lemma rinv_start : rinv m0 [] [].
Proof.
  destruct EI as [HR _ _ _ OT]. constructor.
  - constructor; cbn; [exact Q0|now apply reach_inv|exists []; rewrite app_nil_r; split; [reflexivity|constructor]|discriminate].
  - intros ? ? ?; auto.
  - exists [], []. rewrite app_nil_r. split; [unfold range; now rewrite (OT t TV)|]. split; auto. split; [constructor|]. intros t' a e _ D. auto.
Qed.

Lemma simple_refine_spec : exists m vm, simple_refine d cfg src t fl em (m0, []) = Some (m, vm) /\ rinv m vm (range src t).
Proof.
  unfold simple_refine.
  assert (Loop : forall l don m vm, Forall (is_live src t) l -> rinv m vm don ->
    exists m' vm', ofold (refine_cell d cfg src t fl em) l (m, vm) = Some (m', vm') /\ rinv m' vm' (don ++ l)).
  { induction l as [|a l IH]; intros don m vm FL R; cbn [ofold].
    - exists m, vm. rewrite app_nil_r. auto.
    - inversion FL; subst. assert (E : don ++ a :: l = (don ++ [a]) ++ l) by (rewrite <- app_assoc; reflexivity). rewrite E.
      destruct (refine_cell_spec m vm don a R H1) as (m1 & vm1 & E1 & R1). rewrite E1. cbn [obind]. apply IH; auto. }
  apply (Loop (range src t) [] m0 []); [|apply rinv_start]. apply Forall_forall. intros a Ha. now apply range_deref.
Qed.

(** ** The result *)
Definition phi (vm : vmap) (x : addr) : addr := match id_at src Vertex x with Some i => match vlookup i vm with Some y => y | None => 0 end | None => 0 end.

Lemma split_is_split m vm c cs : split_of m vm c cs -> is_split d src m t fl (phi vm) mu c cs.
Proof.
  intros (e & vs & D & MV & CS). exists e. split; auto. intros pos vid RD. rewrite <- (CS pos vid RD).
  destruct (src_verts src Wsrc Ssrc t TV c e D) as (Lv & ND & Len).
  apply children_ext; auto. intros i Hi. assert (M : mapped vm (nth i (e_verts e) 0) (nth i vs 0)) by (apply Forall2_nth; auto; lia).
  destruct M as (j & I1 & L1). unfold phi. now rewrite I1, L1.
Qed.

Lemma rinv_refinement m vm : rinv m vm (range src t) -> is_refinement_at d np src out m t fl (phi vm) mu.
Proof.
  intros [V FR (new & css & RC & VC & SP & FC)]. destruct mids as [RM MI]. pose proof V as V'. destruct V' as [HQ HI (nv & RN & F) O].
  assert (PH : forall x y, mapped vm x y -> phi vm x = y) by (intros x y (i & I1 & L1); unfold phi; now rewrite I1, L1).
  constructor.
  - rewrite RN. unfold pre. rewrite RM, <- app_assoc. f_equal. f_equal. change (first_uses ?l) with (fu [] l).
    clear - F PH. induction F as [|x y l r (M & _) F IH]; cbn [map]; auto. f_equal; auto. symmetry. now apply PH.
  - apply (inv_winv cfg m [] HI).
  - intros x Hx. assert (Ix : In x (fu [] (corners src t (range src t)))) by (apply fu_In; auto).
    destruct (Forall2_in_l _ _ _ x F Ix) as (y & _ & M & P & N). rewrite (PH x y M). auto.
  - intros a Ha Fa. destruct (MI a Ha Fa) as (_ & v & w & p & r & mp & E1 & E2 & E3 & E4 & E5). exists v, w, p, r, mp. repeat split; auto.
    eapply frame_point; eauto.
  - intros t' a e D. apply FR. now apply (ei_frame _ _ _ EI).
  - exists new, css. split; auto. split; auto. split.
    + eapply Forall2_impl'; [|exact SP]. intros x y. apply split_is_split.
    + intros t' a e T' D. destruct (FC t' a e T' D) as [H|H]; auto. left. rewrite <- H. apply deref_nodes_eq. symmetry. now apply (ei_other _ _ _ EI).
Qed.

End Loop.
