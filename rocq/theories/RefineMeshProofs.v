From Coq Require Import Reals List Arith Bool Lia Lra Permutation.
From Verif Require Import ModelTopo ModelMesh ModelErase ModelGeom ModelRefine ModelVolume ModelCopy ModelLongest ModelRefineMesh
  SpecMesh SpecErase SpecCopy SpecRefine SpecTri SpecRefineMesh
  MeshBase MeshInv MeshIds MeshReach MeshProofs MeshWf MeshErase MeshSimple CopyBase RefineTetTree RefineTetCheck RefineProofs TriProofs RefineMeshBase RefineMeshLoop LongestProofs.
Import ListNotations.

Lemma reach_vstep cfg (m : @mesh point) o m' : reach cfg m -> valid_op cfg m o -> o <> OClear -> step cfg m o = Some m' -> reach cfg m'.
Proof. intros. econstructor; eauto. Qed.

Lemma np_middle p r : middle_point p r (centroid [p; r]).
Proof. intros i. unfold centroid, points_sum, pdiv, padd, pzero. cbn. lra. Qed.

Lemma C39_refine_pf : forall d cfgs cfg (src out : @mesh point) (fl : addr -> bool),
  reach cfgs src -> cfg_keep cfgs Line = true -> cfg_cell cfgs = Triangle \/ cfg_cell cfgs = Tet ->
  reach cfg out -> cfg_cell cfg = cfg_cell cfgs ->
  exists out' phi mu, refine d cfg src (cfg_cell cfgs) fl out = Some out' /\ reach cfg out' /\
    is_refinement d src out out' (cfg_cell cfgs) fl phi mu.
Proof.
  intros d cfgs cfg src out fl Rs K T Ro C. set (t := cfg_cell cfgs) in *.
  assert (Tc : cell_type cfg t) by (unfold cell_type; auto).
  unfold refine. destruct (edge_vertices_spec cfgs cfg src out fl middle_point Rs (reach cfg) (fun m H => H) (reach_vstep cfg) Ro np_middle) as (m0 & em & E & R0 & EI). rewrite E. cbn [obind fst snd].
  destruct (simple_refine_spec d cfgs cfg src out t fl middle_point Rs K T Tc (reach cfg) (fun m H => H) (reach_vstep cfg) em m0 EI R0) as (m & vm & E2 & RI). rewrite E2. cbn [option_map fst].
  exists m, (phi src vm), (mu src em). split; auto. split.
  - apply (vi_q _ _ _ _ _ _ _ (ri_v _ _ _ _ _ _ _ _ _ _ _ _ RI)).
  - eapply (rinv_refinement d cfgs cfg src out t fl middle_point); eauto.
Qed.

(** ** What the parts of a cell are *)
Section Parts.
Variable d : nat.
Variables cfgs cfg : config.
Variables src out out' : @mesh point.
Variable t : tag.
Variable fl : addr -> bool.
Variable np : point -> point -> point -> Prop.
Variables phi mu : addr -> addr.
Hypothesis Rs : reach cfgs src.
Hypothesis K : cfg_keep cfgs Line = true.
Hypothesis T : t = Triangle \/ t = Tet.
Hypothesis Tc : cell_type cfgs t.
Hypothesis R' : reach cfg out'.
Hypothesis RF : is_refinement_at d np src out out' t fl phi mu.

Lemma corner_in c e x : deref src t c = Some e -> In x (e_verts e) -> In x (corners src t (range src t)).
Proof.
  intros D Hx. unfold corners. apply in_flat_map. exists c. split; [apply range_deref; eauto|]. unfold vertices_at. rewrite D. exact Hx.
Qed.
Lemma phi_inj x y : In x (corners src t (range src t)) -> In y (corners src t (range src t)) -> phi x = phi y -> x = y.
Proof.
  intros Hx Hy. pose proof (rf_distinct _ _ _ _ _ _ _ _ _ RF) as N. rewrite (rf_vertices _ _ _ _ _ _ _ _ _ RF) in N. apply NoDup_app_r, NoDup_app_r in N.
  apply (NoDup_map_inj _ _ _ _ N); change (first_uses ?l) with (fu [] l); apply fu_In; auto.
Qed.
Lemma NoDup_app_l {A} (l l' : list A) : NoDup (l ++ l') -> NoDup l.
Proof. induction l; cbn; intros H; constructor; inversion H; subst; auto. intros X. apply H2. apply in_app_iff. auto. Qed.
Lemma mu_inj' a b : In a (range src Line) -> fl a = true -> In b (range src Line) -> fl b = true -> mu a = mu b -> a = b.
Proof.
  intros A1 A2 B1 B2. pose proof (rf_distinct _ _ _ _ _ _ _ _ _ RF) as N. rewrite (rf_vertices _ _ _ _ _ _ _ _ _ RF) in N. apply NoDup_app_r, NoDup_app_l in N.
  apply (NoDup_map_inj _ _ _ _ N); apply filter_In; auto.
Qed.
Lemma phi_mu x a : In x (corners src t (range src t)) -> In a (range src Line) -> fl a = true -> phi x <> mu a.
Proof.
  intros Hx A1 A2 E. pose proof (rf_distinct _ _ _ _ _ _ _ _ _ RF) as N. rewrite (rf_vertices _ _ _ _ _ _ _ _ _ RF) in N. apply NoDup_app_r in N.
  assert (H1 : In (mu a) (map mu (filter fl (range src Line)))) by (apply in_map, filter_In; auto).
  assert (H2 : In (mu a) (map phi (first_uses (corners src t (range src t))))).
  { rewrite <- E. apply in_map. change (first_uses ?l) with (fu [] l). apply fu_In. auto. }
  revert N H1 H2. generalize (map mu (filter fl (range src Line))). intros l. induction l as [|y l IH]; cbn [app]; intros N [].
  - subst. intros H2. inversion N as [|? ? N1 N2]; subst. apply N1. apply in_app_iff. auto.
  - inversion N; subst. auto.
Qed.

Section Cell.
Variables (c : addr) (e : @element point).
Hypothesis D : deref src t c = Some e.
Let es := boundary_of e Line.
Let vtx := fun i => phi (nth i (e_verts e) 0).
Let mid := fun k => mu (nth k es 0).
Let fk := fun k => fl (nth k es 0).

Lemma cell_len : length (e_verts e) = nverts t.
Proof. apply (src_verts src (Wsrc cfgs src Rs) (Ssrc cfgs src Rs) t (TV t T) c e D). Qed.
Lemma cell_nodup : NoDup (e_verts e).
Proof. apply (src_verts src (Wsrc cfgs src Rs) (Ssrc cfgs src Rs) t (TV t T) c e D). Qed.
Lemma cell_in i : i < nverts t -> In (nth i (e_verts e) 0) (corners src t (range src t)).
Proof. intros H. apply (corner_in c e); auto. apply nth_In. now rewrite cell_len. Qed.
Lemma edge_in k : k < nedges t -> In (nth k es 0) (range src Line).
Proof. intros H. destruct (src_edges cfgs src t Rs K T c e D) as (_ & _ & F). destruct (F k H) as (f & Df & _). apply range_deref. eauto. Qed.
Lemma cell_distinct : (forall i j, i < nverts t -> j < nverts t -> vtx i = vtx j -> i = j) /\
  (forall i k, i < nverts t -> k < nedges t -> fk k = true -> vtx i <> mid k) /\
  (forall k l, k < nedges t -> l < nedges t -> fk k = true -> fk l = true -> mid k = mid l -> k = l).
Proof.
  pose proof cell_len as L. destruct (src_edges cfgs src t Rs K T c e D) as (LE & NE & F). split; [|split].
  - intros i j Hi Hj E. apply phi_inj in E; try now apply cell_in. apply (proj1 (NoDup_nth (e_verts e) 0) cell_nodup); auto; lia.
  - intros i k Hi Hk Fk. apply phi_mu; auto; [now apply cell_in|now apply edge_in].
  - intros k l Hk Hl Fk Fl E. apply mu_inj' in E; auto; try now apply edge_in. apply (proj1 (NoDup_nth es 0) NE); auto; unfold es; lia.
Qed.
Lemma phi_live x : In x (corners src t (range src t)) -> exists y, deref out' Vertex (phi x) = Some y.
Proof.
  intros Hx. assert (H : In (phi x) (range out' Vertex)).
  { rewrite (rf_vertices _ _ _ _ _ _ _ _ _ RF). apply in_app_iff. right. apply in_app_iff. right. apply in_map. change (first_uses ?l) with (fu [] l). apply fu_In. auto. }
  now apply range_deref in H.
Qed.
Lemma cell_ids pos vid : reads out' pos vid -> corner_ids_distinct vid (nverts t) vtx.
Proof.
  intros RD i j Hi Hj E. apply (proj1 cell_distinct i j Hi Hj). unfold vtx in *.
  destruct (phi_live _ (cell_in i Hi)) as (x & Dx), (phi_live _ (cell_in j Hj)) as (y & Dy).
  destruct (RD _ _ Dx) as [_ Ix], (RD _ _ Dy) as [_ Iy].
  apply (id_at_inj cfg out' Vertex _ _ (e_id x) (reach_wf cfg out' R')); unfold id_at; [now rewrite Dx|rewrite Dy; cbn; congruence].
Qed.
Lemma cell_points' ps vs pos vid : reads src ps vs -> reads out' pos vid -> forall i, i < nverts t -> pos (vtx i) = ps (nth i (e_verts e) 0).
Proof.
  intros RS RD i Hi. destruct (rf_points _ _ _ _ _ _ _ _ _ RF _ (cell_in i Hi)) as [N E]. unfold point_at in *.
  destruct (phi_live _ (cell_in i Hi)) as (x & Dx). unfold vtx. rewrite Dx in E. cbn in E. destruct (RD _ _ Dx) as [A _].
  destruct (deref src Vertex (nth i (e_verts e) 0)) as [y|] eqn:Dy; [|now destruct N]. destruct (RS _ _ Dy) as [B _]. cbn in E. congruence.
Qed.
Lemma cell_news ps vs pos vid : reads src ps vs -> reads out' pos vid -> forall k, k < nedges t -> fk k = true ->
  let p := pos (vtx (fst (edge_ends t k))) in let q := pos (vtx (snd (edge_ends t k))) in np p q (pos (mid k)) \/ np q p (pos (mid k)).
Proof.
  intros RS RD k Hk Fk. destruct (src_edges cfgs src t Rs K T c e D) as (_ & _ & F). destruct (F k Hk) as (f & Df & P).
  destruct (rf_middles _ _ _ _ _ _ _ _ _ RF _ (edge_in k Hk) Fk) as (v & w & p & q & mp & E1 & E2 & E3 & E4 & E5).
  destruct (edge_ends_lt t T k Hk) as (L1 & L2 & _).
  rewrite (cell_points' ps vs pos vid RS RD _ L1), (cell_points' ps vs pos vid RS RD _ L2).
  fold es in Df. unfold vertices_at in E1. rewrite Df in E1. cbn in E1. injection E1 as E1. rewrite E1 in P.
  assert (PS : forall x p, point_at src x = Some p -> ps x = p).
  { intros x p0 H. unfold point_at in H. destruct (deref src Vertex x) as [y|] eqn:Dy; [|discriminate]. destruct (RS _ _ Dy) as [B _]. cbn in H. congruence. }
  apply PS in E2. apply PS in E3.
  assert (M : pos (mid k) = mp).
  { unfold point_at in E4. fold es in E4. unfold mid. destruct (deref out' Vertex (mu (nth k es 0))) as [y|] eqn:Dy; [|discriminate].
    destruct (RD _ _ Dy) as [B _]. cbn in E4. congruence. }
  rewrite M. rewrite <- E2, <- E3 in E5. apply Permutation_length_2_inv in P as [P|P]; injection P as -> ->; auto.
Qed.
End Cell.
End Parts.

Lemma cell_middles d cfgs src out out' t fl phi mu : reach cfgs src -> cfg_keep cfgs Line = true -> (t = Triangle \/ t = Tet) ->
  is_refinement d src out out' t fl phi mu -> forall c e, deref src t c = Some e -> forall ps vs pos vid, reads src ps vs -> reads out' pos vid -> forall k, k < nedges t -> fl (nth k (boundary_of e Line) 0) = true ->
  forall i, pos (mu (nth k (boundary_of e Line) 0)) i = ((pos (phi (nth (fst (edge_ends t k)) (e_verts e) 0%nat)) i + pos (phi (nth (snd (edge_ends t k)) (e_verts e) 0%nat)) i) / 2)%R.
Proof.
  intros Rs K T RF c e D ps vs pos vid RS RD k Hk Fk i. destruct (cell_news d cfgs src out out' t fl middle_point phi mu Rs K T RF c e D ps vs pos vid RS RD k Hk Fk) as [E|E]; rewrite (E i); lra.
Qed.

Lemma C39_parts_cover_pf : forall d cfgs cfg (src out out' : @mesh point) (fl : addr -> bool) phi mu,
  reach cfgs src -> cfg_keep cfgs Line = true -> cfg_cell cfgs = Triangle \/ cfg_cell cfgs = Tet -> reach cfg out' ->
  is_refinement d src out out' (cfg_cell cfgs) fl phi mu ->
  forall c vs cs ps ids pos ids', vertices_at src (cfg_cell cfgs) c = Some vs -> is_split d src out' (cfg_cell cfgs) fl phi mu c cs ->
    reads src ps ids -> reads out' pos ids' ->
    covers d (map ps vs) (map (map pos) cs) /\ (independent d (map ps vs) -> no_overlap d (map (map pos) cs)).
Proof.
  intros d cfgs cfg src out out' fl phi mu Rs K T R' RF c vs cs ps ids pos ids' HV (e & D & SP) RS RD. set (t := cfg_cell cfgs) in *.
  specialize (SP pos ids' RD). unfold vertices_at in HV. rewrite D in HV. cbn in HV. injection HV as <-.
  pose proof (cell_len cfgs src t Rs T c e D) as L.
  pose proof (cell_points' d cfgs src out out' t fl middle_point phi mu Rs T RF c e D ps ids pos ids' RS RD) as CP.
  pose proof (cell_middles d cfgs src out out' t fl phi mu Rs K T RF c e D ps ids pos ids' RS RD) as CM.
  pose proof (cell_ids d cfgs cfg src out out' t fl middle_point phi mu Rs K T R' RF c e D pos ids' RD) as CI.
  assert (EP : forall n, n = nverts t -> map ps (e_verts e) = map (fun i => pos (phi (nth i (e_verts e) 0))) (seq 0 n)).
  { intros n ->. rewrite <- L. clear - CP L. assert (X : map ps (e_verts e) = map (fun i => ps (nth i (e_verts e) 0)) (seq 0 (length (e_verts e)))).
    { clear. generalize (e_verts e). intros l. induction l as [|x l IH]; cbn [length seq map nth]; auto. f_equal. rewrite <- seq_shift, map_map. exact IH. }
    rewrite X. apply map_ext_in. intros i Hi. apply in_seq in Hi. symmetry. apply CP. lia. }
  destruct T as [E|E].
  - rewrite E in *. cbn [children nverts nedges edge_ends] in *.
    destruct (C33_children_cover_without_overlap_pf addr d pos (fun i => phi (nth i (e_verts e) 0)) (fun k => mu (nth k (boundary_of e Line) 0)) (fun k => fl (nth k (boundary_of e Line) 0))) as (cs' & E' & H).
    + intros k Hk Fk. exists (/2)%R. split; [lra|]. intros i _. rewrite (CM k Hk Fk i). lra.
    + rewrite SP in E'. injection E' as <-. rewrite (EP 3 eq_refl). exact H.
  - rewrite E in *. cbn [children nverts nedges edge_ends] in *.
    destruct (C34_children_cover_without_overlap_pf addr d pos ids' (fun i => phi (nth i (e_verts e) 0)) (fun k => mu (nth k (boundary_of e Line) 0)) (fun k => fl (nth k (boundary_of e Line) 0))) as (cs' & E' & H); auto.
    + intros k Hk Fk i _. apply (CM k Hk Fk i).
    + rewrite SP in E'. injection E' as <-. rewrite (EP 4 eq_refl). exact H.
Qed.

(** ** Conformity *)
Section Conform.
Variable d : nat.
Variables cfgs cfg : config.
Variables src out out' : @mesh point.
Variable t : tag.
Variable fl : addr -> bool.
Variable np : point -> point -> point -> Prop.
Variables phi mu : addr -> addr.
Hypothesis Rs : reach cfgs src.
Hypothesis K : cfg_keep cfgs Line = true.
Hypothesis T : t = Triangle \/ t = Tet.
Hypothesis Tc : cell_type cfgs t.
Hypothesis R' : reach cfg out'.
Hypothesis RF : is_refinement_at d np src out out' t fl phi mu.

Lemma same_edge a b fa fb : deref src Line a = Some fa -> deref src Line b = Some fb -> Permutation (e_verts fa) (e_verts fb) -> a = b.
Proof.
  intros Da Db P. apply (C04_no_duplicate_facets_pf point cfgs src Rs Line) with (e1 := fa) (e2 := fb); auto; try discriminate.
  rewrite <- Tc. intros X. now apply (TL t T).
Qed.

(** the edge of the source between two vertices given by their images *)
Definition joins (u v : addr) (a : addr) : bool :=
  match vertices_at src Line a with
  | Some [x; y] => ((phi x =? u) && (phi y =? v)) || ((phi x =? v) && (phi y =? u))
  | _ => false
  end.
(** only edges of cells *)
Definition cell_edge (a : addr) : bool := existsb (fun c => match deref src t c with Some e => existsb (Nat.eqb a) (boundary_of e Line) | None => false end) (range src t).
Definition edge_at (u v : addr) : option addr := find (fun a => cell_edge a && joins u v a) (range src Line).
Definition eflag (u v : addr) : bool := match edge_at u v with Some a => fl a | None => false end.
Definition emid (u v : addr) : addr := match edge_at u v with Some a => mu a | None => 0 end.
Lemma joins_sym u v a : joins u v a = joins v u a.
Proof. unfold joins. destruct (vertices_at src Line a) as [[|x [|y [|? ?]]]|]; auto. apply orb_comm. Qed.
Lemma edge_at_sym u v : edge_at u v = edge_at v u.
Proof. unfold edge_at. induction (range src Line) as [|a l IH]; cbn; auto. rewrite joins_sym. destruct (cell_edge a && joins v u a); auto. Qed.

Lemma cell_edge_verts a f : cell_edge a = true -> deref src Line a = Some f -> exists x y, e_verts f = [x; y] /\
  In x (corners src t (range src t)) /\ In y (corners src t (range src t)).
Proof.
  unfold cell_edge. intros H Df. apply existsb_exists in H as (c & Hc & H). destruct (deref src t c) as [e|] eqn:De; [|discriminate].
  apply existsb_exists in H as (b & Hb & E). apply Nat.eqb_eq in E. subst b.
  apply (In_nth _ _ 0) in Hb as (k & Hk & E). destruct (src_edges cfgs src t Rs K T c e De) as (LE & _ & F). rewrite LE in Hk.
  destruct (F k Hk) as (f' & Df' & P). rewrite E in Df'. assert (f' = f) by congruence. subst f'.
  destruct (edge_ends_lt t T k Hk) as (L1 & L2 & _). pose proof (cell_len cfgs src t Rs T c e De) as L.
  assert (A : forall i, i < nverts t -> In (nth i (e_verts e) 0) (corners src t (range src t))).
  { intros i Hi. apply (cell_in cfgs src t Rs T c e De); auto. }
  apply Permutation_sym, Permutation_length_2_inv in P as [P|P]; rewrite P; eexists _, _; split; eauto.
Qed.

Lemma edge_at_cell c e k : deref src t c = Some e -> k < nedges t ->
  edge_at (phi (nth (fst (edge_ends t k)) (e_verts e) 0)) (phi (nth (snd (edge_ends t k)) (e_verts e) 0)) = Some (nth k (boundary_of e Line) 0).
Proof.
  intros D Hk. destruct (src_edges cfgs src t Rs K T c e D) as (LE & NE & F). destruct (F k Hk) as (f & Df & P).
  destruct (edge_ends_lt t T k Hk) as (L1 & L2 & _).
  set (x := nth (fst (edge_ends t k)) (e_verts e) 0) in *. set (y := nth (snd (edge_ends t k)) (e_verts e) 0) in *. set (a := nth k (boundary_of e Line) 0) in *.
  assert (Cx : In x (corners src t (range src t))) by (apply (cell_in cfgs src t Rs T c e D); auto).
  assert (Cy : In y (corners src t (range src t))) by (apply (cell_in cfgs src t Rs T c e D); auto).
  assert (CE : cell_edge a = true).
  { unfold cell_edge. apply existsb_exists. exists c. split; [apply range_deref; eauto|]. rewrite D. apply existsb_exists. exists a. split; [|apply Nat.eqb_refl].
    apply nth_In. lia. }
  assert (Ja : joins (phi x) (phi y) a = true).
  { unfold joins, vertices_at. rewrite Df. cbn [option_map]. apply Permutation_sym, Permutation_length_2_inv in P as [P|P]; rewrite P; rewrite !Nat.eqb_refl; cbn; auto. apply orb_true_r. }
  unfold edge_at. destruct (find _ (range src Line)) as [b|] eqn:Eb.
  - apply find_some in Eb as [Hb Jb]. apply andb_true_iff in Jb as [Cb Jb]. f_equal. apply range_deref in Hb as (fb & Db).
    apply (same_edge b a fb f Db Df). destruct (cell_edge_verts b fb Cb Db) as (u & v & Ev & Cu & Cv).
    unfold joins, vertices_at in Jb. rewrite Db in Jb. cbn [option_map] in Jb. rewrite Ev in *. apply Permutation_sym.
    apply orb_true_iff in Jb as [J|J]; apply andb_true_iff in J as [J1 J2]; apply Nat.eqb_eq in J1, J2;
      apply (phi_inj d src out out' t fl np phi mu RF) in J1; auto; apply (phi_inj d src out out' t fl np phi mu RF) in J2; auto; subst u v.
    + exact P.
    + eapply perm_trans; [exact P|]. apply perm_swap.
  - exfalso. assert (Ha : In a (range src Line)) by (apply range_deref; eauto). apply (find_none _ _ Eb) in Ha. rewrite CE, Ja in Ha. discriminate.
Qed.

Lemma Forall_incl_nth c e x : deref src t c = Some e -> In x (e_verts e) -> exists i, i < nverts t /\ nth i (e_verts e) 0 = x.
Proof. intros D Hx. apply (In_nth _ _ 0) in Hx as (i & Hi & E). exists i. rewrite (cell_len cfgs src t Rs T c e D) in Hi. auto. Qed.
End Conform.

Lemma tet_vertices_distinct (vtx mid : nat -> addr) (fl fl' : nat -> bool) (mid' : nat -> addr) :
  (forall k, k < 6 -> fl' k = fl k) -> (forall k, k < 6 -> fl k = true -> mid' k = mid k) ->
  (forall i j, i < 4 -> j < 4 -> vtx i = vtx j -> i = j) /\
  (forall i k, i < 4 -> k < 6 -> fl k = true -> vtx i <> mid k) /\
  (forall k l, k < 6 -> l < 6 -> fl k = true -> fl l = true -> mid k = mid l -> k = l) -> vertices_distinct vtx mid' fl'.
Proof.
  intros E M (A & B & C). split; auto. split.
  - intros i k Hi Hk Fk. rewrite E in Fk by auto. rewrite M; auto.
  - intros k l Hk Hl Fk Fl. rewrite E in Fk, Fl by auto. rewrite !M; auto.
Qed.

Lemma tri_edge_split d cfgs cfg (src out out' : @mesh point) fl np phi mu c e cs a x y u v :
  reach cfgs src -> cfg_keep cfgs Line = true -> cell_type cfgs Triangle -> reach cfg out' -> is_refinement_at d np src out out' Triangle fl phi mu ->
  deref src Triangle c = Some e -> is_split d src out' Triangle fl phi mu c cs -> In x (e_verts e) -> In y (e_verts e) -> x <> y ->
  vertices_at src Line a = Some [x; y] \/ vertices_at src Line a = Some [y; x] -> u <> v ->
  (u = phi x \/ u = phi y \/ (fl a = true /\ u = mu a)) -> (v = phi x \/ v = phi y \/ (fl a = true /\ v = mu a)) ->
  ((exists ws, In ws cs /\ incl [u; v] ws) <-> (fl a = true -> u = mu a \/ v = mu a)).
Proof.
  intros Rs K Tc R' RF D (e0 & D0 & SP) Hx Hy Nxy VA Nuv Hu Hv. assert (e0 = e) by congruence. subst e0.
  assert (T : Triangle = Triangle \/ Triangle = Tet) by auto.
  pose proof (cell_distinct d cfgs src out out' Triangle fl np phi mu Rs K T RF c e D) as DI.
  specialize (SP _ _ (reads_pos cfg out' R')). cbn [children] in SP.
  destruct (C33_edges_split_iff_flagged_pf addr d (pos_in out') (fun i => phi (nth i (e_verts e) 0)) (fun k => mu (nth k (boundary_of e Line) 0)) (fun k => fl (nth k (boundary_of e Line) 0)) DI) as (cs' & E' & H).
  rewrite SP in E'. injection E' as <-.
  destruct (src_edges cfgs src Triangle Rs K T c e D) as (LE & NE & F).
  pose proof (cell_len cfgs src Triangle Rs T c e D) as L. cbn [nverts nedges edge_ends] in *.
  assert (KK : exists k, k < 3 /\ nth k (boundary_of e Line) 0 = a /\
     (nth (fst (tri_edge k)) (e_verts e) 0 = x /\ nth (snd (tri_edge k)) (e_verts e) 0 = y \/ nth (fst (tri_edge k)) (e_verts e) 0 = y /\ nth (snd (tri_edge k)) (e_verts e) 0 = x)).
  { assert (KE : exists k, k < 3 /\ 
     (nth (fst (tri_edge k)) (e_verts e) 0 = x /\ nth (snd (tri_edge k)) (e_verts e) 0 = y \/ nth (fst (tri_edge k)) (e_verts e) 0 = y /\ nth (snd (tri_edge k)) (e_verts e) 0 = x)).
    { destruct (e_verts e) as [|p [|q [|r [|? ?]]]]; try discriminate. cbn [In] in Hx, Hy.
      destruct Hx as [Hx|[Hx|[Hx|[]]]], Hy as [Hy|[Hy|[Hy|[]]]]; subst; try congruence;
        first [exists 0; split; [lia|]; cbn; auto; fail|exists 1; split; [lia|]; cbn; auto; fail|exists 2; split; [lia|]; cbn; auto; fail]. }
    destruct KE as (k & Hk & E). exists k. split; auto. split; auto. destruct (F k Hk) as (f & Df & P).
    unfold vertices_at in VA. destruct (deref src Line a) as [fa|] eqn:Da; [|destruct VA; discriminate]. cbn [option_map] in VA.
    apply (same_edge cfgs src Triangle Rs T Tc _ _ f fa Df Da).
    eapply perm_trans; [exact P|]. destruct VA as [VA|VA]; injection VA as ->; destruct E as [[-> ->]|[-> ->]]; auto using perm_swap. }
  destruct KK as (k & Hk & Ea & Exy). specialize (H k Hk). cbn zeta in H. rewrite Ea in H.
  assert (ON : forall p q, one_has_side cs p q -> exists ws, In ws cs /\ incl [p; q] ws).
  { intros p q (i & Hi). destruct (proj2 (Hi i) eq_refl) as (ws & E & S1 & S2). exists ws. split; [eapply nth_error_In; eauto|]. intros z [<-|[<-|[]]]; auto. }
  assert (SY : forall p q, (exists ws, In ws cs /\ incl [p; q] ws) -> exists ws, In ws cs /\ incl [q; p] ws).
  { intros p q (ws & A & B). exists ws. split; auto. intros z Hz. apply B. simpl in *. tauto. }
  assert (NO : forall p q, none_has_side cs p q -> ~ exists ws, In ws cs /\ incl [p; q] ws).
  { intros p q N (ws & A & B). apply (N ws A). split; apply B; simpl; auto. }
  assert (Nphi : phi x <> phi y).
  { intros E. apply Nxy. apply (phi_inj d src out out' Triangle fl np phi mu RF); auto; eapply corner_in; eauto. }
  assert (H' : if fl a then (exists ws, In ws cs /\ incl [phi x; mu a] ws) /\ (exists ws, In ws cs /\ incl [phi y; mu a] ws) /\ ~ (exists ws, In ws cs /\ incl [phi x; phi y] ws)
     else exists ws, In ws cs /\ incl [phi x; phi y] ws).
  { destruct (fl a), Exy as [[E1 E2]|[E1 E2]]; rewrite E1, E2 in H.
    - destruct H as (A & B & C). split; [now apply ON|]. split; [now apply SY, ON|]. now apply NO.
    - destruct H as (A & B & C). split; [now apply SY, ON|]. split; [now apply ON|]. intros X. apply SY in X. now apply NO in X.
    - now apply ON.
    - now apply SY, ON. }
  destruct (fl a) eqn:Fa.
  - destruct H' as (A & B & C). assert (NM : forall z, phi z = mu a -> In z (e_verts e) -> False).
    { intros z Ez Hz. apply (phi_mu d src out out' Triangle fl np phi mu RF z a); auto; [eapply corner_in; eauto|]. rewrite <- Ea. apply (edge_in cfgs src Triangle Rs K T c e D); auto. }
    destruct Hu as [->|[->|[_ ->]]], Hv as [->|[->|[_ ->]]]; try congruence; split; intros X; auto; try (exfalso; tauto);
      try (exfalso; destruct (X eq_refl) as [Y|Y]; [apply (NM _ Y)|apply (NM _ Y)]; auto; fail); try (apply SY in X; contradiction).
  - destruct Hu as [->|[->|[? _]]], Hv as [->|[->|[? _]]]; try congruence; split; intros X; auto; discriminate.
Qed.

Lemma conforming_at : forall d cfgs cfg (src out out' : @mesh point) (fl : addr -> bool) np phi mu,
  reach cfgs src -> cfg_keep cfgs Line = true -> cfg_cell cfgs = Triangle \/ cfg_cell cfgs = Tet -> reach cfg out' ->
  is_refinement_at d np src out out' (cfg_cell cfgs) fl phi mu ->
  forall c1 vs1 cs1 c2 vs2 cs2 face f,
    vertices_at src (cfg_cell cfgs) c1 = Some vs1 -> is_split d src out' (cfg_cell cfgs) fl phi mu c1 cs1 ->
    vertices_at src (cfg_cell cfgs) c2 = Some vs2 -> is_split d src out' (cfg_cell cfgs) fl phi mu c2 cs2 ->
    NoDup face -> length face = dim (cfg_cell cfgs) -> incl face vs1 -> incl face vs2 ->
    NoDup f -> length f = dim (cfg_cell cfgs) -> (forall u, In u f -> on_face src fl phi mu face u) ->
    ((exists ws, In ws cs1 /\ incl f ws) <-> (exists ws, In ws cs2 /\ incl f ws)).
Proof.
  intros d cfgs cfg src out out' fl np phi mu Rs K T R' RF c1 vs1 cs1 c2 vs2 cs2 face f V1 S1 V2 S2 NF LF I1 I2 Nf Lf OF.
  assert (Tc : cell_type cfgs (cfg_cell cfgs)) by reflexivity. set (t := cfg_cell cfgs) in *.
  pose proof S1 as S1'. pose proof S2 as S2'. destruct S1' as (e1 & D1 & P1), S2' as (e2 & D2 & P2).
  unfold vertices_at in V1, V2. rewrite D1 in V1. rewrite D2 in V2. cbn in V1, V2. injection V1 as <-. injection V2 as <-.
  destruct T as [E|E].
  - rewrite E in *. cbn [dim] in *. clearbody t. subst t. destruct face as [|x [|y [|? ?]]]; try discriminate. destruct f as [|u [|v [|? ?]]]; try discriminate.
    assert (Nxy : x <> y) by (inversion NF; subst; simpl in *; intuition). assert (Nuv : u <> v) by (inversion Nf; subst; simpl in *; intuition).
    assert (T : Triangle = Triangle \/ Triangle = Tet) by auto.
    assert (EA : exists a, vertices_at src Line a = Some [x; y] \/ vertices_at src Line a = Some [y; x]).
    { assert (Hx := I1 x (or_introl eq_refl)). assert (Hy := I1 y (or_intror (or_introl eq_refl))).
      destruct (src_edges cfgs src Triangle Rs K T c1 e1 D1) as (_ & _ & F). pose proof (cell_len cfgs src Triangle Rs T c1 e1 D1) as L. cbn [nverts nedges edge_ends] in *.
      assert (KE : exists k, k < 3 /\ Permutation [nth (fst (tri_edge k)) (e_verts e1) 0; nth (snd (tri_edge k)) (e_verts e1) 0] [x; y]).
      { destruct (e_verts e1) as [|p [|q [|r [|? ?]]]]; try discriminate. cbn [In] in Hx, Hy.
        destruct Hx as [Hx|[Hx|[Hx|[]]]], Hy as [Hy|[Hy|[Hy|[]]]]; subst; try congruence;
        first [exists 0; split; [lia|]; cbn; auto using perm_swap; fail|exists 1; split; [lia|]; cbn; auto using perm_swap; fail|exists 2; split; [lia|]; cbn; auto using perm_swap; fail]. }
      destruct KE as (k & Hk & PE). destruct (F k Hk) as (g & Dg & PG). exists (nth k (boundary_of e1 Line) 0). unfold vertices_at. rewrite Dg. cbn.
      assert (PX : Permutation [x; y] (e_verts g)) by (apply Permutation_sym; eapply perm_trans; eauto).
      apply Permutation_length_2_inv in PX as [-> | ->]; auto. }
    destruct EA as (a & VA).
    assert (ON : forall w, on_face src fl phi mu [x; y] w -> w = phi x \/ w = phi y \/ (fl a = true /\ w = mu a)).
    { intros w [(z & [<-|[<-|[]]] & ->)|(b & p & q & Fb & Vb & Hp & Hq & ->)]; auto. right. right.
      assert (b = a); [|subst; auto].
      unfold vertices_at in VA, Vb. destruct (deref src Line a) as [ga|] eqn:Da; [|destruct VA; discriminate]. destruct (deref src Line b) as [gb|] eqn:Db; [|discriminate].
      apply (same_edge cfgs src Triangle Rs T Tc b a gb ga Db Da). cbn in VA, Vb. injection Vb as Vb.
      destruct (C03_vertices_stored_pf point cfgs src Rs Line b gb) as (_ & N & _); auto; [discriminate|]. rewrite Vb in N. inversion N; subst.
      assert (Npq : p <> q) by (simpl in *; intuition). rewrite Vb.
      destruct Hp as [<-|[<-|[]]], Hq as [<-|[<-|[]]]; try congruence; destruct VA as [VA|VA]; injection VA as ->; auto using perm_swap. }
    assert (Hu := ON u (OF u (or_introl eq_refl))). assert (Hv := ON v (OF v (or_intror (or_introl eq_refl)))).
    rewrite (tri_edge_split d cfgs cfg src out out' fl np phi mu c1 e1 cs1 a x y u v); auto; try (apply I1; simpl; auto).
    rewrite (tri_edge_split d cfgs cfg src out out' fl np phi mu c2 e2 cs2 a x y u v); auto; try (apply I2; simpl; auto). reflexivity.
  - rewrite E in *. cbn [dim] in *. clearbody t. subst t. destruct face as [|x [|y [|z [|? ?]]]]; try discriminate.
    assert (T : Tet = Triangle \/ Tet = Tet) by auto.
    assert (FK : forall c e, deref src Tet c = Some e -> forall k, k < 6 ->
       tet_flags (eflag src Tet fl phi) (fun i => phi (nth i (e_verts e) 0)) k = fl (nth k (boundary_of e Line) 0) /\
       tet_mids (emid src Tet phi mu) (fun i => phi (nth i (e_verts e) 0)) k = mu (nth k (boundary_of e Line) 0)).
    { intros c e D k Hk. pose proof (edge_at_cell d cfgs src out out' Tet fl np phi mu Rs K T Tc RF c e k D Hk) as EA. cbn [edge_ends] in EA.
      unfold tet_flags, tet_mids, eflag, emid. rewrite EA. auto. }
    assert (CH : forall c e cs, deref src Tet c = Some e -> is_split d src out' Tet fl phi mu c cs ->
      tet_children d (pos_in out') (vid_in out') (fun i => phi (nth i (e_verts e) 0)) (tet_mids (emid src Tet phi mu) (fun i => phi (nth i (e_verts e) 0)))
        (tet_flags (eflag src Tet fl phi) (fun i => phi (nth i (e_verts e) 0))) = Some cs).
    { intros c e cs D (e0 & D0 & SP). assert (e0 = e) by congruence. subst e0. rewrite <- (SP _ _ (reads_pos cfg out' R')). cbn [children].
      apply tet_children_ext; auto; intros k Hk; [|intros _]; apply (FK c e D k Hk). }
    assert (VD : forall c e, deref src Tet c = Some e -> vertices_distinct (fun i => phi (nth i (e_verts e) 0)) (tet_mids (emid src Tet phi mu) (fun i => phi (nth i (e_verts e) 0)))
        (tet_flags (eflag src Tet fl phi) (fun i => phi (nth i (e_verts e) 0)))).
    { intros c e D. eapply tet_vertices_distinct; [..|exact (cell_distinct d cfgs src out out' Tet fl np phi mu Rs K T RF c e D)]; intros k Hk; [|intros _]; apply (FK c e D k Hk). }
    assert (HC : forall c e w, deref src Tet c = Some e -> In w (e_verts e) -> has_corner (fun i => phi (nth i (e_verts e) 0)) (phi w)).
    { intros c e w D Hw. destruct (Forall_incl_nth cfgs src Tet Rs T c e w D Hw) as (i & Hi & Ei). exists i. split; [auto|]. now rewrite Ei. }
    assert (CO : forall w, In w [x; y; z] -> In w (corners src Tet (range src Tet))) by (intros w Hw; eapply corner_in; [exact D1|auto]).
    assert (PI : forall p q, In p [x; y; z] -> In q [x; y; z] -> p <> q -> phi p <> phi q).
    { intros p q Hp Hq N E2. apply N. apply (phi_inj d src out out' Tet fl np phi mu RF); auto. }
    assert (ND3 : x <> y /\ x <> z /\ y <> z).
    { inversion NF as [|? ? A B]; subst. inversion B as [|? ? A' B']; subst. simpl in A, A'. repeat split; intros ->; tauto. }
    destruct ND3 as (N1 & N2 & N3).
    destruct (C36_shared_face_split_identically_pf addr d (pos_in out') (vid_in out') (eflag src Tet fl phi) (emid src Tet phi mu)
      (fun i => phi (nth i (e_verts e1) 0)) (fun i => phi (nth i (e_verts e2) 0)) (phi x) (phi y) (phi z)) as (cs1' & cs2' & E1 & E2 & H).
    + intros u v. unfold eflag. now rewrite edge_at_sym.
    + intros u v. unfold emid. now rewrite edge_at_sym.
    + exact (cell_ids d cfgs cfg src out out' Tet fl np phi mu Rs K T R' RF c1 e1 D1 _ _ (reads_pos cfg out' R')).
    + now apply (VD c1).
    + exact (cell_ids d cfgs cfg src out out' Tet fl np phi mu Rs K T R' RF c2 e2 D2 _ _ (reads_pos cfg out' R')).
    + now apply (VD c2).
    + apply (HC c1); auto. apply I1; simpl; auto.
    + apply (HC c1); auto. apply I1; simpl; auto.
    + apply (HC c1); auto. apply I1; simpl; auto.
    + apply (HC c2); auto. apply I2; simpl; auto.
    + apply (HC c2); auto. apply I2; simpl; auto.
    + apply (HC c2); auto. apply I2; simpl; auto.
    + apply PI; simpl; auto.
    + apply PI; simpl; auto.
    + apply PI; simpl; auto.
    + rewrite (CH c1 e1 cs1 D1 S1) in E1. rewrite (CH c2 e2 cs2 D2 S2) in E2. injection E1 as <-. injection E2 as <-.
      apply (H f); auto. intros u Hu. destruct (OF u Hu) as [(w & Hw & ->)|(a & v & w & Fa & Va & Hv & Hw & ->)].
      * unfold on_triangle. destruct Hw as [<-|[<-|[<-|[]]]]; auto.
      * assert (EM : v <> w /\ (forall p q, (p = v /\ q = w) \/ (p = w /\ q = v) -> eflag src Tet fl phi (phi p) (phi q) = true /\ emid src Tet phi mu (phi p) (phi q) = mu a)).
        { unfold vertices_at in Va. destruct (deref src Line a) as [ga|] eqn:Da; [|discriminate]. cbn in Va. injection Va as Va.
          destruct (C03_vertices_stored_pf point cfgs src Rs Line a ga) as (_ & N & _); auto; [discriminate|]. rewrite Va in N. inversion N; subst.
          assert (Nvw : v <> w) by (simpl in *; intuition). split; auto.
          destruct (Forall_incl_nth cfgs src Tet Rs T c1 e1 v D1 (I1 v Hv)) as (i & Hi & Ei). destruct (Forall_incl_nth cfgs src Tet Rs T c1 e1 w D1 (I1 w Hw)) as (j & Hj & Ej).
          assert (Nij : i <> j) by congruence. cbn [nverts] in Hi, Hj.
          assert (KE : exists k, k < 6 /\ (tet_edge k = (i, j) \/ tet_edge k = (j, i))).
          { do 4 (destruct i as [|i]; [do 4 (destruct j as [|j]; [first [congruence|exists 0; cbn; split; [lia|auto]; fail|exists 1; cbn; split; [lia|auto]; fail|exists 2; cbn; split; [lia|auto]; fail|exists 3; cbn; split; [lia|auto]; fail|exists 4; cbn; split; [lia|auto]; fail|exists 5; cbn; split; [lia|auto]; fail]|]); lia|]). lia. }
          destruct KE as (k & Hk & Ek). pose proof (edge_at_cell d cfgs src out out' Tet fl np phi mu Rs K T Tc RF c1 e1 k D1 Hk) as EA. cbn [edge_ends] in EA.
          destruct (src_edges cfgs src Tet Rs K T c1 e1 D1) as (_ & _ & F). destruct (F k Hk) as (g & Dg & Pg). cbn [edge_ends] in Pg.
          assert (Eka : nth k (boundary_of e1 Line) 0 = a).
          { apply (same_edge cfgs src Tet Rs T Tc _ _ g ga Dg Da). rewrite Va. eapply perm_trans; [exact Pg|].
            destruct Ek as [-> | ->]; cbn [fst snd]; rewrite Ei, Ej; auto using perm_swap. }
          rewrite Eka in EA. assert (EA' : edge_at src Tet phi (phi v) (phi w) = Some a).
          { destruct Ek as [Ek|Ek]; rewrite Ek in EA; cbn [fst snd] in EA; rewrite Ei, Ej in EA; auto. now rewrite edge_at_sym. }
          intros p q [[-> ->]|[-> ->]]; unfold eflag, emid; [rewrite EA'|rewrite edge_at_sym, EA']; auto. }
        destruct EM as (Nvw & EM). unfold on_triangle. 
        destruct Hv as [Hv|[Hv|[Hv|[]]]], Hw as [Hw|[Hw|[Hw|[]]]]; subst v w; try congruence.
        -- destruct (EM x y) as [A B]; auto. right; right; right; left. auto.
        -- destruct (EM x z) as [A B]; auto. right; right; right; right; left. auto.
        -- destruct (EM x y) as [A B]; auto. right; right; right; left. auto.
        -- destruct (EM y z) as [A B]; auto. right; right; right; right; right. auto.
        -- destruct (EM x z) as [A B]; auto. right; right; right; right; left. auto.
        -- destruct (EM y z) as [A B]; auto. right; right; right; right; right. auto.
Qed.

Lemma C39_conforming_pf : forall d cfgs cfg (src out out' : @mesh point) (fl : addr -> bool) phi mu,
  reach cfgs src -> cfg_keep cfgs Line = true -> cfg_cell cfgs = Triangle \/ cfg_cell cfgs = Tet -> reach cfg out' ->
  is_refinement d src out out' (cfg_cell cfgs) fl phi mu ->
  forall c1 vs1 cs1 c2 vs2 cs2 face f,
    vertices_at src (cfg_cell cfgs) c1 = Some vs1 -> is_split d src out' (cfg_cell cfgs) fl phi mu c1 cs1 ->
    vertices_at src (cfg_cell cfgs) c2 = Some vs2 -> is_split d src out' (cfg_cell cfgs) fl phi mu c2 cs2 ->
    NoDup face -> length face = dim (cfg_cell cfgs) -> incl face vs1 -> incl face vs2 ->
    NoDup f -> length f = dim (cfg_cell cfgs) -> (forall u, In u f -> on_face src fl phi mu face u) ->
    ((exists ws, In ws cs1 /\ incl f ws) <-> (exists ws, In ws cs2 /\ incl f ws)).
Proof. intros d cfgs cfg src out out' fl phi mu. apply conforming_at. Qed.

(** ** Uniform refinement *)
Lemma tri_all_count d (pos : addr -> point) vtx mid fl cs : (forall k, k < 3 -> fl k = true) -> tri_children d pos vtx mid fl = Some cs -> length cs = 4.
Proof.
  intros A E. unfold tri_children in E. destruct (ModelRefineTri.refine_tri _ fl) as [P|] eqn:EP; [|discriminate]. cbn in E. injection E as <-. rewrite map_length.
  unfold ModelRefineTri.refine_tri in EP. cbn [seq filter] in EP. rewrite !A in EP by lia. cbn in EP. injection EP as <-. reflexivity.
Qed.
Fixpoint leaves_have (n : nat) (t : dtree) : bool :=
  match t with
  | DLeaf P _ _ => length P =? n
  | DFail => true
  | DCmp _ _ _ _ t1 t2 | DDle _ _ _ _ t1 t2 => leaves_have n t1 && leaves_have n t2
  end.
Lemma leaves_have_eval n lg dle P : forall t, leaves_have n t = true -> eval lg dle t = Some P -> length P = n.
Proof.
  induction t as [P' s b| |a b c e t1 IH1 t2 IH2|a b c e t1 IH1 t2 IH2]; cbn [leaves_have eval]; intros H E; try discriminate.
  - injection E as <-. now apply Nat.eqb_eq.
  - apply andb_true_iff in H as [H1 H2]. destruct (lg a b c e); auto.
  - apply andb_true_iff in H as [H1 H2]. destruct (dle a b c e); auto.
Qed.
Lemma tet_all_count d (pos : addr -> point) vid vtx mid fl cs : (forall k, k < 6 -> fl k = true) -> tet_children d pos vid vtx mid fl = Some cs -> length cs = 8.
Proof.
  intros A E. unfold tet_children in E. destruct (ModelRefineTet.refine_tet _ _ fl) as [P|] eqn:EP; [|discriminate]. cbn in E. injection E as <-. rewrite map_length.
  rewrite refine_tet_tree in EP. cbn [seq map] in EP. rewrite !A in EP by lia. eapply leaves_have_eval; [|exact EP]. vm_compute. reflexivity.
Qed.

Lemma C39_cell_and_uniform_refine_pf : forall d cfgs cfg (src out : @mesh point) (cellflag : addr -> bool),
  reach cfgs src -> cfg_keep cfgs Line = true -> cfg_cell cfgs = Triangle \/ cfg_cell cfgs = Tet ->
  reach cfg out -> cfg_cell cfg = cfg_cell cfgs ->
  let t := cfg_cell cfgs in
  (exists out' phi mu fl, cell_refine d cfg src t cellflag out = Some out' /\ reach cfg out' /\ is_refinement d src out out' t fl phi mu /\
     forall a, fl a = true <-> exists c e, cellflag c = true /\ deref src t c = Some e /\ In a (boundary_of e Line)) /\
  (exists out' phi mu fl, refine_uniformly d cfg src t out = Some out' /\ reach cfg out' /\ is_refinement d src out out' t fl phi mu /\
     (forall a, fl a = true <-> In a (range src Line)) /\
     length (range out' t) = length (range out t) + (match t with Triangle => 4 | _ => 8 end) * length (range src t)).
Proof.
  intros d cfgs cfg src out cellflag Rs K T Ro C t.
  assert (MC := fun a => C38_marking_cells_pf cfgs src cellflag (fun _ => false) a (reach_ereach cfgs src Rs)). cbn zeta in MC. split.
  - destruct (C39_refine_pf d cfgs cfg src out (cells_to_edges src t cellflag (fun _ => false)) Rs K T Ro C) as (out' & phi & mu & E & R & RF).
    exists out', phi, mu, (cells_to_edges src t cellflag (fun _ => false)). split; auto. split; auto. split; auto.
    intros a. unfold t. rewrite (proj1 (MC a)). split.
    + intros [X|(c & Fc & k & e & De & Hk)]; [discriminate|]. exists c, e. split; auto. split; auto. eapply nth_error_In; eauto.
    + intros (c & e & Fc & De & Ha). right. exists c. split; auto. apply In_nth_error in Ha as (k & Hk). exists k, e. auto.
  - destruct (C39_refine_pf d cfgs cfg src out (mark_all src (fun _ => false)) Rs K T Ro C) as (out' & phi & mu & E & R & RF).
    assert (FA : forall a, mark_all src (fun _ => false) a = true <-> In a (range src Line)).
    { intros a. rewrite (proj2 (MC a)). split; auto. intros [X|X]; [discriminate|auto]. }
    exists out', phi, mu, (mark_all src (fun _ => false)). split; auto. split; auto. split; auto. split; auto.
    destruct (rf_cells _ _ _ _ _ _ _ _ _ RF) as (new & css & RC & VC & SP & _). fold t in RC. rewrite RC, app_length. f_equal.
    assert (Ln : length new = length (concat css)).
    { assert (X : length (map (vertices_at out' (cfg_cell cfgs)) new) = length (map Some (concat css))) by (f_equal; exact VC). now rewrite !map_length in X. }
    rewrite Ln. fold t in SP, T, C. clear - SP FA R T Rs K. clearbody t. revert SP. generalize (range src t) as l. intros l SP.
    induction SP as [|c cs l css (e & D & SP) F IH]; cbn [concat length]; [lia|]. rewrite app_length, IH.
    specialize (SP _ _ (reads_pos cfg out' R)).
    assert (AL : forall k, k < nedges t -> mark_all src (fun _ => false) (nth k (boundary_of e Line) 0) = true).
    { intros k Hk. apply FA. eapply edge_in; eauto. }
    destruct T as [-> | ->]; cbn [children nedges] in *.
    + rewrite (tri_all_count _ _ _ _ _ _ AL SP). lia.
    + rewrite (tet_all_count _ _ _ _ _ _ _ AL SP). lia.
Qed.
