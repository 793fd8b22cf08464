(** What the triangles at an edge and at a vertex contribute. *)
From Coq Require Import Reals List Arith Bool Lia Lra Permutation.
From Verif Require Import ModelTopo ModelMesh ModelErase ModelQuery ModelGeom ModelVolume ModelDistance ModelSurface ModelVoronoi
  SpecMesh SpecErase SpecQuery SpecCopy SpecRefine SpecGeom SpecDistance SpecSurface SpecVoronoi.
From Verif Require Import MeshBase MeshInv MeshWf MeshErase MeshSimple MeshProofs CopyBase QueryBase QueryProofs VolumeProofs CenterProofs DistanceProofs.
From Verif Require Import RefineMeshLoop VoronoiGeom VoronoiUpd VoronoiTri VoronoiMesh VoronoiStep VoronoiLoop.
Import ListNotations.
Local Open Scope R_scope.

Lemma omap_In {A B} (f : A -> option B) l ks y : omap f l = Some ks -> In y ks -> exists x, In x l /\ f x = Some y.
Proof.
  revert ks. induction l as [|x l IH]; intros ks E H; cbn [omap] in E; [injection E as <-; destruct H|].
  destruct (f x) as [z|] eqn:EX; [|discriminate]. cbn [obind] in E. destruct (omap f l) as [zs|] eqn:EL; [|discriminate]. injection E as <-.
  destruct H as [<-|H]; [exists x; split; [now left|auto]|]. destruct (IH _ eq_refl H) as (x' & I & E'). exists x'. split; [now right|auto].
Qed.

Section Edge.
Variable cfg : config.
Variable m : @mesh point.
Hypothesis R : reach cfg m.
Hypothesis K : cfg_keep cfg Line = true.

Lemma cell_has t c e ps : t <> Vertex -> deref m t c = Some e -> cell_points m e = Some ps -> has_points m t c ps.
Proof.
  intros T D CP. exists e. split; auto. assert (G : Forall2 (fun v p => exists ev, deref m Vertex v = Some ev /\ e_pt ev = Some p) (e_verts e) ps).
  { unfold cell_points in CP. revert ps CP. induction (e_verts e) as [|v l IH]; intros ps CP; cbn [omap] in CP; [injection CP as <-; constructor|].
    destruct (obind (deref m Vertex v) e_pt) as [p|] eqn:E; [|discriminate]. cbn [obind] in CP. destruct (omap _ l) as [qs|]; [|discriminate]. injection CP as <-.
    constructor; auto. destruct (deref m Vertex v) as [ev|]; [|discriminate]. exists ev. auto. }
  destruct t; auto. congruence.
Qed.
Lemma edge_entry e es h l : edges_of m e = Some es -> In (h, l) es -> exists f, deref m Line h = Some f /\ corners_of m f = Some l.
Proof.
  intros E I. destruct (omap_In _ _ _ _ E I) as (h' & _ & X). destruct (deref m Line h') as [f|] eqn:D; [|discriminate]. cbn [obind] in X.
  destruct (corners_of m f) as [k|] eqn:EK; [|discriminate]. injection X as <- <-. exists f. auto.
Qed.
Lemma entry_ends h f l u w pu pw : deref m Line h = Some f -> corners_of m f = Some l -> ends l (u, pu) (w, pw) ->
  Permutation (e_verts f) [u; w] /\ (has_points m Line h [pu; pw] \/ has_points m Line h [pw; pu]).
Proof.
  intros D CO EN. destruct (corners cfg m R Line h f D) as (ps & CP & CO' & _ & _ & L1 & L2); [discriminate|]. rewrite CO in CO'. injection CO' as ->.
  destruct (e_verts f) as [|x [|y [|? ?]]]; try discriminate. destruct ps as [|px [|py [|? ?]]]; try discriminate. cbn [combine] in EN.
  assert (NV : Line <> Vertex) by discriminate. pose proof (cell_has Line h f [px; py] NV D CP) as HP.
  destruct EN as [E|E]; injection E as -> -> -> ->; [split; [apply Permutation_refl|now left]|split; [apply perm_swap|now right]].
Qed.

(** One side of a triangle. *)
Record side (c : addr) (rc : list share_rec * Prop) (h : addr) (a b z C : point) (r : share_rec) : Prop := mkSide {
  sd_points : has_points m Line h [a; b];
  sd_cell : exists ps, has_points m Triangle c ps /\ Permutation ps [a; b; z];
  sd_center : centered C a b z;
  sd_i : parts InterfaceArea (fst rc) h = r_i r;
  sd_e : parts EdgeBox (fst rc) h = both r;
  sd_edge : edge_i m c C r h a b z;
  sd_full : snd rc -> both r = iface C a b z * sqrt (sq a b) / 2
}.
Lemma edge_i_swap c C r h a b z : cr a b z <> 0 -> edge_i m c C r h a b z -> edge_i m c C r h b a z.
Proof. intros N. unfold edge_i. now rewrite (gamma_sym a b z C N), (iface_swap C a b z N). Qed.
Lemma side_swap c (rc : list share_rec * Prop) h a b z C r : has_points m Line h [b; a] -> (exists ps, has_points m Triangle c ps /\ Permutation ps [a; b; z]) ->
  centered C a b z -> parts InterfaceArea (fst rc) h = r_i r -> parts EdgeBox (fst rc) h = both r -> edge_i m c C r h a b z ->
  (snd rc -> both r = iface C a b z * sqrt (sq a b) / 2) -> side c rc h b a z C r.
Proof.
  intros HP (ps & H1 & H2) CE E1 E2 EI FU. assert (N : cr a b z <> 0) by apply CE. constructor; auto.
  - exists ps. split; auto. rewrite H2. apply perm_swap.
  - now apply centered_swap.
  - now apply edge_i_swap.
  - intros H. rewrite FU by auto. now rewrite (iface_swap C a b z N), (sq_sym a b).
Qed.
Lemma side_either c (rc : list share_rec * Prop) h a b z C r : has_points m Line h [a; b] \/ has_points m Line h [b; a] -> (exists ps, has_points m Triangle c ps /\ Permutation ps [a; b; z]) ->
  centered C a b z -> parts InterfaceArea (fst rc) h = r_i r -> parts EdgeBox (fst rc) h = both r -> edge_i m c C r h a b z ->
  (snd rc -> both r = iface C a b z * sqrt (sq a b) / 2) -> exists a b, side c rc h a b z C r.
Proof.
  intros [HP|HP] HC CE E1 E2 EI FU; [exists a, b; constructor; auto|]. exists b, a. now apply side_swap.
Qed.
Lemma full_both h u w pu pw z C : cr pu pw z <> 0 -> both (full_share h u w pu pw z C) = iface C pu pw z * sqrt (sq pu pw) / 2.
Proof.
  intros N. unfold both, full_share, iface. cbn [r_xu r_xw]. pose proof (sqrt_sq_pos pu pw z N). field. lra.
Qed.
Lemma three_parts q r0 r1 r2 x : parts q [r0; r1; r2] x = part q r0 x + part q r1 x + part q r2 x.
Proof. unfold parts. cbn [map]. rewrite !Rsum_cons, Rsum_nil. ring. Qed.

Lemma tri_side c rc h : tri_at m c rc -> bounded_by m Triangle c Line h -> exists a b z C r, side c rc h a b z C r.
Proof.
  intros (e & D & [T]) (e' & D' & HI). rewrite D in D'. injection D' as <-.
  destruct T as (v0 & v1 & v2 & p0 & p1 & p2 & h0 & h1 & h2 & C & r0 & r1 & r2 & EV & CP & EB & CC & ER & H0 & H1 & H2 & FV & SB & I0 & I1 & I2 & _ & FU).
  destruct (tri_data cfg m R K c e D) as (w0 & w1 & w2 & q0 & q1 & q2 & k0 & k1 & k2 & l0 & l1 & l2 & EV' & EB' & CP' & CO & EO & NV & NH & N0 & N1 & N2 & _).
  rewrite EV in EV'. injection EV' as <- <- <-. rewrite EB in EB'. injection EB' as <- <- <-. rewrite CP in CP'. injection CP' as <- <- <-.
  assert (NVX : Triangle <> Vertex) by discriminate. pose proof (cell_has Triangle c e _ NVX D CP) as HP.
  assert (N01 : h0 <> h1) by (intros E; inversion NH as [|? ? X _]; apply X; rewrite E; now left).
  assert (N02 : h0 <> h2) by (intros E; inversion NH as [|? ? X _]; apply X; rewrite E; right; now left).
  assert (N12 : h1 <> h2) by (intros E; inversion NH as [|? ? _ Y]; inversion Y as [|? ? X _]; apply X; rewrite E; now left).
  pose proof CC as (NC & _). unfold has_boundary in HI. rewrite EB in HI. cbn [In] in HI.
  assert (P1 : forall k, In k [h0; h1; h2] -> parts InterfaceArea (fst rc) k = (if Nat.eqb k h0 then r_i r0 else 0) + (if Nat.eqb k h1 then r_i r1 else 0) + (if Nat.eqb k h2 then r_i r2 else 0)).
  { intros k _. rewrite ER, three_parts. unfold part. now rewrite H0, H1, H2. }
  assert (P2 : forall k, In k [h0; h1; h2] -> parts EdgeBox (fst rc) k = (if Nat.eqb k h0 then both r0 else 0) + (if Nat.eqb k h1 then both r1 else 0) + (if Nat.eqb k h2 then both r2 else 0)).
  { intros k _. rewrite ER, three_parts. unfold part. now rewrite H0, H1, H2. }
  destruct HI as [<-|[<-|[<-|[]]]].
  - destruct (edge_entry e _ h0 l0 EO (or_introl eq_refl)) as (f & Df & Cf). destruct (entry_ends h0 f l0 _ _ _ _ Df Cf N0) as [_ EP].
    destruct (side_either c rc h0 p0 p1 p2 C r0) as (a & b & S); auto; [exists [p0; p1; p2]; auto| | | |exists a, b, p2, C, r0; auto].
    + rewrite P1 by (now left). rewrite Nat.eqb_refl. rewrite (proj2 (Nat.eqb_neq h0 h1) N01), (proj2 (Nat.eqb_neq h0 h2) N02). lra.
    + rewrite P2 by (now left). rewrite Nat.eqb_refl. rewrite (proj2 (Nat.eqb_neq h0 h1) N01), (proj2 (Nat.eqb_neq h0 h2) N02). lra.
    + intros H. destruct (FU H) as (-> & _). now apply full_both.
  - destruct (edge_entry e _ h1 l1 EO (or_intror (or_introl eq_refl))) as (f & Df & Cf). destruct (entry_ends h1 f l1 _ _ _ _ Df Cf N1) as [_ EP].
    assert (NC' : cr p0 p2 p1 <> 0) by (intros E; apply NC; unfold cr in *; lra).
    destruct (side_either c rc h1 p0 p2 p1 C r1) as (a & b & S); auto; [exists [p0; p1; p2]; split; [auto|apply perm_skip, perm_swap]| | | | |exists a, b, p1, C, r1; auto].
    + destruct CC as (_ & C1 & C2). split; auto.
    + rewrite P1 by (right; now left). rewrite Nat.eqb_refl. rewrite (proj2 (Nat.eqb_neq h1 h0) (not_eq_sym N01)), (proj2 (Nat.eqb_neq h1 h2) N12). lra.
    + rewrite P2 by (right; now left). rewrite Nat.eqb_refl. rewrite (proj2 (Nat.eqb_neq h1 h0) (not_eq_sym N01)), (proj2 (Nat.eqb_neq h1 h2) N12). lra.
    + intros H. destruct (FU H) as (_ & -> & _). now apply full_both.
  - destruct (edge_entry e _ h2 l2 EO (or_intror (or_intror (or_introl eq_refl)))) as (f & Df & Cf). destruct (entry_ends h2 f l2 _ _ _ _ Df Cf N2) as [_ EP].
    assert (NC' : cr p1 p2 p0 <> 0) by (intros E; apply NC; unfold cr in *; lra).
    destruct (side_either c rc h2 p1 p2 p0 C r2) as (a & b & S); auto; [exists [p0; p1; p2]; split; [auto|apply (Permutation_cons_append [p1; p2] p0)]| | | | |exists a, b, p0, C, r2; auto].
    + destruct CC as (_ & C1 & C2). split; auto. split; congruence.
    + rewrite P1 by (right; right; now left). rewrite Nat.eqb_refl. rewrite (proj2 (Nat.eqb_neq h2 h0) (not_eq_sym N02)), (proj2 (Nat.eqb_neq h2 h1) (not_eq_sym N12)). lra.
    + rewrite P2 by (right; right; now left). rewrite Nat.eqb_refl. rewrite (proj2 (Nat.eqb_neq h2 h0) (not_eq_sym N02)), (proj2 (Nat.eqb_neq h2 h1) (not_eq_sym N12)). lra.
    + intros H. destruct (FU H) as (_ & _ & ->). now apply full_both.
Qed.
Lemma side_match c rc h a b z C r a' b' p : side c rc h a b z C r -> edge_of_cell m h c a' b' p -> a' = a /\ b' = b /\ p = z.
Proof.
  intros S (_ & HP & ps & HC & P). pose proof (has_points_fun m Line h _ _ HP (sd_points _ _ _ _ _ _ _ _ S)) as E. injection E as -> ->.
  destruct (sd_cell _ _ _ _ _ _ _ _ S) as (ps' & HC' & P'). pose proof (has_points_fun m Triangle c _ _ HC HC') as <-. rewrite P in P'.
  apply Permutation_cons_inv, Permutation_cons_inv, Permutation_length_1 in P'. auto.
Qed.
Lemma side_edge c rc h a b z C r : side c rc h a b z C r -> bounded_by m Triangle c Line h -> edge_of_cell m h c a b z.
Proof. intros S B. split; auto. split; [apply S|apply S]. Qed.
Lemma only_lonely h c : bounded_by m Triangle c Line h -> (only_cell m h c <-> lonely m h c).
Proof. intros B. unfold only_cell, lonely. split; [intros H x X; now apply H|intros H x; split; [apply H|intros ->; auto]]. Qed.

(** Cells away from the edge. *)
Lemma tri_away q c rc h : q <> VertexBox -> tri_at m c rc -> ~ bounded_by m Triangle c Line h -> parts q (fst rc) h = 0.
Proof.
  intros NQ (e & D & [T]) NB. destruct T as (v0 & v1 & v2 & p0 & p1 & p2 & h0 & h1 & h2 & C & r0 & r1 & r2 & EV & CP & EB & CC & ER & H0 & H1 & H2 & _).
  assert (X : forall k, In k [h0; h1; h2] -> Nat.eqb h k = false). { intros k HI. apply Nat.eqb_neq. intros ->. apply NB. exists e. split; auto. unfold has_boundary. now rewrite EB. }
  rewrite ER, three_parts. destruct q; [|congruence|]; unfold part; rewrite H0, H1, H2, !X by (cbn; auto); lra.
Qed.

(** The sum over all cells is the sum over the cells at the edge. *)
Lemma sum_at q h cs rcs : q <> VertexBox -> Forall2 (tri_at m) cs rcs -> NoDup cs -> (forall c, In c cs <-> is_live m Triangle c) ->
  exists ds rds, lists_exactly ds (fun c => bounded_by m Triangle c Line h) /\ Forall2 (tri_at m) ds rds /\
    (forall rc, In rc rds -> In rc rcs) /\
    all_parts q rcs h = Rsum (map (fun rc => parts q (fst rc) h) rds).
Proof.
  intros NQ F ND L.
  assert (DEC : forall c, In c cs -> {bounded_by m Triangle c Line h} + {~ bounded_by m Triangle c Line h}).
  { intros c _. destruct (deref m Triangle c) as [e|] eqn:D.
    - destruct (in_dec Nat.eq_dec h (boundary_of e Line)) as [I|I]; [left; now exists e|right; intros (e' & D' & I'); rewrite D in D'; injection D' as <-; auto].
    - right. intros (e' & D' & _). congruence. }
  assert (X : exists ds rds, Forall2 (tri_at m) ds rds /\ NoDup ds /\ (forall c, In c ds <-> In c cs /\ bounded_by m Triangle c Line h) /\ (forall rc, In rc rds -> In rc rcs) /\
     all_parts q rcs h = Rsum (map (fun rc => parts q (fst rc) h) rds)).
  { clear L. induction F as [|c rc cs rcs T F IH]; [exists [], []; split; [constructor|]; split; [constructor|]; split; [intros c; cbn; tauto|]; split; [auto|reflexivity]|].
    inversion ND as [|? ? NI ND']; subst. destruct IH as (ds & rds & F' & N' & I' & J' & E'); auto; [intros; apply DEC; now right|].
    destruct (DEC c (or_introl eq_refl)) as [B|B].
    - exists (c :: ds), (rc :: rds). split; [constructor; auto|]. split; [constructor; auto; rewrite I'; tauto|]. split; [|split].
      + intros x. cbn [In]. rewrite I'. split; [intros [<-|[? ?]]; auto|intros [[<-|?] ?]; auto].
      + intros x [<-|H]; [now left|right; auto].
      + unfold all_parts in *. cbn [map]. rewrite !Rsum_cons. now rewrite E'.
    - exists ds, rds. split; auto. split; auto. split; [|split].
      + intros x. cbn [In]. rewrite I'. split; [intros [? ?]; auto|intros [[<-|?] ?]; [tauto|auto]].
      + intros x H; right; auto.
      + unfold all_parts in *. cbn [map]. rewrite Rsum_cons, (tri_away q c rc h NQ T B), E'. lra. }
  destruct X as (ds & rds & F' & N' & I' & J' & E'). exists ds, rds. split; [|auto]. split; auto. intros c. rewrite I', L. split; [tauto|]. intros B. split; auto.
  destruct B as (e & D & _). now exists e.
Qed.

(** All cells are closed if the circumcenters are covered. *)
Lemma covered_closed c rc : centres_covered m -> tri_at m c rc -> snd rc.
Proof.
  intros CV T. pose proof T as (e & D & [X]).
  destruct X as (v0 & v1 & v2 & p0 & p1 & p2 & h0 & h1 & h2 & C & r0 & r1 & r2 & EV & CP & EB & CC & ER & H0 & H1 & H2 & FV & SB & I0 & I1 & I2 & CL & FU).
  destruct (tri_data cfg m R K c e D) as (w0 & w1 & w2 & q0 & q1 & q2 & k0 & k1 & k2 & l0 & l1 & l2 & EV' & EB' & CP' & CO & EO & NV & NH & N0 & N1 & N2 & _).
  rewrite EV in EV'. injection EV' as <- <- <-. rewrite EB in EB'. injection EB' as <- <- <-. rewrite CP in CP'. injection CP' as <- <- <-.
  assert (NVX : Triangle <> Vertex) by discriminate. pose proof (cell_has Triangle c e _ NVX D CP) as HP.
  assert (G : forall h l u w pu pw z, In (h, l) [(h0, l0); (h1, l1); (h2, l2)] -> In h [h0; h1; h2] -> ends l (u, pu) (w, pw) -> Permutation [p0; p1; p2] [pu; pw; z] -> centered C pu pw z -> ~ is_open m c C h pu pw z).
  { intros h l u w pu pw z HI HJ EN PE CE (G & LO). destruct (edge_entry e _ h l EO HI) as (f & Df & Cf). destruct (entry_ends h f l _ _ _ _ Df Cf EN) as [_ EP].
    assert (B : bounded_by m Triangle c Line h) by (exists e; split; auto; unfold has_boundary; now rewrite EB).
    pose proof CE as (NC & E1 & E2). assert (NC' : cr pw pu z <> 0) by (intros E; apply NC; unfold cr in *; lra).
    assert (NEG : iface C pu pw z < 0).
    { unfold iface. pose proof (sqrt_sq_pos pu pw z NC) as L. assert (0 < Rabs (cr pu pw z)) by now apply Rabs_pos_lt.
      apply Ropp_lt_cancel. rewrite Ropp_0. replace (- (gamma pu pw z C * Rabs (cr pu pw z) / sqrt (sq pu pw))) with ((- gamma pu pw z C) * Rabs (cr pu pw z) / sqrt (sq pu pw)) by (field; lra).
      apply Rdiv_lt_0_compat; auto. apply Rmult_lt_0_compat; lra. }
    destruct EP as [EP|EP].
    - assert (0 <= iface C pu pw z); [|lra]. apply (CV h c pu pw z C); [split; auto; split; auto; exists [p0; p1; p2]; auto| |now apply signed_exists|now apply only_lonely].
      split; rewrite !dist_sq_sq; congruence.
    - assert (0 <= iface C pw pu z); [|rewrite iface_swap in NEG by exact NC; lra]. apply (CV h c pw pu z C); [split; auto; split; auto; exists [p0; p1; p2]; split; auto; rewrite PE; apply perm_swap| |now apply signed_exists|now apply only_lonely].
      split; rewrite !dist_sq_sq; congruence. }
  apply CL. pose proof CC as (NC & C1 & C2). split; [|split].
  - apply (G h0 l0 v0 v1); auto; cbn; auto.
  - apply (G h1 l1 v0 v2); auto; [cbn; auto|cbn; auto|apply perm_skip, perm_swap|]. split; [intros E; apply NC; unfold cr in *; lra|auto].
  - apply (G h2 l2 v1 v2); auto; [cbn; auto|cbn; auto|apply (Permutation_cons_append [p1; p2] p0)|]. split; [intros E; apply NC; unfold cr in *; lra|]. split; congruence.
Qed.

(** The boxes of the vertices. *)
Lemma tri_vertices c rc : tri_at m c rc -> snd rc -> Forall (fun r => r_xu r = both r / 2 /\ r_xw r = both r / 2 /\ r_u r <> r_w r /\ exists f, deref m Line (r_h r) = Some f /\ Permutation (e_verts f) [r_u r; r_w r]) (fst rc).
Proof.
  intros (e & D & [X]) CL.
  destruct X as (v0 & v1 & v2 & p0 & p1 & p2 & h0 & h1 & h2 & C & r0 & r1 & r2 & EV & CP & EB & CC & ER & H0 & H1 & H2 & FV & SB & I0 & I1 & I2 & _ & FU).
  destruct (tri_data cfg m R K c e D) as (w0 & w1 & w2 & q0 & q1 & q2 & k0 & k1 & k2 & l0 & l1 & l2 & EV' & EB' & CP' & CO & EO & NV & NH & N0 & N1 & N2 & _).
  rewrite EV in EV'. injection EV' as <- <- <-. rewrite EB in EB'. injection EB' as <- <- <-. rewrite CP in CP'. injection CP' as <- <- <-.
  destruct (FU CL) as (-> & -> & ->). rewrite ER.
  inversion NV as [|? ? A1 A2]; subst. inversion A2 as [|? ? B1 _]; subst. cbn [In] in A1, B1.
  assert (G : forall h l u w pu pw z, In (h, l) [(h0, l0); (h1, l1); (h2, l2)] -> ends l (u, pu) (w, pw) -> u <> w ->
    r_xu (full_share h u w pu pw z C) = both (full_share h u w pu pw z C) / 2 /\ r_xw (full_share h u w pu pw z C) = both (full_share h u w pu pw z C) / 2 /\
    r_u (full_share h u w pu pw z C) <> r_w (full_share h u w pu pw z C) /\ exists f, deref m Line (r_h (full_share h u w pu pw z C)) = Some f /\ Permutation (e_verts f) [r_u (full_share h u w pu pw z C); r_w (full_share h u w pu pw z C)]).
  { intros h l u w pu pw z HI EN NE. unfold both, full_share. cbn [r_xu r_xw r_u r_w r_h]. split; [field|]. split; [field|]. split; auto.
    destruct (edge_entry e _ h l EO HI) as (f & Df & Cf). exists f. split; auto. apply (entry_ends h f l u w pu pw Df Cf EN). }
  constructor; [|constructor; [|constructor; [|constructor]]].
  - apply (G h0 l0); auto; cbn; auto.
  - apply (G h1 l1); auto; cbn; auto.
  - apply (G h2 l2); auto; cbn; auto.
Qed.
End Edge.
