(** The vertices and edges of cells, as the loops see them. *)
From Coq Require Import Reals List Arith Bool Lia Lra Permutation.
From Verif Require Import ModelTopo ModelMesh ModelErase ModelQuery ModelGeom ModelVolume ModelDistance ModelSurface ModelVoronoi
  SpecMesh SpecErase SpecQuery SpecCopy SpecRefine SpecGeom SpecDistance.
From Verif Require Import MeshBase MeshInv MeshWf MeshErase MeshSimple MeshProofs CopyBase QueryBase QueryProofs DistanceProofs VoronoiTri.
Import ListNotations.
Local Open Scope nat_scope.

Lemma Forall2_nth {A B} (Q : A -> B -> Prop) l : forall k, length l = length k -> (forall i x, nth_error l i = Some x -> exists y, nth_error k i = Some y /\ Q x y) -> Forall2 Q l k.
Proof.
  induction l as [|x l IH]; intros [|y k] L H; try discriminate; [constructor|]. constructor.
  - destruct (H 0 x eq_refl) as (y' & E & HQ). injection E as <-. auto.
  - apply IH; [cbn in L; lia|]. intros i z E. apply (H (S i) z E).
Qed.
Lemma combine_nth_error {A B} (l : list A) : forall (k : list B) i x y, nth_error l i = Some x -> nth_error k i = Some y -> nth_error (combine l k) i = Some (x, y).
Proof.
  induction l as [|a l IH]; intros k i x y H1 H2; destruct i as [|i]; try discriminate; destruct k as [|b k]; try discriminate; cbn in *.
  - congruence.
  - auto.
Qed.
Lemma Forall2_nth_error {A B} (Q : A -> B -> Prop) l k : Forall2 Q l k -> forall i x, nth_error l i = Some x -> exists y, nth_error k i = Some y /\ Q x y.
Proof. induction 1 as [|a b l k E F IH]; intros [|i] x H; try discriminate; cbn in *; [injection H as <-; eauto|auto]. Qed.

Section Mesh.
Variable cfg : config.
Variable m : @mesh point.
Hypothesis R : reach cfg m.
Hypothesis K : cfg_keep cfg Line = true.

Lemma live_point v : is_live m Vertex v -> exists p, point_at m v = Some p.
Proof.
  intros (ev & D). unfold point_at. rewrite D. cbn [obind]. apply deref_In in D as (n & Hn & _ & <-).
  pose proof (ereach_pointed cfg m (reach_ereach cfg m R) n Hn). destruct (e_pt (n_el n)); [eauto|congruence].
Qed.
Lemma points_of vs : Forall (is_live m Vertex) vs -> exists ps, omap (fun a => obind (deref m Vertex a) e_pt) vs = Some ps /\ Forall2 (fun v p => point_at m v = Some p) vs ps.
Proof.
  induction 1 as [|v vs L F (ps & E & H)]; [exists []; split; [reflexivity|constructor]|].
  destruct (live_point v L) as (p & P). exists (p :: ps). split; [|constructor; auto]. cbn [omap]. unfold point_at in P. rewrite P. cbn [obind]. rewrite E. reflexivity.
Qed.
Lemma corners t c e : deref m t c = Some e -> t <> Vertex -> exists ps,
  cell_points m e = Some ps /\ corners_of m e = Some (combine (e_verts e) ps) /\ Forall2 (fun v p => point_at m v = Some p) (e_verts e) ps /\
  NoDup (e_verts e) /\ length (e_verts e) = nverts t /\ length ps = nverts t.
Proof.
  intros D NV. destruct (C03_vertices_stored_pf point cfg m R t c e NV D) as (L & N & F). destruct (points_of _ F) as (ps & E & H).
  exists ps. unfold corners_of, cell_points. rewrite E. cbn [option_map]. repeat split; auto. rewrite <- L. symmetry. clear -H. induction H; cbn; congruence.
Qed.
Lemma edge_corners h f x y px py : deref m Line h = Some f -> Permutation (e_verts f) [x; y] -> point_at m x = Some px -> point_at m y = Some py ->
  exists l, corners_of m f = Some l /\ ends l (x, px) (y, py).
Proof.
  intros D P HX HY. unfold corners_of, cell_points. symmetry in P. unfold point_at in *. apply Permutation_length_2_inv in P as [-> | ->]; cbn [omap]; rewrite HX, HY; cbn [obind option_map combine]; eexists; split; try reflexivity; [now left|now right].
Qed.

Definition edge_at (vs : list (addr * point)) (idx : list nat) (he : addr * list (addr * point)) : Prop :=
  exists i j x y, idx = [i; j] /\ nth_error vs i = Some x /\ nth_error vs j = Some y /\ ends (snd he) x y.
Lemma edges_data t c e vs : t = Triangle \/ t = Quad -> deref m t c = Some e -> corners_of m e = Some vs -> exists es,
  edges_of m e = Some es /\ map fst es = boundary_of e Line /\ NoDup (boundary_of e Line) /\ Forall2 (edge_at vs) (ref_facets t Line) es.
Proof.
  intros T D HV. assert (TV : t <> Vertex) by (destruct T; subst; discriminate).
  destruct (corners t c e D TV) as (ps & _ & CO & FP & N & L1 & L2). rewrite CO in HV. injection HV as <-.
  destruct (C03_boundary_complete_pf point cfg m R t c e D Line) as [L F]; auto; try discriminate.
  { destruct T as [E|E]; rewrite E; discriminate. }
  assert (NB : NoDup (boundary_of e Line)).
  { pose proof D as D'. apply deref_In in D' as (n & Hn & _ & <-). apply (simple_boundary m t n); auto. apply (ereach_simple cfg). now apply reach_ereach. }
  assert (X : Forall2 (fun idx h => exists f vs, deref m Line h = Some f /\ selects (e_verts e) idx vs /\ Permutation (e_verts f) vs) (ref_facets t Line) (boundary_of e Line)).
  { apply Forall2_nth; [auto|]. intros k idx E. destruct (F k idx E) as (h & f & ws & E1 & E2 & E3 & E4). exists h. split; auto. exists f, ws. auto. }
  assert (I2 : forall idx, In idx (ref_facets t Line) -> exists i j, idx = [i; j]).
  { intros idx HI. destruct T as [E|E]; subst t; cbn [ref_facets In] in HI; intuition; subst; eauto. }
  clear F L TV. unfold edges_of. generalize dependent (ref_facets t Line). intros rf X I2.
  assert (Y : exists es, omap (fun h => obind (deref m Line h) (fun f => option_map (pair h) (corners_of m f))) (boundary_of e Line) = Some es /\
     map fst es = boundary_of e Line /\ Forall2 (edge_at (combine (e_verts e) ps)) rf es).
  { clear NB. induction X as [|idx h rf hs (f & ws & Df & S & P) X IH]; [exists []; repeat split; constructor|].
    destruct (I2 idx (or_introl eq_refl)) as (i & j & ->).
    destruct IH as (es & E1 & E2 & E3); [intros; apply I2; now right|].
    unfold selects in S. inversion S as [|? x1 ? l1 X1 X2]; subst. inversion X2 as [|? x2 ? l2 Y1 Y2]; subst. inversion Y2; subst.
    destruct (Forall2_nth_error _ _ _ FP _ _ X1) as (p1 & Z1 & W1). destruct (Forall2_nth_error _ _ _ FP _ _ Y1) as (p2 & Z2 & W2).
    destruct (edge_corners h f x1 x2 p1 p2 Df P W1 W2) as (l & EC & EN).
    exists ((h, l) :: es). cbn [omap]. rewrite Df. cbn [obind]. rewrite EC. cbn [option_map obind]. rewrite E1. cbn [obind map fst]. split; [reflexivity|]. split; [reflexivity|].
    constructor; auto. exists i, j, (x1, p1), (x2, p2). split; auto. split; [now apply combine_nth_error|]. split; [now apply combine_nth_error|exact EN]. }
  destruct Y as (es & E1 & E2 & E3). exists es. auto.
Qed.

Lemma tri_data c e : deref m Triangle c = Some e -> exists v0 v1 v2 p0 p1 p2 h0 h1 h2 l0 l1 l2,
  e_verts e = [v0; v1; v2] /\ boundary_of e Line = [h0; h1; h2] /\ cell_points m e = Some [p0; p1; p2] /\
  corners_of m e = Some [(v0, p0); (v1, p1); (v2, p2)] /\ edges_of m e = Some [(h0, l0); (h1, l1); (h2, l2)] /\
  NoDup [v0; v1; v2] /\ NoDup [h0; h1; h2] /\ ends l0 (v0, p0) (v1, p1) /\ ends l1 (v0, p0) (v2, p2) /\ ends l2 (v1, p1) (v2, p2) /\
  point_at m v0 = Some p0 /\ point_at m v1 = Some p1 /\ point_at m v2 = Some p2.
Proof.
  intros D. destruct (corners Triangle c e D) as (ps & CP & CO & FP & N & L1 & L2); [discriminate|].
  destruct (edges_data Triangle c e _ (or_introl eq_refl) D CO) as (es & E1 & E2 & NB & E3).
  destruct (e_verts e) as [|v0 [|v1 [|v2 [|? ?]]]]; try discriminate. destruct ps as [|p0 [|p1 [|p2 [|? ?]]]]; try discriminate.
  inversion FP as [|? ? ? ? P0 FP1]; subst. inversion FP1 as [|? ? ? ? P1 FP2]; subst. inversion FP2 as [|? ? ? ? P2 FP3]; subst. cbn [combine] in *.
  cbn [ref_facets] in E3. inversion E3 as [|? [h0 l0] ? ? A1 A2]; subst. inversion A2 as [|? [h1 l1] ? ? B1 B2]; subst. inversion B2 as [|? [h2 l2] ? ? C1 C2]; subst. inversion C2; subst.
  cbn [map fst] in E2.
  destruct A1 as (i & j & x & y & Ei & Ex & Ey & En). injection Ei as <- <-. cbn in Ex, Ey. injection Ex as <-. injection Ey as <-. cbn [snd] in En.
  destruct B1 as (i & j & x & y & Ei & Ex & Ey & En'). injection Ei as <- <-. cbn in Ex, Ey. injection Ex as <-. injection Ey as <-. cbn [snd] in En'.
  destruct C1 as (i & j & x & y & Ei & Ex & Ey & En''). injection Ei as <- <-. cbn in Ex, Ey. injection Ex as <-. injection Ey as <-. cbn [snd] in En''.
  exists v0, v1, v2, p0, p1, p2, h0, h1, h2, l0, l1, l2. rewrite <- E2 in *. repeat (split; [first [assumption|reflexivity]|]). assumption.
Qed.
End Mesh.
