(** The updates of one triangle. *)
From Coq Require Import Reals List Arith Bool Lia Lra.
From Verif Require Import ModelTopo ModelMesh ModelGeom ModelVolume ModelVoronoi SpecRefine SpecGeom VolumeProofs VoronoiGeom VoronoiUpd.
Import ListNotations.
Local Open Scope R_scope.

Lemma mid_coord A B i : circumcenter_line A B i = (A i + B i) / 2.
Proof. unfold circumcenter_line, pdiv, padd. field. Qed.
Lemma mid_sym A B i : circumcenter_line A B i = (B i + A i) / 2.
Proof. unfold circumcenter_line, pdiv, padd. field. Qed.
Lemma gamma_sym u w z C : cr u w z <> 0 -> gamma u w z C = gamma w u z C.
Proof.
  intros N. unfold gamma. assert (N' : cr w u z <> 0) by (intros E; apply N; unfold cr in *; lra).
  replace (cr w u C) with (- cr u w C) by (unfold cr; ring). replace (cr w u z) with (- cr u w z) by (unfold cr; ring). field. exact N.
Qed.
Lemma abs_cr_swap a b c : Rabs (cr a b c) = Rabs (cr b a c).
Proof. replace (cr b a c) with (- cr a b c) by (unfold cr; ring). now rewrite Rabs_Ropp. Qed.
Lemma abs_cr_rot a b c : Rabs (cr a b c) = Rabs (cr b c a).
Proof. f_equal. unfold cr. ring. Qed.
Lemma sq_sym a b : sq a b = sq b a.
Proof. unfold sq. ring. Qed.

(** The record of an edge between [u] and [w], [z] the third point, if everything
    is counted. *)
Definition full_share (h u w : addr) (pu pw z C : point) : share_rec :=
  let x := gamma pu pw z C * Rabs (cr pu pw z) in mkShare h u w (x / sqrt (sq pu pw)) (x / 4) (x / 4).
(** The circumcenter of three points. *)
Definition centered (C P A B : point) : Prop := cr P A B <> 0 /\ sq C A = sq C P /\ sq C B = sq C P.
Lemma centered_swap C P A B : centered C P A B -> centered C A P B.
Proof. intros (N & E1 & E2). split; [intros E; apply N; unfold cr in *; lra|]. split; congruence. Qed.
Lemma centered_rot C P A B : centered C P A B -> centered C A B P.
Proof. intros (N & E1 & E2). split; [intros E; apply N; unfold cr in *; lra|]. split; congruence. Qed.

Lemma inside_edge c C h u pu w pw z : centered C pu pw z -> 0 <= gamma pu pw z C ->
  exists us, edge_updates 2 c [C] (h, [(u, pu); (w, pw)]) = Some us /\ edge_result (eq c) True us (full_share h u w pu pw z C).
Proof.
  intros (N & E1 & E2) G.
  assert (X : exists us, edge_updates 2 c [C] (h, [(u, pu); (w, pw)]) = Some us).
  { unfold edge_updates. cbn [fst snd midpoint obind app omap]. rewrite sv2. cbn [obind]. rewrite !sv3. cbn [obind option_map]. eauto. }
  destruct X as (us & X). exists us. split; auto. destruct (edge_updates_result _ _ _ _ _ _ _ _ _ X) as (i & xu & xw & Y1 & Y2 & Y3 & Y4).
  cbn [app] in Y1, Y2, Y3. rewrite sv2 in Y1. rewrite sv3 in Y2, Y3. injection Y1 as <-. injection Y2 as <-. injection Y3 as <-.
  pose proof (mid_coord pu pw) as M.
  rewrite (height pu pw z C N E1 _ (M _) (M _)), (area_P pu pw z C N _ (M _) (M _)), (area_A pu pw z C N _ (M _) (M _)) in Y4.
  rewrite Rabs_mult, (Rabs_pos_eq (gamma pu pw z C)) in Y4 by exact G. exact Y4.
Qed.

Section Cut.
Variables (c o : addr) (C ca cb across : point) (cut opp : addr).
Definition mine : addr -> Prop := fun k => k = c \/ k = o.
Lemma cut_closed u pu w pw z : centered C pu pw z -> gamma pu pw z C < 0 ->
  exists us, cut_edge_updates c (Some o) C cut ca cb across opp (cut, [(u, pu); (w, pw)]) = Some us /\
    edge_result mine True us (full_share cut u w pu pw z C).
Proof.
  intros (N & E1 & E2) G. unfold cut_edge_updates. cbn [fst snd midpoint obind omap]. rewrite Nat.eqb_refl. cbn [negb]. rewrite sv2. cbn [obind]. rewrite !sv3. cbn [obind option_map].
  eexists. split; [reflexivity|].
  pose proof (mid_coord pu pw) as M.
  rewrite (height pu pw z C N E1 _ (M _) (M _)), (area_P pu pw z C N _ (M _) (M _)), (area_A pu pw z C N _ (M _) (M _)).
  rewrite Rabs_mult, (Rabs_left (gamma pu pw z C)) by exact G. unfold full_share.
  cbn [map app fst snd fold_left]. constructor.
  - repeat (constructor; [reflexivity|]); constructor.
  - intros q x. unfold delta, part. cbn [map]. rewrite !Rsum_cons, Rsum_nil. unfold hit. destruct q; cbn [u_q u_el u_val vquantity_eqb andb r_h r_u r_w r_i r_xu r_xw].
    + destruct (Nat.eqb x cut); lra.
    + destruct (Nat.eqb x u), (Nat.eqb x w); lra.
    + destruct (Nat.eqb x cut); lra.
  - intros q x _. reflexivity.
  - repeat (constructor; [right; reflexivity|]); constructor.
Qed.
Lemma cut_open u pu w pw :
  exists us, cut_edge_updates c None C cut ca cb across opp (cut, [(u, pu); (w, pw)]) = Some us /\
    edge_result (eq c) False us (mkShare cut u w 0 0 0).
Proof.
  unfold cut_edge_updates. cbn [fst snd midpoint obind omap]. rewrite Nat.eqb_refl. cbn [negb]. eexists. split; [reflexivity|]. constructor.
  - constructor.
  - intros q x. unfold delta, part. cbn [map r_h r_u r_w r_i r_xu r_xw]. rewrite Rsum_nil. destruct q; [destruct (Nat.eqb x cut)|destruct (Nat.eqb x u), (Nat.eqb x w)|destruct (Nat.eqb x cut)]; lra.
  - intros q x _. reflexivity.
  - constructor.
Qed.

Variables (h p a : addr) (P A B : point).
Hypothesis CC : centered C P A B.
Hypothesis OUT : alpha P A B C < 0.
Hypothesis NE : a <> p.
Hypothesis NH : h <> cut.
Hypothesis HC : opp = p.
Hypothesis AB : (ca = A /\ cb = B) \/ (ca = B /\ cb = A).
Hypothesis Y0 : across 0%nat = YY P A B C 0%nat.
Hypothesis Y1 : across 1%nat = YY P A B C 1%nat.
Definition t_ := tt P A B C.
Definition u_ := uu P A B C.
Definition G := gamma P A B C * Rabs (cr P A B).
Lemma G_abs : Rabs (gamma P A B C * cr P A B) = G.
Proof. destruct CC as (N & E1 & E2). destruct (obtuse P A B C N E1 E2 OUT) as [_ Hg]. unfold G. rewrite Rabs_mult, (Rabs_pos_eq (gamma P A B C)) by lra. reflexivity. Qed.
(** What the edge gets from a triangle at the boundary. *)
Definition open_share : share_rec :=
  mkShare h p a (G / sqrt (sq P A)) (t_ * (G / 4) + u_ * ((1 - t_) * (G / 4))) (t_ * (G / 4)).

Ltac start M :=
  destruct CC as (N & E1 & E2);
  unfold cut_edge_updates; cbn [fst snd midpoint obind omap];
  destruct (Nat.eqb_spec cut h) as [F|_]; [congruence|]; cbn [negb];
  destruct (cut_M P A B C N _ (M 0%nat) (M 1%nat) OUT ca cb AB) as (x & HX & X0 & X1);
  rewrite HX; cbn [obind]; rewrite !sv2; cbn [obind]; unfold vertex_updates; cbn [fst snd]; rewrite HC, Nat.eqb_refl;
  destruct (Nat.eqb_spec a p) as [F|_]; [congruence|]; cbn [negb];
  rewrite !sv3; cbn [obind option_map];
  rewrite (len_own P A B C _ OUT x X0 X1), (len_far P A B C _ OUT x X0 X1),
    (own_P P A B C N _ (M 0%nat) (M 1%nat) OUT x X0 X1), (own_A P A B C N _ (M 0%nat) (M 1%nat) OUT x X0 X1),
    ?(far_A P A B C N _ (M 0%nat) (M 1%nat) OUT x X0 X1), (near_P P A B C N _ (M 0%nat) (M 1%nat) OUT x across X0 X1 Y0 Y1),
    ?(far_P P A B C N _ (M 0%nat) (M 1%nat) OUT x across X0 X1 Y0 Y1), (height P A B C N E1 _ (M 0%nat) (M 1%nat)), !G_abs; fold t_ u_.

Ltac fin :=
  eexists; split; [reflexivity|]; cbn [map app fst snd fold_left List.concat];
  constructor;
  [ repeat (constructor; [reflexivity|]); constructor
  | intros q x'; unfold delta, part; cbn [map]; rewrite !Rsum_cons, Rsum_nil; unfold hit;
    destruct q; cbn [u_q u_el u_val vquantity_eqb andb r_h r_u r_w r_i r_xu r_xw];
    [ destruct (Nat.eqb x' h); [unfold Rdiv; ring | lra]
    | destruct (Nat.eqb x' p), (Nat.eqb x' a); lra
    | destruct (Nat.eqb x' h); lra ]
  | intros q x' HQ; try reflexivity
  | repeat (constructor; [first [left; reflexivity | right; reflexivity | reflexivity | exact Logic.I]|]); constructor ].

Lemma split_closed l : l = [(p, P); (a, A)] \/ l = [(a, A); (p, P)] ->
  exists us, cut_edge_updates c (Some o) C cut ca cb across opp (h, l) = Some us /\ edge_result mine True us (full_share h p a P A B C).
Proof.
  unfold full_share. fold G. intros [->| ->].
  - start (mid_coord P A). fin.
  - start (mid_sym A P). fin.
Qed.
Lemma split_open l : l = [(p, P); (a, A)] \/ l = [(a, A); (p, P)] ->
  exists us, cut_edge_updates c None C cut ca cb across opp (h, l) = Some us /\ edge_result (eq c) False us open_share.
Proof.
  unfold open_share. intros [->| ->].
  - start (mid_coord P A). fin. destruct HQ as [HQ|[]]. unfold entered, delta. cbn [map]. rewrite !Rsum_cons, !Rsum_nil. unfold hit. destruct q; [congruence|reflexivity|reflexivity].
  - start (mid_sym A P). fin. destruct HQ as [HQ|[]]. unfold entered, delta. cbn [map]. rewrite !Rsum_cons, !Rsum_nil. unfold hit. destruct q; [congruence|reflexivity|reflexivity].
Qed.
End Cut.

(** ** All edges of a triangle *)
Lemma er_mono (ok ok' : addr -> Prop) (closed closed' : Prop) us r : (forall k, ok k -> ok' k) -> (closed' -> closed) -> edge_result ok closed us r -> edge_result ok' closed' us r.
Proof.
  intros H1 H2 [E1 E2 E3 E4]. constructor; auto.
  - intros q x [H|H]; apply E3; auto.
  - refine (Forall_impl _ _ E4). intros u. destruct (u_cell u); auto.
Qed.
Lemma er_ext ok closed us r r' : (forall q x, part q r x = part q r' x) -> edge_result ok closed us r -> edge_result ok closed us r'.
Proof. intros H [E1 E2 E3 E4]. constructor; auto. intros q x. now rewrite E2. Qed.
Lemma full_share_swap h u w pu pw z C : cr pu pw z <> 0 -> forall q x, part q (full_share h u w pu pw z C) x = part q (full_share h w u pw pu z C) x.
Proof.
  intros N q x. unfold full_share. rewrite (gamma_sym pu pw z C N), (abs_cr_swap pu pw z), (sq_sym pu pw). destruct q; cbn [part r_h r_u r_w r_i r_xu r_xw]; lra.
Qed.
Definition ends (l : list (addr * point)) (x y : addr * point) : Prop := l = [x; y] \/ l = [y; x].
Lemma ends_sym l x y : ends l x y -> ends l y x.
Proof. unfold ends. tauto. Qed.

Lemma inside_any c C h l u pu w pw z : centered C pu pw z -> 0 <= gamma pu pw z C -> ends l (u, pu) (w, pw) ->
  exists us, edge_updates 2 c [C] (h, l) = Some us /\ edge_result (eq c) True us (full_share h u w pu pw z C).
Proof.
  intros HC HG [->| ->].
  - apply inside_edge; auto.
  - destruct HC as (N & HC). destruct (inside_edge c C h w pw u pu z) as (us & E & ER).
    + apply centered_swap. split; auto.
    + now rewrite <- gamma_sym.
    + exists us. split; auto. eapply er_ext; [|exact ER]. intros q x. symmetry. now apply full_share_swap.
Qed.

Lemma alpha_swap P A B C : cr P A B <> 0 -> alpha P B A C = alpha P A B C.
Proof.
  intros N. unfold alpha. replace (cr C B A) with (- cr C A B) by (unfold cr; ring). replace (cr P B A) with (- cr P A B) by (unfold cr; ring). field. exact N.
Qed.
Lemma alpha_gamma P A B C : alpha P A B C = gamma A B P C.
Proof. unfold alpha, gamma. replace (cr C A B) with (cr A B C) by (unfold cr; ring). replace (cr P A B) with (cr A B P) by (unfold cr; ring). reflexivity. Qed.
Lemma YY_swap P A B C i : cr P A B <> 0 -> YY P B A C i = YY P A B C i.
Proof. intros N. unfold YY, uu. now rewrite alpha_swap. Qed.

Section Cell.
Variables (c : addr) (other : option addr) (C : point).
Definition okc : addr -> Prop := fun k => k = c \/ other = Some k.
Variables (p a b hPA hPB hAB : addr) (P A B : point) (lPA lPB lAB : list (addr * point)).
Hypothesis CC : centered C P A B.
Hypothesis OUT : alpha P A B C < 0.
Hypothesis NA : a <> p.
Hypothesis NB : b <> p.
Hypothesis HA : hPA <> hAB.
Hypothesis HB : hPB <> hAB.
Hypothesis EA : ends lPA (p, P) (a, A).
Hypothesis EB : ends lPB (p, P) (b, B).
Hypothesis EAB : ends lAB (a, A) (b, B).
Definition sh_PA := match other with Some _ => full_share hPA p a P A B C | None => open_share C hPA p a P A B end.
Definition sh_PB := match other with Some _ => full_share hPB p b P B A C | None => open_share C hPB p b P B A end.
Definition sh_AB := match other with Some _ => full_share hAB a b A B P C | None => mkShare hAB a b 0 0 0 end.

Lemma cut_parts : exists a' b' pa pb across, lAB = [(a', pa); (b', pb)] /\ line_intersection P C pa pb = Some across /\
  exists uPA uPB uAB,
    cut_edge_updates c other C hAB pa pb across p (hPA, lPA) = Some uPA /\ edge_result okc (other <> None) uPA sh_PA /\
    cut_edge_updates c other C hAB pa pb across p (hPB, lPB) = Some uPB /\ edge_result okc (other <> None) uPB sh_PB /\
    cut_edge_updates c other C hAB pa pb across p (hAB, lAB) = Some uAB /\ edge_result okc (other <> None) uAB sh_AB.
Proof.
  destruct CC as (N & Q1 & Q2).
  assert (X : exists a' b' pa pb, lAB = [(a', pa); (b', pb)] /\ ((pa = A /\ pb = B) \/ (pa = B /\ pb = A)) /\ ends [(a', pa); (b', pb)] (a, A) (b, B)).
  { destruct EAB as [E|E]; rewrite E; do 4 eexists; split; eauto; split; auto; [now left|now right]. }
  destruct X as (a' & b' & pa & pb & EL & HAB & EE). exists a', b', pa, pb.
  destruct (cut_P P A B C N OUT pa pb HAB) as (across & EX & Y0 & Y1). exists across. split; auto. split; auto.
  assert (CB : centered C P B A). { split; [intros E; apply N; unfold cr in *; lra|]. split; congruence. }
  assert (OB : alpha P B A C < 0) by (rewrite alpha_swap; auto).
  assert (HBA : (pa = B /\ pb = A) \/ (pa = A /\ pb = B)) by tauto.
  assert (Z0 : across 0%nat = YY P B A C 0%nat) by (rewrite YY_swap; auto).
  assert (Z1 : across 1%nat = YY P B A C 1%nat) by (rewrite YY_swap; auto).
  assert (CAB : centered C A B P) by (apply centered_rot; exact CC).
  assert (OG : gamma A B P C < 0) by (rewrite <- alpha_gamma; exact OUT).
  unfold sh_PA, sh_PB, sh_AB, okc. destruct other as [o|].
  - destruct (split_closed c o C pa pb across hAB p hPA p a P A B CC OUT NA HA eq_refl HAB Y0 Y1 lPA EA) as (uPA & F1 & R1).
    destruct (split_closed c o C pa pb across hAB p hPB p b P B A CB OB NB HB eq_refl HBA Z0 Z1 lPB EB) as (uPB & F2 & R2).
    assert (T : exists uAB, cut_edge_updates c (Some o) C hAB pa pb across p (hAB, lAB) = Some uAB /\ edge_result (mine c o) True uAB (full_share hAB a b A B P C)).
    { rewrite EL. destruct EE as [E|E]; injection E as -> -> -> ->.
      - apply cut_closed; auto.
      - destruct CAB as (N' & CAB). destruct (cut_closed c o C B A across hAB p b B a A P) as (us & F & R).
        + apply centered_swap. split; auto.
        + now rewrite <- gamma_sym.
        + exists us. split; auto. eapply er_ext; [|exact R]. intros q x. symmetry. now apply full_share_swap. }
    destruct T as (uAB & F3 & R3). exists uPA, uPB, uAB.
    assert (M : forall k, mine c o k -> k = c \/ Some o = Some k) by (unfold mine; intros k [->| ->]; auto).
    split; [exact F1|]. split; [eapply er_mono; [exact M| |exact R1]; auto|].
    split; [exact F2|]. split; [eapply er_mono; [exact M| |exact R2]; auto|].
    split; [exact F3|]. eapply er_mono; [exact M| |exact R3]; auto.
  - destruct (split_open c C pa pb across hAB p hPA p a P A B CC OUT NA HA eq_refl HAB Y0 Y1 lPA EA) as (uPA & F1 & R1).
    destruct (split_open c C pa pb across hAB p hPB p b P B A CB OB NB HB eq_refl HBA Z0 Z1 lPB EB) as (uPB & F2 & R2).
    assert (T : exists uAB, cut_edge_updates c None C hAB pa pb across p (hAB, lAB) = Some uAB /\ edge_result (eq c) False uAB (mkShare hAB a b 0 0 0)).
    { rewrite EL. destruct EE as [E|E]; injection E as -> -> -> ->.
      - apply cut_open.
      - destruct (cut_open c C B A across hAB p b B a A) as (us & F & R). exists us. split; auto. eapply er_ext; [|exact R].
        intros q x. unfold part. cbn [r_h r_u r_w r_i r_xu r_xw]. destruct q; lra. }
    destruct T as (uAB & F3 & R3). exists uPA, uPB, uAB.
    assert (M : forall k, c = k -> k = c \/ @None addr = Some k) by (intros k ->; auto).
    split; [exact F1|]. split; [eapply er_mono; [exact M| |exact R1]; auto|].
    split; [exact F2|]. split; [eapply er_mono; [exact M| |exact R2]; auto|].
    split; [exact F3|]. eapply er_mono; [exact M| |exact R3]; auto.
Qed.

(** What the three edges get adds up to the area. *)
Lemma cut_area : both sh_PA + both sh_PB + both sh_AB = Rabs (cr P A B) / 2.
Proof.
  destruct CC as (N & Q1 & Q2). pose proof (bary_sum P A B C N) as S.
  assert (GB : gamma P B A C = beta P A B C). { unfold gamma, beta. replace (cr P B C) with (- cr P C B) by (unfold cr; ring). replace (cr P B A) with (- cr P A B) by (unfold cr; ring). field. exact N. }
  unfold sh_PA, sh_PB, sh_AB, both. destruct other as [o|].
  - unfold full_share. cbn [r_xu r_xw]. rewrite GB, <- (alpha_gamma P A B), <- (abs_cr_rot P A B).
    replace (Rabs (cr P B A)) with (Rabs (cr P A B)) by (replace (cr P B A) with (- cr P A B) by (unfold cr; ring); now rewrite Rabs_Ropp).
    replace (alpha P A B C) with (1 - beta P A B C - gamma P A B C) by lra.
    field.
  - unfold open_share, t_, u_, G, tt, uu. cbn [r_xu r_xw]. rewrite (alpha_swap P A B C N). rewrite GB.
    replace (Rabs (cr P B A)) with (Rabs (cr P A B)) by (replace (cr P B A) with (- cr P A B) by (unfold cr; ring); now rewrite Rabs_Ropp).
    replace (gamma P A B C) with (1 - alpha P A B C - beta P A B C) by lra. field. split; lra.
Qed.
End Cell.
