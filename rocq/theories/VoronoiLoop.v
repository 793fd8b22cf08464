(** The loop over the triangles. *)
From Coq Require Import Reals List Arith Bool Lia Lra Permutation.
From Verif Require Import ModelTopo ModelMesh ModelErase ModelQuery ModelGeom ModelVolume ModelDistance ModelSurface ModelVoronoi
  SpecMesh SpecErase SpecQuery SpecCopy SpecRefine SpecGeom SpecDistance SpecSurface SpecVoronoi.
From Verif Require Import MeshBase MeshInv MeshWf MeshErase MeshSimple MeshProofs CopyBase QueryBase QueryProofs VolumeProofs CenterProofs DistanceProofs.
From Verif Require Import RefineMeshLoop VoronoiGeom VoronoiUpd VoronoiTri VoronoiMesh VoronoiStep.
Import ListNotations.
Local Open Scope R_scope.

Lemma ofold_cons {A S} (f : S -> A -> option S) x l s : ofold f (x :: l) s = obind (f s x) (fun s1 => ofold f l s1).
Proof. reflexivity. Qed.

Section Loop.
Variable cfg : config.
Variable m : @mesh point.
Hypothesis R : reach cfg m.
Hypothesis K : cfg_keep cfg Line = true.
Hypothesis ND : forall c e p0 p1 p2, deref m Triangle c = Some e -> cell_points m e = Some [p0; p1; p2] -> cr p0 p1 p2 <> 0.

Definition tri_at (c : addr) (rc : list share_rec * Prop) : Prop := exists e, deref m Triangle c = Some e /\ tri_rs m c e (fst rc) (snd rc).
Definition all_parts (q : vquantity) (rcs : list (list share_rec * Prop)) (x : addr) := Rsum (map (fun rc => parts q (fst rc) x) rcs).

Lemma triangles_loop l : forall q1 s1, qreach cfg q1 -> q_mesh q1 = m -> (forall c, In c l -> is_live m Triangle c) ->
  exists q2 s2 rcs, ofold triangle_step l (q1, s1) = Some (q2, s2) /\ qreach cfg q2 /\ q_mesh q2 = m /\ Forall2 tri_at l rcs /\
    (forall q x, vo_val s2 q x = vo_val s1 q x + all_parts q rcs x) /\
    (forall q x, q <> InterfaceArea \/ Forall (fun rc => snd rc) rcs -> con_sum (vo_con s2 q x) = con_sum (vo_con s1 q x) + all_parts q rcs x) /\
    ((forall q x, NoDup (map fst (vo_con s1 q x))) -> forall q x, NoDup (map fst (vo_con s2 q x))) /\
    (forall q x k, In k (map fst (vo_con s2 q x)) -> In k (map fst (vo_con s1 q x)) \/ is_live m Triangle k).
Proof.
  induction l as [|c l IH]; intros q1 s1 Q M L.
  - exists q1, s1, []. split; [reflexivity|]. split; auto. split; auto. split; [constructor|]. unfold all_parts. cbn [map]. rewrite Rsum_nil.
    split; [intros; lra|]. split; [intros; lra|]. split; auto.
  - destruct (L c (or_introl eq_refl)) as (e & D).
    destruct (triangle_result cfg m R K q1 s1 c e Q M D (fun p0 p1 p2 => ND c e p0 p1 p2 D)) as (qa & uss & rs & closed & E1 & Qa & Ma & F & T).
    destruct (IH qa (apply_updates true (List.concat uss) s1) Qa Ma) as (q2 & s2 & rcs & E2 & Q2 & M2 & F2 & V & CS & NDP & KE); [intros; apply L; now right|].
    exists q2, s2, ((rs, closed) :: rcs). rewrite ofold_cons, E1. cbn [obind]. split; [exact E2|]. split; auto. split; auto.
    split; [constructor; auto; exists e; auto|].
    pose proof (concat_set _ _ _ _ F) as CS1. pose proof (concat_delta _ _ _ _ F) as CD. pose proof (concat_entered _ _ _ _ F) as CE. pose proof (concat_cells _ _ _ _ F) as CC.
    split; [|split; [|split]].
    + intros q x. rewrite V, apply_val by exact CS1. rewrite CD. unfold all_parts. cbn [map]. rewrite Rsum_cons. cbn [fst]. lra.
    + intros q x HQ. rewrite CS by (destruct HQ as [|HQ]; [auto|right; now inversion HQ]). rewrite apply_con, CE by (destruct HQ as [|HQ]; [auto|right; inversion HQ; auto]).
      rewrite CD. unfold all_parts. cbn [map]. rewrite Rsum_cons. cbn [fst]. lra.
    + intros H. apply NDP. now apply apply_NoDup.
    + intros q x k H. destruct (KE q x k H) as [H1|H1]; [|now right]. destruct (apply_keys _ _ _ _ _ _ H1) as [H2|(u & HU & EU)]; [now left|right].
      rewrite Forall_forall in CC. specialize (CC u HU). now rewrite EU in CC.
Qed.

(** ** Totals *)
Lemma tri_at_volume c rc : tri_at c rc -> exists x, has_volume 2 m Triangle c x /\ Rsum (map both (fst rc)) = x.
Proof.
  intros (e & D & [T]). destruct T as (v0 & v1 & v2 & p0 & p1 & p2 & h0 & h1 & h2 & C & r0 & r1 & r2 & EV & CP & EB & CC & ER & _ & _ & _ & _ & SB & _).
  eexists. split; [|exact SB]. exists [p0; p1; p2]. split.
  - exists e. split; auto. rewrite EV. unfold cell_points in CP. rewrite EV in CP. cbn [omap] in CP.
    assert (X : forall v p, obind (deref m Vertex v) e_pt = Some p -> exists ev, deref m Vertex v = Some ev /\ e_pt ev = Some p) by (intros v p H; destruct (deref m Vertex v) as [ev|]; [|discriminate]; exists ev; auto).
    destruct (obind (deref m Vertex v0) e_pt) as [x0|] eqn:E0; [|discriminate]. destruct (obind (deref m Vertex v1) e_pt) as [x1|] eqn:E1; [|discriminate]. destruct (obind (deref m Vertex v2) e_pt) as [x2|] eqn:E2; [|discriminate].
    cbn [obind] in CP. injection CP as -> -> ->. repeat (constructor; [auto|]). constructor.
  - cbn [shape_of volume_cell]. apply sv3.
Qed.
Lemma tri_at_edges c rc : tri_at c rc -> Forall (fun r => is_live m Vertex (r_u r) /\ is_live m Vertex (r_w r) /\ is_live m Line (r_h r)) (fst rc).
Proof.
  intros (e & D & [T]). destruct T as (v0 & v1 & v2 & p0 & p1 & p2 & h0 & h1 & h2 & C & r0 & r1 & r2 & EV & CP & EB & CC & ER & H0 & H1 & H2 & FV & _).
  destruct (C03_vertices_stored_pf point cfg m R Triangle c e) as (_ & _ & LV); auto; [discriminate|]. rewrite Forall_forall in LV.
  assert (LE : forall h, In h (boundary_of e Line) -> is_live m Line h).
  { intros h HI. apply deref_In in D as (n & Hn & _ & <-). apply live_is_live. eapply boundary_live; eauto. now apply (reach_wf cfg). }
  rewrite Forall_forall in *. intros r HI. destruct (FV r HI) as [U W]. split; [auto|]. split; [auto|]. apply LE. rewrite EB. rewrite ER in HI. cbn in HI |- *. intuition (subst; auto).
Qed.
Lemma all_parts_sum q cs rcs l : Forall2 tri_at cs rcs -> (forall c rc r, tri_at c rc -> In r (fst rc) -> Rsum (map (part q r) l) = both r) ->
  Rsum (map (all_parts q rcs) l) = Rsum (map (fun rc => Rsum (map both (fst rc))) rcs).
Proof.
  intros F H. unfold all_parts. rewrite (RefineGeom.Rsum_swap (fun x rc => parts q (fst rc) x)). f_equal. 
  induction F as [|c rc cs rcs T F IH]; [reflexivity|]. cbn [map]. f_equal; [|exact IH]. apply parts_sum. intros r HI. eapply H; eauto.
Qed.
End Loop.

(** ** Circumcenters and signed distances *)
Lemma circ_unique C Z P A B : centered C P A B -> centered Z P A B -> forall i, (i < 2)%nat -> Z i = C i.
Proof.
  intros (N & E1 & E2) (_ & F1 & F2) i Hi. rewrite (bary_coord P A B C N i Hi), (bary_coord P A B Z N i Hi).
  assert (DD : cr P A B * cr P A B <> 0) by (apply Rmult_integral_contrapositive; auto).
  pose proof (beta_eq P A B C N E1 E2) as B1. pose proof (beta_eq P A B Z N F1 F2) as B2. pose proof (gamma_eq P A B C N E1 E2) as G1. pose proof (gamma_eq P A B Z N F1 F2) as G2.
  pose proof (bary_sum P A B C N) as S1. pose proof (bary_sum P A B Z N) as S2.
  assert (EB : beta P A B Z = beta P A B C). { apply (Rmult_eq_reg_r (cr P A B * cr P A B)); [lra|exact DD]. }
  assert (EG : gamma P A B Z = gamma P A B C). { apply (Rmult_eq_reg_r (cr P A B * cr P A B)); [lra|exact DD]. }
  replace (alpha P A B Z) with (alpha P A B C) by lra. rewrite EB, EG. reflexivity.
Qed.
Lemma dot2 n v : dot 2 n v = n 0%nat * v 0%nat + n 1%nat * v 1%nat.
Proof. unfold dot. cbn [seq map]. rewrite !Rsum_cons, Rsum_nil. ring. Qed.
Lemma circle_centered z a b p : cr a b p <> 0 -> circle_centre z a b p -> centered z a b p.
Proof. intros N [E1 E2]. rewrite !dist_sq_sq in *. split; auto. split; congruence. Qed.
Lemma signed_iface a b p z y : cr a b p <> 0 -> signed_distance a b p z y -> y = iface z a b p.
Proof.
  intros N (n & N1 & N2 & N3 & ->). rewrite !dot2 in *. unfold psub in *.
  set (v0 := b 0%nat - a 0%nat) in *. set (v1 := b 1%nat - a 1%nat) in *. set (k := v0 * n 1%nat - v1 * n 0%nat).
  assert (X : forall w : point, cr a b w = k * (n 0%nat * (w 0%nat - a 0%nat) + n 1%nat * (w 1%nat - a 1%nat))).
  { intros w. unfold cr, k. fold v0 v1. 
    replace ((v0 * n 1%nat - v1 * n 0%nat) * (n 0%nat * (w 0%nat - a 0%nat) + n 1%nat * (w 1%nat - a 1%nat))) with
      ((v0 * (w 1%nat - a 1%nat) - v1 * (w 0%nat - a 0%nat)) * (n 0%nat * n 0%nat + n 1%nat * n 1%nat) + (n 0%nat * v0 + n 1%nat * v1) * (n 1%nat * (w 0%nat - a 0%nat) - n 0%nat * (w 1%nat - a 1%nat))) by ring.
    rewrite N1, N2. ring. }
  assert (KK : k * k = sq a b).
  { replace (k * k) with ((v0 * v0 + v1 * v1) * (n 0%nat * n 0%nat + n 1%nat * n 1%nat) - (n 0%nat * v0 + n 1%nat * v1) * (n 0%nat * v0 + n 1%nat * v1)) by (unfold k; ring).
    rewrite N1, N2. unfold sq, v0, v1. ring. }
  unfold iface, gamma. rewrite <- KK. change (k * k) with (Rsqr k). rewrite sqrt_Rsqr_abs. rewrite !X in *.
  set (dp := n 0%nat * (p 0%nat - a 0%nat) + n 1%nat * (p 1%nat - a 1%nat)) in *. assert (K0 : k <> 0) by (intros E; apply N; rewrite E; ring).
  rewrite Rabs_mult, (Rabs_pos_eq dp) by lra. assert (Rabs k <> 0) by now apply Rabs_no_R0. field. repeat split; auto; lra.
Qed.
Lemma sqrt_sq_pos a b p : cr a b p <> 0 -> 0 < sqrt (sq a b).
Proof. intros N. apply sqrt_lt_R0. rewrite sq_sym. apply (sq_nonzero a b p N). Qed.
Lemma signed_exists a b p z : cr a b p <> 0 -> signed_distance a b p z (iface z a b p).
Proof.
  intros N. pose proof (sqrt_sq_pos a b p N) as L. set (s := sqrt (sq a b)) in *. set (g := cr a b p / Rabs (cr a b p)).
  assert (A0 : Rabs (cr a b p) <> 0) by now apply Rabs_no_R0.
  assert (GG : g * g = 1). { unfold g. assert (E : cr a b p * cr a b p = Rabs (cr a b p) * Rabs (cr a b p)) by (rewrite <- Rabs_mult; symmetry; apply Rabs_pos_eq; apply Rle_0_sqr). 
     replace (cr a b p / Rabs (cr a b p) * (cr a b p / Rabs (cr a b p))) with ((cr a b p * cr a b p) / (Rabs (cr a b p) * Rabs (cr a b p))) by (field; auto). rewrite E. field. auto. }
  assert (SS : s * s = sq a b) by (unfold s; apply sqrt_sqrt; apply sq_pos).
  exists (fun i => match i with O => - (b 1%nat - a 1%nat) * (g / s) | _ => (b 0%nat - a 0%nat) * (g / s) end). rewrite !dot2. unfold psub.
  split; [|split; [|split]].
  - transitivity (sq a b * (g * g) / (s * s)); [unfold sq; field; lra|]. rewrite GG, SS. field. rewrite <- SS. nra.
  - field. lra.
  - replace (- (b 1%nat - a 1%nat) * (g / s) * (p 0%nat - a 0%nat) + (b 0%nat - a 0%nat) * (g / s) * (p 1%nat - a 1%nat)) with (g * cr a b p / s) by (unfold cr; field; lra).
    apply Rdiv_lt_0_compat; auto. replace (g * cr a b p) with (g * g * Rabs (cr a b p)) by (unfold g; field; auto). rewrite GG. assert (0 < Rabs (cr a b p)) by now apply Rabs_pos_lt. lra.
  - replace (- (b 1%nat - a 1%nat) * (g / s) * (z 0%nat - a 0%nat) + (b 0%nat - a 0%nat) * (g / s) * (z 1%nat - a 1%nat)) with (g * cr a b z / s) by (unfold cr; field; lra).
    unfold iface, gamma. fold s. unfold g.
    assert (E : cr a b p * cr a b p = Rabs (cr a b p) * Rabs (cr a b p)) by (rewrite <- Rabs_mult; symmetry; apply Rabs_pos_eq; apply Rle_0_sqr).
    replace (cr a b z / cr a b p * Rabs (cr a b p) / s) with (cr a b z * (Rabs (cr a b p) * Rabs (cr a b p)) / (cr a b p * Rabs (cr a b p) * s)) by (field; repeat split; auto; lra).
    rewrite <- E. field. repeat split; auto; lra.
Qed.
Lemma iface_ext C Z a b p : (forall i, (i < 2)%nat -> Z i = C i) -> iface Z a b p = iface C a b p.
Proof. intros H. unfold iface, gamma, cr. rewrite (H 0%nat), (H 1%nat) by lia. reflexivity. Qed.
