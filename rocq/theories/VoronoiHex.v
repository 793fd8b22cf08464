(** The boxes of hexahedra that are parallelepipeds. *)
From Coq Require Import Reals List Arith Bool Lia Lra Permutation.
From Verif Require Import ModelTopo ModelMesh ModelErase ModelQuery ModelGeom ModelVolume ModelDistance ModelSurface ModelVoronoi
  SpecMesh SpecErase SpecQuery SpecCopy SpecRefine SpecGeom SpecDistance SpecSurface SpecVoronoi.
From Verif Require Import MeshBase MeshInv MeshWf MeshErase MeshSimple MeshProofs CopyBase QueryBase QueryProofs VolumeProofs CenterProofs DistanceProofs.
From Verif Require Import RefineMeshLoop VoronoiGeom VoronoiUpd VoronoiTri VoronoiMesh VoronoiStep VoronoiLoop VoronoiEdge VoronoiGap VoronoiOther.
Import ListNotations.
Local Open Scope R_scope.

(** The determinant of u - o, v - p, w - q. *)
Definition D3 (u o v p w q : point) : R := determinant (fun i => u i - o i) (fun i => v i - p i) (fun i => w i - q i).

Lemma sv4 (C F x y : point) : spanned_volume 3 ([C; F] ++ [x; y]) = Some (Rabs (D3 F C x C y C / 6)).
Proof.
  unfold spanned_volume. cbn [app signed_spanned_volume option_map]. do 2 f_equal. unfold D3, determinant, inner_prod, cross_prod, psub. cbn. field.
Qed.
Lemma both_hex C F pu pw r : spanned_volume 3 ([C; F] ++ [circumcenter_line pu pw; pu]) = Some (r_xu r) -> spanned_volume 3 ([C; F] ++ [circumcenter_line pu pw; pw]) = Some (r_xw r) ->
  both r = Rabs (D3 F C pu F pw F) / 6.
Proof.
  intros H1 H2. rewrite sv4 in H1, H2. injection H1 as H1. injection H2 as H2. unfold both. rewrite <- H1, <- H2.
  assert (E1 : D3 F C (circumcenter_line pu pw) C pu C = - (D3 F C pu F pw F / 2)) by (unfold D3, determinant; rewrite !mid_coord; field).
  assert (E2 : D3 F C (circumcenter_line pu pw) C pw C = D3 F C pu F pw F / 2) by (unfold D3, determinant; rewrite !mid_coord; field).
  rewrite E1, E2. replace (- (D3 F C pu F pw F / 2) / 6) with (- (D3 F C pu F pw F * / 12)) by field. replace (D3 F C pu F pw F / 2 / 6) with (D3 F C pu F pw F * / 12) by field.
  rewrite Rabs_Ropp, Rabs_mult, (Rabs_pos_eq (/ 12)) by lra. lra.
Qed.
Lemma D3_swap F C x y : Rabs (D3 F C x F y F) = Rabs (D3 F C y F x F).
Proof. replace (D3 F C x F y F) with (- D3 F C y F x F) by (unfold D3, determinant; ring). apply Rabs_Ropp. Qed.

Lemma mean4 (p0 p1 p2 p3 : point) i : circumcenter_mean [p0; p1; p2; p3] i = (p0 i + p1 i + p2 i + p3 i) / 4.
Proof. unfold circumcenter_mean, centroid, pdiv. cbn [points_sum length]. unfold padd, pzero. replace (INR 4) with 4 by (cbn; lra). field. Qed.
Lemma mean8 (p0 p1 p2 p3 p4 p5 p6 p7 : point) i : circumcenter_mean [p0; p1; p2; p3; p4; p5; p6; p7] i = (p0 i + p1 i + p2 i + p3 i + p4 i + p5 i + p6 i + p7 i) / 8.
Proof. unfold circumcenter_mean, centroid, pdiv. cbn [points_sum length]. unfold padd, pzero. replace (INR 8) with 8 by (cbn; lra). field. Qed.

(** Three of the four corners of a parallelogram span the same area. *)
Definition para (p0 p1 p2 p3 : point) : Prop := forall i, (i < 3)%nat -> p0 i + p3 i = p1 i + p2 i.
Lemma pick {A} (x : A) l k : Permutation (x :: l) k -> exists k1 k2, k = k1 ++ x :: k2 /\ Permutation l (k1 ++ k2).
Proof.
  intros P. assert (I : In x k) by (apply (Permutation_in _ P); now left). apply in_split in I as (k1 & k2 & ->). exists k1, k2. split; auto. now apply Permutation_cons_app_inv in P.
Qed.
Lemma perm_span (q0 q1 q2 q3 p0 p1 p2 p3 F C : point) : Permutation [q0; q1; q2; q3] [p0; p1; p2; p3] -> para p0 p1 p2 p3 ->
  Rabs (D3 F C q1 q0 q2 q0) = Rabs (D3 F C p1 p0 p2 p0).
Proof.
  intros P H. pose proof (H 0%nat ltac:(lia)) as H0. pose proof (H 1%nat ltac:(lia)) as H1. pose proof (H 2%nat ltac:(lia)) as H2. clear H.
  assert (E0 : p3 0%nat = p1 0%nat + p2 0%nat - p0 0%nat) by lra. assert (E1 : p3 1%nat = p1 1%nat + p2 1%nat - p0 1%nat) by lra. assert (E2 : p3 2%nat = p1 2%nat + p2 2%nat - p0 2%nat) by lra. clear H0 H1 H2.
  assert (X : D3 F C q1 q0 q2 q0 = D3 F C p1 p0 p2 p0 \/ D3 F C q1 q0 q2 q0 = - D3 F C p1 p0 p2 p0); [|destruct X as [-> | ->]; [reflexivity|apply Rabs_Ropp]].
  apply pick in P as (k1 & k2 & E & P).
  destruct k1 as [|a1 [|a2 [|a3 [|a4 [|? ?]]]]]; cbn [app] in E, P; try discriminate; injection E as; subst; cbn [app] in P;
  apply pick in P as (l1 & l2 & E & P);
  destruct l1 as [|b1 [|b2 [|b3 [|? ?]]]]; cbn [app] in E, P; try discriminate; injection E as; subst; cbn [app] in P;
  apply pick in P as (m1 & m2 & E & P);
  destruct m1 as [|c1 [|c2 [|? ?]]]; cbn [app] in E, P; try discriminate; injection E as; subst;
  unfold D3, determinant; rewrite ?E0, ?E1, ?E2; first [left; ring|right; ring].
Qed.
Lemma para_sum (q0 q1 q2 q3 F C : point) : para q0 q1 q2 q3 -> (forall i, F i = (q0 i + q1 i + q2 i + q3 i) / 4) ->
  Rabs (D3 F C q0 F q1 F) / 6 + (Rabs (D3 F C q0 F q2 F) / 6 + (Rabs (D3 F C q1 F q3 F) / 6 + (Rabs (D3 F C q2 F q3 F) / 6 + 0))) = Rabs (D3 F C q1 q0 q2 q0) / 3.
Proof.
  intros H EF. assert (E : forall i, (i < 3)%nat -> q3 i = q1 i + q2 i - q0 i) by (intros i Hi; specialize (H i Hi); lra).
  pose proof (E 0%nat ltac:(lia)) as E0. pose proof (E 1%nat ltac:(lia)) as E1. pose proof (E 2%nat ltac:(lia)) as E2. clear E H.
  assert (A : forall x y, x = y / 2 \/ x = - (y / 2) -> Rabs x = Rabs y / 2).
  { intros x y [-> | ->]; rewrite ?Rabs_Ropp; unfold Rdiv; rewrite Rabs_mult, (Rabs_pos_eq (/ 2)) by lra; reflexivity. }
  rewrite (A (D3 F C q0 F q1 F) (D3 F C q1 q0 q2 q0)), (A (D3 F C q0 F q2 F) (D3 F C q1 q0 q2 q0)), (A (D3 F C q1 F q3 F) (D3 F C q1 q0 q2 q0)), (A (D3 F C q2 F q3 F) (D3 F C q1 q0 q2 q0)); [lra| | | |];
    unfold D3, determinant; rewrite !EF, ?E0, ?E1, ?E2; first [left; field|right; field].
Qed.

(** The faces of a parallelepiped. *)
Lemma cell_faces (ps : list point) o a b c idx F0 F1 F2 F3 : Forall2 same_in_space ps (parallelepiped o a b c) -> In idx (ref_facets Hex Quad) -> selects ps idx [F0; F1; F2; F3] ->
  para F0 F1 F2 F3 /\ forall F, (forall i, F i = (F0 i + F1 i + F2 i + F3 i) / 4) ->
    Rabs (D3 F (circumcenter_mean ps) F1 F0 F2 F0) / 3 = Rabs (determinant a b c) / 6.
Proof.
  intros S I SE. unfold parallelepiped in S. cbn [map fst snd] in S.
  inversion S as [|p0 ? ? ? S0 X0]; subst. inversion X0 as [|p1 ? ? ? S1 X1]; subst. inversion X1 as [|p2 ? ? ? S2 X2]; subst. inversion X2 as [|p3 ? ? ? S3 X3]; subst.
  inversion X3 as [|p4 ? ? ? S4 X4]; subst. inversion X4 as [|p5 ? ? ? S5 X5]; subst. inversion X5 as [|p6 ? ? ? S6 X6]; subst. inversion X6 as [|p7 ? ? ? S7 X7]; subst. inversion X7; subst. clear S X0 X1 X2 X3 X4 X5 X6 X7.
  unfold same_in_space in *.
  assert (A : forall x, x = determinant a b c / 2 \/ x = - (determinant a b c / 2) -> Rabs x / 3 = Rabs (determinant a b c) / 6).
  { intros x [-> | ->]; rewrite ?Rabs_Ropp; unfold Rdiv; rewrite Rabs_mult, (Rabs_pos_eq (/ 2)) by lra; lra. }
  cbn [ref_facets In] in I. unfold selects in SE.
  destruct I as [<-|[<-|[<-|[<-|[<-|[<-|[]]]]]]]; inversion SE as [|? ? ? ? Y0 Z0]; subst; inversion Z0 as [|? ? ? ? Y1 Z1]; subst; inversion Z1 as [|? ? ? ? Y2 Z2]; subst; inversion Z2 as [|? ? ? ? Y3 Z3]; subst; clear SE Z0 Z1 Z2 Z3;
    cbn [nth_error] in *; injection Y0 as <-; injection Y1 as <-; injection Y2 as <-; injection Y3 as <-;
    (split; [intros i Hi; rewrite ?S0, ?S1, ?S2, ?S3, ?S4, ?S5, ?S6, ?S7 by exact Hi; ring|]);
    intros F EF; apply A; unfold D3, determinant; rewrite !EF, !mean8, ?S0, ?S1, ?S2, ?S3, ?S4, ?S5, ?S6, ?S7 by lia; first [left; field|right; field].
Qed.

Lemma Forall2_len {A B} (Q : A -> B -> Prop) l k : Forall2 Q l k -> length l = length k.
Proof. induction 1; cbn; auto. Qed.
Section Hexes.
Variable cfg : config.
Variable m : @mesh point.
Hypothesis RC : reach cfg m.
Hypothesis K : cfg_keep cfg Line = true.
Hypothesis KQ : cfg_keep cfg Quad = true.
Hypothesis PG : forall f, is_live m Quad f -> parallelogram m f.

Definition face_vol (ps : list point) (f : addr) (x : R) : Prop :=
  exists g q0 q1 q2 q3, deref m Quad f = Some g /\ cell_points m g = Some [q0; q1; q2; q3] /\ x = Rabs (D3 (circumcenter_mean [q0; q1; q2; q3]) (circumcenter_mean ps) q1 q0 q2 q0) / 3.

Lemma faces_total c ps l : forall s, (forall f, In f l -> is_live m Quad f) -> exists uss rs xs, ofold (hex_face m c ps) l s = Some (apply_updates false (List.concat uss) s) /\
  Forall2 (edge_result (eq c) True) uss rs /\ Forall (live_rec m) rs /\ Forall2 (face_vol ps) l xs /\ Rsum (map both rs) = Rsum xs.
Proof.
  induction l as [|f l IH]; intros s L; [exists [], [], []; repeat split; constructor|]. destruct (L f (or_introl eq_refl)) as (g & D).
  destruct (corners cfg m RC Quad f g D) as (qs & CP & CO & _ & _ & L1 & L2); [discriminate|].
  destruct (face_records cfg m RC K Quad f g 3 c [circumcenter_mean ps; circumcenter_mean qs] (or_intror eq_refl) D (sv_3_defined _ _)) as (es & vs & uss & rs & E1 & E2 & E3 & E4 & E5 & E6 & E7).
  rewrite CO in E2. injection E2 as <-.
  destruct (IH (apply_updates false (List.concat uss) s)) as (uss' & rs' & xs & F1 & F2 & F3 & F4 & F5); [intros; apply L; now right|].
  assert (QV : Quad <> Vertex) by discriminate.
  destruct (PG f (L f (or_introl eq_refl))) as (q0 & q1 & q2 & q3 & HP & PA). pose proof (has_points_fun m Quad f _ _ HP (cell_has m Quad f g qs QV D CP)) as EP. subst qs.
  exists (uss ++ uss'), (rs ++ rs'), (Rabs (D3 (circumcenter_mean [q0; q1; q2; q3]) (circumcenter_mean ps) q1 q0 q2 q0) / 3 :: xs). rewrite ofold_cons. unfold hex_face at 1. rewrite D. cbn [obind]. rewrite CP, E1. cbn [obind]. rewrite E3. cbn [option_map obind].
  rewrite concat_app, apply_app. split; [exact F1|]. split; [now apply Forall2_app|]. split; [apply Forall_app; auto|]. split; [constructor; auto; exists g, q0, q1, q2, q3; auto|].
  rewrite map_app, Rsum_app, Rsum_cons, F5. f_equal. clear - E5 E6 PA L1 L2.
  destruct (e_verts g) as [|v0 [|v1 [|v2 [|v3 [|? ?]]]]]; try discriminate. cbn [combine] in E6. cbn [ref_facets] in E6.
  assert (G : forall i j x y he r, edge_at [(v0, q0); (v1, q1); (v2, q2); (v3, q3)] [i; j] he -> pair_rec 3 [circumcenter_mean ps; circumcenter_mean [q0; q1; q2; q3]] he r ->
     nth_error [(v0, q0); (v1, q1); (v2, q2); (v3, q3)] i = Some x -> nth_error [(v0, q0); (v1, q1); (v2, q2); (v3, q3)] j = Some y ->
     both r = Rabs (D3 (circumcenter_mean [q0; q1; q2; q3]) (circumcenter_mean ps) (snd x) (circumcenter_mean [q0; q1; q2; q3]) (snd y) (circumcenter_mean [q0; q1; q2; q3])) / 6).
  { intros i j x y he r (i' & j' & x' & y' & EI & X1 & X2 & EN) (u & pu & w & pw & EL & _ & Eu & Ew & V1 & V2) Y1 Y2. injection EI as <- <-. rewrite X1 in Y1. injection Y1 as <-. rewrite X2 in Y2. injection Y2 as <-.
    rewrite (both_hex (circumcenter_mean ps) (circumcenter_mean [q0; q1; q2; q3]) pu pw r) by auto. rewrite EL in EN. destruct EN as [EN|EN]; injection EN as <- <-; cbn [snd]; [reflexivity|]. now rewrite D3_swap. }
  inversion E6 as [|? he0 ? ? A0 B0]; subst. inversion B0 as [|? he1 ? ? A1 B1]; subst. inversion B1 as [|? he2 ? ? A2 B2]; subst. inversion B2 as [|? he3 ? ? A3 B3]; subst. inversion B3; subst.
  inversion E5 as [|? r0 ? ? C0 D0]; subst. inversion D0 as [|? r1 ? ? C1 D1]; subst. inversion D1 as [|? r2 ? ? C2 D2]; subst. inversion D2 as [|? r3 ? ? C3 D3']; subst. inversion D3'; subst.
  cbn [map]. rewrite !Rsum_cons, Rsum_nil. rewrite (G 0%nat 1%nat (v0, q0) (v1, q1) he0 r0), (G 0%nat 2%nat (v0, q0) (v2, q2) he1 r1), (G 1%nat 3%nat (v1, q1) (v3, q3) he2 r2), (G 2%nat 3%nat (v2, q2) (v3, q3) he3 r3) by auto.
  cbn [snd]. apply para_sum; auto. intros i. apply mean4.
Qed.

(** The points of a list of vertices, in any order. *)
Lemma points_perm vs ws ps qs : Forall2 (fun v p => point_at m v = Some p) vs ps -> Forall2 (fun v p => point_at m v = Some p) ws qs -> Permutation vs ws -> Permutation ps qs.
Proof.
  intros F G P. assert (X : forall us rs, Forall2 (fun v p => point_at m v = Some p) us rs -> rs = map (fun v => match point_at m v with Some p => p | None => pzero end) us).
  { induction 1 as [|v p us rs E _ IH]; [reflexivity|]. cbn [map]. now rewrite E, <- IH. }
  rewrite (X _ _ F), (X _ _ G). now apply Permutation_map.
Qed.
Lemma selects_points vs ps idx ws : Forall2 (fun v p => point_at m v = Some p) vs ps -> selects vs idx ws ->
  exists rs, selects ps idx rs /\ Forall2 (fun v p => point_at m v = Some p) ws rs.
Proof.
  intros F S. unfold selects in *. induction S as [|i w idx ws E S (rs & IH1 & IH2)]; [exists []; split; constructor|].
  destruct (Forall2_nth_error _ _ _ F _ _ E) as (p & E2 & E3). exists (p :: rs). split; constructor; auto.
Qed.

Lemma hex_total c e ps xs x : deref m Hex c = Some e -> cell_points m e = Some ps -> Forall2 (face_vol ps) (boundary_of e Quad) xs -> parallelepiped_volume m c x -> Rsum xs = x.
Proof.
  intros D CP FV (ps' & o & a & b & d & HP & S & ->). assert (HV : Hex <> Vertex) by discriminate.
  pose proof (has_points_fun m Hex c _ _ HP (cell_has m Hex c e ps HV D CP)) as EP. subst ps'.
  destruct (corners cfg m RC Hex c e D HV) as (ps' & CP' & _ & FP & _). rewrite CP in CP'. injection CP' as <-.
  destruct (C03_boundary_complete_pf point cfg m RC Hex c e D Quad) as [L F]; auto; try discriminate.
  assert (X : Forall (fun x => x = Rabs (determinant a b d) / 6) xs).
  { apply Forall_forall. intros x Hx. apply In_nth_error in Hx as (k & Hk).
    assert (Q : exists f, nth_error (boundary_of e Quad) k = Some f /\ face_vol ps f x).
    { clear - FV Hk. revert k Hk. induction FV as [|f y l xs H FV IH]; intros [|k] Hk; try discriminate; [injection Hk as <-; exists f; auto|]. apply IH in Hk. exact Hk. }
    destruct Q as (f & Ef & g & q0 & q1 & q2 & q3 & Dg & CG & ->).
    destruct (nth_error (ref_facets Hex Quad) k) as [idx|] eqn:Ei; [|exfalso; apply nth_error_None in Ei; assert (k < length (boundary_of e Quad))%nat by (apply nth_error_Some; congruence); lia].
    destruct (F k idx Ei) as (h & g' & ws & E1 & E2 & E3 & E4). rewrite Ef in E1. injection E1 as <-. rewrite Dg in E2. injection E2 as <-.
    destruct (selects_points _ _ _ _ FP E3) as (rs & SR & FR).
    assert (QV : Quad <> Vertex) by discriminate. destruct (corners cfg m RC Quad f g Dg QV) as (qs & CQ & _ & FQ & _). rewrite CG in CQ. injection CQ as <-.
    pose proof (points_perm _ _ _ _ FQ FR E4) as PP. pose proof (Permutation_length PP) as PL. destruct rs as [|F0 [|F1 [|F2 [|F3 [|? ?]]]]]; try discriminate.
    destruct (cell_faces ps o a b d idx F0 F1 F2 F3 S (nth_error_In _ _ Ei) SR) as (PA & V).
    rewrite (perm_span _ _ _ _ _ _ _ _ _ _ PP PA). apply V. intros i. rewrite mean4.
    pose proof (Rsum_perm _ _ (Permutation_map (fun p : point => p i) PP)) as RS. cbn [map] in RS. rewrite !Rsum_cons, !Rsum_nil in RS. lra. }
  assert (LX : length xs = 6%nat) by (rewrite <- (Forall2_len _ _ _ FV); exact L).
  destruct xs as [|x0 [|x1 [|x2 [|x3 [|x4 [|x5 [|? ?]]]]]]]; try discriminate.
  inversion X as [|? ? X0 Y0]; subst. inversion Y0 as [|? ? X1 Y1]; subst. inversion Y1 as [|? ? X2 Y2]; subst. inversion Y2 as [|? ? X3 Y3]; subst. inversion Y3 as [|? ? X4 Y4]; subst. inversion Y4 as [|? ? X5 Y5]; subst.
  rewrite !Rsum_cons, Rsum_nil. lra.
Qed.

Definition hex_records (c : addr) (rs : list share_rec) : Prop := Forall (live_rec m) rs /\ forall x, parallelepiped_volume m c x -> Rsum (map both rs) = x.
Lemma hexes_total l : forall s, (forall c, In c l -> is_live m Hex c) -> exists usss rss, ofold (hex_step m) l s = Some (apply_updates false (List.concat (List.concat usss)) s) /\
  Forall2 (edge_result (fun _ => True) True) (List.concat usss) (List.concat rss) /\ Forall2 hex_records l rss.
Proof.
  induction l as [|c l IH]; intros s L; [exists [], []; split; [reflexivity|split; constructor]|]. destruct (L c (or_introl eq_refl)) as (e & D).
  destruct (corners cfg m RC Hex c e D) as (ps & CP & _); [discriminate|].
  destruct (faces_total c ps (boundary_of e Quad) s) as (uss & rs & xs & E1 & E2 & E3 & E4 & E5).
  { intros f HI. pose proof D as D'. apply deref_In in D' as (n & Hn & _ & <-). apply live_is_live. eapply boundary_live; eauto. now apply (reach_wf cfg). }
  destruct (IH (apply_updates false (List.concat uss) s)) as (usss & rss & F1 & F2 & F3); [intros; apply L; now right|].
  exists (uss :: usss), (rs :: rss). rewrite ofold_cons. unfold hex_step at 1. rewrite D. cbn [obind]. rewrite CP. cbn [obind].
  change (ofold _ (boundary_of e Quad) s) with (ofold (hex_face m c ps) (boundary_of e Quad) s). rewrite E1. cbn [obind List.concat]. rewrite concat_app, apply_app. split; [exact F1|]. split.
  - apply Forall2_app; auto. clear - E2. induction E2; constructor; auto. eapply er_mono; [| |eassumption]; auto.
  - constructor; auto. split; auto. intros x Hx. rewrite E5. eapply hex_total; eauto.
Qed.
End Hexes.

(** The volume of a parallelepiped is determined by its corners. *)
Lemma box_fun m a x y : parallelepiped_volume m a x -> parallelepiped_volume m a y -> x = y.
Proof.
  intros (ps & o & a1 & b1 & d1 & H & S & ->) (ps' & o' & a2 & b2 & d2 & H' & S' & ->). pose proof (has_points_fun m Hex a _ _ H H') as EE. subst ps'. clear H H'.
  unfold parallelepiped in S, S'. cbn [map fst snd] in S, S'.
  inversion S as [|p0 ? ? ? S0 X0]; subst. inversion X0 as [|p1 ? ? ? S1 X1]; subst. inversion X1 as [|p2 ? ? ? S2 X2]; subst. inversion X2 as [|p3 ? ? ? S3 X3]; subst.
  inversion X3 as [|p4 ? ? ? S4 X4]; subst. clear X4.
  inversion S' as [|? ? ? ? T0 Y0]; subst. inversion Y0 as [|? ? ? ? T1 Y1]; subst. inversion Y1 as [|? ? ? ? T2 Y2]; subst. inversion Y2 as [|? ? ? ? T3 Y3]; subst.
  inversion Y3 as [|? ? ? ? T4 Y4]; subst. clear Y4 S S' X0 X1 X2 X3 Y0 Y1 Y2 Y3.
  unfold same_in_space, padd, pscale, pzero in *.
  assert (A : forall i, (i < 3)%nat -> a1 i = a2 i /\ b1 i = b2 i /\ d1 i = d2 i).
  { intros i Hi. specialize (S0 i Hi). specialize (S1 i Hi). specialize (S2 i Hi). specialize (S4 i Hi). specialize (T0 i Hi). specialize (T1 i Hi). specialize (T2 i Hi). specialize (T4 i Hi). cbn in *. lra. }
  f_equal. unfold determinant. destruct (A 0%nat) as (-> & -> & ->); [lia|]. destruct (A 1%nat) as (-> & -> & ->); [lia|]. destruct (A 2%nat) as (-> & -> & ->); [lia|]. reflexivity.
Qed.
