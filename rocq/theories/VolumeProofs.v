(** Proofs of C28. *)
From Coq Require Import Reals List Arith Lia Lra Permutation Psatz.
From Verif Require Import ModelMesh ModelGeom ModelVolume SpecRefine SpecGeom VectorProofs SpannedProofs.
Import ListNotations.
Local Open Scope R_scope.

(** Sums. *)
Lemma Rsum_cons x l : Rsum (x :: l) = x + Rsum l.
Proof. reflexivity. Qed.
Lemma Rsum_nil : Rsum [] = 0.
Proof. reflexivity. Qed.
Lemma Rsum_app l1 l2 : Rsum (l1 ++ l2) = Rsum l1 + Rsum l2.
Proof. induction l1; cbn [app]; rewrite ?Rsum_cons, ?Rsum_nil, ?IHl1; lra. Qed.
Lemma Rsum_plus {A} (f g : A -> R) l : Rsum (map (fun x => f x + g x) l) = Rsum (map f l) + Rsum (map g l).
Proof. induction l; cbn [map]; rewrite ?Rsum_cons, ?Rsum_nil, ?IHl; lra. Qed.
Lemma Rsum_scal {A} c (f : A -> R) l : Rsum (map (fun x => c * f x) l) = c * Rsum (map f l).
Proof. induction l; cbn [map]; rewrite ?Rsum_cons, ?Rsum_nil, ?IHl; lra. Qed.
Lemma Rsum_ext {A} (f g : A -> R) l : (forall x, In x l -> f x = g x) -> Rsum (map f l) = Rsum (map g l).
Proof. intros H. f_equal. now apply map_ext_in. Qed.
Lemma Rsum_perm l1 l2 : Permutation l1 l2 -> Rsum l1 = Rsum l2.
Proof. induction 1; rewrite ?Rsum_cons; lra. Qed.
Lemma Rsum_nonneg l : Forall (fun x => 0 <= x) l -> 0 <= Rsum l.
Proof. induction 1; rewrite ?Rsum_cons, ?Rsum_nil; lra. Qed.
Lemma Rsum_abs_pos {A} (f : A -> R) l : (forall x, In x l -> 0 <= f x) -> Rsum (map (fun x => Rabs (f x)) l) = Rabs (Rsum (map f l)).
Proof.
  intros H. rewrite (Rsum_ext (fun x => Rabs (f x)) f) by (intros; apply Rabs_pos_eq; auto).
  symmetry. apply Rabs_pos_eq, Rsum_nonneg. rewrite Forall_map. now apply Forall_forall.
Qed.
Lemma Rsum_abs_same {A} (f : A -> R) l : (forall x, In x l -> 0 <= f x) \/ (forall x, In x l -> f x <= 0) ->
  Rsum (map (fun x => Rabs (f x)) l) = Rabs (Rsum (map f l)).
Proof.
  intros [H|H]; [now apply Rsum_abs_pos|].
  rewrite (Rsum_ext (fun x => Rabs (f x)) (fun x => Rabs (- 1 * f x))) by (intros; replace (-1 * f x) with (- f x) by ring; now rewrite Rabs_Ropp).
  rewrite Rsum_abs_pos by (intros x Hx; specialize (H x Hx); lra). rewrite Rsum_scal, Rabs_mult.
  replace (Rabs (-1)) with 1 by (rewrite Rabs_left; lra). lra.
Qed.
Lemma osum_some {A} (f : A -> R) l : osum (map (fun x => Some (f x)) l) = Some (Rsum (map f l)).
Proof. induction l; cbn [map osum]; auto. rewrite IHl. reflexivity. Qed.
Lemma osum_ext {A} (f g : A -> option R) l : (forall x, In x l -> f x = g x) -> osum (map f l) = osum (map g l).
Proof. intros H. f_equal. now apply map_ext_in. Qed.
Lemma osum_forall2 l vs : Forall2 (fun o v => o = Some v) l vs -> osum l = Some (Rsum vs).
Proof. induction 1; cbn; auto. subst. cbn. rewrite IHForall2. reflexivity. Qed.

(** Closed polygons. *)
Lemma pairs_combine {A} (x : A) l d z : pairs (x :: l) ++ [(last (x :: l) d, z)] = combine (x :: l) (l ++ [z]).
Proof.
  revert x. induction l as [|y l IH]; intros x; [reflexivity|].
  change (pairs (x :: y :: l)) with ((x, y) :: pairs (y :: l)). change (combine (x :: y :: l) ((y :: l) ++ [z])) with ((x, y) :: combine (y :: l) (l ++ [z])). rewrite <- (IH y). reflexivity.
Qed.
Lemma pairs_closed {A} (p0 : A) ps : pairs (p0 :: ps) ++ [(last (p0 :: ps) p0, p0)] = closed_edges (p0 :: ps).
Proof. apply pairs_combine. Qed.
Lemma telescope {A} (g : A -> R) x l z : Rsum (map (fun e => g (fst e) - g (snd e)) (combine (x :: l) (l ++ [z]))) = g x - g z.
Proof.
  revert x. induction l as [|y l IH]; intros x; [cbn; lra|].
  change (combine (x :: y :: l) ((y :: l) ++ [z])) with ((x, y) :: combine (y :: l) (l ++ [z])). cbn [map fst snd]. rewrite Rsum_cons, IH. lra.
Qed.
Lemma closed_telescope {A} (g : A -> R) ps : Rsum (map (fun e => g (fst e) - g (snd e)) (closed_edges ps)) = 0.
Proof. destruct ps as [|p0 ps]; [reflexivity|]. unfold closed_edges. rewrite telescope. lra. Qed.

Lemma shoelace_from (o : point) ps : Rsum (map (fun e => signed_area o (fst e) (snd e)) (closed_edges ps)) = shoelace ps.
Proof.
  unfold shoelace.
  rewrite (Rsum_ext _ (fun e : point * point => (fst e 0%nat * snd e 1%nat - snd e 0%nat * fst e 1%nat)
     + ((o 0%nat * fst e 1%nat - o 1%nat * fst e 0%nat) - (o 0%nat * snd e 1%nat - o 1%nat * snd e 0%nat)))).
  2:{ intros [x y] _. cbn [fst snd]. unfold signed_area. ring. }
  rewrite Rsum_plus, (closed_telescope (fun p : point => o 0%nat * p 1%nat - o 1%nat * p 0%nat)). apply Rplus_0_r.
Qed.

Lemma polygon_unfold d o ps : (3 <= length ps)%nat ->
  polygon_volume d o ps = option_map Rabs (osum (map (fun e => signed_spanned_volume d [o; fst e; snd e]) (closed_edges ps))).
Proof.
  intros L. destruct ps as [|p0 ps]; [cbn in L; lia|]. unfold polygon_volume.
  replace (Nat.ltb (length (p0 :: ps)) 3) with false by (symmetry; apply Nat.ltb_ge; auto). now rewrite pairs_closed.
Qed.

Lemma C28_polygon_plane_pf : forall origin ps, (3 <= length ps)%nat ->
  polygon_volume 2 origin ps = Some (Rabs (shoelace ps) / 2)%R.
Proof.
  intros o ps L. rewrite polygon_unfold by auto. cbn [signed_spanned_volume].
  rewrite (osum_some (fun e : point * point => (o 0%nat * (fst e 1%nat - snd e 1%nat) + fst e 0%nat * (snd e 1%nat - o 1%nat) + snd e 0%nat * (o 1%nat - fst e 1%nat)) / 2)).
  cbn [option_map]. f_equal.
  rewrite (Rsum_ext _ (fun e => / 2 * signed_area o (fst e) (snd e))) by (intros [x y] _; cbn [fst snd]; unfold signed_area; field).
  rewrite Rsum_scal, shoelace_from, Rabs_mult, (Rabs_pos_eq (/ 2)) by lra. field.
Qed.

Lemma C28_polygon_star_shaped_pf : forall O origin ps, (3 <= length ps)%nat ->
  (forall e, In e (closed_edges ps) -> 0 <= signed_area O (fst e) (snd e))%R \/
  (forall e, In e (closed_edges ps) -> signed_area O (fst e) (snd e) <= 0)%R ->
  exists vs, volumes_are (fun e => spanned_volume 2 [O; fst e; snd e]) (closed_edges ps) vs /\
    polygon_volume 2 origin ps = Some (Rsum vs).
Proof.
  intros O o ps L H. exists (map (fun e => Rabs (signed_area O (fst e) (snd e) / 2)) (closed_edges ps)). split.
  - unfold volumes_are. induction (closed_edges ps) as [|e l IH]; cbn [map]; constructor.
    + unfold spanned_volume. cbn. do 2 f_equal. unfold signed_area. field.
    + apply IH. destruct H as [H|H]; [left|right]; intros; apply H; now right.
  - rewrite C28_polygon_plane_pf by auto. f_equal. rewrite Rsum_abs_same.
    + rewrite (Rsum_ext _ (fun e => / 2 * signed_area O (fst e) (snd e))) by (intros; field).
      rewrite Rsum_scal, shoelace_from, Rabs_mult, (Rabs_pos_eq (/ 2)) by lra. field.
    + destruct H as [H|H]; [left|right]; intros e He; specialize (H e He); lra.
Qed.

Lemma closed_edges_map {A B} (f : A -> B) ps : closed_edges (map f ps) = map (fun e => (f (fst e), f (snd e))) (closed_edges ps).
Proof.
  destruct ps as [|p0 ps]; auto. unfold closed_edges. cbn [map].
  assert (G : forall l (l' : list A), combine (map f l) (map f l') = map (fun e => (f (fst e), f (snd e))) (combine l l')).
  { induction l; destruct l'; cbn; auto. now rewrite IHl. }
  rewrite <- G, map_app. reflexivity.
Qed.
Lemma place_area o a b q0 q1 q2 : orthonormal a b ->
  signed_spanned_volume 3 [place o a b q0; place o a b q1; place o a b q2] = Some (Rabs (signed_area q0 q1 q2) / 2).
Proof.
  intros (A & B & C). cbn [signed_spanned_volume]. f_equal. unfold Rdiv. f_equal.
  rewrite <- sqrt_Rsqr_abs. unfold norm_2. f_equal. unfold dot, Rsqr in *. cbn [map seq Rsum fold_right] in *. pt. unfold place, signed_area.
  set (X := (q1 0%nat - q0 0%nat) * (q2 1%nat - q0 1%nat) - (q1 1%nat - q0 1%nat) * (q2 0%nat - q0 0%nat)).
  transitivity (X * X * ((a 0%nat * a 0%nat + (a 1%nat * a 1%nat + (a 2%nat * a 2%nat + 0))) * (b 0%nat * b 0%nat + (b 1%nat * b 1%nat + (b 2%nat * b 2%nat + 0)))
    - (a 0%nat * b 0%nat + (a 1%nat * b 1%nat + (a 2%nat * b 2%nat + 0))) * (a 0%nat * b 0%nat + (a 1%nat * b 1%nat + (a 2%nat * b 2%nat + 0))))).
  - subst X. ring.
  - rewrite A, B, C. ring.
Qed.

Lemma C28_polygon_space_partial_pf : forall o a b q0 qs, orthonormal a b -> (2 <= length qs)%nat ->
  (forall e, In e (closed_edges (q0 :: qs)) -> 0 <= signed_area q0 (fst e) (snd e))%R \/
  (forall e, In e (closed_edges (q0 :: qs)) -> signed_area q0 (fst e) (snd e) <= 0)%R ->
  volume_cell 3 ShPolygon (map (place o a b) (q0 :: qs)) = volume_cell 2 ShPolygon (q0 :: qs).
Proof.
  intros o a b q0 qs O L H. unfold volume_cell. cbn [map].
  rewrite C28_polygon_plane_pf by (cbn; lia).
  rewrite polygon_unfold by (cbn; rewrite map_length; lia). change (place o a b q0 :: map (place o a b) qs) with (map (place o a b) (q0 :: qs)).
  rewrite closed_edges_map, map_map. cbn [fst snd].
  rewrite (osum_ext _ (fun e : point * point => Some (Rabs (signed_area q0 (fst e) (snd e)) / 2))) by (intros; now apply place_area).
  rewrite (osum_some (fun e : point * point => Rabs (signed_area q0 (fst e) (snd e)) / 2)). cbn [option_map]. f_equal.
  rewrite (Rsum_ext _ (fun e => / 2 * Rabs (signed_area q0 (fst e) (snd e)))) by (intros; field).
  rewrite Rsum_scal, Rsum_abs_same, shoelace_from by auto. rewrite Rabs_mult, Rabs_Rabsolu, (Rabs_pos_eq (/ 2)) by lra. field.
Qed.

Lemma C28_polygon_space_refuted_pf : exists qs o a b v2 v3, orthonormal a b /\ (3 <= length qs)%nat /\
  volume_cell 2 ShPolygon qs = Some v2 /\ volume_cell 3 ShPolygon (map (place o a b) qs) = Some v3 /\ (v2 < v3)%R.
Proof.
  exists [pt2 4 0; pt2 1 1; pt2 0 4; pt2 0 0], (fun _ => 0), (fun i => match i with O => 1 | _ => 0 end), (fun i => match i with S O => 1 | _ => 0 end), 4, 12.
  assert (O : orthonormal (fun i => match i with O => 1 | _ => 0 end) (fun i => match i with S O => 1 | _ => 0 end)) by (unfold orthonormal, dot; cbn; lra).
  split; [exact O|]. split; [cbn; lia|]. split; [|split; [|lra]].
  - unfold volume_cell. rewrite C28_polygon_plane_pf by (cbn; lia). unfold shoelace, pt2. cbn. f_equal. rewrite Rabs_pos_eq; lra.
  - unfold volume_cell. cbn [map]. rewrite polygon_unfold by (cbn; lia).
    cbn [closed_edges combine app map fst snd]. rewrite !place_area by exact O. unfold signed_area, pt2. cbn [osum obind option_map]. f_equal.
    rewrite (Rabs_pos_eq (_ + _)). 2:{ repeat (apply Rplus_le_le_0_compat; [apply Rmult_le_pos; [apply Rabs_pos|lra]|]). lra. }
    repeat match goal with |- context[Rabs ?x] => let y := eval cbn in x in first
      [ replace (Rabs x) with x by (symmetry; apply Rabs_pos_eq; lra) | replace (Rabs x) with (- x) by (symmetry; apply Rabs_left; lra) ] end. lra.
Qed.

(** Convex hulls in terms of explicit weights. *)
Lemma hull3 d p q r x : in_hull d [p; q; r] x <-> exists a b c, 0 <= a /\ 0 <= b /\ 0 <= c /\ a + b + c = 1 /\
  forall i, (i < d)%nat -> x i = a * p i + b * q i + c * r i.
Proof.
  unfold in_hull, weight_sum, weighted_coord. split.
  - intros (w & E & P & S & C). apply wps3 in E as (a & b & c & ->). inversion P as [|? ? P0 P1]; subst. inversion P1 as [|? ? P2 P3]; subst. inversion P3; subst. cbn in *.
    exists a, b, c. repeat split; auto; [lra|]. intros i Hi. rewrite C by auto. lra.
  - intros (a & b & c & A & B & C & S & X). exists [(a, p); (b, q); (c, r)]. cbn. repeat split; auto; [lra|]. intros i Hi. rewrite X by auto. lra.
Qed.
Lemma hull4 d p q r s x : in_hull d [p; q; r; s] x <-> exists a b c e, 0 <= a /\ 0 <= b /\ 0 <= c /\ 0 <= e /\ a + b + c + e = 1 /\
  forall i, (i < d)%nat -> x i = a * p i + b * q i + c * r i + e * s i.
Proof.
  unfold in_hull, weight_sum, weighted_coord. split.
  - intros (w & E & P & S & C). apply wps4 in E as (a & b & c & e & ->). inversion P as [|? ? P0 P1]; subst. inversion P1 as [|? ? P2 P3]; subst. inversion P3 as [|? ? P4 P5]; subst. inversion P5; subst. cbn in *.
    exists a, b, c, e. repeat split; auto; [lra|]. intros i Hi. rewrite C by auto. lra.
  - intros (a & b & c & e & A & B & C & E & S & X). exists [(a, p); (b, q); (c, r); (e, s)]. cbn. repeat split; auto; [lra|]. intros i Hi. rewrite X by auto. lra.
Qed.
Lemma interior3 d p q r x : in_interior d [p; q; r] x <-> exists a b c, 0 < a /\ 0 < b /\ 0 < c /\ a + b + c = 1 /\
  forall i, (i < d)%nat -> x i = a * p i + b * q i + c * r i.
Proof.
  unfold in_interior, weight_sum, weighted_coord. split.
  - intros (w & E & P & S & C). apply wps3 in E as (a & b & c & ->). inversion P as [|? ? P0 P1]; subst. inversion P1 as [|? ? P2 P3]; subst. inversion P3; subst. cbn in *.
    exists a, b, c. repeat split; auto; [lra|]. intros i Hi. rewrite C by auto. lra.
  - intros (a & b & c & A & B & C & S & X). exists [(a, p); (b, q); (c, r)]. cbn. repeat split; auto; [lra|]. intros i Hi. rewrite X by auto. lra.
Qed.
Lemma interior4 d p q r s x : in_interior d [p; q; r; s] x <-> exists a b c e, 0 < a /\ 0 < b /\ 0 < c /\ 0 < e /\ a + b + c + e = 1 /\
  forall i, (i < d)%nat -> x i = a * p i + b * q i + c * r i + e * s i.
Proof.
  unfold in_interior, weight_sum, weighted_coord. split.
  - intros (w & E & P & S & C). apply wps4 in E as (a & b & c & e & ->). inversion P as [|? ? P0 P1]; subst. inversion P1 as [|? ? P2 P3]; subst. inversion P3 as [|? ? P4 P5]; subst. inversion P5; subst. cbn in *.
    exists a, b, c, e. repeat split; auto; [lra|]. intros i Hi. rewrite C by auto. lra.
  - intros (a & b & c & e & A & B & C & E & S & X). exists [(a, p); (b, q); (c, r); (e, s)]. cbn. repeat split; auto; [lra|]. intros i Hi. rewrite X by auto. lra.
Qed.
Lemma hull8 d (ps : list point) x : length ps = 8%nat -> in_hull d ps x -> exists w0 w1 w2 w3 w4 w5 w6 w7,
  0 <= w0 /\ 0 <= w1 /\ 0 <= w2 /\ 0 <= w3 /\ 0 <= w4 /\ 0 <= w5 /\ 0 <= w6 /\ 0 <= w7 /\ w0 + w1 + w2 + w3 + w4 + w5 + w6 + w7 = 1 /\
  forall i, (i < d)%nat -> x i = Rsum (map (fun wp => fst wp * snd wp i) (combine [w0; w1; w2; w3; w4; w5; w6; w7] ps)).
Proof.
  intros L (w & E & P & S & C). assert (L8 : length w = 8%nat) by (rewrite <- L, <- E; now rewrite map_length).
  destruct w as [|[w0 p0] [|[w1 p1] [|[w2 p2] [|[w3 p3] [|[w4 p4] [|[w5 p5] [|[w6 p6] [|[w7 p7] [|]]]]]]]]]; cbn in L8; try lia. subst ps.
  repeat match goal with H : Forall _ (_ :: _) |- _ => inversion H; clear H; subst end. cbn [fst] in *.
  exists w0, w1, w2, w3, w4, w5, w6, w7. unfold weight_sum, weighted_coord in *. cbn in S, C |- *.
  repeat (split; [lra|]). auto.
Qed.

Lemma C28_quadrilateral_pf : forall p0 p1 p2 p3, convex_quad p0 p1 p2 p3 ->
  covers 2 [p0; p1; p2; p3] [[p0; p1; p3]; [p0; p3; p2]] /\
  no_overlap 2 [[p0; p1; p3]; [p0; p3; p2]] /\
  exists v vs, volume_cell 2 ShQuad [p0; p1; p2; p3] = Some v /\
    volumes_are (spanned_volume 2) [[p0; p1; p3]; [p0; p3; p2]] vs /\
    (v = Rsum vs <-> ((p1 0%nat - p0 0%nat) * (p3 1%nat - p2 1%nat) = (p1 1%nat - p0 1%nat) * (p3 0%nat - p2 0%nat))%R).
Proof.
  intros p0 p1 p2 p3 (A2 & A0 & A1 & A3).
  set (a2 := signed_area p0 p1 p3) in *. set (a0 := signed_area p1 p3 p2) in *. set (a1 := signed_area p3 p2 p0) in *. set (a3 := signed_area p2 p0 p1) in *.
  assert (K : forall i, (i < 2)%nat -> a0 * p0 i + a3 * p3 i = a1 * p1 i + a2 * p2 i).
  { apply lt2. unfold a0, a1, a2, a3, signed_area. split; ring. }
  assert (KS : a0 + a3 = a1 + a2) by (unfold a0, a1, a2, a3, signed_area; ring).
  split; [|split].
  - intros x. split.
    + intros H. apply hull4 in H as (w0 & w1 & w2 & w3 & W0 & W1 & W2 & W3 & S & X).
      assert (T : 0 <= w1 / a1 /\ 0 <= w2 / a2) by (split; apply Rmult_le_pos; auto; left; now apply Rinv_0_lt_compat). destruct T as [T1 T2].
      assert (M1 : w1 = w1 / a1 * a1) by (field; lra). assert (M2 : w2 = w2 / a2 * a2) by (field; lra).
      set (t1 := w1 / a1) in *. set (t2 := w2 / a2) in *. clearbody t1 t2. subst w1 w2.
      destruct (Rle_dec t1 t2) as [L|L].
      * exists [p0; p3; p2]. split; [right; now left|]. apply hull3. exists (w0 + t1 * a0), (w3 + t1 * a3), ((t2 - t1) * a2).
        split; [nra|]. split; [nra|]. split; [nra|]. split; [nra|]. intros i Hi. rewrite (X i Hi). specialize (K i Hi). nra.
      * exists [p0; p1; p3]. split; [now left|]. apply hull3. exists (w0 + t2 * a0), ((t1 - t2) * a1), (w3 + t2 * a3).
        split; [nra|]. split; [nra|]. split; [nra|]. split; [nra|]. intros i Hi. rewrite (X i Hi). specialize (K i Hi). nra.
    + intros (c & [<-|[<-|[]]] & H); apply hull3 in H as (a & b & c & W0 & W1 & W2 & S & X); apply hull4.
      * exists a, b, 0, c. repeat (split; [lra|]). intros i Hi. rewrite (X i Hi). ring.
      * exists a, 0, c, b. repeat (split; [lra|]). intros i Hi. rewrite (X i Hi). ring.
  - assert (G : forall x, in_interior 2 [p0; p1; p3] x -> in_interior 2 [p0; p3; p2] x -> False).
    { intros x H1 H2. apply interior3 in H1 as (a & b & c & W0 & W1 & W2 & S & X). apply interior3 in H2 as (a' & b' & c' & W0' & W1' & W2' & S' & X').
      apply (lt2 (fun i => _)) in X as [X0 X1]. apply (lt2 (fun i => _)) in X' as [X0' X1'].
      assert (E1 : signed_area p0 p3 x = - b * a2). { unfold signed_area, a2, signed_area. rewrite X0, X1. replace a with (1 - b - c) by lra. ring. }
      assert (E2 : signed_area p0 p3 x = c' * a1). { unfold signed_area, a1, signed_area. rewrite X0', X1'. replace a' with (1 - b' - c') by lra. ring. }
      rewrite E1 in E2. assert (0 < b * a2) by nra. assert (0 < c' * a1) by nra. lra. }
    intros i j ci cj x E1 E2 I1 I2.
    destruct i as [|[|i]]; [| |destruct i; discriminate E1]; (destruct j as [|[|j]]; [| |destruct j; discriminate E2]); auto;
      injection E1 as <-; injection E2 as <-; exfalso; eauto.
  - exists (a2 / 2 + a0 / 2), [a2 / 2; a1 / 2]. split; [|split].
    + unfold volume_cell, spanned_volume. cbn [signed_spanned_volume option_map osum obind]. f_equal.
      replace (p0 0%nat * (p1 1%nat - p3 1%nat) + p1 0%nat * (p3 1%nat - p0 1%nat) + p3 0%nat * (p0 1%nat - p1 1%nat)) with a2 by (unfold a2, signed_area; ring).
      replace (p1 0%nat * (p2 1%nat - p3 1%nat) + p2 0%nat * (p3 1%nat - p1 1%nat) + p3 0%nat * (p1 1%nat - p2 1%nat)) with (- a0) by (unfold a0, signed_area; ring).
      rewrite Rabs_pos_eq, Rabs_left by lra. lra.
    + unfold volumes_are. repeat constructor; unfold spanned_volume; cbn [signed_spanned_volume option_map]; f_equal.
      * rewrite <- (Rabs_pos_eq (a2 / 2)) by lra. f_equal. unfold a2, signed_area. field.
      * rewrite <- (Rabs_pos_eq (a1 / 2)) by lra. f_equal. unfold a1, signed_area. field.
    + rewrite !Rsum_cons, Rsum_nil.
      assert (Z : a0 - a1 = (p1 0%nat - p0 0%nat) * (p2 1%nat - p3 1%nat) - (p1 1%nat - p0 1%nat) * (p2 0%nat - p3 0%nat) \/
                  a0 - a1 = - ((p1 0%nat - p0 0%nat) * (p2 1%nat - p3 1%nat) - (p1 1%nat - p0 1%nat) * (p2 0%nat - p3 0%nat))) by (unfold a0, a1, signed_area; first [left; ring|right; ring]).
      split; intros H; [|]; destruct Z as [Z|Z]; lra.
Qed.

Lemma C28_parallelogram_pf : forall d p0 p1 p2 p3, (2 <= d <= 3)%nat ->
  (forall i, (i < d)%nat -> p3 i = p1 i + p2 i - p0 i)%R ->
  exists v, spanned_volume d [p0; p1; p2] = Some v /\ volume_cell d ShQuad [p0; p1; p2; p3] = Some (2 * v)%R.
Proof.
  intros d p0 p1 p2 p3 D H. unfold volume_cell, spanned_volume. destruct d as [|[|[|[|d]]]]; try lia; cbn [signed_spanned_volume option_map osum obind].
  - apply (lt2 (fun i => _)) in H as [H0 H1]. eexists. split; [reflexivity|]. f_equal. rewrite H0, H1.
    set (x := _ / 2). set (y := _ / 2). set (z := _ / 2).
    replace z with x by (subst x z; field). replace y with (- x) by (subst x y; field). rewrite Rabs_Ropp. lra.
  - apply (lt3 (fun i => _)) in H as (H0 & H1 & H2). eexists. split; [reflexivity|]. f_equal.
    set (x := norm_2 _ _). set (y := norm_2 _ _). set (z := norm_2 _ _).
    replace y with x. 2:{ subst x y. unfold norm_2. f_equal. pt. rewrite H0, H1, H2. ring. }
    replace z with x. 2:{ subst x z. unfold norm_2. f_equal. pt. rewrite H0, H1, H2. ring. }
    lra.
Qed.

Lemma C28_parallelepiped_pf : forall o a b c, independent 3 [o; padd o a; padd o b; padd o c] ->
  covers 3 (parallelepiped o a b c) (diagonal_tets (parallelepiped o a b c)) /\
  no_overlap 3 (diagonal_tets (parallelepiped o a b c)) /\
  exists vs, volumes_are (spanned_volume 3) (diagonal_tets (parallelepiped o a b c)) vs /\
    volume_cell 3 ShHex (parallelepiped o a b c) = Some (Rsum vs).
Proof.
  intros o a b c I.
  assert (Lin : forall s t u s' t' u', (forall i, (i < 3)%nat -> s * a i + t * b i + u * c i = s' * a i + t' * b i + u' * c i) -> s = s' /\ t = t' /\ u = u').
  { intros s t u s' t' u' H. apply indep4_lin in I.
    destruct (I (s - s') (t - t') (u - u')) as (A & B & C); [|repeat split; lra].
    intros i Hi. specialize (H i Hi). unfold psub, padd. lra. }
  assert (In3 : forall x, in_hull 3 (parallelepiped o a b c) x -> exists s t u, 0 <= s <= 1 /\ 0 <= t <= 1 /\ 0 <= u <= 1 /\ forall i, (i < 3)%nat -> x i = o i + s * a i + t * b i + u * c i).
  { intros x H. apply hull8 in H as (w0 & w1 & w2 & w3 & w4 & w5 & w6 & w7 & W0 & W1 & W2 & W3 & W4 & W5 & W6 & W7 & S & X); [|reflexivity].
    exists (w1 + w3 + w5 + w7), (w2 + w3 + w6 + w7), (w4 + w5 + w6 + w7). repeat (split; [split; lra|]).
    intros i Hi. rewrite (X i Hi). unfold parallelepiped. cbn. replace w0 with (1 - w1 - w2 - w3 - w4 - w5 - w6 - w7) by lra. ring. }
  split; [|split].
  - intros x. split.
    + intros H. apply In3 in H as (s & t & u & S & T & U & X). unfold diagonal_tets, parallelepiped. cbn [map nth].
      assert (Cases : (t <= s /\ u <= t) \/ (u <= s /\ t <= u) \/ (s <= t /\ u <= s) \/ (u <= t /\ s <= u) \/ (s <= u /\ t <= s) \/ (t <= u /\ s <= t)) by lra.
      destruct Cases as [C|[C|[C|[C|[C|C]]]]].
      * eexists. split; [now left|]. apply hull4. exists (1 - s), (s - t), (t - u), u. repeat (split; [lra|]). intros i Hi. rewrite (X i Hi). cbn. ring.
      * eexists. split; [right; now left|]. apply hull4. exists (1 - s), (s - u), (u - t), t. repeat (split; [lra|]). intros i Hi. rewrite (X i Hi). cbn. ring.
      * eexists. split; [do 2 right; now left|]. apply hull4. exists (1 - t), (t - s), (s - u), u. repeat (split; [lra|]). intros i Hi. rewrite (X i Hi). cbn. ring.
      * eexists. split; [do 3 right; now left|]. apply hull4. exists (1 - t), (t - u), (u - s), s. repeat (split; [lra|]). intros i Hi. rewrite (X i Hi). cbn. ring.
      * eexists. split; [do 4 right; now left|]. apply hull4. exists (1 - u), (u - s), (s - t), t. repeat (split; [lra|]). intros i Hi. rewrite (X i Hi). cbn. ring.
      * eexists. split; [do 5 right; now left|]. apply hull4. exists (1 - u), (u - t), (t - s), s. repeat (split; [lra|]). intros i Hi. rewrite (X i Hi). cbn. ring.
    + intros (t & Ht & H). unfold diagonal_tets, parallelepiped in Ht. cbn [map nth] in Ht.
      assert (G : forall w0 w1 w2 w3 w4 w5 w6 w7, 0 <= w0 -> 0 <= w1 -> 0 <= w2 -> 0 <= w3 -> 0 <= w4 -> 0 <= w5 -> 0 <= w6 -> 0 <= w7 ->
        w0 + w1 + w2 + w3 + w4 + w5 + w6 + w7 = 1 ->
        (forall i, (i < 3)%nat -> x i = o i + (w1 + w3 + w5 + w7) * a i + (w2 + w3 + w6 + w7) * b i + (w4 + w5 + w6 + w7) * c i) -> in_hull 3 (parallelepiped o a b c) x).
      { intros w0 w1 w2 w3 w4 w5 w6 w7 W0 W1 W2 W3 W4 W5 W6 W7 S X. exists (combine [w0; w1; w2; w3; w4; w5; w6; w7] (parallelepiped o a b c)).
        unfold parallelepiped, weight_sum, weighted_coord. cbn. split; [reflexivity|]. split; [repeat (apply Forall_cons; [cbn; assumption|]); apply Forall_nil|]. split; [lra|].
        intros i Hi. rewrite (X i Hi). replace w0 with (1 - w1 - w2 - w3 - w4 - w5 - w6 - w7) by lra. ring. }
      destruct Ht as [<-|[<-|[<-|[<-|[<-|[<-|[]]]]]]]; apply hull4 in H as (u0 & u1 & u2 & u3 & U0 & U1 & U2 & U3 & S & X); cbn in X.
      * apply (G u0 u1 0 u2 0 0 0 u3); try lra. intros i Hi. rewrite (X i Hi). replace u0 with (1 - u1 - u2 - u3) by lra. ring.
      * apply (G u0 u1 0 0 0 u2 0 u3); try lra. intros i Hi. rewrite (X i Hi). replace u0 with (1 - u1 - u2 - u3) by lra. ring.
      * apply (G u0 0 u1 u2 0 0 0 u3); try lra. intros i Hi. rewrite (X i Hi). replace u0 with (1 - u1 - u2 - u3) by lra. ring.
      * apply (G u0 0 u1 0 0 0 u2 u3); try lra. intros i Hi. rewrite (X i Hi). replace u0 with (1 - u1 - u2 - u3) by lra. ring.
      * apply (G u0 0 0 0 u1 u2 0 u3); try lra. intros i Hi. rewrite (X i Hi). replace u0 with (1 - u1 - u2 - u3) by lra. ring.
      * apply (G u0 0 0 0 u1 0 u2 u3); try lra. intros i Hi. rewrite (X i Hi). replace u0 with (1 - u1 - u2 - u3) by lra. ring.
  - pose (ord := fun k s t u => match k with O => t < s /\ u < t | 1%nat => u < s /\ t < u | 2%nat => s < t /\ u < s | 3%nat => u < t /\ s < u | 4%nat => s < u /\ t < s | _ => t < u /\ s < t end).
    assert (G : forall k ck x, nth_error (diagonal_tets (parallelepiped o a b c)) k = Some ck -> in_interior 3 ck x ->
      (k < 6)%nat /\ exists s t u, ord k s t u /\ forall i, (i < 3)%nat -> x i = o i + s * a i + t * b i + u * c i).
    { intros k ck x E H. unfold diagonal_tets, parallelepiped in E. cbn [map nth] in E.
      destruct k as [|[|[|[|[|[|k]]]]]]; cbn [nth_error] in E; [| | | | | |destruct k; discriminate E]; injection E as <-; (split; [lia|]); 
      apply interior4 in H as (u0 & u1 & u2 & u3 & U0 & U1 & U2 & U3 & S & X); cbn in X.
      - exists (u1 + u2 + u3), (u2 + u3), u3. split; [unfold ord; lra|]. intros i Hi. rewrite (X i Hi). replace u0 with (1 - u1 - u2 - u3) by lra. ring.
      - exists (u1 + u2 + u3), u3, (u2 + u3). split; [unfold ord; lra|]. intros i Hi. rewrite (X i Hi). replace u0 with (1 - u1 - u2 - u3) by lra. ring.
      - exists (u2 + u3), (u1 + u2 + u3), u3. split; [unfold ord; lra|]. intros i Hi. rewrite (X i Hi). replace u0 with (1 - u1 - u2 - u3) by lra. ring.
      - exists u3, (u1 + u2 + u3), (u2 + u3). split; [unfold ord; lra|]. intros i Hi. rewrite (X i Hi). replace u0 with (1 - u1 - u2 - u3) by lra. ring.
      - exists (u2 + u3), u3, (u1 + u2 + u3). split; [unfold ord; lra|]. intros i Hi. rewrite (X i Hi). replace u0 with (1 - u1 - u2 - u3) by lra. ring.
      - exists u3, (u2 + u3), (u1 + u2 + u3). split; [unfold ord; lra|]. intros i Hi. rewrite (X i Hi). replace u0 with (1 - u1 - u2 - u3) by lra. ring. }
    intros i j ci cj x Ei Ej Ii Ij. apply (G i ci x Ei) in Ii as (Li & s & t & u & Oi & Xi). apply (G j cj x Ej) in Ij as (Lj & s' & t' & u' & Oj & Xj).
    destruct (Lin s t u s' t' u') as (<- & <- & <-). { intros k Hk. specialize (Xi k Hk). specialize (Xj k Hk). lra. }
    clear - Li Lj Oi Oj. destruct i as [|[|[|[|[|[|i]]]]]]; [| | | | | |lia]; (destruct j as [|[|[|[|[|[|j]]]]]]; [| | | | | |lia]); try reflexivity; exfalso; cbv [ord] in Oi, Oj; lra.
  - set (D := Rabs (det3 a b c / 6)). exists [D; D; D; D; D; D].
    assert (F1 : forall x, x = det3 a b c / 6 -> Some (Rabs x) = Some D) by (intros x ->; reflexivity).
    assert (F2 : forall x, x = - (det3 a b c / 6) -> Some (Rabs x) = Some D) by (intros x ->; rewrite Rabs_Ropp; reflexivity).
    split.
    + unfold volumes_are, diagonal_tets, parallelepiped. cbn [map nth].
      repeat constructor; unfold spanned_volume; cbn [signed_spanned_volume option_map];
        first [apply F1; unfold det3; pt; cbn; field; fail | apply F2; unfold det3; pt; cbn; field].
    + unfold volume_cell, parallelepiped. cbn [map]. apply osum_forall2.
      repeat constructor; unfold spanned_volume; cbn [signed_spanned_volume option_map];
        first [apply F1; unfold det3; pt; cbn; field; fail | apply F2; unfold det3; pt; cbn; field].
Qed.

Lemma C28_hexahedron_refuted_pf :
  (forall x, in_hull 3 slanted_hex x -> in_hull 3 box_hex x) /\
  (forall x, in_hull 3 missed_tet x -> in_hull 3 box_hex x) /\
  (forall x, in_hull 3 slanted_hex x -> in_interior 3 missed_tet x -> False) /\
  spanned_volume 3 missed_tet = Some (1 / 6)%R /\
  volume_cell 3 ShHex slanted_hex = Some 2%R /\ volume_cell 3 ShHex box_hex = Some 2%R.
Proof.
  assert (Box : forall x, 0 <= x 0%nat <= 1 -> 0 <= x 1%nat <= 2 -> 0 <= x 2%nat <= 1 -> in_hull 3 box_hex x).
  { intros x X Y Z. set (s := x 0%nat). set (t := x 1%nat / 2). set (u := x 2%nat).
    exists (combine [(1 - s) * (1 - t) * (1 - u); s * (1 - t) * (1 - u); (1 - s) * t * (1 - u); s * t * (1 - u); (1 - s) * (1 - t) * u; s * (1 - t) * u; (1 - s) * t * u; s * t * u] box_hex).
    unfold box_hex, parallelepiped, weight_sum, weighted_coord. cbn. split; [reflexivity|]. split.
    - assert (0 <= s <= 1) by auto. assert (0 <= t <= 1) by (unfold t; lra). assert (0 <= u <= 1) by auto.
      repeat (apply Forall_cons; [cbn [fst]; apply Rmult_le_pos; [apply Rmult_le_pos|]; lra|]); apply Forall_nil.
    - split; [ring|]. apply lt3. unfold vec3. subst s t u. repeat split; field. }
  assert (Sl : forall x, in_hull 3 slanted_hex x -> 0 <= x 0%nat <= 1 /\ 0 <= x 1%nat <= 1 + x 0%nat /\ 0 <= x 2%nat <= 1).
  { intros x H. apply hull8 in H as (w0 & w1 & w2 & w3 & w4 & w5 & w6 & w7 & W0 & W1 & W2 & W3 & W4 & W5 & W6 & W7 & S & X); [|reflexivity].
    apply (lt3 (fun i => _)) in X as (X0 & X1 & X2). unfold slanted_hex in *. cbn in X0, X1, X2. rewrite X0, X1, X2. repeat split; lra. }
  split; [|split; [|split; [|split; [|split]]]].
  - intros x H. apply Sl in H as (A & B & C). apply Box; lra.
  - intros x H. apply hull4 in H as (u0 & u1 & u2 & u3 & U0 & U1 & U2 & U3 & S & X). apply (lt3 (fun i => _)) in X as (X0 & X1 & X2). cbn in X0, X1, X2. apply Box; lra.
  - intros x H I. apply Sl in H as (A & B & C). apply interior4 in I as (u0 & u1 & u2 & u3 & U0 & U1 & U2 & U3 & S & X).
    apply (lt3 (fun i => _)) in X as (X0 & X1 & X2). cbn in X0, X1, X2. lra.
  - unfold spanned_volume, missed_tet. cbn [signed_spanned_volume option_map]. f_equal. pt. unfold vec3.
    first [rewrite Rabs_pos_eq; lra | rewrite Rabs_left; lra].
  - unfold volume_cell, slanted_hex. cbn [map fst snd]. unfold spanned_volume. cbn [signed_spanned_volume option_map osum obind]. f_equal. pt. unfold vec3.
    repeat match goal with |- context[Rabs ?x] => first
      [ replace (Rabs x) with x by (symmetry; apply Rabs_pos_eq; lra) | replace (Rabs x) with (- x) by (symmetry; apply Rabs_left; lra) ] end. lra.
  - unfold volume_cell, box_hex, parallelepiped. cbn [map fst snd]. unfold spanned_volume. cbn [signed_spanned_volume option_map osum obind]. f_equal. pt. unfold vec3.
    repeat match goal with |- context[Rabs ?x] => first
      [ replace (Rabs x) with x by (symmetry; apply Rabs_pos_eq; lra) | replace (Rabs x) with (- x) by (symmetry; apply Rabs_left; lra) ] end. lra.
Qed.

Lemma C28_mesh_volume_pf : forall d s cells v,
  volume_mesh d s cells = Some v <-> exists vs, volumes_are (volume_cell d s) cells vs /\ v = Rsum vs.
Proof.
  intros d s cells v. unfold volume_mesh.
  enough (G : forall acc, volume_loop d s cells acc = Some v <-> exists vs, volumes_are (volume_cell d s) cells vs /\ v = acc + Rsum vs).
  { rewrite G. split; intros (vs & A & B); exists vs; split; auto; lra. }
  induction cells as [|c cells IH]; intros acc; cbn [volume_loop].
  - split; [intros H; injection H as <-; exists []; split; [constructor|rewrite Rsum_nil; lra]|].
    intros (vs & A & ->). inversion A; subst. rewrite Rsum_nil. f_equal. lra.
  - unfold obind. split.
    + destruct (volume_cell d s c) as [x|] eqn:E; [|discriminate]. rewrite IH. intros (vs & A & ->). exists (x :: vs). split; [constructor; auto|]. rewrite Rsum_cons. lra.
    + intros (vs & A & ->). inversion A as [|? x ? vs' B A']; subst. rewrite B. apply IH. exists vs'. split; auto. rewrite Rsum_cons. lra.
Qed.
