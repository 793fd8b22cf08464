(** Proofs of C29 and C31. *)
From Coq Require Import Reals List Arith Lia Lra Permutation Psatz.
From Verif Require Import ModelMesh ModelGeom ModelVolume SpecRefine SpecGeom VectorProofs SpannedProofs VolumeProofs.
Import ListNotations.
Local Open Scope R_scope.

Lemma dot_inner d p q : dot d p q = inner_prod d p q.
Proof.
  unfold dot, inner_prod. induction d; [reflexivity|]. rewrite seq_S, map_app, Rsum_app, IHd. cbn. lra.
Qed.
Lemma dist_inner d p q : dist_sq d p q = inner_prod d (psub p q) (psub p q).
Proof.
  rewrite <- dot_inner. unfold dist_sq, dot, psub. apply Rsum_ext. intros; ring.
Qed.
Lemma inner_ext d p q p' q' : same_point d p p' -> same_point d q q' -> inner_prod d p q = inner_prod d p' q'.
Proof. intros A B. apply sum_ext. intros i Hi. now rewrite (A i Hi), (B i Hi). Qed.

Lemma C29_line_pf : forall d A B,
  dist_sq d (circumcenter_line A B) A = dist_sq d (circumcenter_line A B) B.
Proof.
  intros d A B. unfold dist_sq, circumcenter_line, pdiv, padd. apply Rsum_ext. intros. field.
Qed.

Lemma C29_triangle_plane_pf : forall A B C,
  (independent 2 [A; B; C] ->
     exists c, circumcenter_tri2 A B C = Some c /\
       dist_sq 2 c A = dist_sq 2 c B /\ dist_sq 2 c A = dist_sq 2 c C /\
       forall x, dist_sq 2 x A = dist_sq 2 x B -> dist_sq 2 x A = dist_sq 2 x C -> same_point 2 x c) /\
  (~ independent 2 [A; B; C] -> circumcenter_tri2 A B C = None).
Proof.
  intros A B C. rewrite indep3_lin, lin2_det. unfold circumcenter_tri2, psub.
  set (D0 := (B 0%nat - A 0%nat) * (C 1%nat - A 1%nat) - (B 1%nat - A 1%nat) * (C 0%nat - A 0%nat)).
  replace (2 * (A 0%nat * (B 1%nat - C 1%nat) + B 0%nat * (C 1%nat - A 1%nat) + C 0%nat * (A 1%nat - B 1%nat))) with (2 * D0) by (unfold D0; ring).
  destruct (Req_EM_T (2 * D0) 0) as [E|N].
  - split; [intros H; exfalso; apply H; lra|auto].
  - split; [|intros H; exfalso; lra]. intros _. eexists. split; [reflexivity|].
    unfold dist_sq. cbn [seq map]. rewrite !Rsum_cons, !Rsum_nil.
    set (X := ((A 1%nat * A 1%nat + A 0%nat * A 0%nat) * (B 1%nat - C 1%nat) + (B 1%nat * B 1%nat + B 0%nat * B 0%nat) * (C 1%nat - A 1%nat) + (C 1%nat * C 1%nat + C 0%nat * C 0%nat) * (A 1%nat - B 1%nat))).
    set (Y := ((A 1%nat * A 1%nat + A 0%nat * A 0%nat) * (C 0%nat - B 0%nat) + (B 1%nat * B 1%nat + B 0%nat * B 0%nat) * (A 0%nat - C 0%nat) + (C 1%nat * C 1%nat + C 0%nat * C 0%nat) * (B 0%nat - A 0%nat))).
    assert (EX : X / (2 * D0) * (2 * D0) = X) by (field; lra). assert (EY : Y / (2 * D0) * (2 * D0) = Y) by (field; lra).
    set (x := X / (2 * D0)) in *. set (y := Y / (2 * D0)) in *.
    assert (F1 : 2 * (x * (B 0%nat - A 0%nat) + y * (B 1%nat - A 1%nat)) = B 0%nat ^ 2 + B 1%nat ^ 2 - A 0%nat ^ 2 - A 1%nat ^ 2).
    { apply (Rmult_eq_reg_r (2 * D0)); auto.
      replace (2 * (x * (B 0%nat - A 0%nat) + y * (B 1%nat - A 1%nat)) * (2 * D0)) with (2 * (x * (2 * D0) * (B 0%nat - A 0%nat) + y * (2 * D0) * (B 1%nat - A 1%nat))) by ring.
      rewrite EX, EY. unfold X, Y, D0. ring. }
    assert (F2 : 2 * (x * (C 0%nat - A 0%nat) + y * (C 1%nat - A 1%nat)) = C 0%nat ^ 2 + C 1%nat ^ 2 - A 0%nat ^ 2 - A 1%nat ^ 2).
    { apply (Rmult_eq_reg_r (2 * D0)); auto.
      replace (2 * (x * (C 0%nat - A 0%nat) + y * (C 1%nat - A 1%nat)) * (2 * D0)) with (2 * (x * (2 * D0) * (C 0%nat - A 0%nat) + y * (2 * D0) * (C 1%nat - A 1%nat))) by ring.
      rewrite EX, EY. unfold X, Y, D0. ring. }
    clearbody x y. split; [lra|]. split; [lra|].
    intros z. cbn [seq map]. intros H1 H2. rewrite ?Rsum_cons, ?Rsum_nil in H1, H2.
    assert (G1 : (z 0%nat - x) * (B 0%nat - A 0%nat) + (z 1%nat - y) * (B 1%nat - A 1%nat) = 0) by lra.
    assert (G2 : (z 0%nat - x) * (C 0%nat - A 0%nat) + (z 1%nat - y) * (C 1%nat - A 1%nat) = 0) by lra.
    assert (N0 : D0 <> 0) by lra.
    intros i Hi. destruct i as [|[|]]; [| |lia]; cbn.
    + apply Rminus_diag_uniq, (mul_cancel _ D0); auto.
      transitivity (((z 0%nat - x) * (B 0%nat - A 0%nat) + (z 1%nat - y) * (B 1%nat - A 1%nat)) * (C 1%nat - A 1%nat)
        - ((z 0%nat - x) * (C 0%nat - A 0%nat) + (z 1%nat - y) * (C 1%nat - A 1%nat)) * (B 1%nat - A 1%nat)); [unfold D0; ring|rewrite G1, G2; ring].
    + apply Rminus_diag_uniq, (mul_cancel _ D0); auto.
      transitivity (((z 0%nat - x) * (C 0%nat - A 0%nat) + (z 1%nat - y) * (C 1%nat - A 1%nat)) * (B 0%nat - A 0%nat)
        - ((z 0%nat - x) * (B 0%nat - A 0%nat) + (z 1%nat - y) * (B 1%nat - A 1%nat)) * (C 0%nat - A 0%nat)); [unfold D0; ring|rewrite G1, G2; ring].
Qed.

Lemma eq_dist_dot d x P Q : dist_sq d x P = dist_sq d x Q <-> 2 * inner_prod d (psub x P) (psub Q P) = inner_prod d (psub Q P) (psub Q P).
Proof.
  rewrite !dist_inner.
  assert (E : inner_prod d (psub x Q) (psub x Q) = inner_prod d (psub x P) (psub x P) - 2 * inner_prod d (psub x P) (psub Q P) + inner_prod d (psub Q P) (psub Q P)).
  { unfold inner_prod. rewrite <- sum_scal, <- sum_minus, <- sum_plus. apply sum_ext. intros; unfold psub; ring. }
  rewrite E. split; lra.
Qed.
Lemma cross_flip (A B C : point) : inner_prod 3 (cross_prod (psub A B) (psub B C)) (cross_prod (psub A B) (psub B C)) =
  inner_prod 3 (cross_prod (psub B A) (psub C A)) (cross_prod (psub B A) (psub C A)).
Proof. pt. ring. Qed.

Lemma C29_triangle_space_pf : forall A B C,
  (independent 3 [A; B; C] ->
     exists c, circumcenter_tri3 A B C = Some c /\
       dist_sq 3 c A = dist_sq 3 c B /\ dist_sq 3 c A = dist_sq 3 c C /\
       exists a b g, (a + b + g = 1 /\ forall i, (i < 3)%nat -> c i = a * A i + b * B i + g * C i)%R) /\
  (~ independent 3 [A; B; C] -> circumcenter_tri3 A B C = None).
Proof.
  intros A B C. rewrite indep3_lin, lin2_cross. unfold circumcenter_tri3. cbv zeta. rewrite cross_flip.
  set (n := inner_prod 3 (cross_prod (psub B A) (psub C A)) (cross_prod (psub B A) (psub C A))).
  destruct (Req_EM_T (2 * n) 0) as [E|N]; [split; [intros H; exfalso; apply H; lra|auto]|].
  split; [|intros H; exfalso; lra]. intros _. eexists. split; [reflexivity|].
  set (al := inner_prod 3 (psub B C) (psub B C) * inner_prod 3 (psub A B) (psub A C)).
  set (be := inner_prod 3 (psub A C) (psub A C) * inner_prod 3 (psub B A) (psub B C)).
  set (ga := inner_prod 3 (psub A B) (psub A B) * inner_prod 3 (psub C A) (psub C B)).
  assert (S : al + be + ga = 2 * n) by (unfold al, be, ga, n; pt; ring).
  set (c := padd _ _).
  assert (K : forall i, c i - A i = (be / (2 * n)) * (B i - A i) + (ga / (2 * n)) * (C i - A i)).
  { intros i. unfold c, padd, pscale. replace al with (2 * n - be - ga) by lra. field. lra. }
  assert (D : forall v, 2 * n * inner_prod 3 (psub c A) v = be * inner_prod 3 (psub B A) v + ga * inner_prod 3 (psub C A) v).
  { intros v. rewrite (inner_ext 3 (psub c A) v (fun i => (be / (2 * n)) * (B i - A i) + (ga / (2 * n)) * (C i - A i)) v).
    - unfold inner_prod. rewrite <- !sum_scal, <- sum_plus. apply sum_ext. intros i Hi. unfold psub. field. lra.
    - intros i Hi. apply K.
    - intros i Hi. reflexivity. }
  split; [|split].
  - apply eq_dist_dot. apply (Rmult_eq_reg_l (2 * n)); auto.
    transitivity (2 * (2 * n * inner_prod 3 (psub c A) (psub B A))); [ring|]. rewrite D. clear - N. unfold be, ga, n. pt. ring.
  - apply eq_dist_dot. apply (Rmult_eq_reg_l (2 * n)); auto.
    transitivity (2 * (2 * n * inner_prod 3 (psub c A) (psub C A))); [ring|]. rewrite D. clear - N. unfold be, ga, n. pt. ring.
  - exists (al / (2 * n)), (be / (2 * n)), (ga / (2 * n)). split.
    + replace al with (2 * n - be - ga) by lra. field. lra.
    + intros i Hi. unfold c, padd, pscale. ring.
Qed.

Lemma C29_tetrahedron_pf : forall P0 P1 P2 P3 c, circumcenter_tet P0 P1 P2 P3 = CPoint c ->
  independent 3 [P0; P1; P2; P3] /\
  dist_sq 3 c P0 = dist_sq 3 c P1 /\ dist_sq 3 c P0 = dist_sq 3 c P2 /\ dist_sq 3 c P0 = dist_sq 3 c P3 /\
  forall x, dist_sq 3 x P0 = dist_sq 3 x P1 -> dist_sq 3 x P0 = dist_sq 3 x P2 -> dist_sq 3 x P0 = dist_sq 3 x P3 ->
    same_point 3 x c.
Proof.
  intros P0 P1 P2 P3 c H. unfold circumcenter_tet in H. cbv zeta in H.
  set (A := psub P1 P0) in *. set (B := psub P2 P0) in *. set (C := psub P3 P0) in *.
  destruct Rlt_dec; [discriminate|]. destruct Req_EM_T as [|N]; [discriminate|]. injection H as H.
  set (den := inner_prod 3 A (cross_prod B C) * 2) in *.
  assert (N0 : det3 A B C <> 0) by (unfold det3; subst den; lra).
  assert (G : forall v, den * inner_prod 3 (psub c P0) v = inner_prod 3 C C * inner_prod 3 (cross_prod A B) v + inner_prod 3 B B * inner_prod 3 (cross_prod C A) v + inner_prod 3 A A * inner_prod 3 (cross_prod B C) v).
  { intros v. subst c. rewrite (inner_ext 3 _ v (fun i => / den * (inner_prod 3 C C * cross_prod A B i + inner_prod 3 B B * cross_prod C A i + inner_prod 3 A A * cross_prod B C i)) v).
    - generalize (inner_prod 3 A A) (inner_prod 3 B B) (inner_prod 3 C C). intros aa bb cc. unfold inner_prod. rewrite <- !sum_scal, <- !sum_plus. apply sum_ext. intros i Hi. field. auto.
    - intros i Hi. unfold psub at 1, padd, pdiv, pscale. field. auto.
    - intros i Hi. reflexivity. }
  assert (E : forall v w, inner_prod 3 (cross_prod v w) v = 0 /\ inner_prod 3 (cross_prod v w) w = 0) by (intros; split; pt; ring).
  assert (S1 : 2 * inner_prod 3 (psub c P0) A = inner_prod 3 A A).
  { apply (Rmult_eq_reg_l den); auto. transitivity (2 * (den * inner_prod 3 (psub c P0) A)); [ring|]. rewrite G, (proj1 (E A B)), (proj2 (E C A)).
    replace (inner_prod 3 (cross_prod B C) A) with (den / 2) by (subst den; replace (inner_prod 3 A (cross_prod B C)) with (inner_prod 3 (cross_prod B C) A) by (pt; ring); field). field. }
  assert (S2 : 2 * inner_prod 3 (psub c P0) B = inner_prod 3 B B).
  { apply (Rmult_eq_reg_l den); auto. transitivity (2 * (den * inner_prod 3 (psub c P0) B)); [ring|]. rewrite G, (proj2 (E A B)), (proj1 (E B C)).
    replace (inner_prod 3 (cross_prod C A) B) with (den / 2) by (subst den; replace (inner_prod 3 A (cross_prod B C)) with (inner_prod 3 (cross_prod C A) B) by (pt; ring); field). field. }
  assert (S3 : 2 * inner_prod 3 (psub c P0) C = inner_prod 3 C C).
  { apply (Rmult_eq_reg_l den); auto. transitivity (2 * (den * inner_prod 3 (psub c P0) C)); [ring|]. rewrite G, (proj1 (E C A)), (proj2 (E B C)).
    replace (inner_prod 3 (cross_prod A B) C) with (den / 2) by (subst den; replace (inner_prod 3 A (cross_prod B C)) with (inner_prod 3 (cross_prod A B) C) by (pt; ring); field). field. }
  split; [now apply indep4_lin, lin3_det|].
  split; [now apply eq_dist_dot|]. split; [now apply eq_dist_dot|]. split; [now apply eq_dist_dot|].
  intros x X1 X2 X3. apply eq_dist_dot in X1, X2, X3. fold A in X1. fold B in X2. fold C in X3.
  set (w := psub x c).
  assert (W : forall v, inner_prod 3 w v = inner_prod 3 (psub x P0) v - inner_prod 3 (psub c P0) v).
  { intros v. unfold inner_prod. rewrite <- sum_minus. apply sum_ext. intros; unfold w, psub; ring. }
  assert (W1 : inner_prod 3 w A = 0) by (rewrite W; lra). assert (W2 : inner_prod 3 w B = 0) by (rewrite W; lra). assert (W3 : inner_prod 3 w C = 0) by (rewrite W; lra).
  clear - W1 W2 W3 N0. intros i Hi. enough (w i = 0) by (unfold w, psub in *; lra). apply (mul_cancel _ (det3 A B C)); auto.
  transitivity (inner_prod 3 w A * cross_prod B C i + inner_prod 3 w B * cross_prod C A i + inner_prod 3 w C * cross_prod A B i).
  - clearbody w A B C. destruct i as [|[|[|]]]; [| | |lia]; unfold det3; pt; ring.
  - rewrite W1, W2, W3. ring.
Qed.

Lemma C29_tetrahedron_returns_partial_pf : forall P0 P1 P2 P3 h,
  inner_prod 3 (psub P1 P0) (cross_prod (psub P2 P0) (psub P3 P0)) = (h * norm_2 3 (cross_prod (psub P2 P0) (psub P3 P0)))%R ->
  independent 3 [P0; P1; P2; P3] ->
  (/ 10 ^ 10 <= Rabs h)%R -> exists c, circumcenter_tet P0 P1 P2 P3 = CPoint c.
Proof.
  intros P0 P1 P2 P3 h E I H. unfold circumcenter_tet. cbv zeta. apply indep4_lin, lin3_det in I. unfold det3 in I. rewrite E in *.
  set (n := norm_2 3 _) in *. assert (Hn : 0 <= n) by apply sqrt_pos.
  destruct Rlt_dec as [L|L].
  - exfalso. rewrite Rabs_mult, (Rabs_pos_eq n Hn) in L. assert (/ 10 ^ 10 * n <= Rabs h * n) by (apply Rmult_le_compat_r; auto). lra.
  - destruct Req_EM_T as [Z|Z]; [exfalso; lra|]. eauto.
Qed.

Lemma C29_small_tetrahedron_refuted_pf :
  let s := (/ 10 ^ 11)%R in
  independent 3 [vec3 0 0 0; vec3 s 0 0; vec3 0 s 0; vec3 0 0 s] /\
  circumcenter_tet (vec3 0 0 0) (vec3 s 0 0) (vec3 0 s 0) (vec3 0 0 s) = CThrow.
Proof.
  cbv zeta. set (s := / 10 ^ 11). assert (Ps : 0 < s) by (unfold s; apply Rinv_0_lt_compat, pow_lt; lra). split.
  - apply indep4_lin, lin3_det. unfold det3. pt. cbn. assert (0 < s * s * s) by (repeat apply Rmult_lt_0_compat; auto). match goal with |- ?x <> 0 => replace x with (s * s * s) by ring end. lra.
  - unfold circumcenter_tet. cbv zeta.
    replace (norm_2 3 (cross_prod (psub (vec3 0 s 0) (vec3 0 0 0)) (psub (vec3 0 0 s) (vec3 0 0 0)))) with (s * s).
    2:{ unfold norm_2. symmetry. rewrite <- (sqrt_Rsqr (s * s)) by nra. f_equal. pt. cbn. unfold Rsqr. ring. }
    replace (inner_prod 3 (psub (vec3 s 0 0) (vec3 0 0 0)) (cross_prod (psub (vec3 0 s 0) (vec3 0 0 0)) (psub (vec3 0 0 s) (vec3 0 0 0)))) with (s * (s * s)) by (pt; cbn; ring).
    destruct Rlt_dec as [L|L]; auto. exfalso. apply L. rewrite Rabs_pos_eq by (repeat apply Rmult_le_pos; lra). apply Rmult_lt_compat_r; [nra|].
    unfold s. apply Rinv_lt_contravar; [apply Rmult_lt_0_compat; apply pow_lt; lra|]. simpl. lra.
Qed.

Lemma points_sum_coord ps : forall acc i, points_sum ps acc i = acc i + Rsum (map (fun p => p i) ps).
Proof. induction ps as [|p ps IH]; intros acc i; cbn [points_sum map]; rewrite ?Rsum_cons, ?Rsum_nil, ?IH; unfold padd; lra. Qed.
Lemma centroid_coord ps i : centroid ps i = Rsum (map (fun p => p i) ps) * (1 / INR (length ps)).
Proof. unfold centroid, pdiv. rewrite points_sum_coord. unfold pzero. now rewrite Rplus_0_l. Qed.
Lemma length_pos {A} (l : list A) : l <> [] -> INR (length l) <> 0.
Proof. destruct l; [congruence|]. intros _. apply not_0_INR. discriminate. Qed.

Lemma C29_rectangle_and_cuboid_pf : forall d o a b c,
  (dot d a b = 0 -> dot d a c = 0 -> dot d b c = 0 ->
     forall p q, In p (parallelepiped o a b c) -> In q (parallelepiped o a b c) ->
       dist_sq d (circumcenter_mean (parallelepiped o a b c)) p = dist_sq d (circumcenter_mean (parallelepiped o a b c)) q)%R /\
  (dot d a b = 0 ->
     let quad := [o; padd o a; padd o b; padd (padd o a) b] in
     forall p q, In p quad -> In q quad -> dist_sq d (circumcenter_mean quad) p = dist_sq d (circumcenter_mean quad) q)%R.
Proof.
  intros d o a b c. rewrite !dot_inner. split.
  - intros AB AC BC.
    assert (K : forall s t u, s * s = 1 -> t * t = 1 -> u * u = 1 ->
      inner_prod d (fun i => (s * a i + t * b i + u * c i) / 2) (fun i => (s * a i + t * b i + u * c i) / 2) = (inner_prod d a a + inner_prod d b b + inner_prod d c c) / 4).
    { intros s t u S T U. transitivity (/ 4 * (s * s * inner_prod d a a + t * t * inner_prod d b b + u * u * inner_prod d c c + 2 * s * t * inner_prod d a b + 2 * s * u * inner_prod d a c + 2 * t * u * inner_prod d b c)).
      - unfold inner_prod. rewrite <- !sum_scal, <- !sum_plus, <- sum_scal. apply sum_ext. intros; field.
      - rewrite S, T, U, AB, AC, BC. field. }
    assert (G : forall p, In p (parallelepiped o a b c) -> dist_sq d (circumcenter_mean (parallelepiped o a b c)) p = (inner_prod d a a + inner_prod d b b + inner_prod d c c) / 4).
    { intros p Hp. rewrite dist_inner.
      assert (M : forall i, circumcenter_mean (parallelepiped o a b c) i = o i + (a i + b i + c i) / 2).
      { intros i. unfold circumcenter_mean. rewrite centroid_coord. unfold parallelepiped. cbn [map length]. rewrite !Rsum_cons, Rsum_nil. cbn [fst snd]. replace (INR 8) with 8 by (simpl; lra). field. }
      assert (Q : exists s t u, s * s = 1 /\ t * t = 1 /\ u * u = 1 /\ forall i, psub (circumcenter_mean (parallelepiped o a b c)) p i = (s * a i + t * b i + u * c i) / 2).
      { unfold parallelepiped in Hp. cbn [map fst snd] in Hp. unfold psub.
        repeat destruct Hp as [<-|Hp]; try contradiction.
        - exists 1, 1, 1. repeat (split; [lra|]). intros i. rewrite M. field.
        - exists (-1), 1, 1. repeat (split; [lra|]). intros i. rewrite M. field.
        - exists 1, (-1), 1. repeat (split; [lra|]). intros i. rewrite M. field.
        - exists (-1), (-1), 1. repeat (split; [lra|]). intros i. rewrite M. field.
        - exists 1, 1, (-1). repeat (split; [lra|]). intros i. rewrite M. field.
        - exists (-1), 1, (-1). repeat (split; [lra|]). intros i. rewrite M. field.
        - exists 1, (-1), (-1). repeat (split; [lra|]). intros i. rewrite M. field.
        - exists (-1), (-1), (-1). repeat (split; [lra|]). intros i. rewrite M. field. }
      destruct Q as (s & t & u & S & T & U & Q). rewrite <- (K s t u S T U). apply inner_ext; intros i Hi; apply Q. }
    intros p q Hp Hq. now rewrite (G p Hp), (G q Hq).
  - intros AB quad.
    assert (K : forall s t, s * s = 1 -> t * t = 1 ->
      inner_prod d (fun i => (s * a i + t * b i) / 2) (fun i => (s * a i + t * b i) / 2) = (inner_prod d a a + inner_prod d b b) / 4).
    { intros s t S T. transitivity (/ 4 * (s * s * inner_prod d a a + t * t * inner_prod d b b + 2 * s * t * inner_prod d a b)).
      - unfold inner_prod. rewrite <- !sum_scal, <- !sum_plus, <- sum_scal. apply sum_ext. intros; field.
      - rewrite S, T, AB. field. }
    assert (G : forall p, In p quad -> dist_sq d (circumcenter_mean quad) p = (inner_prod d a a + inner_prod d b b) / 4).
    { intros p Hp. rewrite dist_inner.
      assert (M : forall i, circumcenter_mean quad i = o i + (a i + b i) / 2).
      { intros i. unfold circumcenter_mean. rewrite centroid_coord. unfold quad. cbn [map length]. rewrite !Rsum_cons, Rsum_nil. unfold padd. replace (INR 4) with 4 by (simpl; lra). field. }
      assert (Q : exists s t, s * s = 1 /\ t * t = 1 /\ forall i, psub (circumcenter_mean quad) p i = (s * a i + t * b i) / 2).
      { unfold psub. destruct Hp as [<-|[<-|[<-|[<-|[]]]]].
        - exists 1, 1. repeat (split; [lra|]). intros i. rewrite M. field.
        - exists (-1), 1. repeat (split; [lra|]). intros i. rewrite M. unfold padd. field.
        - exists 1, (-1). repeat (split; [lra|]). intros i. rewrite M. unfold padd. field.
        - exists (-1), (-1). repeat (split; [lra|]). intros i. rewrite M. unfold padd. field. }
      destruct Q as (s & t & S & T & Q). rewrite <- (K s t S T). apply inner_ext; intros i Hi; apply Q. }
    intros p q Hp Hq. now rewrite (G p Hp), (G q Hq).
Qed.

Lemma C31_centroid_pf : forall d ps, ps <> [] ->
  weighted_mean d (repeat 1%R (length ps)) ps (centroid ps) /\
  in_hull d ps (centroid ps) /\
  (forall qs, Permutation ps qs -> same_point d (centroid qs) (centroid ps)) /\
  (forall A t f, is_affine d A t f -> same_point d (centroid (map f ps)) (f (centroid ps))).
Proof.
  intros d ps H. pose proof (length_pos ps H) as N.
  assert (S1 : Rsum (repeat 1 (length ps)) = INR (length ps)).
  { clear. induction ps; [reflexivity|]. cbn [repeat length]. rewrite Rsum_cons, IHps, S_INR. lra. }
  split; [|split; [|split]].
  - intros i Hi. rewrite S1, centroid_coord.
    replace (map (fun wp => fst wp * snd wp i) (combine (repeat 1 (length ps)) ps)) with (map (fun p : point => p i) ps).
    + unfold point in *. field. auto.
    + clear. induction ps; cbn; auto. now rewrite IHps, Rmult_1_l.
  - set (w := 1 / INR (length ps)). assert (P : 0 <= w).
    { unfold w. apply Rmult_le_pos; [lra|]. left. apply Rinv_0_lt_compat. pose proof (pos_INR (length ps)). lra. }
    exists (map (fun p => (w, p)) ps). split; [rewrite map_map; apply map_id|]. split; [|split].
    + apply Forall_map, Forall_forall. auto.
    + unfold weight_sum. rewrite map_map. cbn [fst].
      transitivity (w * INR (length ps)); [|unfold w; field; auto]. clear. clearbody w. induction ps; cbn [map length]; [rewrite Rsum_nil; cbn; lra|]. rewrite Rsum_cons, IHps, S_INR. lra.
    + intros i Hi. unfold weighted_coord. rewrite map_map. cbn [fst snd]. rewrite Rsum_scal, centroid_coord. unfold w, point. ring.
  - intros qs P i Hi. rewrite !centroid_coord, (Permutation_length P). f_equal. apply Rsum_perm. symmetry. now apply Permutation_map.
  - intros A t f F i Hi. rewrite centroid_coord, (F (centroid ps) i Hi), map_map, map_length.
    rewrite (Rsum_ext _ (fun p => t i + Rsum (map (fun j => A i j * p j) (seq 0 d)))) by (intros; apply F; auto).
    rewrite Rsum_plus.
    replace (Rsum (map (fun _ : nat -> R => t i) ps)) with (INR (length ps) * t i) by (clear; induction ps; cbn [map length]; [cbn; lra|rewrite Rsum_cons, <- IHps, S_INR; lra]).
    rewrite (Rsum_ext (fun j => A i j * centroid ps j) (fun j => (1 / INR (length ps)) * (A i j * Rsum (map (fun p => p j) ps)))) by (intros; rewrite centroid_coord; ring).
    rewrite Rsum_scal.
    replace (Rsum (map (fun p => Rsum (map (fun j => A i j * p j) (seq 0 d))) ps)) with (Rsum (map (fun j => A i j * Rsum (map (fun p => p j) ps)) (seq 0 d))).
    + unfold point in *. field. auto.
    + clear. induction ps as [|p ps IH]; cbn [map].
      * rewrite (Rsum_ext _ (fun j : nat => 0 * 0)) by (intros; rewrite Rsum_nil; ring). rewrite Rsum_scal, Rsum_nil. ring.
      * rewrite Rsum_cons, <- IH, <- Rsum_plus. apply Rsum_ext. intros; rewrite Rsum_cons; ring.
Qed.

Lemma C31_mesh_centroid_pf : forall d s cells c, centroid_mesh d s cells = Some c ->
  exists vs, volumes_are (volume_cell d s) cells vs /\ Rsum vs <> 0%R /\
    weighted_mean d vs (map centroid cells) c.
Proof.
  intros d s cells c. unfold centroid_mesh.
  assert (G : forall cells acc vol r, centroid_loop d s cells acc vol = Some r -> exists vs, volumes_are (volume_cell d s) cells vs /\
     snd r = vol + Rsum vs /\ forall i, fst r i = acc i + Rsum (map (fun wp => fst wp * snd wp i) (combine vs (map centroid cells)))).
  { clear. induction cells as [|x cells IH]; intros acc vol r; cbn [centroid_loop].
    - intros H. injection H as <-. exists []. split; [constructor|]. cbn. split; [lra|intros; lra].
    - unfold obind. destruct (volume_cell d s x) as [v|] eqn:E; [|discriminate]. intros H. apply IH in H as (vs & A & B & C).
      exists (v :: vs). split; [constructor; auto|]. split; [rewrite B, Rsum_cons; lra|]. intros i. rewrite C. cbn [map combine fst snd]. rewrite Rsum_cons. unfold padd, pscale. lra. }
  destruct (centroid_loop d s cells pzero 0) as [[acc vol]|] eqn:E; [|discriminate]. apply G in E as (vs & A & B & C). cbn [fst snd obind] in *.
  destruct Req_EM_T as [|N]; [discriminate|]. intros H. injection H as <-. exists vs. split; auto. split; [lra|].
  intros i Hi. unfold pdiv. rewrite C. unfold pzero. replace (Rsum vs) with vol by lra. field. auto.
Qed.

Lemma C31_mesh_centroid_exists_pf : forall d s cells vs, volumes_are (volume_cell d s) cells vs -> Rsum vs <> 0%R ->
  exists c, centroid_mesh d s cells = Some c.
Proof.
  intros d s cells vs H N. unfold centroid_mesh.
  assert (G : forall acc vol, exists acc', centroid_loop d s cells acc vol = Some (acc', vol + Rsum vs)).
  { clear N. induction H as [|x v cells vs E _ IH]; intros acc vol; cbn [centroid_loop].
    - exists acc. rewrite Rsum_nil. do 2 f_equal. lra.
    - rewrite E. cbn [obind]. destruct (IH (padd acc (pscale v (centroid x))) (vol + v)) as (acc' & ->). exists acc'. rewrite Rsum_cons. do 2 f_equal. lra. }
  destruct (G pzero 0) as (acc' & ->). cbn [obind]. destruct Req_EM_T; [lra|]. eauto.
Qed.
