(** Proofs of C44 and C45. *)
From Coq Require Import Reals List Arith Lia Lra Psatz.
From Verif Require Import ModelTopo ModelMesh ModelErase ModelGeom ModelVolume SpecMesh SpecRefine SpecGeom MeshBase MeshInv MeshReach MeshProofs VectorProofs SpannedProofs VolumeProofs CenterProofs InsideProofs.
Import ListNotations.
Local Open Scope R_scope.

Lemma norm_inner d p : norm_2 d p = sqrt (inner_prod d p p).
Proof. reflexivity. Qed.
Lemma norm_dist d p q : norm_2 d (psub p q) = sqrt (dist_sq d p q).
Proof. now rewrite norm_inner, dist_inner. Qed.
Lemma find_near_some d p tol l a : find_near d p tol l = Some a ->
  exists n q, In n l /\ n_addr n = a /\ e_pt (n_el n) = Some q /\ norm_2 d (psub p q) < tol.
Proof.
  induction l as [|n l IH]; cbn; [discriminate|]. destruct (e_pt (n_el n)) as [q|] eqn:E.
  - destruct Rlt_dec; [intros H; injection H as <-; exists n, q; auto|]. intros H. destruct (IH H) as (n' & q' & A & B). exists n', q'; auto.
  - intros H. destruct (IH H) as (n' & q' & A & B). exists n', q'; auto.
Qed.
Lemma find_near_none d p tol l : find_near d p tol l = None ->
  forall n q, In n l -> e_pt (n_el n) = Some q -> tol <= norm_2 d (psub p q).
Proof.
  induction l as [|n l IH]; cbn; [contradiction|]. intros H n' q [<-|I] E.
  - rewrite E in H. destruct Rlt_dec; [discriminate|lra].
  - destruct (e_pt (n_el n)); [destruct Rlt_dec; [discriminate|]|]; eauto.
Qed.
Lemma find_near_app d p tol l l' : find_near d p tol l = None -> find_near d p tol (l ++ l') = find_near d p tol l'.
Proof. induction l as [|n l IH]; cbn; auto. destruct (e_pt (n_el n)); [destruct Rlt_dec; [discriminate|]|]; auto. Qed.
Lemma norm_self d p : norm_2 d (psub p p) = 0.
Proof. rewrite norm_inner. rewrite inner_zero_l; [apply sqrt_0|]. intros; unfold psub; ring. Qed.
Lemma deref_in cfg (m : @mesh point) : reach cfg m -> forall t n, In n (m_nodes m t) -> deref m t (n_addr n) = Some (n_el n).
Proof.
  intros HR t n Hn. pose proof (i_addr _ _ _ (reach_inv cfg m HR) t) as ND. unfold deref.
  rewrite (In_find_node _ _ ND Hn). reflexivity.
Qed.
Lemma deref_node (m : @mesh point) t a e : deref m t a = Some e -> exists n, In n (m_nodes m t) /\ n_addr n = a /\ n_el n = e.
Proof.
  unfold deref. destruct (find_node _ _) as [n|] eqn:E; [|discriminate]. intros H. injection H as <-.
  exists n. unfold find_node in E. apply find_some in E as [A B]. apply Nat.eqb_eq in B. auto.
Qed.

Lemma reach_vertex cfg (m m' : @mesh point) p a : reach cfg m -> make_vertex cfg m p = Some (m', a) -> reach cfg m'.
Proof. intros HR E. apply (reach_step cfg m (OVertex p)); [exact HR|exact I|]. cbn [step]. now rewrite E. Qed.

Lemma C44_merges_or_creates_pf : forall d cfg (m : @mesh point) p tol, reach cfg m -> (0 < tol)%R ->
  exists m' a, make_unique_vertex d cfg m p tol = Some (m', a) /\ reach cfg m' /\
    ((m' = m /\ exists e q, deref m Vertex a = Some e /\ e_pt e = Some q /\ (sqrt (dist_sq d p q) < tol)%R) \/
     ((forall b e q, deref m Vertex b = Some e -> e_pt e = Some q -> (tol <= sqrt (dist_sq d p q))%R) /\
      ~ is_live m Vertex a /\ range m' Vertex = range m Vertex ++ [a] /\
      (exists e, deref m' Vertex a = Some e /\ e_pt e = Some p) /\
      (forall t b e, deref m t b = Some e -> deref m' t b = Some e) /\
      (forall t, t <> Vertex -> range m' t = range m t))).
Proof.
  intros d cfg m p tol HR Ht. unfold make_unique_vertex. destruct Rlt_dec; [|contradiction].
  destruct (find_near d p tol (m_nodes m Vertex)) as [a|] eqn:F.
  - exists m, a. split; auto. split; auto. left. split; auto. apply find_near_some in F as (n & q & I & <- & E & L).
    exists (n_el n), q. split; [eapply deref_in; eauto|]. split; auto. now rewrite <- norm_dist.
  - destruct (make_vertex_added cfg m p) as (m' & E & V & _). rewrite E. exists m', (m_next m Vertex). split; auto.
    assert (S : step cfg m (OVertex p) = Some m') by (cbn [step]; now rewrite E).
    assert (HR' : reach cfg m') by (eapply (reach_step cfg _ (OVertex _)); [exact HR|exact I|exact S]).
    split; auto. right. destruct V as (V1 & V2 & _).
    split; [|split; [|split; [|split; [|split]]]].
    + intros b e q B Q. apply deref_node in B as (n & I & _ & <-). rewrite <- norm_dist. eapply find_near_none; eauto.
    + intros (e & B). apply deref_node in B as (n & I & A & _). pose proof (i_next _ _ _ (reach_inv cfg m HR) Vertex n I). lia.
    + unfold range. now rewrite V1, map_app.
    + exists (mkE (m_idgen m Vertex) [] [] (Some p)). split; auto.
      apply (deref_in cfg m' HR' Vertex (mkN (m_next m Vertex) [] (mkE (m_idgen m Vertex) [] [] (Some p)))). rewrite V1. apply in_or_app; right; left; reflexivity.
    + intros t b e B. eapply (proj1 (C06_insertion_frame_pf point cfg m m' (OVertex p) HR I ltac:(discriminate) S)); eauto.
    + intros t T. unfold range. now rewrite (proj1 (V2 t T)).
Qed.

Lemma C44_idempotent_pf : forall d cfg (m m' : @mesh point) p tol a, (0 < tol)%R ->
  make_unique_vertex d cfg m p tol = Some (m', a) -> make_unique_vertex d cfg m' p tol = Some (m', a).
Proof.
  intros d cfg m m' p tol a Ht. unfold make_unique_vertex. destruct Rlt_dec; [|contradiction].
  destruct (find_near d p tol (m_nodes m Vertex)) as [b|] eqn:F.
  - intros H. injection H as <- <-. now rewrite F.
  - destruct (make_vertex_added cfg m p) as (m1 & E & (V1 & _) & _). rewrite E. intros H. injection H as <- <-.
    rewrite V1, find_near_app by auto. cbn [find_near n_el e_pt]. rewrite norm_self. destruct Rlt_dec; [reflexivity|contradiction].
Qed.

Lemma C44_default_at_origin_refuted_pf : forall d cfg (m : @mesh point) (p : point), reach cfg m -> (forall i, (i < d)%nat -> p i = 0%R) ->
  exists m1 a1 m2 a2, make_unique_vertex_default d cfg m p = Some (m1, a1) /\
    make_unique_vertex_default d cfg m1 p = Some (m2, a2) /\ a1 <> a2 /\
    (exists e1, deref m2 Vertex a1 = Some e1 /\ e_pt e1 = Some p) /\
    (exists e2, deref m2 Vertex a2 = Some e2 /\ e_pt e2 = Some p).
Proof.
  intros d cfg m p HR Z. unfold make_unique_vertex_default, make_unique_vertex.
  assert (N : norm_2 d p = 0) by (rewrite norm_inner, inner_zero_l by auto; apply sqrt_0). rewrite N.
  destruct Rlt_dec as [L|_]; [exfalso; lra|].
  destruct (make_vertex_added cfg m p) as (m1 & E1 & (V1 & _ & V3 & _) & _).
  destruct (make_vertex_added cfg m1 p) as (m2 & E2 & (W1 & _) & _).
  exists m1, (m_next m Vertex), m2, (m_next m1 Vertex). split; auto. split; auto. split; [lia|].
  assert (R1 : reach cfg m1) by (eapply reach_vertex; [exact HR|exact E1]).
  assert (R2 : reach cfg m2) by (eapply reach_vertex; [exact R1|exact E2]).
  split.
  - exists (mkE (m_idgen m Vertex) [] [] (Some p)). split; [|reflexivity].
    apply (deref_in cfg m2 R2 Vertex (mkN (m_next m Vertex) [] (mkE (m_idgen m Vertex) [] [] (Some p)))). rewrite W1, V1. apply in_or_app; left. apply in_or_app; right; left; reflexivity.
  - exists (mkE (m_idgen m1 Vertex) [] [] (Some p)). split; [|reflexivity].
    apply (deref_in cfg m2 R2 Vertex (mkN (m_next m1 Vertex) [] (mkE (m_idgen m1 Vertex) [] [] (Some p)))). rewrite W1. apply in_or_app; right; left; reflexivity.
Qed.

Lemma C44_default_elsewhere_pf : forall d cfg (m m' : @mesh point) (p : point) a, (exists i, (i < d)%nat /\ p i <> 0%R) ->
  make_unique_vertex_default d cfg m p = Some (m', a) -> make_unique_vertex_default d cfg m' p = Some (m', a).
Proof.
  intros d cfg m m' p a (i & Hi & Hp). unfold make_unique_vertex_default. apply C44_idempotent_pf.
  apply Rdiv_lt_0_compat; [|apply pow_lt; lra]. rewrite norm_inner. apply sqrt_lt_R0.
  destruct (Rle_lt_or_eq_dec _ _ (inner_nonneg d p)) as [L|E]; auto. exfalso. apply Hp. symmetry in E. now apply (inner_zero d p E).
Qed.

Lemma tol_nonneg eps b : 0 <= relative_tolerance eps b.
Proof. unfold relative_tolerance. eapply Rle_trans; [apply (Rabs_pos eps)|apply Rmax_r]. Qed.

Lemma C45_marked_iff_crossing_pf : forall d eps o n p0 p1,
  hyperplane_edge d eps o n p0 p1 <> None <-> crosses d (Rmax (eps * sqrt (dist_sq d p0 p1)) (Rabs eps)) o n p0 p1.
Proof.
  intros d eps o n p0 p1. unfold hyperplane_edge, crosses. rewrite norm_dist. rewrite !dot_inner.
  change (inner_prod d n (fun i => p0 i - o i)) with (inner_prod d n (psub p0 o)).
  change (inner_prod d n (fun i => p1 i - o i)) with (inner_prod d n (psub p1 o)).
  pose proof (tol_nonneg eps (sqrt (dist_sq d p0 p1))) as T.
  change (Rmax (eps * sqrt (dist_sq d p0 p1)) (Rabs eps)) with (relative_tolerance eps (sqrt (dist_sq d p0 p1))).
  set (tol := relative_tolerance _ _) in *. set (a := inner_prod d n (psub p0 o)) in *. set (b := inner_prod d n (psub p1 o)) in *. clearbody tol a b.
  destruct Rlt_dec; destruct Rlt_dec; try destruct Rlt_dec; split; intros H; try congruence; try lra.
Qed.

Lemma C45_new_point_pf : forall d eps o n p0 p1 x, hyperplane_edge d eps o n p0 p1 = Some x ->
  crossing_point d o n p0 p1 x /\
  exists y, hyperplane_edge d eps o n p1 p0 = Some y /\ same_point d x y.
Proof.
  intros d eps o n p0 p1 x H.
  assert (M : crosses d (Rmax (eps * sqrt (dist_sq d p0 p1)) (Rabs eps)) o n p0 p1) by (apply C45_marked_iff_crossing_pf; congruence).
  assert (M' : hyperplane_edge d eps o n p1 p0 <> None).
  { apply C45_marked_iff_crossing_pf. replace (dist_sq d p1 p0) with (dist_sq d p0 p1) by (unfold dist_sq; apply Rsum_ext; intros; ring). unfold crosses in *. tauto. }
  assert (F : forall q0 q1 z, hyperplane_edge d eps o n q0 q1 = Some z -> let qd := inner_prod d n (psub q0 o) in let pd := inner_prod d n (psub q1 o) in
     z = psub q1 (pscale (pd / (pd - qd)) (psub q1 q0))).
  { intros q0 q1 z E. unfold hyperplane_edge in E. revert E.
    destruct (Rlt_dec (inner_prod d n (psub q1 o)) (inner_prod d n (psub q0 o))); destruct Rlt_dec; try destruct Rlt_dec; try discriminate; intros E; injection E as <-; reflexivity. }
  pose proof (tol_nonneg eps (sqrt (dist_sq d p0 p1))) as T. fold (relative_tolerance eps (sqrt (dist_sq d p0 p1))) in M. set (tol := relative_tolerance _ _) in *.
  unfold crosses in M. rewrite !dot_inner in M. fold (psub p0 o) in M. fold (psub p1 o) in M.
  pose proof (F p0 p1 x H) as X. cbv zeta in X.
  set (qd := inner_prod d n (psub p0 o)) in *. set (pd := inner_prod d n (psub p1 o)) in *.
  assert (N : pd - qd <> 0) by (destruct M; lra).
  split.
  - split.
    + rewrite dot_inner. transitivity ((1 - pd / (pd - qd)) * pd + pd / (pd - qd) * qd); [|field; auto].
      set (w := pd / (pd - qd)) in *. unfold qd, pd. rewrite <- inner_lin_r. apply inner_ext; intros i Hi; [reflexivity|]. rewrite X. unfold psub, pscale. ring.
    + exists (- qd / (pd - qd)). split.
      * assert (E : - qd / (pd - qd) = 1 - pd / (pd - qd)) by (field; auto).
        destruct M as [[A B]|[A B]].
        -- split; [apply Rdiv_lt_0_compat; lra|]. enough (0 < pd / (pd - qd)) by lra. apply Rdiv_lt_0_compat; lra.
        -- replace (- qd / (pd - qd)) with (qd / (qd - pd)) by (field; split; lra). replace (pd / (pd - qd)) with (- pd / (qd - pd)) in E by (field; split; lra).
           split; [apply Rdiv_lt_0_compat; lra|]. assert (0 < - pd / (qd - pd)) by (apply Rdiv_lt_0_compat; lra).
           replace (qd / (qd - pd)) with (1 - (- pd / (qd - pd))) by (field; lra). lra.
      * intros i Hi. rewrite X. unfold psub, pscale. field. auto.
  - destruct (hyperplane_edge d eps o n p1 p0) as [y|] eqn:Y; [|congruence]. exists y. split; auto.
    apply F in Y. cbv zeta in Y. fold qd in Y. fold pd in Y. intros i Hi. rewrite X, Y. unfold psub, pscale. field. split; lra.
Qed.

Lemma nupd_same {A} (f : nat -> A) k x : nupd f k x k = x.
Proof. unfold nupd. now rewrite Nat.eqb_refl. Qed.
Lemma nupd_other {A} (f : nat -> A) k x j : j <> k -> nupd f k x j = f j.
Proof. unfold nupd. intros H. destruct (Nat.eqb_spec j k); congruence. Qed.

Lemma C45_marking_loop_pf : forall d eps o n cfg lines (dst : @mesh point) flags handles,
  reach cfg dst -> NoDup (map fst lines) ->
  exists dst' flags' handles', mark_hyperplane d eps o n cfg lines dst flags handles = Some (dst', flags', handles') /\
    reach cfg dst' /\
    (forall t a e, deref dst t a = Some e -> deref dst' t a = Some e) /\
    (forall l, ~ In l (map fst lines) -> flags' l = flags l /\ handles' l = handles l) /\
    forall l p0 p1, In (l, (p0, p1)) lines ->
      (flags' l = true <-> crosses d (Rmax (eps * sqrt (dist_sq d p0 p1)) (Rabs eps)) o n p0 p1) /\
      (flags' l = true -> exists a e q x, handles' l = Some a /\ deref dst' Vertex a = Some e /\ e_pt e = Some q /\
         crossing_point d o n p0 p1 x /\ (q = x \/ sqrt (dist_sq d x q) < sqrt (dot d x x) / 10 ^ 6)%R).
Proof.
  intros d eps o n cfg lines. induction lines as [|[l [p0 p1]] lines IH]; intros dst flags handles HR ND; cbn [mark_hyperplane].
  - exists dst, flags, handles. repeat split; auto; contradiction.
  - cbn [map fst] in ND. inversion ND as [|? ? NI ND']; subst.
    destruct (hyperplane_edge d eps o n p0 p1) as [x|] eqn:H.
    + assert (G : exists m1 a, make_unique_vertex_default d cfg dst x = Some (m1, a) /\ reach cfg m1 /\ (forall t b e, deref dst t b = Some e -> deref m1 t b = Some e) /\
         exists e q, deref m1 Vertex a = Some e /\ e_pt e = Some q /\ (q = x \/ sqrt (dist_sq d x q) < sqrt (dot d x x) / 10 ^ 6)).
      { unfold make_unique_vertex_default. destruct (Rlt_dec 0 (norm_2 d x / 10 ^ 6)) as [L|L].
        - destruct (C44_merges_or_creates_pf d cfg dst x _ HR L) as (m1 & a & E & R1 & [(-> & e & q & A & B & C)|(_ & _ & _ & (e & A & B) & Fr & _)]).
          + exists dst, a. repeat split; auto. exists e, q. repeat split; auto. right. rewrite dot_inner. exact C.
          + exists m1, a. repeat split; auto. exists e, x. auto.
        - unfold make_unique_vertex. destruct Rlt_dec; [contradiction|]. destruct (make_vertex_added cfg dst x) as (m1 & E & (V1 & _) & _). rewrite E.
          assert (S : step cfg dst (OVertex x) = Some m1) by (cbn [step]; now rewrite E).
          assert (R1 : reach cfg m1) by (eapply (reach_step cfg _ (OVertex _)); [exact HR|exact I|exact S]).
          exists m1, (m_next dst Vertex). repeat split; auto.
          + intros t b e B. eapply (proj1 (C06_insertion_frame_pf point cfg dst m1 (OVertex x) HR I ltac:(discriminate) S)); eauto.
          + exists (mkE (m_idgen dst Vertex) [] [] (Some x)), x. repeat split; auto.
            apply (deref_in cfg m1 R1 Vertex (mkN (m_next dst Vertex) [] (mkE (m_idgen dst Vertex) [] [] (Some x)))). rewrite V1. apply in_or_app; right; left; reflexivity. }
      destruct G as (m1 & a & E & R1 & Fr & e & q & A & B & C). rewrite E. cbn [obind fst snd].
      destruct (IH m1 (nupd flags l true) (nupd handles l (Some a)) R1 ND') as (dst' & fl & ha & M & R' & Fr' & Out & Ins).
      exists dst', fl, ha. split; auto. split; auto. split; [auto|]. split.
      * intros k Hk. cbn in Hk. destruct (Out k) as [O1 O2]; [tauto|]. rewrite O1, O2, !nupd_other by (intros ->; tauto). auto.
      * destruct (Out l NI) as [O1 O2]. rewrite nupd_same in O1. rewrite nupd_same in O2.
        intros k q0 q1 [I0|I0]; [injection I0 as <- <- <-|now apply Ins].
        split; [split; auto; intros _; apply C45_marked_iff_crossing_pf; congruence|]. intros _. exists a, e, q, x. repeat split; auto; apply (C45_new_point_pf d eps o n p0 p1 x H).
    + destruct (IH dst (nupd flags l false) handles HR ND') as (dst' & fl & ha & M & R' & Fr' & Out & Ins).
      exists dst', fl, ha. split; auto. split; auto. split; [auto|]. split.
      * intros k Hk. cbn in Hk. destruct (Out k) as [O1 O2]; [tauto|]. rewrite O1, nupd_other by (intros ->; tauto). auto.
      * destruct (Out l NI) as [O1 O2]. rewrite nupd_same in O1.
        intros k q0 q1 [I0|I0]; [injection I0 as <- <- <-|now apply Ins].
        split; [|congruence]. rewrite O1. split; [discriminate|]. intros X. apply C45_marked_iff_crossing_pf in X. congruence.
Qed.

Lemma C45_vertex_off_hyperplane_refuted_pf : forall g cfg, (0 < g)%R ->
  exists p0 p1 o n (dst dst' : @mesh point) flags handles a e q, reach cfg dst /\
    mark_hyperplane 2 0 o n cfg [(0%nat, (p0, p1))] dst (fun _ => false) (fun _ => None) = Some (dst', flags, handles) /\
    handles 0%nat = Some a /\ deref dst' Vertex a = Some e /\ e_pt e = Some q /\
    dot 2 n (fun i => q i - o i)%R = (- g)%R.
Proof.
  intros g cfg Hg. set (X := 10 ^ 6 * g). assert (HX : 0 < X) by (unfold X; apply Rmult_lt_0_compat; [apply pow_lt|]; lra).
  set (o := pt2 (X + g) 0). set (n := pt2 1 0). set (p0 := pt2 (X + g - 1) 0). set (p1 := pt2 (X + g + 1) 0). set (q := pt2 X 0).
  destruct (make_vertex_added cfg (@empty_mesh point) q) as (dst & E & (V1 & _) & _). cbn [m_next empty_mesh m_nodes m_idgen] in *.
  assert (HR : reach cfg dst) by (eapply (reach_step cfg empty_mesh (OVertex q)); [apply reach_empty|exact I|cbn [step]; rewrite E; reflexivity]).
  assert (D0 : inner_prod 2 n (psub p0 o) = -1) by (unfold inner_prod, n, psub, p0, o, pt2; cbn; ring).
  assert (D1 : inner_prod 2 n (psub p1 o) = 1) by (unfold inner_prod, n, psub, p1, o, pt2; cbn; ring).
  assert (T : forall b, relative_tolerance 0 b = 0) by (intros b; unfold relative_tolerance; rewrite Rmult_0_l, Rabs_R0; apply Rmax_left; lra).
  set (x := psub p1 (pscale (1 / (1 - -1)) (psub p1 p0))).
  assert (N1 : norm_2 2 x = X + g).
  { rewrite norm_inner. replace (inner_prod 2 x x) with (Rsqr (X + g)) by (unfold Rsqr, inner_prod, x, psub, pscale, p0, p1, pt2; cbn; field). apply sqrt_Rsqr. lra. }
  assert (N2 : norm_2 2 (psub x q) = g).
  { rewrite norm_inner. replace (inner_prod 2 (psub x q) (psub x q)) with (Rsqr g) by (unfold Rsqr, inner_prod, x, q, psub, pscale, p0, p1, pt2; cbn; field). apply sqrt_Rsqr. lra. }
  assert (L : g < (X + g) / 10 ^ 6).
  { unfold X. replace ((10 ^ 6 * g + g) / 10 ^ 6) with (g + g / 10 ^ 6) by (field). assert (0 < g / 10 ^ 6) by (apply Rdiv_lt_0_compat; [|apply pow_lt]; lra). lra. }
  assert (U : make_unique_vertex_default 2 cfg dst x = Some (dst, 0%nat)).
  { unfold make_unique_vertex_default, make_unique_vertex. rewrite N1. destruct Rlt_dec; [|exfalso; lra]. rewrite V1. cbn [app find_near n_el e_pt n_addr]. rewrite N2. destruct Rlt_dec; [reflexivity|contradiction]. }
  exists p0, p1, o, n, dst, dst. eexists _, _, 0%nat, (mkE 0 [] [] (Some q)), q.
  split; [exact HR|]. split.
  { cbn [mark_hyperplane]. unfold hyperplane_edge. rewrite D0, D1, T. destruct Rlt_dec; [exfalso; lra|]. destruct Rlt_dec; [|exfalso; lra]. destruct Rlt_dec; [|exfalso; lra].
    fold x. rewrite U. reflexivity. }
  split; [reflexivity|]. split.
  - apply (deref_in cfg dst HR Vertex (mkN 0 [] (mkE 0 [] [] (Some q)))). rewrite V1. left. reflexivity.
  - split; [reflexivity|]. unfold dot, n, q, o, pt2. cbn. ring.
Qed.
