(** Small meshes for the examples and the counterexample of C69. *)
From Coq Require Import Reals List Arith Bool Lra Lia.
From Verif Require Import ModelTopo ModelMesh ModelErase ModelGeom ModelRefineTri ModelRefine ModelVolume ModelCopy ModelRefineMesh ModelSegmentation ModelSegment ModelHyperplane SpecMesh SpecErase SpecCopy SpecRefine SpecGeom SpecSegment SpecHyperplane MeshDemo SegmentDemo UniqueProofs HyperplaneLoop.
Import ModelSegmentation ListNotations.
Open Scope nat_scope.

Definition hp_cfg := full_config Triangle.
(** One triangle. *)
Definition hp_ops (p0 p1 p2 : point) : list (op point) := [OVertex p0; OVertex p1; OVertex p2; OElement Triangle [0; 1; 2]].
Definition hp_src (p0 p1 p2 : point) : @mesh point := mesh_of hp_cfg (hp_ops p0 p1 p2).
Lemma hp_src_reach p0 p1 p2 : reach hp_cfg (hp_src p0 p1 p2).
Proof. apply demo_ok. reflexivity. Qed.
Lemma hp_lines p0 p1 p2 : lines_data (hp_src p0 p1 p2) = Some [(0, (p0, p1)); (1, (p0, p2)); (2, (p1, p2))].
Proof. reflexivity. Qed.

(** The mesh with one vertex. *)
Definition hp_one (x : point) : @mesh point := mesh_of hp_cfg [OVertex x].
Lemma hp_first d x : make_unique_vertex_default d hp_cfg empty_mesh x = Some (hp_one x, 0).
Proof. unfold make_unique_vertex_default, make_unique_vertex. destruct Rlt_dec; reflexivity. Qed.
Lemma hp_second d x y : (norm_2 d (psub y x) < norm_2 d y / 10 ^ 6)%R -> (0 < norm_2 d y / 10 ^ 6)%R ->
  make_unique_vertex_default d hp_cfg (hp_one x) y = Some (hp_one x, 0).
Proof.
  intros A B. unfold make_unique_vertex_default, make_unique_vertex. destruct Rlt_dec; [|contradiction].
  change (m_nodes (hp_one x) Vertex) with [mkN 0 [] (mkE 0 [] [] (Some x))]. cbn [find_near n_el e_pt n_addr]. destruct Rlt_dec; [reflexivity|contradiction].
Qed.

Definition hp_first_cell (m : @mesh point) := (existsb (Nat.eqb 0) (range m Triangle), vertices_at m Triangle 0).
Definition hp_cs1 := [[0; 1; 0]; [3; 0; 2]; [2; 0; 0]].
Definition hp_cs2 := [[0; 1; 0]; [3; 0; 0]; [3; 0; 2]].
Lemma hp_cell d (src m0 : @mesh point) (fl : addr -> bool) em :
  option_map (fun e => (e_verts e, boundary_of e Line)) (deref src Triangle 0) = Some ([0; 1; 2], [0; 1; 2]) ->
  option_map (fun r => (snd r, map (has_point (fst (fst r))) [0; 1; 2; 3], option_map hp_first_cell (make_cells hp_cfg Triangle (fst (fst r)) hp_cs1), option_map hp_first_cell (make_cells hp_cfg Triangle (fst (fst r)) hp_cs2)))
     (copy_vertices hp_cfg src (m0, []) [0; 1; 2]) = Some ([1; 2; 3], [true; true; true; true], Some (true, Some [0; 1; 0]), Some (true, Some [0; 1; 0])) ->
  omap (fun a => if fl a then obind (deref src Line a) (fun z => vlookup (e_id z) em) else Some 0) [0; 1; 2] = Some [0; 0; 0] ->
  map fl [0; 1; 2] = [true; true; false] ->
  exists out', option_map fst (obind (refine_cell d hp_cfg src Triangle fl em (m0, []) 0) (fun st => Some st)) = Some out' /\
    In 0 (range out' Triangle) /\ vertices_at out' Triangle 0 = Some [0; 1; 0].
Proof.
  intros De Ec Em Ef.
  unfold refine_cell, element_refinement.
  destruct (deref src Triangle 0) as [e|]; [|discriminate]. cbn [option_map] in De. injection De as Ev Eb. change (boundary_of e Line = [0; 1; 2]) in Eb.
  cbn [obind]. rewrite Ev, Eb.
  destruct (copy_vertices hp_cfg src (m0, []) [0; 1; 2]) as [[[m1 vm] vs]|]; [|discriminate]. cbn [option_map fst snd map] in Ec. 
  pose proof (f_equal (option_map (fun q => snd (fst (fst q)))) Ec) as Eh. pose proof (f_equal (option_map (fun q => fst (fst (fst q)))) Ec) as Es.
  pose proof (f_equal (option_map (fun q => snd (fst q))) Ec) as E1. pose proof (f_equal (option_map snd) Ec) as E2. clear Ec. cbn [option_map fst snd] in *.
  injection Es as ->. injection Eh as Eh0 Eh1 Eh2 Eh3.
  assert (X : forall y, Some (option_map hp_first_cell y) = Some (Some (true, Some [0; 1; 0])) -> exists m, y = Some m /\ In 0 (range m Triangle) /\ vertices_at m Triangle 0 = Some [0; 1; 0]).
  { intros [m|] Y; [|discriminate]. exists m. split; auto. unfold hp_first_cell in Y. cbn [option_map] in Y. injection Y as Y1 Y2. split; auto.
    apply existsb_exists in Y1 as ([|z] & Hz & Ez); [exact Hz|discriminate]. }
  apply X in E1, E2. clear X.
  cbn [obind fst snd]. rewrite Em. cbn [obind]. cbn [map] in Ef. injection Ef as Ef0 Ef1 Ef2.
  cbn [length nverts nedges Nat.eqb andb forallb combine fst snd]. rewrite Eh0, Eh1, Eh2, Eh3, Ef0, Ef1, Ef2. cbn [negb orb andb].
  cbn [children]. unfold tri_children. cbv zeta. set (g := fun a b c e : nat => if Rgt_dec _ _ then true else false). clearbody g.
  unfold refine_tri. cbn [seq filter nth]. rewrite Ef0, Ef1, Ef2. cbn [length]. unfold tri_apply2. cbn [nth]. rewrite Ef0, Ef1. cbn [andb]. unfold tri_cells2.
  destruct (g ((2 + 1) mod 3) ((2 + 0) mod 3) ((2 + 2) mod 3) ((2 + 1) mod 3)).
  - destruct E1 as (m & E1 & H). exists m. split; auto. change (option_map fst (obind (option_map (fun m => (m, vm)) (make_cells hp_cfg Triangle m1 hp_cs1)) (fun st => Some st)) = Some m). now rewrite E1.
  - destruct E2 as (m & E2 & H). exists m. split; auto. change (option_map fst (obind (option_map (fun m => (m, vm)) (make_cells hp_cfg Triangle m1 hp_cs2)) (fun st => Some st)) = Some m). now rewrite E2.
Qed.

Lemma hp_range p0 p1 p2 : range (hp_src p0 p1 p2) Triangle = [0].
Proof. reflexivity. Qed.
(** The first two lines share their new vertex. *)
Lemma hp_merged d eps o n p0 p1 p2 x y :
  hyperplane_edge d eps o n p0 p1 = Some x -> hyperplane_edge d eps o n p0 p2 = Some y -> hyperplane_edge d eps o n p1 p2 = None ->
  (norm_2 d (psub y x) < norm_2 d y / 10 ^ 6)%R -> (0 < norm_2 d y / 10 ^ 6)%R ->
  exists out', hyperplane_refine d eps o n hp_cfg (hp_src p0 p1 p2) Triangle empty_mesh = Some out' /\
    In 0 (range out' Triangle) /\ vertices_at out' Triangle 0 = Some [0; 1; 0].
Proof.
  intros H01 H02 H12 A B. unfold hyperplane_refine. rewrite hp_lines. cbn [obind mark_hyperplane]. rewrite H01, hp_first. cbn [obind fst snd].
  rewrite H02, hp_second by auto. cbn [obind fst snd]. rewrite H12. cbn [obind fst snd map].
  unfold simple_refine. rewrite hp_range. cbn [ofold].
  apply hp_cell; vm_compute; reflexivity.
Qed.

(** The same with points: the hyperplane through (1, 0) with the normal (1, 0)
    cuts a triangle very near to its corner. *)
Definition hp_p0 : point := pt2 (1 - / 10 ^ 7) 0.
Definition hp_p1 : point := pt2 2 0.
Definition hp_p2 : point := pt2 2 1.
Lemma hp_merged_points : exists out', hyperplane_refine 2 0 (pt2 1 0) (pt2 1 0) hp_cfg (hp_src hp_p0 hp_p1 hp_p2) Triangle empty_mesh = Some out' /\
  In 0 (range out' Triangle) /\ vertices_at out' Triangle 0 = Some [0; 1; 0].
Proof.
  pose (e := (/ 10 ^ 7)%R). assert (He : (0 < e < / 10 ^ 6 / 2)%R).
  { unfold e. split; [apply Rinv_0_lt_compat, pow_lt; lra|]. apply Rmult_lt_reg_r with (10 ^ 7)%R; [apply pow_lt; lra|]. rewrite Rinv_l by (apply pow_nonzero; lra).
    replace (/ 10 ^ 6 / 2 * 10 ^ 7)%R with 5%R by (simpl; field). lra. }
  assert (D0 : inner_prod 2 (pt2 1 0) (psub hp_p0 (pt2 1 0)) = (- e)%R) by (unfold inner_prod, psub, hp_p0, pt2; fold e; cbn; ring).
  assert (D1 : inner_prod 2 (pt2 1 0) (psub hp_p1 (pt2 1 0)) = 1%R) by (unfold inner_prod, psub, hp_p1, pt2; cbn; ring).
  assert (D2 : inner_prod 2 (pt2 1 0) (psub hp_p2 (pt2 1 0)) = 1%R) by (unfold inner_prod, psub, hp_p2, pt2; cbn; ring).
  assert (T : forall b, relative_tolerance 0 b = 0%R) by (intros b; unfold relative_tolerance; rewrite Rmult_0_l, Rabs_R0; apply Rmax_left; lra).
  pose (x := psub hp_p1 (pscale (1 / (1 - - e)) (psub hp_p1 hp_p0))). pose (y := psub hp_p2 (pscale (1 / (1 - - e)) (psub hp_p2 hp_p0))).
  pose (g := (e / (1 + e))%R). assert (Hg : (0 < g < / 10 ^ 6)%R).
  { unfold g. split; [apply Rdiv_lt_0_compat; lra|]. apply Rle_lt_trans with e; [|lra]. apply Rmult_le_reg_r with (1 + e)%R; [lra|]. unfold Rdiv. rewrite Rmult_assoc, Rinv_l by lra. nra. }
  assert (N1 : (1 <= norm_2 2 y)%R).
  { rewrite norm_inner. replace (inner_prod 2 y y) with (1 + g * g)%R by (unfold inner_prod, y, g, psub, pscale, hp_p0, hp_p2, pt2; fold e; cbn; field; lra). rewrite <- sqrt_1 at 1. apply sqrt_le_1_alt. nra. }
  assert (N2 : norm_2 2 (psub y x) = g).
  { rewrite norm_inner. replace (inner_prod 2 (psub y x) (psub y x)) with (Rsqr g) by (unfold Rsqr, inner_prod, x, y, g, psub, pscale, hp_p0, hp_p1, hp_p2, pt2; fold e; cbn; field; lra). apply sqrt_Rsqr. lra. }
  assert (Z : (0 < / 10 ^ 6)%R) by (apply Rinv_0_lt_compat, pow_lt; lra).
  apply hp_merged with x y.
  - unfold hyperplane_edge. rewrite D0, D1, T. destruct Rlt_dec; [exfalso; lra|]. destruct Rlt_dec; [|exfalso; lra]. destruct Rlt_dec; [reflexivity|exfalso; lra].
  - unfold hyperplane_edge. rewrite D0, D2, T. destruct Rlt_dec; [exfalso; lra|]. destruct Rlt_dec; [|exfalso; lra]. destruct Rlt_dec; [reflexivity|exfalso; lra].
  - unfold hyperplane_edge. rewrite D1, D2, T. destruct Rlt_dec; [exfalso; lra|]. destruct Rlt_dec; [exfalso; lra|reflexivity].
  - rewrite N2. unfold Rdiv. nra.
  - unfold Rdiv. nra.
Qed.
Lemma hp_independent : independent 2 [hp_p0; hp_p1; hp_p2].
Proof.
  intros wps H W C. destruct wps as [|[a ?] [|[b ?] [|[c ?] [|? ?]]]]; try discriminate. simpl in H. injection H as -> -> ->.
  pose proof (C 0 ltac:(lia)) as C0. pose proof (C 1 ltac:(lia)) as C1. unfold weight_sum, weighted_coord, hp_p0, hp_p1, hp_p2 in *.
  assert (He : (0 < / 10 ^ 7)%R) by (apply Rinv_0_lt_compat, pow_lt; lra). revert He C0 C1 W. generalize (/ 10 ^ 7)%R. intros e He C0 C1 W. simpl in *.
  assert (c = 0)%R by lra. subst c. assert (b = - a)%R by lra. subst b. assert (a * (1 + e) = 0)%R by nra. apply Rmult_integral in H as [-> |]; [|exfalso; lra].
  repeat (apply Forall_cons; [cbn [fst]; lra|]). apply Forall_nil.
Qed.

(** A triangle that the same hyperplane cuts further from its corners. *)
Definition hp_good : @mesh point := hp_src (pt2 0 0) (pt2 2 0) (pt2 2 2).
Definition hp_seg : sstate point :=
  sstate_of hp_cfg (map (fun o => SMesh o) (hp_ops (pt2 0 0) (pt2 2 0) (pt2 2 2)) ++ [SManage (SgId 7); SAdd 0 Triangle 0]).
Lemma hp_seg_reach : sreach hp_cfg hp_seg.
Proof. apply sdemo_ok. cbv -[pt2]. reflexivity. Qed.
Lemma hp_no_merge (src : @mesh point) : range src Line = [0; 1; 2] -> map (vertices_at src Line) [0; 1; 2] = [Some [0; 1]; Some [0; 2]; Some [1; 2]] ->
  map (point_at src) [0; 1; 2] = [Some (pt2 0 0); Some (pt2 2 0); Some (pt2 2 2)] ->
  no_merge 2 0 (pt2 1 0) (pt2 1 0) src empty_mesh /\ ends_at src 0 (pt2 0 0) (pt2 2 0) /\ line_crosses 2 0 (pt2 1 0) (pt2 1 0) (pt2 0 0) (pt2 2 0).
Proof.
  intros R V P. cbn [map] in V, P. injection V as V0 V1 V2. injection P as P0 P1 P2.
  assert (X0 : ends_at src 0 (pt2 0 0) (pt2 2 0)) by (exists 0, 1; auto).
  assert (X1 : ends_at src 1 (pt2 0 0) (pt2 2 2)) by (exists 0, 2; auto).
  assert (X2 : ends_at src 2 (pt2 2 0) (pt2 2 2)) by (exists 1, 2; auto).
  assert (T : forall b, Rmax (0 * b) (Rabs 0) = 0%R) by (intros b; rewrite Rmult_0_l, Rabs_R0; apply Rmax_left; lra).
  assert (ALL : forall a p q, ends_at src a p q -> line_crosses 2 0 (pt2 1 0) (pt2 1 0) p q ->
    (a = 0 /\ p = pt2 0 0 /\ q = pt2 2 0) \/ (a = 1 /\ p = pt2 0 0 /\ q = pt2 2 2)).
  { intros a p q E L. pose proof (ends_live src a p q E) as I. rewrite R in I. destruct I as [<-|[<-|[<-|[]]]].
    - destruct (ends_fun src 0 _ _ _ _ E X0). auto.
    - destruct (ends_fun src 1 _ _ _ _ E X1). auto.
    - destruct (ends_fun src 2 _ _ _ _ E X2) as [-> ->]. exfalso. unfold line_crosses in L. rewrite T in L. destruct L as [L|L]; unfold dot, pt2 in L; cbn in L; lra. }
  assert (C0 : forall x, crossing_point 2 (pt2 1 0) (pt2 1 0) (pt2 0 0) (pt2 2 0) x -> x 0 = 1%R /\ x 1 = 0%R).
  { intros x (A & s & S & B). pose proof (B 0 ltac:(lia)) as B0. pose proof (B 1 ltac:(lia)) as B1. unfold dot, pt2 in *. cbn in *. split; lra. }
  assert (C1 : forall x, crossing_point 2 (pt2 1 0) (pt2 1 0) (pt2 0 0) (pt2 2 2) x -> x 0 = 1%R /\ x 1 = 1%R).
  { intros x (A & s & S & B). pose proof (B 0 ltac:(lia)) as B0. pose proof (B 1 ltac:(lia)) as B1. unfold dot, pt2 in *. cbn in *. split; lra. }
  assert (S2 : (sqrt 2 < 2)%R) by (rewrite <- (sqrt_square 2) at 2 by lra; apply sqrt_lt_1; lra).
  assert (NN : forall x y : point, x 0 = 1%R /\ y 0 = 1%R /\ (x 1 = 0%R /\ y 1 = 1%R \/ x 1 = 1%R /\ y 1 = 0%R) -> ~ too_near 2 x y).
  { intros x y H N. unfold too_near in N.
    replace (dist_sq 2 x y) with 1%R in N by (unfold dist_sq; cbn; destruct H as (-> & -> & [[-> ->]|[-> ->]]); ring). rewrite sqrt_1 in N.
    assert (M : (sqrt (dot 2 x x) <= 2)%R).
    { replace (dot 2 x x) with (1 + x 1%nat * x 1%nat)%R by (unfold dot; cbn; destruct H as (-> & _); ring). destruct H as (_ & _ & [[-> _]|[-> _]]).
      - replace (1 + 0 * 0)%R with 1%R by ring. rewrite sqrt_1. lra.
      - replace (1 + 1 * 1)%R with 2%R by ring. lra. }
    assert (Z : (sqrt (dot 2 x x) / 10 ^ 6 <= 2 / 10 ^ 6)%R) by (apply Rmult_le_compat_r; [apply Rlt_le, Rinv_0_lt_compat, pow_lt; lra|exact M]).
    assert (Y : (2 / 10 ^ 6 < 1)%R) by (apply Rmult_lt_reg_r with (10 ^ 6)%R; [apply pow_lt; lra|]; unfold Rdiv; rewrite Rmult_assoc, Rinv_l by (apply pow_nonzero; lra); simpl; lra). lra. }
  split; [|split; [exact X0|]].
  - intros a p q x E L X. split; [intros v y Y; discriminate|]. intros b p' q' y E' L' Y Hb.
    destruct (ALL a p q E L) as [(-> & -> & ->)|(-> & -> & ->)], (ALL b p' q' E' L') as [(-> & -> & ->)|(-> & -> & ->)]; try congruence.
    + apply C0 in X as []. apply C1 in Y as []. apply NN. auto 6.
    + apply C1 in X as []. apply C0 in Y as []. apply NN. auto 6.
  - unfold line_crosses. rewrite T. left. unfold dot, pt2. cbn. lra.
Qed.
