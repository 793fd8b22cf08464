(** C73, C74: a .poly file is read as the vertices, lines and PLCs that it describes. *)
From Coq Require Import Ascii String List Arith ZArith Bool Lia.
From Verif Require Import ModelTopo ModelMesh ModelErase ModelCopySeg ModelXml ModelVtk ModelNetgen ModelPoly
  SpecMesh SpecErase SpecCopy SpecVtk SpecNetgen SpecPoly VtkDemo NetgenText PolyText PolyBuild PolyRead.
Import ListNotations.
Open Scope nat_scope.

Lemma C73_read_pf : forall (K : Type) (F : format K) file (P : poly K),
  poly_lines F P (lines_of file) -> poly_ok F P ->
  exists m cs, read_poly F (Some file) empty_mesh = Done (m, cs, po_holes P, po_seeds P) /\ mesh_of_poly P m cs.
Proof.
  intros K F file P (ls1 & ls2 & ls3 & W & V & (l & lfs & -> & Hf & Hl) & L) O. pose proof O as O'. destruct O as (O1 & O2 & _).
  rewrite <- app_comm_cons in W. destruct (upto_facets F P file ls1 _ l (List.concat lfs ++ ls3) O1 V Hf W) as (st & m & A & Hm & E). rewrite E.
  set (E0 := fun ij => In ij (flat_map facet_sides (po_facets P))).
  destruct (loop_lines (read_facet F) _ (facets_inv (po_vertices P) E0) (facet_step' F (po_vertices P) E0 (proj1 O1)) (po_facets P) lfs) with (pre := @nil (facet K)) (st := st) (s := (m, @nil (plc K))) (rest := ls3) (j := 0)
    as (st' & [m' cs] & E1 & A1 & D1 & W1).
  - apply Forall2_both; auto. rewrite Forall_forall in *. intros f Hin. apply good_facet; auto. intros ij Hij. apply in_flat_map. eauto.
  - exact A.
  - split; [now apply has_drawn|constructor].
  - cbn [fst snd app] in *. exists m', cs. rewrite E1. cbn [rbind]. rewrite (rest_spec F P st' m' cs ls3 O' L A1). split; auto. now apply mesh_result.
Qed.

Lemma C74_truncated_pf : forall (K : Type) (F : format K) file (P : poly K) ls1 ls2 k,
  vertices_lines F P ls1 -> facets_lines F P ls2 -> vertices_ok F P -> Forall (facet_ok F P) (po_facets P) ->
  k < List.length (ls1 ++ ls2) -> lines_of file = firstn k (ls1 ++ ls2) -> read_poly F (Some file) empty_mesh = Thrown.
Proof.
  intros K F file P ls1 ls2 k V Fc O1 O2 L W. rewrite firstn_concat in W. destruct (Nat.ltb_spec k (List.length ls1)) as [Lk|Lk].
  - destruct V as (l1 & lvs & -> & H1 & Hv). pose proof (ahead_text file) as A. rewrite W in A.
    unfold read_poly. destruct k as [|k]; cbn [firstn] in A; [now rewrite need_none|].
    destruct (need_some _ _ _ A) as (c & st1 & E1 & F1 & A1). destruct (first_spec F _ _ _ H1 F1) as (a & b & s1 & s2 & s3 & s4 & I1 & I2 & I3 & I4 & Q1 & Q2 & Q3).
    rewrite E1. cbn [rbind fst snd]. rewrite I1. cbn [rbind fst snd]. rewrite I2. cbn [rbind fst snd]. rewrite I3. cbn [rbind fst snd]. rewrite I4. cbn [rbind fst snd].
    replace (Z.of_nat (List.length (po_vertices P)) <? 0)%Z with false by (symmetry; apply Z.ltb_ge; lia). rewrite Z.eqb_refl, Q1, Q2, Q3, Nat2Z.id. cbn [negb orb].
    rewrite (loop_short_line (read_poly_vertex F) (fun x l => right_dim F (snd x) /\ vertex_line F x l) has_vertices (vertex_step F)) with (ls := lvs) (k := k) (pre := []); auto.
    + intros st s j Ha. unfold read_poly_vertex. cbn [fst snd]. now rewrite need_none.
    + now apply vertices_both.
    + cbn in Lk. lia.
    + apply has_empty.
  - destruct Fc as (l & lfs & -> & Hf & Hl). rewrite app_length in L. cbn [List.length] in L. remember (k - List.length ls1) as q eqn:Eq. destruct q as [|q]; cbn [firstn] in W.
    + destruct V as (l1 & lvs & -> & H1 & Hv). pose proof (ahead_text file) as A. rewrite W in A. cbn [app] in A.
      destruct (need_some _ _ _ A) as (c & st1 & E1 & F1 & A1). destruct (first_spec F _ _ _ H1 F1) as (a & b & s1 & s2 & s3 & s4 & I1 & I2 & I3 & I4 & Q1 & Q2 & Q3).
      destruct (loop_line (read_poly_vertex F) (fun x l => right_dim F (snd x) /\ vertex_line F x l) has_vertices (vertex_step F) (po_vertices P) lvs (vertices_both F P lvs O1 Hv) [] st1 empty_mesh [] 0 A1 has_empty)
        as (st2 & m & E2 & A2 & Hm).
      unfold read_poly. rewrite E1. cbn [rbind fst snd]. rewrite I1. cbn [rbind fst snd]. rewrite I2. cbn [rbind fst snd]. rewrite I3. cbn [rbind fst snd]. rewrite I4. cbn [rbind fst snd].
      replace (Z.of_nat (List.length (po_vertices P)) <? 0)%Z with false by (symmetry; apply Z.ltb_ge; lia). rewrite Z.eqb_refl, Q1, Q2, Q3, Nat2Z.id. cbn [negb orb].
      rewrite E2. cbn [rbind fst snd]. destruct (sm_good st2); cbn [negb]; [now rewrite need_none|reflexivity].
    + destruct (upto_facets F P file ls1 _ l (firstn q (List.concat lfs)) O1 V Hf W) as (st & m & A & Hm & E). rewrite E.
      rewrite (loop_short (read_facet F) (fun f ls => facet_good F (po_vertices P) (fun _ => True) f /\ facet_lines F f ls) (facets_inv (po_vertices P) (fun _ => True))
        (facet_step' F (po_vertices P) _ (proj1 O1)) (facet_short F (po_vertices P) _ (proj1 O1))) with (lss := lfs) (k := q) (pre := []); auto.
      * apply Forall2_both; auto. rewrite Forall_forall in *. intros f Hin. apply good_facet; auto.
      * lia.
      * split; [now apply has_drawn|constructor].
Qed.

Lemma C74_dimension_pf : forall (K : Type) (F : format K) file l ls n d,
  lines_of file = l :: ls -> words_of l = [num n; num d] -> d <> Z.of_nat (f_dim F) -> read_poly F (Some file) empty_mesh = Thrown.
Proof.
  intros K F file l ls n d W Wl D. pose proof (ahead_text file) as A. rewrite W in A. destruct (need_some _ _ _ A) as (c & st1 & E1 & F1 & A1). rewrite Wl in F1.
  destruct (int_or_num 0 c _ _ F1) as (s1 & I1 & F2). destruct (int_or_num 0 s1 _ _ F2) as (s2 & I2 & F3). destruct (int_or_none 0 s2 F3) as (s3 & I3 & F4). destruct (int_or_none 0 s3 F4) as (s4 & I4 & F5).
  unfold read_poly. rewrite E1. cbn [rbind fst snd]. rewrite I1. cbn [rbind fst snd]. rewrite I2. cbn [rbind fst snd]. rewrite I3. cbn [rbind fst snd]. rewrite I4. cbn [rbind fst snd].
  destruct (n <? 0)%Z; [reflexivity|]. replace (d =? Z.of_nat (f_dim F))%Z with false by (symmetry; now apply Z.eqb_neq). reflexivity.
Qed.

Lemma C74_bad_polygon_refuted_pf : forall (K : Type) (F : format K) file (P : poly K) n pre ls lf np nh ps lps p lp more,
  lines_of file = ls ++ lf :: lps ++ lp :: more -> lines_before F P n pre ls -> vertices_ok F P -> Forall (facet_ok F P) pre ->
  begins (nums [np; nh]) lf -> Forall2 polygon_line ps lps -> Forall (polygon_ok P) ps -> List.length ps < np ->
  polygon_line p lp -> ~ polygon_ok P p -> read_poly F (Some file) empty_mesh = Undefined.
Proof.
  intros K F file P n pre ls lf np nh ps lps p lp more W (ls1 & l & lfs & -> & V & Hf & Hl & Ln) O1 O2 (rest & Hlf) Hps Op Lp Hp B.
  rewrite <- app_assoc in W. cbn [app] in W. destruct (upto_facets F P file ls1 n l _ O1 V Hf W) as (st & m & A & Hm & E). rewrite E.
  rewrite (loop_stops (read_facet F) (fun f ls => facet_good F (po_vertices P) (fun _ => True) f /\ facet_lines F f ls) (facets_inv (po_vertices P) (fun _ => True)) Undefined
    (facet_step' F (po_vertices P) _ (proj1 O1))) with (xs := pre) (lss := lfs) (pre := []) (rest := lf :: lps ++ lp :: more); auto.
  - apply Forall2_both; auto. rewrite Forall_forall in *. intros f Hin. apply good_facet; auto.
  - split; [now apply has_drawn|constructor].
  - clear st m A Hm E. intros st [m cs] j A [D _]. cbn [fst] in D. destruct (need_some st lf _ A) as (c & st1 & E1 & Fc & A1). rewrite Hlf in Fc. cbn [nums map app] in Fc.
    destruct (need_int_spec c _ _ Fc) as (c1 & E2 & F1). destruct (need_int_spec c1 _ _ F1) as (c2 & E3 & _).
    unfold read_facet. rewrite E1. cbn [rbind fst snd]. rewrite E2. cbn [rbind fst snd]. rewrite E3. cbn [rbind fst snd].
    replace (Z.of_nat np <? 0)%Z with false by (symmetry; apply Z.ltb_ge; lia). replace (Z.of_nat nh <? 0)%Z with false by (symmetry; apply Z.ltb_ge; lia). rewrite !Nat2Z.id.
    rewrite (loop_stops read_polygon (fun p ls => exists l, ls = [l] /\ (p <> [] /\ incl p (map fst (po_vertices P)) /\ (forall ij, In ij (sides p) -> (fun _ => True) ij)) /\ polygon_line p l)
      (drew (po_vertices P) (fun _ => True)) Undefined) with (xs := ps) (lss := map (fun l => [l]) lps) (pre := []) (rest := lp :: more); auto.
    + intros pre' x l' rest' st' s' j' Hi (l0 & -> & Hr) Ha. destruct (polygon_step (po_vertices P) (fun _ => True) pre' x l0 rest' st' s' j' (proj1 O1) Hi Hr Ha) as (st2 & d & X1 & X2 & X3 & X4). eauto.
    + clear - Hps Op. induction Hps as [|q lq ps lps Hq H IH]; cbn [map]; constructor; inversion Op; subst; auto. exists lq. split; auto. unfold polygon_ok in *. intuition.
    + replace (List.concat (map (fun l => [l]) lps)) with lps; auto. clear. induction lps as [|x lps IH]; cbn; congruence.
    + split; [exact D|]. split; [constructor|]. intros v. cbn. split; [intros []|intros (? & [] & _)].
    + intros st' s' j' Ha (D' & _). eapply bad_polygon; eauto.
Qed.

Lemma C74_no_hole_number_refuted_pf : forall (K : Type) (F : format K) file (P : poly K) n pre ls lf np more,
  lines_of file = ls ++ lf :: more -> lines_before F P n pre ls -> vertices_ok F P -> Forall (facet_ok F P) pre ->
  words_of lf = nums [np] -> read_poly F (Some file) empty_mesh = Undefined.
Proof.
  intros K F file P n pre ls lf np more W (ls1 & l & lfs & -> & V & Hf & Hl & Ln) O1 O2 Hlf.
  rewrite <- app_assoc in W. cbn [app] in W. destruct (upto_facets F P file ls1 n l _ O1 V Hf W) as (st & m & A & Hm & E). rewrite E.
  rewrite (loop_stops (read_facet F) (fun f ls => facet_good F (po_vertices P) (fun _ => True) f /\ facet_lines F f ls) (facets_inv (po_vertices P) (fun _ => True)) Undefined
    (facet_step' F (po_vertices P) _ (proj1 O1))) with (xs := pre) (lss := lfs) (pre := []) (rest := lf :: more); auto.
  - apply Forall2_both; auto. rewrite Forall_forall in *. intros f Hin. apply good_facet; auto.
  - split; [now apply has_drawn|constructor].
  - clear st m A Hm E. intros st [m cs] j A [D _]. destruct (need_some st lf _ A) as (c & st1 & E1 & Fc & A1). rewrite Hlf in Fc. cbn [nums map app] in Fc.
    destruct (need_int_spec c _ _ Fc) as (c1 & E2 & F1). unfold read_facet. rewrite E1. cbn [rbind fst snd]. rewrite E2. cbn [rbind fst snd]. rewrite (need_int_none c1 F1). reflexivity.
Qed.
