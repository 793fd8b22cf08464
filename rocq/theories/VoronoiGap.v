(** Updates of the interface areas that are entered for no cell. *)
From Coq Require Import Reals List Arith Bool Lia Lra Permutation.
From Verif Require Import ModelTopo ModelMesh ModelErase ModelQuery ModelGeom ModelVolume ModelDistance ModelSurface ModelVoronoi
  SpecMesh SpecErase SpecQuery SpecCopy SpecRefine SpecGeom SpecDistance SpecSurface SpecVoronoi.
From Verif Require Import MeshBase MeshInv MeshWf MeshErase MeshSimple MeshProofs CopyBase QueryBase QueryProofs VolumeProofs CenterProofs DistanceProofs.
From Verif Require Import RefineMeshLoop VoronoiGeom VoronoiUpd VoronoiTri VoronoiMesh VoronoiStep VoronoiLoop VoronoiEdge.
Import ListNotations.
Local Open Scope R_scope.

Definition missing (us : list update) (q : vquantity) (a : addr) : R :=
  Rsum (map (fun u => if hit q a u then match u_cell u with Some _ => 0 | None => u_val u end else 0) us).
Definition quiet (u : update) : Prop := u_set u = false /\ (u_cell u = None -> u_q u = InterfaceArea /\ 0 <= u_val u).
Definition loud (u : update) : Prop := u_cell u = None /\ u_q u = InterfaceArea /\ 0 < u_val u.

Lemma missing_split us q a : delta us q a = entered us q a + missing us q a.
Proof.
  unfold delta, entered, missing. rewrite <- Rsum_plus. f_equal. apply map_ext. intros u. destruct (hit q a u); [|lra]. destruct (u_cell u); lra.
Qed.
Lemma missing_pos us q a : Forall quiet us -> 0 <= missing us q a.
Proof.
  intros F. unfold missing. induction F as [|u us Q F IH]; cbn [map]; [rewrite Rsum_nil; lra|]. rewrite Rsum_cons. destruct Q as [_ Q].
  destruct (hit q a u); [|lra]. destruct (u_cell u); [lra|]. destruct Q; auto. lra.
Qed.
Lemma missing_loud us u : Forall quiet us -> In u us -> loud u -> 0 < missing us InterfaceArea (u_el u).
Proof.
  intros F I (L1 & L2 & L3). apply in_split in I as (a & b & ->). apply Forall_app in F as [Fa Fb]. inversion Fb as [|? ? Qu Fb']; subst.
  unfold missing. rewrite map_app, Rsum_app. cbn [map]. rewrite Rsum_cons. fold (missing a InterfaceArea (u_el u)). fold (missing b InterfaceArea (u_el u)).
  assert (H : hit InterfaceArea (u_el u) u = true) by (unfold hit; rewrite L2, Nat.eqb_refl; reflexivity).
  rewrite H, L1. pose proof (missing_pos a InterfaceArea (u_el u) Fa). pose proof (missing_pos b InterfaceArea (u_el u) Fb'). lra.
Qed.

Lemma sv_pos d ps x : spanned_volume d ps = Some x -> 0 <= x.
Proof. unfold spanned_volume. destruct (signed_spanned_volume d ps); [|discriminate]. intros [= <-]. apply Rabs_pos. Qed.
Lemma some_quiet us c : Forall (fun u => exists q e x, u = add q e x c) us -> Forall quiet us.
Proof. apply Forall_impl. intros u (q & e & x & ->). split; [reflexivity|discriminate]. Qed.
Lemma adds_map {A} c q (el : A -> addr) (v : A -> R) l : Forall (fun u => exists q e x, u = add q e x c) (map (fun y => add q (el y) (v y) c) l).
Proof. induction l; constructor; eauto. Qed.
Lemma edge_adds d c base he us : edge_updates d c base he = Some us -> Forall (fun u => exists q e x, u = add q e x c) us.
Proof.
  unfold edge_updates. destruct (midpoint (snd he)); [|discriminate]. cbn [obind]. destruct (spanned_volume d (base ++ [p])); [|discriminate]. cbn [obind].
  destruct (omap _ (snd he)) as [l|]; [|discriminate]. cbn [option_map]. intros [= <-]. constructor; [eauto|]. apply Forall_app. split; [apply adds_map|]. constructor; [eauto|constructor].
Qed.
Lemma omap_Forall {A B} (f : A -> option B) (P : B -> Prop) l ks : omap f l = Some ks -> (forall x y, In x l -> f x = Some y -> P y) -> Forall P ks.
Proof. intros E H. apply Forall_forall. intros y I. destruct (omap_In f l ks y E I) as (x & X1 & X2). eauto. Qed.
Lemma Forall_cat {A} (P : A -> Prop) ll : Forall (Forall P) ll -> Forall P (List.concat ll).
Proof. induction 1; cbn; [constructor|]. apply Forall_app. auto. Qed.
Lemma center_adds d c base es us : center_updates d c base es = Some us -> Forall (fun u => exists q e x, u = add q e x c) us.
Proof.
  unfold center_updates. destruct (omap _ es) as [uss|] eqn:E; [|discriminate]. intros [= <-]. apply Forall_cat. eapply omap_Forall; [exact E|]. intros x y _. apply edge_adds.
Qed.
Lemma vertex_quiet c other C across x mid h opp v us : vertex_updates c other C across x mid h opp v = Some us -> Forall quiet us.
Proof.
  unfold vertex_updates. destruct (spanned_volume 2 [x; mid; snd v]); [|discriminate]. cbn [obind].
  assert (QA : forall q e y k, quiet (add q e y k)) by (intros; split; [reflexivity|discriminate]).
  assert (EN : forall vol, Forall quiet match option_map (fun o => [add VertexBox (fst v) vol o; add EdgeBox h vol o]) other with Some l => l | None => [] end).
  { intros vol. destruct other; cbn [option_map]; [|constructor]. repeat (constructor; [apply QA|]). constructor. }
  destruct (Nat.eqb (fst v) opp); cbn [negb].
  - destruct (spanned_volume 2 [across; x; snd v]); [|discriminate]. cbn [obind]. destruct (spanned_volume 2 [C; x; across]); [|discriminate]. cbn [option_map]. intros [= <-].
    repeat (constructor; [apply QA|]). apply EN.
  - destruct (spanned_volume 2 [C; x; snd v]); [|discriminate]. cbn [option_map]. intros [= <-]. constructor; [apply QA|apply EN].
Qed.
Lemma cut_quiet c other C cut a b across opp he us : cut_edge_updates c other C cut a b across opp he = Some us -> Forall quiet us /\
  (other = None -> cut <> fst he -> exists mid x j u, line_intersection mid C a b = Some x /\ spanned_volume 2 [x; C] = Some j /\ In u us /\ u = mkUpd InterfaceArea (fst he) j None false).
Proof.
  assert (QA : forall q e y k, quiet (add q e y k)) by (intros; split; [reflexivity|discriminate]).
  unfold cut_edge_updates. destruct (midpoint (snd he)) as [mid|]; [|discriminate]. cbn [obind]. destruct (Nat.eqb_spec cut (fst he)) as [E|NE]; cbn [negb].
  - destruct other as [o|]; [|intros [= <-]; split; [constructor|congruence]]. destruct (spanned_volume 2 [C; mid]); [|discriminate]. cbn [obind].
    destruct (omap _ (snd he)) as [l|]; [|discriminate]. cbn [option_map]. intros [= <-]. split; [|discriminate].
    constructor; [apply QA|]. apply Forall_app. split; [|constructor; [apply QA|constructor]]. eapply some_quiet, (adds_map o VertexBox fst (fun vx => - snd vx)).
  - destruct (line_intersection mid C a b) as [x|] eqn:EX; [|discriminate]. cbn [obind]. destruct (spanned_volume 2 [x; mid]) as [i|]; [|discriminate]. cbn [obind].
    destruct (spanned_volume 2 [x; C]) as [j|] eqn:EJ; [|discriminate]. cbn [obind]. destruct (omap (vertex_updates _ _ _ _ _ _ _ _) (snd he)) as [l|] eqn:EL; [|discriminate]. cbn [obind].
    destruct (omap (fun v => spanned_volume 2 [x; mid; snd v]) (snd he)) as [own|]; [|discriminate]. cbn [option_map]. intros EE. injection EE as EE. subst us. split.
    + constructor; [apply QA|]. constructor; [split; [reflexivity|]; cbn; intros _; split; [reflexivity|eapply sv_pos; eauto]|]. apply Forall_app. split; [|constructor; [apply QA|constructor]].
      apply Forall_cat. eapply omap_Forall; [exact EL|]. intros v y _. apply vertex_quiet.
    + intros -> _. exists mid, x, j, (mkUpd InterfaceArea (fst he) j None false). split; auto. split; auto. split; [|reflexivity]. right. now left.
Qed.

Section Gap.
Variable cfg : config.
Variable m : @mesh point.
Hypothesis R : reach cfg m.
Hypothesis K : cfg_keep cfg Line = true.

Lemma step_quiet q1 s1 c q2 s2 : triangle_step (q1, s1) c = Some (q2, s2) -> exists us, s2 = apply_updates true us s1 /\ Forall quiet us.
Proof.
  unfold triangle_step. cbn [fst snd]. destruct (deref (q_mesh q1) Triangle c) as [e|]; [|discriminate]. cbn [obind]. destruct (corners_of _ e) as [vs|]; [|discriminate]. cbn [obind].
  destruct (edges_of _ e) as [es|]; [|discriminate]. cbn [obind]. destruct vs as [|v0 [|v1 [|v2 [|? ?]]]]; try discriminate.
  destruct (circumcenter_tri2 _ _ _) as [C|]; [|discriminate]. cbn [obind]. destruct (local_coordinates C _ _ _) as [l|]; [|discriminate]. cbn [obind].
  destruct (cut_edge (fst l) (snd l)) as [k|].
  - destruct (nth_error es k) as [cut|]; [|discriminate]. cbn [obind]. destruct (nth_error _ (2 - k)) as [opp|]; [|discriminate]. cbn [obind].
    destruct (query_cob _ _ _ _ _) as [r|]; [|discriminate]. cbn [obind]. destruct (other_cell _ _ _) as [other|]; [|discriminate]. cbn [obind].
    unfold cut_updates. destruct (snd cut) as [|(a', a) [|(b', b) [|? ?]]]; try discriminate. destruct (line_intersection _ _ _ _) as [across|]; [|discriminate]. cbn [obind].
    destruct (omap _ es) as [uss|] eqn:EO; [|discriminate]. cbn [option_map]. intros [= <- <-]. exists (List.concat uss). split; auto.
    apply Forall_cat. eapply omap_Forall; [exact EO|]. intros x y _ H. eapply cut_quiet; eauto.
  - destruct (center_updates _ _ _ _) as [us|] eqn:EU; [|discriminate]. cbn [option_map]. intros [= <- <-]. exists us. split; auto. eapply some_quiet, center_adds; eauto.
Qed.
Lemma omap_In' {A B} (f : A -> option B) l ks x : omap f l = Some ks -> In x l -> exists y, In y ks /\ f x = Some y.
Proof.
  revert ks. induction l as [|z l IH]; intros ks E H; [destruct H|]. cbn [omap] in E. destruct (f z) as [y|] eqn:EZ; [|discriminate]. cbn [obind] in E.
  destruct (omap f l) as [ys|]; [|discriminate]. injection E as <-. destruct H as [<-|H]; [exists y; split; [now left|auto]|].
  destruct (IH _ eq_refl H) as (y' & I & E'). exists y'. split; [now right|auto].
Qed.
Lemma sq_zero a b : sq a b = 0 -> a 0%nat = b 0%nat /\ a 1%nat = b 1%nat.
Proof. unfold sq. intros H. apply (Rplus_sqr_eq_0 (a 0%nat - b 0%nat) (a 1%nat - b 1%nat)) in H as [H1 H2]. split; lra. Qed.
Lemma away_pos mid C a b x j : line_intersection mid C a b = Some x -> cr a b C <> 0 -> spanned_volume 2 [x; C] = Some j -> 0 < j.
Proof.
  unfold line_intersection. destruct (Req_EM_T _ 0) as [|NZ]; [discriminate|]. intros [= <-] N. rewrite sv2. intros [= <-]. apply sqrt_lt_R0.
  set (x := fun i : nat => match i with 0%nat => _ | 1%nat => _ | _ => _ end).
  assert (X : cr a b x = 0). { unfold cr, x. cbn beta iota. field. exact NZ. }
  destruct (Rle_lt_or_eq_dec 0 (sq x C)) as [H|H]; [apply sq_pos|exact H|]. exfalso. apply N.
  assert (E : x 0%nat = C 0%nat /\ x 1%nat = C 1%nat). { apply sq_zero. now symmetry. }
  destruct E as [E0 E1]. unfold cr in *. rewrite <- E0, <- E1. exact X.
Qed.
Lemma gamma_pick C P A B : centered C P A B -> gamma P A B C < 0 -> 0 <= gamma A B P C /\ 0 <= gamma P B A C.
Proof.
  intros (N & E1 & E2) G. assert (CB : centered C B P A) by (split; [intros E; apply N; unfold cr in *; lra|split; congruence]).
  assert (OUT : alpha B P A C < 0) by (rewrite alpha_gamma; exact G).
  destruct CB as (N' & F1 & F2). destruct (obtuse B P A C N' F1 F2 OUT) as [O1 O2].
  assert (N2 : cr A B P <> 0) by (intros E; apply N; unfold cr in *; lra).
  assert (N3 : cr P B A <> 0) by (intros E; apply N; unfold cr in *; lra).
  split.
  - unfold beta in O1. apply Rlt_le. unfold gamma. replace (cr A B C) with (cr B C A) by (unfold cr; ring). replace (cr A B P) with (cr B P A) by (unfold cr; ring). exact O1.
  - rewrite (gamma_sym P B A C N3). apply Rlt_le. exact O2.
Qed.
Lemma open_loud q1 s1 c e p0 p1 p2 h a b z C q2 s2 : qreach cfg q1 -> q_mesh q1 = m -> deref m Triangle c = Some e -> cell_points m e = Some [p0; p1; p2] -> cr p0 p1 p2 <> 0 ->
  edge_of_cell m h c a b z -> centered C a b z -> gamma a b z C < 0 -> lonely m h c -> triangle_step (q1, s1) c = Some (q2, s2) ->
  exists us u, s2 = apply_updates true us s1 /\ Forall quiet us /\ In u us /\ loud u.
Proof.
  intros Q M D CP ND EC CC G LO.
  destruct (tri_data cfg m R K c e D) as (v0 & v1 & v2 & q0 & q1' & q2' & h0 & h1 & h2 & l0 & l1 & l2 & EV & EBD & CP' & CO & ED & NV & NH & N0 & N1 & N2 & _).
  rewrite CP in CP'. injection CP' as <- <- <-. destruct (circumcenter_centered p0 p1 p2 ND) as (C' & EC' & CC').
  unfold triangle_step. cbn [fst snd]. rewrite M, D. cbn [obind]. rewrite CO, ED. cbn [obind fst snd]. rewrite EC'. cbn [obind]. rewrite (local_gamma p0 p1 p2 C' ND). cbn [obind fst snd].
  assert (TV : Triangle <> Vertex) by discriminate. pose proof (cell_has m Triangle c e _ TV D CP) as HPC. destruct EC as (BB & HPL & ps & HPC' & PE).
  pose proof (has_points_fun m Triangle c _ _ HPC' HPC) as ->.
  assert (BB' : In h (boundary_of e Line)) by (destruct BB as (e' & D' & HB); rewrite D in D'; injection D' as <-; exact HB).
  assert (X : forall k l u w pu pw zz, nth_error [(h0, l0); (h1, l1); (h2, l2)] k = Some (h, l) -> ends l (u, pu) (w, pw) -> Permutation [p0; p1; p2] [pu; pw; zz] -> centered C' pu pw zz ->
    (cut_edge (gamma p0 p2 p1 C') (gamma p0 p1 p2 C') = Some k \/ ~ gamma pu pw zz C' < 0) -> cr pu pw C' <> 0 \/ ~ gamma pu pw zz C' < 0 -> (exists o, nth_error [(v0, p0); (v1, p1); (v2, p2)] (2 - k) = Some o) ->
    (exists h' l', In (h', l') [(h0, l0); (h1, l1); (h2, l2)] /\ h <> h') ->
    match cut_edge (gamma p0 p2 p1 C') (gamma p0 p1 p2 C') with
    | Some k =>
          obind (nth_error [(h0, l0); (h1, l1); (h2, l2)] k) (fun cut =>
          obind (nth_error [(v0, p0); (v1, p1); (v2, p2)] (2 - k)) (fun opp =>
          obind (query_cob true Line Triangle q1 (fst cut)) (fun r =>
          obind (other_cell m e (snd r)) (fun other =>
          option_map (fun us => (fst r, apply_updates true us s1)) (cut_updates c other C' cut opp [(h0, l0); (h1, l1); (h2, l2)])))))
    | None => option_map (fun us => (q1, apply_updates true us s1)) (center_updates 2 c [C'] [(h0, l0); (h1, l1); (h2, l2)])
    end = Some (q2, s2) -> exists us u, s2 = apply_updates true us s1 /\ Forall quiet us /\ In u us /\ loud u).
  { intros k l u w pu pw zz NE EN PE' CE CUT NZ (o & NO) (h' & l' & HI' & NH').
    destruct (edge_entry m e _ h l ED (nth_error_In _ _ NE)) as (f & Df & Cf). destruct (entry_ends cfg m R h f l _ _ _ _ Df Cf EN) as [_ EP].
    assert (GG : gamma pu pw zz C' < 0).
    { assert (CZ : forall x y, centered C' x y z -> x = a -> y = b -> gamma x y z C' < 0).
      { intros x y CX -> ->. assert (EI : forall i, (i < 2)%nat -> C' i = C i) by (apply (circ_unique C C' a b z); auto). unfold gamma, cr in *. rewrite (EI 0%nat), (EI 1%nat) by lia. exact G. }
      destruct EP as [EP|EP]; pose proof (has_points_fun m Line h _ _ HPL EP) as EE; injection EE as -> ->; rewrite PE' in PE.
      - apply Permutation_cons_inv, Permutation_cons_inv, Permutation_length_1 in PE. subst zz. now apply CZ.
      - rewrite perm_swap in PE. apply Permutation_cons_inv, Permutation_cons_inv, Permutation_length_1 in PE. subst zz. rewrite gamma_sym by apply CE. apply CZ; auto. now apply centered_swap. }
    destruct CUT as [->|CUT]; [|contradiction]. destruct NZ as [NZ|NZ]; [|contradiction].
    rewrite NE. cbn [obind]. rewrite NO. cbn [obind fst snd]. destruct (query_cob true Line Triangle q1 h) as [[qq lq]|] eqn:EQ; [|discriminate]. cbn [obind fst snd].
    destruct (other_cell_spec cfg m R q1 c e h qq lq Q M D BB' EQ) as (other & EO & OS). rewrite EO. cbn [obind].
    destruct other as [ot|]; [destruct OS as (_ & _ & NL); contradiction|].
    unfold cut_updates. cbn [snd fst]. destruct l as [|(x', px) [|(y', py) [|? ?]]]; try discriminate. destruct (line_intersection (snd o) C' px py) as [across|]; [|discriminate]. cbn [obind].
    destruct (omap _ [(h0, l0); (h1, l1); (h2, l2)]) as [uss|] eqn:EU; [|discriminate]. cbn [option_map]. intros [= <- <-].
    destruct (omap_In' _ _ _ _ EU HI') as (us & IU & EU'). destruct (cut_quiet _ _ _ _ _ _ _ _ _ _ EU') as [_ LU]. destruct LU as (mid & xx & j & uu & E1 & E2 & E3 & ->); auto.
    exists (List.concat uss), (mkUpd InterfaceArea (fst (h', l')) j None false). split; auto. split; [|split].
    - apply Forall_cat. eapply omap_Forall; [exact EU|]. intros y1 y2 _ H. eapply cut_quiet; eauto.
    - apply in_concat. eauto.
    - split; [reflexivity|]. split; [reflexivity|]. cbn [u_val]. apply (away_pos mid C' px py xx j E1); auto.
      destruct EN as [EN|EN]; injection EN as -> -> -> ->; auto. intros E. apply NZ. unfold cr in *. lra. }
  assert (GNZ : forall x y w, gamma x y w C' < 0 -> cr x y C' <> 0). { intros x y w HG E. unfold gamma in HG. rewrite E in HG. unfold Rdiv in HG. lra. }
  assert (H01 : h0 <> h1 /\ h0 <> h2 /\ h1 <> h2) by (inversion NH as [|? ? I1 NV1]; subst; inversion NV1 as [|? ? I2 _]; subst; cbn in *; repeat split; intros ->; tauto).
  destruct H01 as (H01 & H02 & H12). pose proof (bary_sum p0 p1 p2 C' ND) as BS. rewrite alpha_gamma in BS.
  assert (GB : beta p0 p1 p2 C' = gamma p0 p2 p1 C'). { unfold gamma, beta. replace (cr p0 p2 C') with (- cr p0 C' p2) by (unfold cr; ring). replace (cr p0 p2 p1) with (- cr p0 p1 p2) by (unfold cr; ring). field. exact ND. }
  rewrite GB in BS. clear GB.
  assert (C021 : centered C' p0 p2 p1) by (destruct CC' as (? & ? & ?); split; [intros E; apply ND; unfold cr in *; lra|split; congruence]).
  assert (C120 : centered C' p1 p2 p0) by (apply centered_rot; exact CC').
  rewrite EBD in BB'. cbn [In] in BB'. destruct BB' as [<-|[<-|[<-|[]]]].
  - apply (X 0%nat l0 v0 v1 p0 p1 p2); auto.
    + destruct (Rlt_dec (gamma p0 p1 p2 C') 0) as [L|L]; [left|now right]. unfold cut_edge. destruct (Rlt_dec (gamma p0 p1 p2 C') 0); [reflexivity|lra].
    + destruct (Rlt_dec (gamma p0 p1 p2 C') 0) as [L|L]; [left; eauto|now right].
    + eexists. reflexivity.
    + exists h1, l1. split; [cbn; auto|auto].
  - apply (X 1%nat l1 v0 v2 p0 p2 p1); auto; [apply perm_skip, perm_swap| | | |].
    + destruct (Rlt_dec (gamma p0 p2 p1 C') 0) as [L|L]; [left|now right]. destruct (gamma_pick C' p0 p2 p1 C021 L) as [_ L2]. unfold cut_edge.
      destruct (Rlt_dec (gamma p0 p1 p2 C') 0); [lra|]. destruct (Rlt_dec (gamma p0 p2 p1 C') 0); [reflexivity|lra].
    + destruct (Rlt_dec (gamma p0 p2 p1 C') 0) as [L|L]; [left; eauto|now right].
    + eexists. reflexivity.
    + exists h0, l0. split; [cbn; auto|auto].
  - apply (X 2%nat l2 v1 v2 p1 p2 p0); auto; [apply (Permutation_cons_append [p1; p2] p0)| | | |].
    + destruct (Rlt_dec (gamma p1 p2 p0 C') 0) as [L|L]; [left|now right]. destruct (gamma_pick C' p1 p2 p0 C120 L) as [L1 L2]. unfold cut_edge.
      assert (E1 : gamma p2 p0 p1 C' = gamma p0 p2 p1 C'). { apply gamma_sym. intros E. apply ND. unfold cr in *. lra. }
      assert (E2 : gamma p1 p0 p2 C' = gamma p0 p1 p2 C'). { apply gamma_sym. intros E. apply ND. unfold cr in *. lra. }
      rewrite E1 in L1. rewrite E2 in L2. destruct (Rlt_dec (gamma p0 p1 p2 C') 0); [lra|]. destruct (Rlt_dec (gamma p0 p2 p1 C') 0); [lra|].
      destruct (Rlt_dec 1 (gamma p0 p2 p1 C' + gamma p0 p1 p2 C')); [reflexivity|lra].
    + destruct (Rlt_dec (gamma p1 p2 p0 C') 0) as [L|L]; [left; eauto|now right].
    + eexists. reflexivity.
    + exists h0, l0. split; [cbn; auto|auto].
Qed.
End Gap.
