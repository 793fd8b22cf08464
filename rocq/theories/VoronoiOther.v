(** Lines, quadrilaterals, hexahedra and tetrahedra. *)
From Coq Require Import Reals List Arith Bool Lia Lra Permutation.
From Verif Require Import ModelTopo ModelMesh ModelErase ModelQuery ModelGeom ModelVolume ModelDistance ModelSurface ModelVoronoi
  SpecMesh SpecErase SpecQuery SpecCopy SpecRefine SpecGeom SpecDistance SpecSurface SpecVoronoi.
From Verif Require Import MeshBase MeshInv MeshWf MeshErase MeshSimple MeshProofs CopyBase QueryBase QueryProofs VolumeProofs CenterProofs DistanceProofs.
From Verif Require Import RefineMeshLoop VoronoiGeom VoronoiUpd VoronoiTri VoronoiMesh VoronoiStep VoronoiLoop VoronoiEdge VoronoiGap.
Import ListNotations.
Local Open Scope R_scope.

(** ** Quantities that are assigned (lines and tetrahedra) *)
Record line_rec := mkLine { k_h : addr; k_u : addr; k_w : addr; k_i : R; k_b : R }.
Record set_step (s s' : store) (r : line_rec) : Prop := mkSet {
  ss_i : forall x, vo_val s' InterfaceArea x = if Nat.eqb x (k_h r) then k_i r else vo_val s InterfaceArea x;
  ss_e : forall x, vo_val s' EdgeBox x = if Nat.eqb x (k_h r) then k_b r else vo_val s EdgeBox x;
  ss_v : forall x, vo_val s' VertexBox x = vo_val s VertexBox x + ((if Nat.eqb x (k_u r) then k_b r / 2 else 0) + (if Nat.eqb x (k_w r) then k_b r / 2 else 0));
  ss_ci : forall x, con_sum (vo_con s' InterfaceArea x) = con_sum (vo_con s InterfaceArea x) + if Nat.eqb x (k_h r) then k_i r else 0;
  ss_ce : forall x, con_sum (vo_con s' EdgeBox x) = con_sum (vo_con s EdgeBox x) + if Nat.eqb x (k_h r) then k_b r else 0;
  ss_cv : forall x, con_sum (vo_con s' VertexBox x) = con_sum (vo_con s VertexBox x) + ((if Nat.eqb x (k_u r) then k_b r / 2 else 0) + (if Nat.eqb x (k_w r) then k_b r / 2 else 0))
}.
Inductive set_run : store -> list line_rec -> store -> Prop :=
| sr_nil s : set_run s [] s
| sr_cons s r s1 rs s2 : set_step s s1 r -> set_run s1 rs s2 -> set_run s (r :: rs) s2.
Definition vertex_part (r : line_rec) (x : addr) : R := (if Nat.eqb x (k_u r) then k_b r / 2 else 0) + (if Nat.eqb x (k_w r) then k_b r / 2 else 0).

Lemma run_vertex s rs s' : set_run s rs s' -> forall x, vo_val s' VertexBox x = vo_val s VertexBox x + Rsum (map (fun r => vertex_part r x) rs) /\
  con_sum (vo_con s' VertexBox x) = con_sum (vo_con s VertexBox x) + Rsum (map (fun r => vertex_part r x) rs).
Proof.
  induction 1 as [s|s r s1 rs s2 S RUN IH]; intros x; [cbn [map]; rewrite Rsum_nil; lra|]. destruct (IH x) as [-> ->]. cbn [map]. rewrite Rsum_cons, (ss_v _ _ _ S), (ss_cv _ _ _ S).
  unfold vertex_part. lra.
Qed.
Lemma run_keep s rs s' : set_run s rs s' -> forall x, ~ In x (map k_h rs) -> vo_val s' InterfaceArea x = vo_val s InterfaceArea x /\ vo_val s' EdgeBox x = vo_val s EdgeBox x.
Proof.
  induction 1 as [s|s r s1 rs s2 S RUN IH]; intros x NI; [auto|]. cbn [map In] in NI. destruct (IH x) as [-> ->]; [tauto|]. rewrite (ss_i _ _ _ S), (ss_e _ _ _ S).
  assert (E : Nat.eqb x (k_h r) = false) by (apply Nat.eqb_neq; intros ->; tauto). now rewrite E.
Qed.
Lemma run_set s rs s' : set_run s rs s' -> NoDup (map k_h rs) -> forall r, In r rs -> vo_val s' InterfaceArea (k_h r) = k_i r /\ vo_val s' EdgeBox (k_h r) = k_b r.
Proof.
  induction 1 as [s|s r s1 rs s2 S RUN IH]; intros ND r' HI; [destruct HI|]. cbn [map] in ND. inversion ND as [|? ? N1 N2]; subst. destruct HI as [<-|HI]; [|now apply IH].
  destruct (run_keep _ _ _ RUN _ N1) as [-> ->]. rewrite (ss_i _ _ _ S), (ss_e _ _ _ S), Nat.eqb_refl. auto.
Qed.
Lemma run_con s rs s' : set_run s rs s' -> NoDup (map k_h rs) -> (forall x, con_sum (vo_con s InterfaceArea x) = vo_val s InterfaceArea x \/ In x (map k_h rs) /\ con_sum (vo_con s InterfaceArea x) = 0) ->
  (forall x, con_sum (vo_con s EdgeBox x) = vo_val s EdgeBox x \/ In x (map k_h rs) /\ con_sum (vo_con s EdgeBox x) = 0) ->
  (forall x, In x (map k_h rs) -> con_sum (vo_con s InterfaceArea x) = 0 /\ con_sum (vo_con s EdgeBox x) = 0) ->
  forall x, con_sum (vo_con s' InterfaceArea x) = vo_val s' InterfaceArea x /\ con_sum (vo_con s' EdgeBox x) = vo_val s' EdgeBox x.
Proof.
  induction 1 as [s|s r s1 rs s2 S RUN IH]; intros ND H1 H2 H3 x.
  - destruct (H1 x) as [->|[[] _]]. destruct (H2 x) as [->|[[] _]]. auto.
  - cbn [map] in *. inversion ND as [|? ? N1 N2]; subst. apply IH; auto; clear x IH RUN.
    + intros x. rewrite (ss_ci _ _ _ S), (ss_i _ _ _ S). destruct (Nat.eqb_spec x (k_h r)) as [->|NE].
      * left. rewrite (proj1 (H3 (k_h r) (or_introl eq_refl))). lra.
      * destruct (H1 x) as [E|[[E|E] Z]]; [left; lra|congruence|right; split; [exact E|lra]].
    + intros x. rewrite (ss_ce _ _ _ S), (ss_e _ _ _ S). destruct (Nat.eqb_spec x (k_h r)) as [->|NE].
      * left. rewrite (proj2 (H3 (k_h r) (or_introl eq_refl))). lra.
      * destruct (H2 x) as [E|[[E|E] Z]]; [left; lra|congruence|right; split; [exact E|lra]].
    + intros x HI. rewrite (ss_ci _ _ _ S), (ss_ce _ _ _ S). destruct (H3 x (or_intror HI)) as [-> ->].
      assert (E : Nat.eqb x (k_h r) = false) by (apply Nat.eqb_neq; intros ->; tauto). rewrite E. lra.
Qed.
Lemma run_consistent rs s' : set_run no_voronoi rs s' -> NoDup (map k_h rs) -> consistent s'.
Proof.
  intros RUN ND q a.
  assert (Z : forall qq x, con_sum (vo_con no_voronoi qq x) = 0) by (intros; unfold con_sum; cbn; reflexivity).
  assert (X : forall x, con_sum (vo_con s' InterfaceArea x) = vo_val s' InterfaceArea x /\ con_sum (vo_con s' EdgeBox x) = vo_val s' EdgeBox x).
  { apply (run_con no_voronoi rs s' RUN ND); [intros x; left; rewrite Z; reflexivity|intros x; left; rewrite Z; reflexivity|intros x _; now rewrite !Z]. }
  unfold con_sum in *. destruct q; [symmetry; apply X| |symmetry; apply X]. destruct (run_vertex _ _ _ RUN a) as [-> E]. unfold con_sum in E. rewrite E. cbn. lra.
Qed.
(** Per vertex: half of the boxes of the edges at it. *)
Lemma run_at_vertex s rs s' v es : set_run s rs s' -> NoDup (map k_h rs) -> Forall (fun r => k_u r <> k_w r) rs ->
  NoDup es -> (forall h, In h es <-> exists r, In r rs /\ k_h r = h /\ (k_u r = v \/ k_w r = v)) ->
  increase s s' VertexBox v = Rsum (map (fun h => vo_val s' EdgeBox h / 2) es).
Proof.
  intros RUN ND NE NES HE. unfold increase. rewrite (proj1 (run_vertex _ _ _ RUN v)).
  pose proof (run_set _ _ _ RUN ND) as RS.
  assert (X : Rsum (map (fun r => vertex_part r v) rs) = Rsum (map (fun h => vo_val s' EdgeBox h / 2) es)); [|lra].
  set (at_v := fun r => orb (Nat.eqb (k_u r) v) (Nat.eqb (k_w r) v)).
  assert (P : Permutation es (map k_h (filter at_v rs))).
  { apply NoDup_Permutation; auto.
    - clear - ND. induction rs as [|r rs IH]; cbn [filter map]; [constructor|]. cbn [map] in ND. inversion ND as [|? ? N1 N2]; subst. destruct (at_v r); [|auto]. cbn [map]. constructor; auto.
      intros I. apply N1. apply in_map_iff in I as (r' & E & I). apply filter_In in I as [I _]. apply in_map_iff. eauto.
    - intros h. rewrite HE, in_map_iff. split.
      + intros (r & I & E & H). exists r. split; auto. apply filter_In. split; auto. unfold at_v. apply orb_true_iff. rewrite !Nat.eqb_eq. exact H.
      + intros (r & E & I). apply filter_In in I as [I H]. exists r. split; auto. split; auto. unfold at_v in H. apply orb_true_iff in H. rewrite !Nat.eqb_eq in H. exact H. }
  rewrite (Rsum_perm _ _ (Permutation_map _ P)), map_map.
  assert (RS' : forall r, In r rs -> vo_val s' EdgeBox (k_h r) = k_b r) by (intros r I; apply RS, I). clear - RS' NE.
  induction rs as [|r rs IH]; [reflexivity|]. inversion NE as [|? ? N1 N2]; subst. cbn [map filter]. rewrite Rsum_cons, IH; auto; [|intros; apply RS'; now right].
  unfold vertex_part, at_v at 2. rewrite (Nat.eqb_sym v (k_u r)), (Nat.eqb_sym v (k_w r)).
  destruct (Nat.eqb_spec (k_u r) v) as [E1|E1], (Nat.eqb_spec (k_w r) v) as [E2|E2]; cbn [orb map].
  - congruence.
  - rewrite Rsum_cons, RS' by (now left). lra.
  - rewrite Rsum_cons, RS' by (now left). lra.
  - lra.
Qed.
Lemma run_total s rs s' vs : set_run s rs s' -> NoDup vs -> Forall (fun r => In (k_u r) vs /\ In (k_w r) vs) rs ->
  Rsum (map (increase s s' VertexBox) vs) = Rsum (map k_b rs).
Proof.
  intros RUN NV F. transitivity (Rsum (map (fun x => Rsum (map (fun r => vertex_part r x) rs)) vs)).
  { f_equal. apply map_ext. intros x. unfold increase. rewrite (proj1 (run_vertex _ _ _ RUN x)). lra. }
  rewrite (RefineGeom.Rsum_swap (fun x r => vertex_part r x)). f_equal. apply map_ext_in. intros r I. rewrite Forall_forall in F. destruct (F r I) as [F1 F2].
  unfold vertex_part. rewrite Rsum_plus, !Rsum_if_one by auto. lra.
Qed.

(** Lines. *)
Lemma con_one c x : con_sum [(c, x)] = x.
Proof. unfold con_sum. cbn [map snd]. rewrite Rsum_cons, Rsum_nil. lra. Qed.
Lemma line_updates_step s c u w x : set_step s (apply_updates false (line_updates c [u; w] x) s) (mkLine c u w 1 x).
Proof.
  unfold line_updates. cbn [map app fold_left apply_updates]. unfold apply_updates. cbn [fold_left apply_update u_q u_el u_val u_cell u_set vo_val vo_con].
  constructor; intros y; cbn [apply_update u_q u_el u_val u_cell u_set vo_val vo_con vquantity_eqb andb k_h k_u k_w k_i k_b];
    repeat match goal with |- context [Nat.eqb y ?z] => destruct (Nat.eqb y z) end; rewrite ?con_sum_app, ?con_one; lra.
Qed.

Section Other.
Variable cfg : config.
Variable m : @mesh point.
Hypothesis R : reach cfg m.

Definition line_at (c : addr) (r : line_rec) : Prop :=
  k_h r = c /\ (exists e, deref m Line c = Some e /\ e_verts e = [k_u r; k_w r]) /\ k_u r <> k_w r /\ is_live m Vertex (k_u r) /\ is_live m Vertex (k_w r).
Lemma line_verts c e : deref m Line c = Some e -> exists u w, e_verts e = [u; w] /\ u <> w /\ is_live m Vertex u /\ is_live m Vertex w.
Proof.
  intros D. destruct (C03_vertices_stored_pf point cfg m R Line c e) as (L & N & F); auto; [discriminate|]. destruct (e_verts e) as [|u [|w [|? ?]]]; try discriminate.
  exists u, w. inversion N as [|? ? I _]; subst. inversion F as [|? ? F1 F2]; subst. inversion F2; subst. split; [auto|]. split; [intros ->; apply I; now left|auto].
Qed.
Lemma lines_loop d l : forall s, (forall c, In c l -> is_live m Line c) -> exists s' rs, ofold (line_step d m) l s = Some s' /\ set_run s rs s' /\ Forall2 (fun c r => line_at c r /\ k_i r = 1 /\ has_volume d m Line c (k_b r)) l rs.
Proof.
  induction l as [|c l IH]; intros s L; [exists s, []; split; [reflexivity|split; constructor]|].
  destruct (L c (or_introl eq_refl)) as (e & D). destruct (line_verts c e D) as (u & w & EV & NE & LU & LW).
  destruct (points_defined cfg m Line c (reach_ereach cfg m R)) as (ps & EP & HP & LP); [now exists e|]. destruct ps as [|p0 [|p1 [|? ?]]]; try discriminate.
  assert (HV : has_volume d m Line c (norm_2 d (psub p0 p1))) by (exists [p0; p1]; split; auto).
  assert (ST : line_step d m s c = Some (apply_updates false (line_updates c [u; w] (norm_2 d (psub p0 p1))) s)).
  { unfold line_step. rewrite D. cbn [obind]. unfold element_volume. rewrite EP, EV. cbn [obind]. reflexivity. }
  destruct (IH (apply_updates false (line_updates c [u; w] (norm_2 d (psub p0 p1))) s)) as (s' & rs & E & RUN & F); [intros; apply L; now right|].
  exists s', (mkLine c u w 1 (norm_2 d (psub p0 p1)) :: rs). rewrite ofold_cons, ST. cbn [obind]. split; [exact E|]. split.
  - econstructor; [apply line_updates_step|exact RUN].
  - constructor; [|exact F]. split; [|split; [reflexivity|exact HV]]. split; [reflexivity|]. split; [exists e; auto|]. auto.
Qed.
Lemma lines_at {P : addr -> line_rec -> Prop} l rs : Forall2 (fun c r => line_at c r /\ P c r) l rs ->
  map k_h rs = l /\ Forall (fun r => k_u r <> k_w r) rs /\ Forall (fun r => is_live m Vertex (k_u r) /\ is_live m Vertex (k_w r)) rs.
Proof.
  induction 1 as [|c r l rs ((E & _ & N & L1 & L2) & _) F (IH1 & IH2 & IH3)]; [repeat split; constructor|]. cbn [map]. subst l c. repeat split; auto.
Qed.
Lemma lines_edges {P : addr -> line_rec -> Prop} l rs v : Forall2 (fun c r => line_at c r /\ P c r) l rs -> (forall h, In h l <-> is_live m Line h) ->
  forall h, (exists r, In r rs /\ k_h r = h /\ (k_u r = v \/ k_w r = v)) <-> (exists e, deref m Line h = Some e /\ In v (e_verts e)).
Proof.
  intros F HL h. split.
  - intros (r & I & E & H). clear HL. induction F as [|c r' l rs ((E1 & (e & D & EV) & _) & _) F IH]; [destruct I|]. destruct I as [<-|I]; [|auto].
    exists e. rewrite EV. subst c. rewrite <- E. split; auto. cbn. tauto.
  - intros (e & D & I). assert (HI : In h l) by (apply HL; now exists e). clear HL.
    induction F as [|c r' l rs ((E1 & (e' & D' & EV) & _) & _) F IH]; [destruct HI|]. destruct HI as [->|HI].
    + exists r'. split; [now left|]. split; auto. rewrite D in D'. injection D' as <-. rewrite EV in I. cbn in I. tauto.
    + destruct (IH HI) as (r & I' & H). exists r. split; [now right|auto].
Qed.
End Other.

(** Tetrahedra. *)
Lemma enter_con q a c x s q' a' : con_sum (vo_con (enter q a c x s) q' a') = con_sum (vo_con s q' a') + if andb (vquantity_eqb q' q) (Nat.eqb a' a) then x else 0.
Proof. unfold enter. cbn [vo_con]. destruct (andb _ _); [rewrite con_sum_unique; lra|lra]. Qed.
Lemma enter_val q a c x s : vo_val (enter q a c x s) = vo_val s.
Proof. reflexivity. Qed.
Definition area_of (l : list (R * addr)) : R := fold_left (fun x ic => if Rlt_dec 0 (fst ic) then x + fst ic else x) l 0.
Lemma area_acc l : forall x, fold_left (fun x ic => if Rlt_dec 0 (fst ic) then x + fst ic else x) l x = x + area_of l.
Proof.
  unfold area_of. induction l as [|ic l IH]; intros x; cbn [fold_left]; [lra|]. rewrite IH. rewrite (IH (if Rlt_dec 0 (fst ic) then 0 + fst ic else 0)). destruct (Rlt_dec 0 (fst ic)); lra.
Qed.
Lemma area_cons ic l : area_of (ic :: l) = (if Rlt_dec 0 (fst ic) then fst ic else 0) + area_of l.
Proof. unfold area_of at 1. cbn [fold_left]. rewrite area_acc. destruct (Rlt_dec 0 (fst ic)); lra. Qed.
Lemma area_pos l : 0 <= area_of l.
Proof. induction l as [|ic l IH]; [unfold area_of; cbn; lra|]. rewrite area_cons. destruct (Rlt_dec 0 (fst ic)); lra. Qed.
Lemma entries_val h u w len l : forall s, vo_val (tet_entries h u w len l s) = vo_val s.
Proof. unfold tet_entries. induction l as [|ic l IH]; intros s; cbn [fold_left]; [reflexivity|]. rewrite IH. destruct (Rlt_dec 0 (fst ic)); reflexivity. Qed.
Lemma entries_con h u w len l : forall s q x, con_sum (vo_con (tet_entries h u w len l s) q x) = con_sum (vo_con s q x) +
  match q with
  | InterfaceArea => if Nat.eqb x h then area_of l else 0
  | EdgeBox => if Nat.eqb x h then 2 * (area_of l * len / 6) else 0
  | VertexBox => (if Nat.eqb x u then area_of l * len / 6 else 0) + (if Nat.eqb x w then area_of l * len / 6 else 0)
  end.
Proof.
  induction l as [|ic l IH]; intros s q x.
  - unfold tet_entries, area_of. cbn [fold_left]. destruct q; repeat match goal with |- context [Nat.eqb x ?z] => destruct (Nat.eqb x z) end; lra.
  - unfold tet_entries in *. cbn [fold_left]. rewrite IH. clear IH. rewrite area_cons. destruct (Rlt_dec 0 (fst ic)) as [P|P].
    + rewrite !enter_con. destruct q; cbn [vquantity_eqb andb]; repeat match goal with |- context [Nat.eqb x ?z] => destruct (Nat.eqb x z) end; lra.
    + destruct q; repeat match goal with |- context [Nat.eqb x ?z] => destruct (Nat.eqb x z) end; lra.
Qed.
Lemma apply_None uniq us : Forall (fun u => u_cell u = None) us -> forall s, vo_con (apply_updates uniq us s) = vo_con s.
Proof. unfold apply_updates. induction 1 as [|u us E F IH]; intros s; cbn [fold_left]; [reflexivity|]. rewrite IH. cbn [apply_update vo_con]. now rewrite E. Qed.
Lemma tet_updates_step s h u w len l :
  set_step s (apply_updates true (tet_edge_updates h u w len l) (tet_entries h u w len l s)) (mkLine h u w (area_of l) (area_of l * len / 3)).
Proof.
  assert (FN : Forall (fun u => u_cell u = None) (tet_edge_updates h u w len l)) by (unfold tet_edge_updates; repeat (constructor; [reflexivity|]); constructor).
  constructor; intros x; try rewrite (apply_None true _ FN); try rewrite entries_con;
   try (unfold tet_edge_updates, apply_updates; cbn [fold_left apply_update u_q u_el u_val u_cell u_set vo_val vquantity_eqb andb]; rewrite entries_val; fold (area_of l)); cbn [k_h k_u k_w k_i k_b];
   repeat match goal with |- context [Nat.eqb x ?z] => destruct (Nat.eqb x z) end; lra.
Qed.
Lemma set_run_app s rs s1 rs' s2 : set_run s rs s1 -> set_run s1 rs' s2 -> set_run s (rs ++ rs') s2.
Proof. induction 1; intros H'; cbn [app]; auto. econstructor; eauto. Qed.

Section Tets.
Variable cfg : config.
Variable m : @mesh point.
Hypothesis R : reach cfg m.
Lemma tets_loop bounds l : forall s s', ofold (tet_edge_step m bounds) l s = Some s' -> exists rs, set_run s rs s' /\ Forall2 (fun h r => line_at m h r /\ 0 <= k_i r /\ exists len, has_volume 3 m Line h len /\ k_b r = k_i r * len / 3) l rs.
Proof.
  induction l as [|h l IH]; intros s s' E; [injection E as <-; exists []; split; constructor|]. rewrite ofold_cons in E.
  destruct (tet_edge_step m bounds s h) as [s1|] eqn:ST; [|discriminate]. cbn [obind] in E. destruct (IH _ _ E) as (rs & RUN & F). unfold tet_edge_step in ST.
  destruct (deref m Line h) as [e|] eqn:D; [|discriminate]. cbn [obind] in ST. destruct (line_verts cfg m R h e D) as (u & w & EV & NE & LU & LW).
  destruct (corners cfg m R Line h e D) as (ps & CP & CO & _ & _ & L1 & L2); [discriminate|]. rewrite CO, EV in ST. cbn [obind] in ST.
  destruct ps as [|p0 [|p1 [|? ?]]]; try discriminate; cbn [combine] in ST.
  destruct (spanned_volume 3 [p0; p1]) as [len|] eqn:EL; [|discriminate]. cbn [obind] in ST. destruct (inner_point (bounds h)) as [x|]; [|discriminate]. cbn [obind] in ST.
  destruct (omap _ (bounds h)) as [k|]; [|discriminate]. cbn [option_map] in ST. injection ST as <-.
  exists (mkLine h u w (area_of k) (area_of k * len / 3) :: rs). split; [econstructor; [apply tet_updates_step|exact RUN]|].
  constructor; [|exact F]. split; [split; [reflexivity|]; split; [exists e; auto|]; auto|]. cbn [k_i k_b]. split; [apply area_pos|]. exists len. split; [|reflexivity].
  exists [p0; p1]. assert (LV : Line <> Vertex) by discriminate. split; [now apply (cell_has m Line h e)|]. cbn [shape_of volume_cell].
  rewrite <- EL. unfold spanned_volume. cbn [signed_spanned_volume option_map]. f_equal. rewrite Rabs_pos_eq by apply sqrt_pos. unfold norm_2. cbn [sum_upto]. unfold psub. f_equal. ring.
Qed.
End Tets.

(** ** Quantities that are added (quadrilaterals and hexahedra) *)
Lemma adds_set us c : Forall (fun u => exists q e x, u = add q e x c) us -> Forall (fun u => u_set u = false) us.
Proof. apply Forall_impl. intros u (q & e & x & ->). reflexivity. Qed.
Lemma adds_entered us c q x : Forall (fun u => exists q e x, u = add q e x c) us -> entered us q x = delta us q x.
Proof.
  intros F. unfold entered, delta. f_equal. apply map_ext_in. intros u I. rewrite Forall_forall in F. destruct (F u I) as (q' & e & y & ->). reflexivity.
Qed.
Lemma adds_consistent uniq us c s : Forall (fun u => exists q e x, u = add q e x c) us -> consistent s -> consistent (apply_updates uniq us s).
Proof.
  intros F H q a. rewrite (apply_val uniq us (adds_set us c F)). change (Rsum (map snd (vo_con (apply_updates uniq us s) q a))) with (con_sum (vo_con (apply_updates uniq us s) q a)).
  rewrite apply_con, (adds_entered us c) by exact F. rewrite (H q a). reflexivity.
Qed.

Definition pair_rec (d : nat) (base : list point) (he : addr * list (addr * point)) (r : share_rec) : Prop :=
  exists u pu w pw, snd he = [(u, pu); (w, pw)] /\ r_h r = fst he /\ r_u r = u /\ r_w r = w /\
    spanned_volume d (base ++ [circumcenter_line pu pw; pu]) = Some (r_xu r) /\ spanned_volume d (base ++ [circumcenter_line pu pw; pw]) = Some (r_xw r).
Lemma center_result d c base es : (forall x y, spanned_volume d (base ++ [x]) <> None /\ spanned_volume d (base ++ [x; y]) <> None) ->
  (forall he, In he es -> exists x y, snd he = [x; y]) ->
  exists uss rs, center_updates d c base es = Some (List.concat uss) /\ Forall2 (edge_result (eq c) True) uss rs /\ Forall2 (pair_rec d base) es rs.
Proof.
  intros DEF HE. assert (X : exists uss rs, omap (edge_updates d c base) es = Some uss /\ Forall2 (edge_result (eq c) True) uss rs /\ Forall2 (pair_rec d base) es rs).
  { induction es as [|(h, l) es IH]; [exists [], []; repeat split; constructor|]. destruct IH as (uss & rs & E1 & E2 & E3); [intros; apply HE; now right|].
    destruct (HE (h, l) (or_introl eq_refl)) as ((u, pu) & (w, pw) & E). cbn [snd] in E. subst l.
    assert (Y : exists us, edge_updates d c base (h, [(u, pu); (w, pw)]) = Some us).
    { unfold edge_updates. cbn [snd fst midpoint obind omap]. destruct (DEF (circumcenter_line pu pw) pu) as [N1 N2]. destruct (DEF (circumcenter_line pu pw) pw) as [_ N3].
      destruct (spanned_volume d (base ++ [circumcenter_line pu pw])); [|congruence]. cbn [obind]. destruct (spanned_volume d (base ++ [circumcenter_line pu pw; pu])); [|congruence]. cbn [option_map obind].
      destruct (spanned_volume d (base ++ [circumcenter_line pu pw; pw])); [|congruence]. cbn [option_map obind]. eauto. }
    destruct Y as (us & EU). destruct (edge_updates_result d c base h u pu w pw us EU) as (i & xu & xw & V1 & V2 & V3 & ER).
    exists (us :: uss), (mkShare h u w i xu xw :: rs). cbn [omap]. rewrite EU. cbn [obind]. rewrite E1. split; [reflexivity|]. split; [constructor; auto|]. constructor; auto.
    exists u, pu, w, pw. cbn. auto 10. }
  destruct X as (uss & rs & E1 & E2 & E3). exists uss, rs. unfold center_updates. rewrite E1. auto.
Qed.

Lemma apply_app uniq us us' s : apply_updates uniq (us ++ us') s = apply_updates uniq us' (apply_updates uniq us s).
Proof. unfold apply_updates. apply fold_left_app. Qed.
(** The totals of records. *)
Lemma records_total ok uss rs s uniq : Forall2 (edge_result ok True) uss rs -> forall q l, 
  (forall r, In r rs -> Rsum (map (part q r) l) = both r) ->
  Rsum (map (increase s (apply_updates uniq (List.concat uss) s) q) l) = Rsum (map both rs).
Proof.
  intros F q l H. rewrite <- (parts_sum q rs l H). f_equal. apply map_ext. intros x. unfold increase. rewrite (apply_val uniq _ (concat_set _ _ _ _ F)), (concat_delta _ _ _ _ F). lra.
Qed.

Section Quads.
Variable cfg : config.
Variable m : @mesh point.
Hypothesis R : reach cfg m.
Hypothesis K : cfg_keep cfg Line = true.

Definition live_rec (r : share_rec) : Prop := is_live m Vertex (r_u r) /\ is_live m Vertex (r_w r) /\ is_live m Line (r_h r).
Lemma face_records t f g d c base : t = Triangle \/ t = Quad -> deref m t f = Some g ->
  (forall x y, spanned_volume d (base ++ [x]) <> None /\ spanned_volume d (base ++ [x; y]) <> None) ->
  exists es vs uss rs, edges_of m g = Some es /\ corners_of m g = Some vs /\ center_updates d c base es = Some (List.concat uss) /\
    Forall2 (edge_result (eq c) True) uss rs /\ Forall2 (pair_rec d base) es rs /\ Forall2 (edge_at vs) (ref_facets t Line) es /\ Forall live_rec rs.
Proof.
  intros T D DEF. assert (NV : t <> Vertex) by (destruct T; subst; discriminate). destruct (corners cfg m R t f g D NV) as (ps & CP & CO & FP & N & L1 & L2).
  destruct (edges_data cfg m R K t f g _ T D CO) as (es & E1 & E2 & NB & E3).
  destruct (center_result d c base es DEF) as (uss & rs & E4 & E5 & E6).
  { intros he HI. assert (Y : exists idx, edge_at (combine (e_verts g) ps) idx he). { clear - HI E3. induction E3 as [|i h rf es H F IH]; [destruct HI|]. destruct HI as [->|HI]; [eauto|auto]. }
    destruct Y as (idx & i & j & x & y & _ & _ & _ & [EN|EN]); rewrite EN; eauto. }
  exists es, (combine (e_verts g) ps), uss, rs. repeat (split; [assumption|]).
  assert (LH : forall h, In h (map fst es) -> is_live m Line h).
  { intros h HI. rewrite E2 in HI. pose proof D as D'. apply deref_In in D' as (n & Hn & _ & <-). apply live_is_live. eapply boundary_live; eauto. now apply (reach_wf cfg). }
  assert (LV : forall x px, In (x, px) (combine (e_verts g) ps) -> is_live m Vertex x).
  { intros x px HI. apply in_combine_l in HI. destruct (C03_vertices_stored_pf point cfg m R t f g NV D) as (_ & _ & LV). rewrite Forall_forall in LV. auto. }
  clear - E3 E6 LH LV. revert rs E6. induction E3 as [|idx he rf es EA F IH]; intros rs E6; inversion E6 as [|? r ? rs' PR F']; subst; constructor.
  - destruct PR as (u & pu & w & pw & EL & Eh & Eu & Ew & _). destruct EA as (i & j & x & y & _ & X1 & X2 & EN). apply nth_error_In in X1, X2. rewrite EL in EN.
    unfold live_rec. rewrite Eh, Eu, Ew. split; [|split; [|apply LH; now left]]; destruct EN as [EN|EN]; injection EN as <- <-; eauto.
  - apply IH; auto. intros h HI. apply LH. now right.
Qed.

Lemma both_quad C u pu w pw r : spanned_volume 2 ([C] ++ [circumcenter_line pu pw; pu]) = Some (r_xu r) -> spanned_volume 2 ([C] ++ [circumcenter_line pu pw; pw]) = Some (r_xw r) ->
  u = r_u r -> w = r_w r -> both r = Rabs (cr C pu pw) / 2.
Proof.
  intros H1 H2 _ _. cbn [app] in *. rewrite sv3 in H1, H2. injection H1 as H1. injection H2 as H2. unfold both. rewrite <- H1, <- H2.
  assert (E1 : cr C (circumcenter_line pu pw) pu = - (cr C pu pw / 2)) by (unfold cr; rewrite !mid_coord; field).
  assert (E2 : cr C (circumcenter_line pu pw) pw = cr C pu pw / 2) by (unfold cr; rewrite !mid_coord; field).
  rewrite E1, E2, Rabs_Ropp. unfold Rdiv. rewrite Rabs_mult, (Rabs_pos_eq (/ 2)) by lra. lra.
Qed.
Lemma convex_fan (a b c d C : point) : convex_quad a b c d -> C 0%nat = (a 0%nat + b 0%nat + c 0%nat + d 0%nat) / 4 -> C 1%nat = (a 1%nat + b 1%nat + c 1%nat + d 1%nat) / 4 ->
  Rabs (cr C a b) + Rabs (cr C b c) + Rabs (cr C c d) + Rabs (cr C d a) =
  Rabs (a 0%nat * b 1%nat - b 0%nat * a 1%nat + (b 0%nat * c 1%nat - c 0%nat * b 1%nat) + (c 0%nat * d 1%nat - d 0%nat * c 1%nat) + (d 0%nat * a 1%nat - a 0%nat * d 1%nat)).
Proof.
  intros CV E0 E1. unfold convex_quad, turn in CV. set (S := a 0%nat * b 1%nat - _ + _ + _ + _).
  assert (A1 : cr C a b = ((b 0%nat - a 0%nat) * (c 1%nat - a 1%nat) - (b 1%nat - a 1%nat) * (c 0%nat - a 0%nat) + ((a 0%nat - d 0%nat) * (b 1%nat - d 1%nat) - (a 1%nat - d 1%nat) * (b 0%nat - d 0%nat))) / 4) by (unfold cr; rewrite E0, E1; field).
  assert (A2 : cr C b c = ((c 0%nat - b 0%nat) * (d 1%nat - b 1%nat) - (c 1%nat - b 1%nat) * (d 0%nat - b 0%nat) + ((b 0%nat - a 0%nat) * (c 1%nat - a 1%nat) - (b 1%nat - a 1%nat) * (c 0%nat - a 0%nat))) / 4) by (unfold cr; rewrite E0, E1; field).
  assert (A3 : cr C c d = ((d 0%nat - c 0%nat) * (a 1%nat - c 1%nat) - (d 1%nat - c 1%nat) * (a 0%nat - c 0%nat) + ((c 0%nat - b 0%nat) * (d 1%nat - b 1%nat) - (c 1%nat - b 1%nat) * (d 0%nat - b 0%nat))) / 4) by (unfold cr; rewrite E0, E1; field).
  assert (A4 : cr C d a = ((a 0%nat - d 0%nat) * (b 1%nat - d 1%nat) - (a 1%nat - d 1%nat) * (b 0%nat - d 0%nat) + ((d 0%nat - c 0%nat) * (a 1%nat - c 1%nat) - (d 1%nat - c 1%nat) * (a 0%nat - c 0%nat))) / 4) by (unfold cr; rewrite E0, E1; field).
  assert (SS : S = cr C a b + cr C b c + cr C c d + cr C d a) by (unfold S, cr; ring).
  destruct CV as [(T1 & T2 & T3 & T4)|(T1 & T2 & T3 & T4)].
  - rewrite !Rabs_pos_eq; lra.
  - assert (N : forall x, x <= 0 -> Rabs x = - x) by (intros x H; destruct (Req_EM_T x 0) as [->|NZ]; [rewrite Rabs_R0; lra|apply Rabs_left; lra]). rewrite !N; lra.
Qed.
Lemma abs_cr_rev C a b : Rabs (cr C a b) = Rabs (cr C b a).
Proof. replace (cr C a b) with (- cr C b a) by (unfold cr; ring). apply Rabs_Ropp. Qed.

Lemma sv_2_defined (C x y : point) : spanned_volume 2 ([C] ++ [x]) <> None /\ spanned_volume 2 ([C] ++ [x; y]) <> None.
Proof. split; discriminate. Qed.
Definition quad_records (c : addr) (rs : list share_rec) : Prop := Forall live_rec rs /\ forall x, quad_area m c x -> Rsum (map both rs) = x.
Lemma quad_result s c e : deref m Quad c = Some e -> exists uss rs, quad_step 2 m s c = Some (apply_updates false (List.concat uss) s) /\
  Forall2 (edge_result (eq c) True) uss rs /\ quad_records c rs.
Proof.
  intros D. destruct (corners cfg m R Quad c e D) as (ps & CP & CO & FP & N & L1 & L2); [discriminate|].
  destruct (face_records Quad c e 2 c [circumcenter_mean ps] (or_intror eq_refl) D (sv_2_defined _)) as (es & vs & uss & rs & E1 & E2 & E3 & E4 & E5 & E6 & E7).
  rewrite CO in E2. injection E2 as <-. exists uss, rs. unfold quad_step. rewrite D. cbn [obind]. rewrite CP, E1. cbn [obind]. rewrite E3. split; [reflexivity|]. split; [exact E4|].
  split; [exact E7|]. intros x (p0 & p1 & p2 & p3 & HP & CV & ->).
  assert (QV : Quad <> Vertex) by discriminate. pose proof (has_points_fun m Quad c _ _ HP (cell_has m Quad c e ps QV D CP)) as EP. subst ps.
  destruct (e_verts e) as [|v0 [|v1 [|v2 [|v3 [|? ?]]]]]; try discriminate. cbn [combine] in E6. cbn [ref_facets] in E6.
  assert (G : forall i j x y he r, edge_at [(v0, p0); (v1, p1); (v2, p2); (v3, p3)] [i; j] he -> pair_rec 2 [circumcenter_mean [p0; p1; p2; p3]] he r ->
     nth_error [(v0, p0); (v1, p1); (v2, p2); (v3, p3)] i = Some x -> nth_error [(v0, p0); (v1, p1); (v2, p2); (v3, p3)] j = Some y ->
     both r = Rabs (cr (circumcenter_mean [p0; p1; p2; p3]) (snd x) (snd y)) / 2).
  { intros i j x y he r (i' & j' & x' & y' & EI & X1 & X2 & EN) (u & pu & w & pw & EL & _ & Eu & Ew & V1 & V2) Y1 Y2. injection EI as <- <-. rewrite X1 in Y1. injection Y1 as <-. rewrite X2 in Y2. injection Y2 as <-.
    rewrite (both_quad (circumcenter_mean [p0; p1; p2; p3]) u pu w pw r) by auto. rewrite EL in EN. destruct EN as [EN|EN]; injection EN as <- <-; cbn [snd]; [reflexivity|]. now rewrite abs_cr_rev. }
  inversion E6 as [|? he0 ? ? A0 B0]; subst. inversion B0 as [|? he1 ? ? A1 B1]; subst. inversion B1 as [|? he2 ? ? A2 B2]; subst. inversion B2 as [|? he3 ? ? A3 B3]; subst. inversion B3; subst.
  inversion E5 as [|? r0 ? ? C0 D0]; subst. inversion D0 as [|? r1 ? ? C1 D1]; subst. inversion D1 as [|? r2 ? ? C2 D2]; subst. inversion D2 as [|? r3 ? ? C3 D3]; subst. inversion D3; subst.
  cbn [map]. rewrite !Rsum_cons, Rsum_nil. rewrite (G 0%nat 1%nat (v0, p0) (v1, p1) he0 r0), (G 0%nat 2%nat (v0, p0) (v2, p2) he1 r1), (G 1%nat 3%nat (v1, p1) (v3, p3) he2 r2), (G 2%nat 3%nat (v2, p2) (v3, p3) he3 r3) by auto.
  cbn [snd]. set (C := circumcenter_mean [p0; p1; p2; p3]) in *. assert (EC : forall i, C i = (p0 i + p1 i + p3 i + p2 i) / 4).
  { intros i. unfold C, circumcenter_mean, centroid, pdiv. cbn [points_sum length]. unfold padd, pzero. replace (INR 4) with 4 by (cbn; lra). field. }
  rewrite <- (convex_fan p0 p1 p3 p2 C CV (EC 0%nat) (EC 1%nat)). rewrite (abs_cr_rev C p2 p3), (abs_cr_rev C p2 p0). lra.
Qed.
Lemma quads_loop l : forall s, (forall c, In c l -> is_live m Quad c) -> exists usss rss, ofold (quad_step 2 m) l s = Some (apply_updates false (List.concat (List.concat usss)) s) /\
  Forall2 (edge_result (fun _ => True) True) (List.concat usss) (List.concat rss) /\ Forall2 quad_records l rss.
Proof.
  induction l as [|c l IH]; intros s L; [exists [], []; split; [reflexivity|split; constructor]|]. destruct (L c (or_introl eq_refl)) as (e & D).
  destruct (quad_result s c e D) as (uss & rs & E1 & E2 & E3). destruct (IH (apply_updates false (List.concat uss) s)) as (usss & rss & F1 & F2 & F3); [intros; apply L; now right|].
  exists (uss :: usss), (rs :: rss). rewrite ofold_cons, E1. cbn [obind List.concat]. rewrite concat_app, apply_app. split; [exact F1|]. split; [|constructor; auto].
  apply Forall2_app; auto. clear - E2. induction E2; constructor; auto. eapply er_mono; [| |eassumption]; auto.
Qed.

(** Hexahedra. *)
Lemma sv_3_defined (C F x y : point) : spanned_volume 3 ([C; F] ++ [x]) <> None /\ spanned_volume 3 ([C; F] ++ [x; y]) <> None.
Proof. split; discriminate. Qed.
Definition hex_face (c : addr) (ps : list point) (s : store) (f : addr) : option store :=
    obind (deref m Quad f) (fun g =>
    obind (cell_points m g) (fun qs =>
    obind (edges_of m g) (fun es =>
    option_map (fun us => apply_updates false us s) (center_updates 3 c [circumcenter_mean ps; circumcenter_mean qs] es)))).
Lemma faces_loop c ps l : forall s, (forall f, In f l -> is_live m Quad f) -> exists uss rs, ofold (hex_face c ps) l s = Some (apply_updates false (List.concat uss) s) /\
  Forall2 (edge_result (eq c) True) uss rs /\ Forall live_rec rs.
Proof.
  induction l as [|f l IH]; intros s L; [exists [], []; split; [reflexivity|split; constructor]|]. destruct (L f (or_introl eq_refl)) as (g & D).
  destruct (corners cfg m R Quad f g D) as (qs & CP & _); [discriminate|].
  destruct (face_records Quad f g 3 c [circumcenter_mean ps; circumcenter_mean qs] (or_intror eq_refl) D (sv_3_defined _ _)) as (es & vs & uss & rs & E1 & E2 & E3 & E4 & E5 & E6 & E7).
  destruct (IH (apply_updates false (List.concat uss) s)) as (uss' & rs' & F1 & F2 & F3); [intros; apply L; now right|].
  exists (uss ++ uss'), (rs ++ rs'). rewrite ofold_cons. unfold hex_face at 1. rewrite D. cbn [obind]. rewrite CP, E1. cbn [obind]. rewrite E3. cbn [option_map obind].
  rewrite concat_app, apply_app. split; [exact F1|]. split; [now apply Forall2_app|]. apply Forall_app. auto.
Qed.
Hypothesis KQ : cfg_keep cfg Quad = true.
Lemma hex_loop l : forall s, (forall c, In c l -> is_live m Hex c) -> exists uss rs, ofold (hex_step m) l s = Some (apply_updates false (List.concat uss) s) /\
  Forall2 (edge_result (fun _ => True) True) uss rs /\ Forall live_rec rs.
Proof.
  induction l as [|c l IH]; intros s L; [exists [], []; split; [reflexivity|split; constructor]|]. destruct (L c (or_introl eq_refl)) as (e & D).
  destruct (corners cfg m R Hex c e D) as (ps & CP & _); [discriminate|].
  destruct (faces_loop c ps (boundary_of e Quad) s) as (uss & rs & E1 & E2 & E3).
  { intros f HI. pose proof D as D'. apply deref_In in D' as (n & Hn & _ & <-). apply live_is_live. eapply boundary_live; eauto. now apply (reach_wf cfg). }
  destruct (IH (apply_updates false (List.concat uss) s)) as (uss' & rs' & F1 & F2 & F3); [intros; apply L; now right|].
  exists (uss ++ uss'), (rs ++ rs'). rewrite ofold_cons. unfold hex_step at 1. rewrite D. cbn [obind]. rewrite CP. cbn [obind]. fold (hex_face c ps).
  change (ofold _ (boundary_of e Quad) s) with (ofold (hex_face c ps) (boundary_of e Quad) s). rewrite E1. cbn [obind]. rewrite concat_app, apply_app. split; [exact F1|]. split; [|apply Forall_app; auto].
  apply Forall2_app; auto. clear - E2. induction E2; constructor; auto. eapply er_mono; [| |eassumption]; auto.
Qed.
End Quads.

(** Contributions add up, whatever the loop was. *)
Lemma quads_consistent d m l : forall s s', ofold (quad_step d m) l s = Some s' -> consistent s -> consistent s'.
Proof.
  induction l as [|c l IH]; intros s s' E H; [now injection E as <-|]. rewrite ofold_cons in E. destruct (quad_step d m s c) as [s1|] eqn:ST; [|discriminate]. apply (IH s1 s' E). clear IH E.
  unfold quad_step in ST. destruct (deref m Quad c); [|discriminate]. cbn [obind] in ST. destruct (cell_points m e); [|discriminate]. cbn [obind] in ST. destruct (edges_of m e); [|discriminate]. cbn [obind] in ST.
  destruct (center_updates _ _ _ _) as [us|] eqn:EU; [|discriminate]. injection ST as <-. eapply adds_consistent; eauto. eapply center_adds; eauto.
Qed.
Lemma hexes_consistent m l : forall s s', ofold (hex_step m) l s = Some s' -> consistent s -> consistent s'.
Proof.
  induction l as [|c l IH]; intros s s' E H; [now injection E as <-|]. rewrite ofold_cons in E. destruct (hex_step m s c) as [s1|] eqn:ST; [|discriminate]. apply (IH s1 s' E). clear IH E.
  unfold hex_step in ST. destruct (deref m Hex c) as [e|]; [|discriminate]. cbn [obind] in ST. destruct (cell_points m e) as [ps|]; [|discriminate]. cbn [obind] in ST.
  revert s H ST. induction (boundary_of e Quad) as [|f fs IH]; intros s H ST; [now injection ST as <-|]. rewrite ofold_cons in ST.
  destruct (deref m Quad f) as [g|]; [|discriminate]. cbn [obind] in ST. destruct (cell_points m g) as [qs|]; [|discriminate]. cbn [obind] in ST. destruct (edges_of m g) as [es|]; [|discriminate]. cbn [obind] in ST.
  destruct (center_updates _ _ _ _) as [us|] eqn:EU; [|discriminate]. cbn [option_map obind] in ST. eapply IH; [|exact ST]. eapply adds_consistent; eauto. eapply center_adds; eauto.
Qed.
