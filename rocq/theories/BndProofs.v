(** Proofs for C75 and C76. *)
From Coq Require Import List Arith ZArith Bool Lia Sorted.
From Verif Require Import ModelTopo ModelMesh ModelErase ModelSegmentation ModelSegment ModelCopySeg ModelBnd
  SpecMesh SpecErase SpecSegmentation SpecSegment SpecCopy SpecCopySeg SpecBnd VtkDemo BndBuild BndRead.
Import ModelSegmentation ListNotations.
Open Scope nat_scope.

Lemma triangles_good (K : Type) (b : @bnd K) es segs : Forall2 (polyhedron_of b) es segs ->
  exists dom, Forall2 (read_as b) es dom /\ Forall2 (Forall2 (good b)) segs dom /\ Forall (Forall (fun ts => length ts = 3)) segs.
Proof.
  intros F. induction F as [|e T es segs (fs & -> & FT) F (dom & F1 & F2 & F3)]; [exists []; auto|].
  assert (X : exists ps, Forall2 (fun f p => face_polygon b f = Done p) fs ps /\ Forall2 (good b) T ps /\ Forall (fun ts => length ts = 3) T).
  { clear - FT. induction FT as [|f ts fs T (C & L & P) FT (ps & F1 & F2 & F3)]; [exists []; auto|].
    destruct (face_spec b f ts C) as (p & E & S). exists (p :: ps). split; [constructor; auto|]. split; [|constructor; auto]. constructor; auto. split; auto. intros _.
    split; [destruct C as (es & _ & _ & SS & _); now apply sorted_nodup|]. apply Forall_forall. intros v Hv. destruct (P v Hv) as (q & Q). exists q. now apply at_entry. }
  destruct X as (ps & X1 & X2 & X3). exists (ps :: dom). split; [constructor; auto; left; eauto|]. split; constructor; auto.
Qed.
Lemma solids_good (K : Type) (b : @bnd K) es segs : Forall2 (solid_of b) es segs -> exists dom, Forall2 (read_as b) es dom /\ Forall2 (Forall2 (good b)) segs dom.
Proof.
  intros F. induction F as [|e T es segs (fs & -> & FT) F (dom & F1 & F2)]; [exists []; auto|].
  assert (X : exists ps, Forall2 (fun f p => face_polygon b f = Done p) fs ps /\ Forall2 (good b) T ps).
  { clear - FT. induction FT as [|f ts fs T (C & P) FT (ps & F1 & F2)]; [exists []; auto|].
    destruct (face_spec b f ts C) as (p & E & S). exists (p :: ps). split; [constructor; auto|]. constructor; auto. split; auto. intros _.
    split; [destruct C as (es & _ & _ & SS & _); now apply sorted_nodup|]. apply Forall_forall. intros v Hv. destruct (P v Hv) as (q & Q). exists q. now apply at_entry. }
  destruct X as (ps & X1 & X2). exists (ps :: dom). split; [constructor; auto; left; eauto|]. constructor; auto.
Qed.

Lemma C75_read_pf : forall (K : Type) (cfg : config) (b : @bnd K) es segs k,
  cfg_cell cfg = Triangle -> b_elements b = es ++ repeat Contact k -> Forall2 (polyhedron_of b) es segs ->
  exists s vertex cell, read_bnd cfg (b_dim b) b (new_sstate empty_mesh) = Done s /\ surface_of b cfg s segs vertex cell.
Proof.
  intros K cfg b es segs k TC E F. destruct (triangles_good K b es segs F) as (dom & F1 & F2 & F3).
  unfold read_bnd. rewrite (domain_spec b es dom k E F1). cbn [rbind]. rewrite Nat.eqb_refl.
  destruct (segments_loop b cfg TC segs dom F2 F3 0 [] _ [] (rinv_start b cfg)) as (r & E2 & I). rewrite E2. cbn [rbind].
  eexists _, _, _. split; [reflexivity|]. apply (surface_spec b cfg TC). exact I.
Qed.

Lemma C76_not_a_triangle_pf : forall (K : Type) (cfg : config) (b : @bnd K) es segs k,
  cfg_cell cfg = Triangle -> b_elements b = es ++ repeat Contact k -> Forall2 (solid_of b) es segs ->
  (exists vs, triangle_in segs vs /\ length vs <> 3) ->
  read_bnd cfg (b_dim b) b (new_sstate empty_mesh) = Thrown.
Proof.
  intros K cfg b es segs k TC E F (vs & (T & X & Y) & N). destruct (solids_good K b es segs F) as (dom & F1 & F2).
  unfold read_bnd. rewrite (domain_spec b es dom k E F1). cbn [rbind]. rewrite Nat.eqb_refl.
  rewrite (segments_bad b cfg TC segs dom F2) with (zs := []) (dn := []); [reflexivity| |apply rinv_start].
  apply Exists_exists. exists T. split; auto. apply Exists_exists. eauto.
Qed.

Lemma C76_dimension_pf : forall (K : Type) (cfg : config) (b : @bnd K) d s es segs k,
  b_elements b = es ++ repeat Contact k -> Forall2 (solid_of b) es segs -> d <> b_dim b -> read_bnd cfg d b s = Thrown.
Proof.
  intros K cfg b d s es segs k E F N. destruct (solids_good K b es segs F) as (dom & F1 & _).
  unfold read_bnd. rewrite (domain_spec b es dom k E F1). cbn [rbind]. apply Nat.eqb_neq in N. now rewrite N.
Qed.

Lemma C76_plane_refuted_pf : forall (K : Type) (cfg : config) (b : @bnd K) ess k,
  cfg_cell cfg = Triangle -> b_elements b = map Polygon ess ++ repeat Contact k ->
  (forall es e, In es ess -> In e es -> exists uv, refers (b_edges b) e uv) -> (exists es, In es ess /\ es <> []) ->
  read_bnd cfg (b_dim b) b (new_sstate empty_mesh) = Thrown.
Proof.
  intros K cfg b ess k TC E R (es & I & N).
  assert (X : exists dom, Forall2 (read_as b) (map Polygon ess) dom /\ Forall2 (Forall2 (good b)) (map (map sort_z) dom) dom /\ Forall (Forall (fun p => length p = 2)) dom /\ Exists (fun d => d <> []) dom).
  { assert (A : forall es, In es ess -> exists ps, Forall2 (fun f p => edge_polygon b f = Done p) es ps /\ Forall (fun p => length p = 2) ps).
    { intros es0 I0. specialize (R es0). assert (R0 : forall e, In e es0 -> exists uv, refers (b_edges b) e uv) by (intros; now apply R). clear - R0.
      induction es0 as [|e es0 IH]; [exists []; auto|]. destruct (R0 e (or_introl eq_refl)) as (uv & U). destruct IH as (ps & F1 & F2); [intros; apply R0; now right|].
      exists ([fst uv; snd uv] :: ps). split; constructor; auto. unfold edge_polygon. rewrite (proj2 (at_refers _ _ _) U). reflexivity. }
    assert (G : exists dom, Forall2 (fun es ps => Forall2 (fun f p => edge_polygon b f = Done p) es ps /\ Forall (fun p => length p = 2) ps) ess dom).
    { clear - A. induction ess as [|es ess IH]; [exists []; auto|]. destruct (A es (or_introl eq_refl)) as (ps & P). destruct IH as (dom & F); [intros; apply A; now right|]. exists (ps :: dom). auto. }
    destruct G as (dom & G). exists dom. split; [|split; [|split]].
    - clear - G. induction G as [|x y l l' [H1 H2] G IH]; cbn [map]; constructor; auto. right. eauto.
    - clear - G. induction G as [|x y l l' [H1 H2] G IH]; cbn [map]; constructor; auto. clear - H2. induction H2 as [|p ps L H2 IH]; cbn [map]; constructor; auto.
      split; auto. rewrite sort_z_length, L. discriminate.
    - clear - G. induction G as [|x y l l' [H1 H2] G IH]; constructor; auto.
    - clear - G I N. induction G as [|x y l l' [H1 H2] G IH]; [destruct I|]. destruct I as [->|I]; [left|right; auto]. destruct es; [congruence|]. inversion H1; subst. discriminate. }
  destruct X as (dom & F1 & F2 & F3 & F4). unfold read_bnd. rewrite (domain_spec b _ dom k E F1). cbn [rbind]. rewrite Nat.eqb_refl.
  rewrite (segments_bad b cfg TC _ dom F2) with (zs := []) (dn := []); [reflexivity| |apply rinv_start].
  clear - F3 F4. induction F4 as [d dom H|d dom H IH]; cbn [map]; inversion F3; subst; [left|right; auto].
  destruct d as [|p d]; [congruence|]. inversion H2; subst. left. rewrite sort_z_length. lia.
Qed.

Lemma C76_unsupported_refuted_pf : forall (K : Type) (cfg : config) (b : @bnd K) es segs post,
  cfg_cell cfg = Triangle -> b_elements b = es ++ Other :: post -> Forall2 (polyhedron_of b) es segs ->
  exists s vertex cell, read_bnd cfg (b_dim b) b (new_sstate empty_mesh) = Done s /\ surface_of b cfg s (segs ++ repeat [] (S (length post))) vertex cell.
Proof.
  intros K cfg b es segs post TC E F. destruct (triangles_good K b es segs F) as (dom & F1 & F2 & F3).
  unfold read_bnd. rewrite (domain_other b es dom post E F1). cbn [rbind]. rewrite Nat.eqb_refl.
  assert (F2' : Forall2 (Forall2 (good b)) (segs ++ repeat [] (S (length post))) (dom ++ repeat [] (S (length post)))).
  { apply Forall2_app; auto. generalize (S (length post)). intros n. induction n; cbn; constructor; auto. }
  assert (F3' : Forall (Forall (fun ts => length ts = 3)) (segs ++ repeat [] (S (length post)))).
  { apply Forall_app. split; auto. generalize (S (length post)). intros n. induction n; cbn; constructor; auto. }
  destruct (segments_loop b cfg TC _ _ F2' F3' 0 [] _ [] (rinv_start b cfg)) as (r & E2 & I). rewrite E2. cbn [rbind].
  eexists _, _, _. split; [reflexivity|]. apply (surface_spec b cfg TC). exact I.
Qed.

Lemma C76_contact_first_refuted_pf : forall (K : Type) (cfg : config) (b : @bnd K) d s pre f fs,
  b_elements b = pre ++ [Polyhedron (f :: fs)] -> In Contact pre -> Forall (fun e => e <> Other) pre -> read_bnd cfg d b s = Undefined.
Proof.
  intros K cfg b d s pre f fs E I F. unfold read_bnd, read_domain. rewrite E. rewrite contact_before; auto. rewrite repeat_length, app_length. cbn [length].
  assert (0 < length (filter is_contact pre)); [|lia]. clear - I. induction pre as [|e pre IH]; [destruct I|]. destruct I as [->|I]; [cbn; lia|]. cbn. specialize (IH I). destruct (is_contact e); cbn; lia.
Qed.
