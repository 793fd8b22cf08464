(** A decision procedure for correct use of the interface including deletion,
    for concrete histories. Not used by any theorem. *)
From Coq Require Import List Arith Bool Lia Permutation.
From Verif Require Import ModelTopo ModelMesh ModelErase SpecMesh SpecErase MeshBase MeshInv MeshDemo.
Import ListNotations.

Section Demo.
Context {Pt : Type}.
Variable cfg : config.
Notation mesh := (@mesh Pt).

Definition valid_viewb (m : mesh) (view : tag -> list addr) : bool :=
  forallb (fun t => NoDupb (view t) && forallb (liveb m t) (view t)) all_tags.
Definition closedb (m : mesh) (view : tag -> list addr) : bool :=
  forallb (fun bt => forallb (fun b => forallb (fun t => forallb (fun n =>
    if existsb (Nat.eqb b) (boundary_of (n_el n) bt) then existsb (Nat.eqb (n_addr n)) (view t) else true)
    (m_nodes m t)) all_tags) (view bt)) all_tags.
Definition valid_eopb (m : mesh) (o : op Pt) : bool :=
  match o with
  | OErase view => valid_viewb m view && closedb m view
  | _ => valid_opb cfg m o
  end.

Lemma eqb_In a l : existsb (Nat.eqb a) l = true <-> In a l.
Proof.
  rewrite existsb_exists. split.
  - intros (x & H & E). apply Nat.eqb_eq in E. now subst.
  - intros H. exists a. split; auto. apply Nat.eqb_refl.
Qed.

Lemma valid_viewb_sound m view : valid_viewb m view = true -> valid_view m view.
Proof.
  intros H t. unfold valid_viewb in H. rewrite forallb_forall in H.
  specialize (H t (all_tags_complete t)). apply andb_true_iff in H as [H1 H2]. split; [now apply NoDupb_sound|].
  apply Forall_forall. intros a Ha. apply liveb_sound. rewrite forallb_forall in H2. auto.
Qed.

Lemma closedb_sound m view : closedb m view = true -> reference_closed m view.
Proof.
  intros H bt b t a e Hb HD HB. unfold closedb in H. rewrite forallb_forall in H.
  specialize (H bt (all_tags_complete bt)). rewrite forallb_forall in H. specialize (H b Hb).
  rewrite forallb_forall in H. specialize (H t (all_tags_complete t)). rewrite forallb_forall in H.
  apply deref_In in HD as (n & Hn & <- & <-). specialize (H n Hn).
  unfold has_boundary in HB. apply eqb_In in HB. rewrite HB in H. now apply eqb_In.
Qed.

Definition unreferencedb (m : mesh) (t : tag) (a : addr) : bool :=
  forallb (fun t' => forallb (fun n => negb (existsb (Nat.eqb a) (boundary_of (n_el n) t))) (m_nodes m t')) all_tags.
Lemma unreferencedb_sound m t a : unreferencedb m t a = true -> unreferenced m t a.
Proof.
  intros H t' b e HD HB. unfold unreferencedb in H. rewrite forallb_forall in H.
  specialize (H t' (all_tags_complete t')). rewrite forallb_forall in H.
  apply deref_In in HD as (n & Hn & _ & <-). specialize (H n Hn). apply negb_true_iff in H.
  unfold has_boundary in HB. apply eqb_In in HB. congruence.
Qed.

Lemma valid_eopb_sound m o : valid_eopb m o = true -> valid_eop cfg m o.
Proof.
  destruct o as [p|i p|t vs|view|]; cbn [valid_eopb valid_eop]; try apply valid_opb_sound.
  intros H. apply andb_true_iff in H as [H1 H2]. split; [now apply valid_viewb_sound|now apply closedb_sound].
Qed.

Fixpoint valid_erunb (ops : list (op Pt)) (m : mesh) : bool :=
  match ops with
  | [] => true
  | o :: r => valid_eopb m o && match step cfg m o with Some m' => valid_erunb r m' | None => false end
  end.

Lemma valid_erunb_sound ops : forall m, ereach cfg m -> valid_erunb ops m = true ->
  exists m', run cfg ops m = Some m' /\ ereach cfg m'.
Proof.
  induction ops as [|o ops IH]; intros m HR H; cbn [valid_erunb] in H.
  - exists m. split; auto.
  - apply andb_true_iff in H as [H1 H2]. unfold run. cbn [ofold].
    destruct (step cfg m o) as [m1|] eqn:E; [|discriminate]. cbn [obind].
    apply IH; auto. econstructor; eauto. now apply valid_eopb_sound.
Qed.

Lemma demo_eok ops : valid_erunb ops empty_mesh = true ->
  run cfg ops empty_mesh = Some (mesh_of cfg ops) /\ ereach cfg (mesh_of cfg ops).
Proof.
  intros H. destruct (valid_erunb_sound ops empty_mesh (ereach_empty cfg) H) as (m & E & R).
  unfold mesh_of. rewrite E. auto.
Qed.
End Demo.
