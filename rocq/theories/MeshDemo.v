(** A decision procedure for correct use, so that concrete histories can be
    shown to meet the hypotheses of the theorems. Not used by any theorem. *)
From Coq Require Import List Arith Bool Lia Permutation.
From Verif Require Import ModelTopo ModelMesh ModelErase SpecMesh MeshBase.
Import ListNotations.

Section Demo.
Context {Pt : Type}.
Variable cfg : config.
Notation mesh := (@mesh Pt).

Definition liveb (m : mesh) (t : tag) (a : nat) : bool :=
  match deref m t a with Some _ => true | None => false end.

Definition valid_opb (m : mesh) (o : op Pt) : bool :=
  match o with
  | OVertex _ => true
  | OVertexId i _ => negb (existsb (Nat.eqb i) (ids_of m Vertex)) && negb (i =? id_upper_bound m Vertex)
  | OElement t vs => negb (tag_eqb t Vertex) && (tag_eqb t (cfg_cell cfg) || (dim t <? dim (cfg_cell cfg)))
       && (length vs =? nverts t) && NoDupb vs && forallb (liveb m Vertex) vs
  | OErase _ => false
  | OClear => true
  end.

Lemma liveb_sound m t a : liveb m t a = true -> is_live m t a.
Proof. unfold liveb, is_live. destruct (deref m t a); [eauto|discriminate]. Qed.

Lemma valid_opb_sound m o : valid_opb m o = true -> valid_op cfg m o.
Proof.
  destruct o; simpl; intros H; auto; try discriminate.
  - apply andb_true_iff in H as [H1 H2]. split.
    + intros HI. apply negb_true_iff in H1. assert (existsb (Nat.eqb i) (ids_of m Vertex) = true); [|congruence].
      apply existsb_exists. exists i. split; auto. apply Nat.eqb_refl.
    + apply negb_true_iff, Nat.eqb_neq in H2. auto.
  - repeat (apply andb_true_iff in H as [H ?]). repeat split.
    + apply tag_eqb_neq. now apply negb_true_iff.
    + apply orb_true_iff in H3 as [H3|H3]; [left; now apply tag_eqb_eq|right; now apply Nat.ltb_lt].
    + now apply Nat.eqb_eq.
    + now apply NoDupb_sound.
    + apply Forall_forall. intros v Hv. apply liveb_sound. now apply (proj1 (forallb_forall _ _) H0).
Qed.

Fixpoint valid_runb (ops : list (op Pt)) (m : mesh) : bool :=
  match ops with
  | [] => true
  | o :: r => valid_opb m o && match step cfg m o with Some m' => valid_runb r m' | None => false end
  end.

Lemma valid_runb_sound ops : forall m, reach cfg m -> valid_runb ops m = true ->
  exists m', run cfg ops m = Some m' /\ reach cfg m'.
Proof.
  induction ops as [|o ops IH]; intros m HR H; cbn [valid_runb] in H.
  - exists m. split; auto.
  - apply andb_true_iff in H as [H1 H2]. unfold run. cbn [ofold].
    destruct (step cfg m o) as [m1|] eqn:E; [|discriminate]. cbn [obind].
    apply IH; auto. econstructor; eauto. now apply valid_opb_sound.
Qed.

Definition mesh_of (ops : list (op Pt)) : mesh :=
  match run cfg ops empty_mesh with Some m => m | None => empty_mesh end.

Lemma demo_ok ops : valid_runb ops empty_mesh = true ->
  run cfg ops empty_mesh = Some (mesh_of ops) /\ reach cfg (mesh_of ops).
Proof.
  intros H. destruct (valid_runb_sound ops empty_mesh (reach_empty cfg) H) as (m & E & R).
  unfold mesh_of. rewrite E. auto.
Qed.
End Demo.
