(** A decision procedure for correct use of segments, for concrete histories.
    Not used by any theorem. *)
From Coq Require Import List Arith ZArith Bool.
From Verif Require Import ModelTopo ModelMesh ModelErase ModelQuery ModelSegmentation ModelSegment SpecMesh SpecErase SpecSegmentation SpecSegment MeshBase MeshDemo.
Import ListNotations.
Open Scope nat_scope.

Section Demo.
Context {Pt : Type}.
Variable cfg : config.

Definition is_segmentb (s : sstate Pt) (a : nat) : bool := existsb (Nat.eqb a) (segment_range (st_segs s)).
Definition in_segmentb (s : sstate Pt) (a : nat) (t : tag) (h : addr) : bool := existsb (Nat.eqb h) (k_view (st_con s a) t).
Definition creationb (o : op Pt) : bool := match o with OVertex _ | OVertexId _ _ | OElement _ _ => true | _ => false end.

Definition valid_sopb (s : sstate Pt) (o : sop Pt) : bool :=
  match o with
  | SMesh o => creationb o && valid_opb cfg (st_mesh s) o
  | SManage (SgRename z _) => segment_present z (st_segs s)
  | SManage SgClear | SManage SgInit => false
  | SManage _ => true
  | SCreate a o => is_segmentb s a && creationb o && valid_opb cfg (st_mesh s) o
  | SAdd a t h => is_segmentb s a && liveb (st_mesh s) t h
  | SErase a t h => is_segmentb s a && in_segmentb s a t h
  | SCob a _ bt _ b => is_segmentb s a && in_segmentb s a bt b
  | SNb a _ t _ x => is_segmentb s a && in_segmentb s a t x
  | SBnd a t x => is_segmentb s a && in_segmentb s a t x && existsb (tag_eqb t) (facet_tag (cfg_cell cfg) :: bnd_types cfg)
  end.

Lemma existsb_nat x l : existsb (Nat.eqb x) l = true -> In x l.
Proof. intros H. apply existsb_exists in H as (y & Hy & E). apply Nat.eqb_eq in E. now subst. Qed.
Lemma creationb_sound o : creationb o = true -> creation o.
Proof. destruct o; simpl; auto; discriminate. Qed.

Lemma valid_sopb_sound s o : valid_sopb s o = true -> valid_sop cfg s o.
Proof.
  destruct o as [o|o|a o|a t h|a t h|a c bt ct b|a c t k x|a t x]; cbn [valid_sopb valid_sop]; intros H.
  - apply andb_true_iff in H as [H1 H2]. split; [now apply creationb_sound|now apply valid_opb_sound].
  - destruct o; try discriminate; simpl; repeat split; auto; discriminate.
  - apply andb_true_iff in H as [H H2]. apply andb_true_iff in H as [H H1].
    split; [now apply existsb_nat|]. split; [now apply creationb_sound|now apply valid_opb_sound].
  - apply andb_true_iff in H as [H1 H2]. split; [now apply existsb_nat|now apply liveb_sound].
  - apply andb_true_iff in H as [H1 H2]. split; now apply existsb_nat.
  - apply andb_true_iff in H as [H1 H2]. split; now apply existsb_nat.
  - apply andb_true_iff in H as [H1 H2]. split; now apply existsb_nat.
  - apply andb_true_iff in H as [H H2]. apply andb_true_iff in H as [H H1].
    split; [now apply existsb_nat|]. split; [now apply existsb_nat|].
    apply existsb_exists in H2 as (y & Hy & E). apply tag_eqb_eq in E. subst. destruct Hy; auto.
Qed.

Fixpoint valid_srunb (ops : list (sop Pt)) (s : sstate Pt) : bool :=
  match ops with
  | [] => true
  | o :: r => valid_sopb s o && match sstep cfg s o with Some s' => valid_srunb r s' | None => false end
  end.

Definition sstate_of (ops : list (sop Pt)) : sstate Pt :=
  match srun cfg ops (new_sstate empty_mesh) with Some s => s | None => new_sstate empty_mesh end.

Lemma sdemo_ok ops : valid_srunb ops (new_sstate empty_mesh) = true -> sreach cfg (sstate_of ops).
Proof.
  intros H. unfold sstate_of.
  assert (G : forall ops s, sreach cfg s -> valid_srunb ops s = true -> exists s', srun cfg ops s = Some s' /\ sreach cfg s').
  { clear. induction ops as [|o ops IH]; intros s HR H; cbn [valid_srunb] in H; [exists s; split; auto|].
    apply andb_true_iff in H as [H1 H2]. unfold srun. cbn [ofold].
    destruct (sstep cfg s o) as [s1|] eqn:E; [|discriminate]. cbn [obind]. apply IH; auto.
    eapply sr_step; eauto. now apply valid_sopb_sound. }
  destruct (G ops (new_sstate empty_mesh) (sr_new cfg _ (reach_empty cfg)) H) as (s & -> & R). auto.
Qed.
End Demo.
