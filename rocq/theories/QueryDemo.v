(** A decision procedure for correct use of modifications and queries, for
    concrete histories. Not used by any theorem. *)
From Coq Require Import List Arith Bool Lia.
From Verif Require Import ModelTopo ModelMesh ModelErase ModelQuery SpecMesh SpecErase SpecQuery MeshBase MeshInv MeshErase MeshDemo EraseDemo.
Import ListNotations.

Section Demo.
Context {Pt : Type}.
Variable cfg : config.

Definition valid_qopb (m : @mesh Pt) (o : qop Pt) : bool :=
  match o with
  | QMesh o => valid_eopb cfg m o
  | QCob _ bt _ b => liveb m bt b
  | QNb _ t _ a => liveb m t a
  | QBnd t a => existsb (tag_eqb t) (facet_tag (cfg_cell cfg) :: bnd_types cfg) && liveb m t a
  end.

Lemma valid_qopb_sound m o : valid_qopb m o = true -> valid_qop cfg m o.
Proof.
  destruct o as [o|c bt ct b|c t k a|t a]; cbn [valid_qopb valid_qop]; intros H.
  - now apply valid_eopb_sound.
  - now apply liveb_sound.
  - now apply liveb_sound.
  - apply andb_true_iff in H as [H1 H2]. split; [|now apply liveb_sound].
    apply existsb_exists in H1 as (x & Hx & E). apply tag_eqb_eq in E. subst. destruct Hx; auto.
Qed.

Fixpoint valid_qrunb (ops : list (qop Pt)) (s : qstate Pt) : bool :=
  match ops with
  | [] => true
  | o :: r => valid_qopb (q_mesh s) o && match qstep cfg s o with Some s' => valid_qrunb r s' | None => false end
  end.

Definition qstate_of (ops : list (qop Pt)) : qstate Pt :=
  match qrun cfg ops (fresh_caches empty_mesh) with Some s => s | None => fresh_caches empty_mesh end.

Lemma qdemo_ok ops : valid_qrunb ops (fresh_caches empty_mesh) = true -> qreach cfg (qstate_of ops).
Proof.
  intros H. unfold qstate_of.
  assert (G : forall ops s, qreach cfg s -> valid_qrunb ops s = true -> exists s', qrun cfg ops s = Some s' /\ qreach cfg s').
  { clear. induction ops as [|o ops IH]; intros s HR H; cbn [valid_qrunb] in H; [exists s; split; auto|].
    apply andb_true_iff in H as [H1 H2]. unfold qrun. cbn [ofold].
    destruct (qstep cfg s o) as [s1|] eqn:E; [|discriminate]. cbn [obind]. apply IH; auto.
    econstructor; eauto. now apply valid_qopb_sound. }
  destruct (G ops (fresh_caches empty_mesh) (qreach_empty cfg) H) as (s & -> & R). auto.
Qed.

Lemma qmesh_of ops : q_mesh (qstate_of (map (fun o => QMesh o) ops)) = mesh_of cfg ops.
Proof.
  unfold qstate_of, mesh_of, qrun, run.
  assert (G : forall ops (s : qstate Pt), option_map q_mesh (ofold (qstep cfg) (map (fun o => QMesh o) ops) s) = ofold (step cfg) ops (q_mesh s)).
  { clear. induction ops as [|o ops IH]; intros s; auto. cbn [map ofold qstep]. unfold mesh_op.
    destruct (step cfg (q_mesh s) o) as [m|] eqn:E; cbn [option_map obind]; auto. rewrite IH. f_equal. destruct o; reflexivity. }
  specialize (G ops (fresh_caches empty_mesh)). cbn [q_mesh fresh_caches] in G. rewrite <- G.
  destruct (ofold (qstep cfg) _ _); reflexivity.
Qed.

(** At most two cells at each facet, decided. *)
Definition cells_on (m : @mesh Pt) (f : addr) : list addr :=
  filter (fun c => match deref m (cfg_cell cfg) c with Some e => memb f (boundary_of e (facet_tag (cfg_cell cfg))) | None => false end)
    (range m (cfg_cell cfg)).
Definition at_most_twob (m : @mesh Pt) : bool :=
  forallb (fun c => match deref m (cfg_cell cfg) c with
                    | Some e => forallb (fun f => length (cells_on m f) <=? 2) (boundary_of e (facet_tag (cfg_cell cfg)))
                    | None => true end) (range m (cfg_cell cfg)).

Lemma cells_on_spec m f c : bounded_by m (cfg_cell cfg) c (facet_tag (cfg_cell cfg)) f -> In c (cells_on m f).
Proof.
  intros (e & D & B). unfold cells_on. apply filter_In. rewrite D. split; [|now apply memb_In].
  apply deref_In in D as (n & Hn & <- & _). now apply in_map.
Qed.

Lemma at_most_twob_sound m : at_most_twob m = true -> at_most_two cfg m.
Proof.
  intros H f n (l & [ND X] & <-).
  assert (I : incl l (cells_on m f)) by (intros c Hc; apply cells_on_spec; now apply X).
  pose proof (NoDup_incl_length ND I) as L. destruct l as [|c l]; [simpl; lia|].
  destruct (proj1 (X c) (or_introl eq_refl)) as (e & D & B).
  unfold at_most_twob in H. rewrite forallb_forall in H. specialize (H c). rewrite D in H.
  rewrite forallb_forall in H.
  assert (Hc : In c (range m (cfg_cell cfg))) by (apply deref_In in D as (n & Hn & <- & _); now apply in_map).
  specialize (H Hc f B). apply Nat.leb_le in H. lia.
Qed.
End Demo.
