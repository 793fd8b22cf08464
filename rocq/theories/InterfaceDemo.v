(** A decision procedure for correct use of interface queries, for concrete
    histories.  Not used by any theorem but refutations. *)
From Coq Require Import List Arith ZArith Bool Lia.
From Verif Require Import ModelTopo ModelMesh ModelErase ModelQuery ModelSegmentation ModelSegment ModelInterface
  SpecMesh SpecErase SpecQuery SpecSegmentation SpecSegment SpecInterface MeshBase MeshDemo SegmentDemo.
Import ListNotations.
Open Scope nat_scope.

Section Demo.
Context {Pt : Type}.
Variable cfg : config.
Notation ft := (facet_tag (cfg_cell cfg)).

Definition facet_ofb (s : sstate Pt) (f c : addr) : bool :=
  match deref (st_mesh s) (cfg_cell cfg) c with Some e => existsb (Nat.eqb f) (boundary_of e ft) | None => false end.
Definition cells_at (s : sstate Pt) (a : nat) (f : addr) : list addr := filter (facet_ofb s f) (k_view (st_con s a) (cfg_cell cfg)).

Lemma cells_at_spec s a f c : In c (cells_at s a f) <-> in_segment s a (cfg_cell cfg) c /\ bounded_by (st_mesh s) (cfg_cell cfg) c ft f.
Proof.
  unfold cells_at, in_segment, bounded_by, facet_ofb. rewrite filter_In. split; intros [H1 H2]; split; auto.
  - destruct (deref _ _ c) as [e|]; [|discriminate]. exists e. split; auto. now apply existsb_nat.
  - destruct H2 as (e & -> & H2). apply existsb_exists. exists f. split; [exact H2|apply Nat.eqb_refl].
Qed.

Definition facets_near (s : sstate Pt) (a : nat) : list addr :=
  flat_map (fun c => match deref (st_mesh s) (cfg_cell cfg) c with Some e => boundary_of e ft | None => [] end) (k_view (st_con s a) (cfg_cell cfg)).
Definition two_cellsb (s : sstate Pt) (a : nat) : bool := forallb (fun f => length (cells_at s a f) <=? 2) (facets_near s a).

Lemma two_cellsb_sound s a : two_cellsb s a = true -> two_cells cfg s a.
Proof.
  intros H f n (l & [ND X] & <-). assert (I : incl l (cells_at s a f)) by (intros c Hc; apply cells_at_spec; now apply X).
  pose proof (NoDup_incl_length ND I) as L. destruct (cells_at s a f) as [|c r] eqn:E; [simpl in L; lia|].
  assert (Hc : In c (cells_at s a f)) by (rewrite E; now left). apply cells_at_spec in Hc as (Hc & e & D & B).
  unfold two_cellsb in H. rewrite forallb_forall in H. specialize (H f). rewrite E in H. rewrite <- Nat.leb_le. apply Nat.leb_le.
  etransitivity; [exact L|]. apply Nat.leb_le, H. apply in_flat_map. exists c. split; [exact Hc|]. rewrite D. exact B.
Qed.

Definition one_cellb (s : sstate Pt) (a : nat) (f : addr) : bool := match cells_at s a f with [] => false | c :: r => forallb (Nat.eqb c) r end.
Lemma one_cellb_spec s a f : one_cellb s a f = true <-> on_one_cell_of cfg s a f.
Proof.
  unfold one_cellb, on_one_cell_of. split.
  - intros H. destruct (cells_at s a f) as [|c r] eqn:E; [discriminate|]. exists c. intros x. rewrite <- cells_at_spec, E. split; [|intros ->; now left].
    intros [->|Hx]; auto. rewrite forallb_forall in H. specialize (H x Hx). apply Nat.eqb_eq in H. auto.
  - intros (c & H). assert (G : forall x, In x (cells_at s a f) <-> x = c) by (intros x; rewrite cells_at_spec; apply H).
    destruct (cells_at s a f) as [|d r]; [destruct (proj2 (G c) eq_refl)|]. apply forallb_forall. intros x Hx. apply Nat.eqb_eq.
    rewrite (proj1 (G d) (or_introl eq_refl)), (proj1 (G x) (or_intror Hx)). auto.
Qed.

(** The interface facets. *)
Definition iface_list (s : sstate Pt) (a b : nat) : list addr := filter (one_cellb s a) (k_view (st_con s b) ft).
Lemma iface_list_spec s a b f : In f (iface_list s a b) <-> interface_facet cfg s a b f.
Proof. unfold iface_list, interface_facet, in_segment. rewrite filter_In, one_cellb_spec. tauto. Qed.

Definition valid_iopb (S : istate Pt) (o : iop Pt) : bool :=
  match o with
  | ISeg o => valid_sopb cfg (is_seg S) o
  | IAsk a b t x => is_segmentb (is_seg S) a && is_segmentb (is_seg S) b && negb (a =? b) && liveb (st_mesh (is_seg S)) t x &&
      existsb (tag_eqb t) (ft :: bnd_types cfg) && two_cellsb (is_seg S) a
  end.
Lemma valid_iopb_sound S o : valid_iopb S o = true -> valid_iop cfg S o.
Proof.
  destruct o as [o|a b t x]; cbn [valid_iopb valid_iop]; [apply valid_sopb_sound|]. rewrite !andb_true_iff.
  intros (((((H1 & H2) & H3) & H4) & H5) & H6). split; [now apply existsb_nat|]. split; [now apply existsb_nat|].
  split; [apply negb_true_iff in H3; now apply Nat.eqb_neq|]. split; [now apply liveb_sound|]. split; [|now apply two_cellsb_sound].
  apply existsb_exists in H5 as (y & Hy & E). apply tag_eqb_eq in E. subst. destruct Hy; auto.
Qed.

Fixpoint valid_irunb (ops : list (iop Pt)) (S : istate Pt) : bool :=
  match ops with
  | [] => true
  | o :: r => valid_iopb S o && match istep cfg S o with Some S' => valid_irunb r S' | None => false end
  end.
Definition istate_of (ops : list (iop Pt)) : istate Pt :=
  match irun cfg ops (new_istate empty_mesh) with Some s => s | None => new_istate empty_mesh end.

(** The history of a run. *)
Fixpoint record (ops : list (iop Pt)) (S : istate Pt) (H : list (istate Pt * iop Pt)) : list (istate Pt * iop Pt) :=
  match ops with
  | [] => H
  | o :: r => match istep cfg S o with Some S' => record r S' ((S, o) :: H) | None => H end
  end.
Definition history_of (ops : list (iop Pt)) := record ops (new_istate empty_mesh) [].

Lemma idemo_ok ops : valid_irunb ops (new_istate empty_mesh) = true -> history cfg (history_of ops) (istate_of ops).
Proof.
  intros H. unfold istate_of, history_of.
  assert (G : forall ops S H, history cfg H S -> valid_irunb ops S = true -> exists S', irun cfg ops S = Some S' /\ history cfg (record ops S H) S').
  { clear. induction ops as [|o ops IH]; intros S H HR V; cbn [valid_irunb] in V; [exists S; split; auto|].
    apply andb_true_iff in V as [H1 H2]. unfold irun. cbn [ofold record].
    destruct (istep cfg S o) as [S1|] eqn:E; [|discriminate]. cbn [obind]. apply IH; auto.
    eapply h_step; eauto. now apply valid_iopb_sound. }
  destruct (G ops (new_istate empty_mesh) [] (h_new cfg _ (reach_empty cfg)) H) as (s & -> & R). auto.
Qed.

(** The calls of a history, latest first. *)
Lemma history_of_ops ops S : irun cfg ops (new_istate empty_mesh) = Some S -> map snd (history_of ops) = rev ops.
Proof.
  unfold history_of. assert (G : forall ops S H S', irun cfg ops S = Some S' -> map snd (record ops S H) = rev ops ++ map snd H).
  { clear. induction ops as [|o ops IH]; intros S H S' E; [auto|]. unfold irun in E. cbn [ofold] in E. cbn [record].
    destruct (istep cfg S o) as [S1|] eqn:Q; [|discriminate]. cbn [obind] in E. rewrite (IH S1 _ S' E). cbn [rev map snd]. now rewrite <- app_assoc. }
  intros E. rewrite (G _ _ _ _ E). cbn. apply app_nil_r.
Qed.
End Demo.
