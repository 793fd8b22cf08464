From Coq Require Import List Arith Bool Lia.
From Verif Require Import ModelTopo ModelMesh ModelErase ModelSegmentation ModelSegment ModelTransfer SpecMesh SpecErase SpecQuery SpecSegment SpecTransfer
  MeshBase MeshInv MeshReach MeshWf MeshErase MeshSimple QueryBase ViewBase SegmentInv SegmentProofs CopySegProofs.
Import ModelSegmentation ListNotations.
Open Scope nat_scope.

Section Push.
Context {V : Type}.
Fixpoint get (x : addr) (vals : list (addr * list V)) : list V :=
  match vals with [] => [] | (y, l) :: r => if x =? y then l else get x r end.
Lemma get_push x y v vals : get x (push_back y v vals) = get x vals ++ (if x =? y then [v] else []).
Proof.
  induction vals as [|[z l] r IH]; cbn [push_back get].
  - destruct (x =? y); auto.
  - destruct (Nat.eqb_spec y z) as [->|N]; cbn [get].
    + destruct (Nat.eqb_spec x z); [auto|now rewrite app_nil_r].
    + destruct (Nat.eqb_spec x z) as [->|]; auto. destruct (Nat.eqb_spec z y); [congruence|]. now rewrite app_nil_r.
Qed.
Lemma keys_push x y (v : V) vals : In x (map fst (push_back y v vals)) <-> x = y \/ In x (map fst vals).
Proof.
  induction vals as [|[z l] r IH]; cbn [push_back map]; [simpl; intuition|].
  destruct (Nat.eqb_spec y z) as [->|N]; cbn [map fst In]; [|rewrite IH]; intuition.
Qed.
Lemma keys_NoDup y (v : V) vals : NoDup (map fst vals) -> NoDup (map fst (push_back y v vals)).
Proof.
  induction vals as [|[z l] r IH]; cbn [push_back map]; intros N; [repeat constructor; auto|]. inversion N; subst.
  destruct (Nat.eqb_spec y z) as [->|Q]; cbn [map fst]; [constructor; auto|]. constructor; auto. rewrite keys_push. intros [?|?]; auto.
Qed.
Lemma get_In x (vals : list (addr * list V)) : NoDup (map fst vals) -> forall l, In (x, l) vals <-> In x (map fst vals) /\ l = get x vals.
Proof.
  induction vals as [|[z l] r IH]; intros N k; cbn [map fst In get]; [intuition|]. inversion N; subst.
  destruct (Nat.eqb_spec x z) as [->|Q].
  - split; [|intros [_ ->]; auto]. intros [E|E]; [inversion E; auto|]. exfalso. apply H1. now apply (in_map fst) in E.
  - rewrite (IH H2). split; [intros [E|[A B]]; [inversion E; congruence|auto]|intros [[E|A] B]; [congruence|auto]].
Qed.

(** What the map holds: [f x] for every key [x], and no empty lists. *)
Definition holds (f : addr -> list V) (vals : list (addr * list V)) : Prop :=
  NoDup (map fst vals) /\ (forall x, get x vals = f x) /\ forall x, In x (map fst vals) <-> f x <> [].
Lemma holds_push f y v vals : holds f vals -> holds (fun x => f x ++ if x =? y then [v] else []) (push_back y v vals).
Proof.
  intros (N & G & K). split; [now apply keys_NoDup|]. split; [intros x; rewrite get_push, G; auto|].
  intros x. rewrite keys_push, K. destruct (Nat.eqb_spec x y) as [->|].
  - split; auto. intros _ E. now apply app_eq_nil in E as [_ E].
  - rewrite app_nil_r. intuition.
Qed.
Lemma holds_ext f g vals : (forall x, f x = g x) -> holds f vals -> holds g vals.
Proof. intros E (N & G & K). split; auto. split; [intros; now rewrite G|]. intros x. now rewrite K, E. Qed.
Lemma holds_pushes v (fd : addr -> bool) l : forall f vals, NoDup l -> holds f vals ->
  holds (fun x => f x ++ if fd x && existsb (Nat.eqb x) l then [v] else []) (fold_left (fun vals x => if fd x then push_back x v vals else vals) l vals).
Proof.
  induction l as [|y l IH]; intros f vals N H; cbn [fold_left].
  - eapply holds_ext; [|exact H]. intros x. cbn. now rewrite andb_false_r, app_nil_r.
  - inversion N; subst. destruct (fd y) eqn:Fy.
    + eapply holds_ext; [|apply (IH _ _ H3 (holds_push f y v vals H))]. intros x. cbn [existsb]. rewrite <- app_assoc. f_equal.
      destruct (Nat.eqb_spec x y) as [->|]; cbn [orb app]; auto. rewrite Fy.
      destruct (existsb (Nat.eqb y) l) eqn:E; auto. apply existsb_exists in E as (z & Hz & E). apply Nat.eqb_eq in E. now subst.
    + eapply holds_ext; [|apply (IH _ _ H3 H)]. intros x. cbn [existsb]. f_equal.
      destruct (Nat.eqb_spec x y) as [->|]; cbn [orb]; auto. now rewrite Fy.
Qed.
End Push.

Section Down.
Context {Pt V : Type}.
Variable cfg : config.
Variable m : @mesh Pt.
Hypothesis R : ereach cfg m.
Variable value : tag -> addr -> V.
Variable average : list V -> V.
Variables st dt : tag.
Variables fsrc fdst : addr -> bool.

Definition adjb (x s : addr) : bool :=
  match deref m st s with Some e => existsb (Nat.eqb x) (boundary_of e dt) | None => false end.
Lemma adjb_spec x s : adjb x s = true <-> bounded_by m st s dt x.
Proof.
  unfold adjb, bounded_by. destruct (deref m st s) as [e|]; [|split; [discriminate|intros (? & ? & _); discriminate]].
  rewrite existsb_exists. unfold has_boundary. split.
  - intros (y & Hy & E). apply Nat.eqb_eq in E. subst. eauto.
  - intros (e' & E & H). inversion E; subst. exists x. split; auto. apply Nat.eqb_refl.
Qed.

Lemma bnd_NoDup s e : deref m st s = Some e -> NoDup (boundary_of e dt).
Proof. intros D. apply deref_In in D as (n & Hn & _ & <-). apply (simple_boundary m st n); auto. apply (ereach_simple cfg). exact R. Qed.

Definition seen (l : list addr) (x : addr) : list V :=
  if fdst x then map (value st) (filter (fun s => fsrc s && adjb x s) l) else [].

Lemma down_loop l : forall don vals, holds (seen don) vals -> Forall (is_live m st) l ->
  exists vals', ofold (push_boundary value m st dt fsrc fdst) l vals = Some vals' /\ holds (seen (don ++ l)) vals'.
Proof.
  induction l as [|s l IH]; intros don vals H F; cbn [ofold].
  - exists vals. rewrite app_nil_r. auto.
  - inversion F as [|? ? (e & D) F']; subst. unfold push_boundary at 1. destruct (fsrc s) eqn:Fs.
    + rewrite D. cbn [option_map obind]. replace (don ++ s :: l) with ((don ++ [s]) ++ l) by now rewrite <- app_assoc.
      apply IH; auto. eapply holds_ext; [|apply (holds_pushes (value st s) fdst _ _ _ (bnd_NoDup s e D) H)].
      intros x. unfold seen. destruct (fdst x); cbn [andb]; auto. rewrite filter_app, map_app. f_equal. cbn [filter]. unfold adjb at 1. rewrite Fs, D. cbn [andb].
      now destruct (existsb (Nat.eqb x) (boundary_of e dt)).
    + cbn [obind]. replace (don ++ s :: l) with ((don ++ [s]) ++ l) by now rewrite <- app_assoc.
      apply IH; auto. eapply holds_ext; [|exact H]. intros x. unfold seen. destruct (fdst x); auto. rewrite filter_app. cbn [filter]. now rewrite Fs, app_nil_r.
Qed.

Lemma down_spec srcs : Forall (is_live m st) srcs -> exists calls,
  transfer_down value average m st dt fsrc fdst srcs = Some calls /\
  transferred m value average st dt fsrc fdst srcs calls.
Proof.
  intros F. assert (H0 : holds (seen []) []).
  { split; [constructor|]. split; [intros x; unfold seen; now destruct (fdst x)|]. intros x. unfold seen. destruct (fdst x); cbn; intuition. }
  destruct (down_loop srcs [] [] H0 F) as (vals & E & N & G & K). cbn [app] in *. unfold transfer_down. rewrite E. cbn [option_map].
  eexists. split; [reflexivity|]. split.
  - rewrite map_map. cbn. exact N.
  - intros x v.
    assert (A1 : In (x, v) (map (fun p => (fst p, average (snd p))) vals) <-> seen srcs x <> [] /\ v = average (seen srcs x)).
    { rewrite in_map_iff. split.
      - intros ([y l] & E1 & H). cbn in E1. inversion E1; subst. apply (get_In x vals N) in H as [H1 ->]. rewrite G. split; auto. now apply K.
      - intros [H ->]. exists (x, seen srcs x). split; auto. apply (get_In x vals N). split; [now apply K|]. now rewrite G. }
    rewrite A1. unfold seen. destruct (fdst x) eqn:Fx; [|split; [intros [H _]; congruence|intros (H & _); congruence]].
    set (g := fun s => fsrc s && adjb x s).
    assert (Hg : forall s, g s = true <-> fsrc s = true /\ bounded_by m st s dt x) by (intros s; unfold g; now rewrite andb_true_iff, adjb_spec).
    split.
    + intros [H ->]. split; auto. split; [|exists g; auto]. destruct (filter g srcs) as [|s r] eqn:Ef; [cbn in H; congruence|].
      assert (Hs : In s (filter g srcs)) by (rewrite Ef; now left). apply filter_In in Hs as [H1 H2]. apply Hg in H2 as [? ?]. exists s. auto.
    + intros (_ & (s & Hs & Fs & B) & f & Hf & ->).
      assert (EF : filter f srcs = filter g srcs).
      { apply filter_ext_in. intros a Ha. apply eq_true_iff_eq. rewrite Hg. now apply Hf. }
      rewrite EF. split; auto. intros E0. assert (Hi : In s (filter g srcs)) by (apply filter_In; split; auto; now apply Hg).
      apply map_eq_nil in E0. rewrite E0 in Hi. destruct Hi.
Qed.
End Down.

Lemma C43_to_lower_partial_pf : forall Pt V cfg (m : @mesh Pt) (value : tag -> addr -> V) (average : list V -> V) st dt (fsrc fdst : addr -> bool),
  ereach cfg m -> dim dt < dim st ->
  exists calls, quantity_transfer value average m st dt fsrc fdst = Some calls /\
    transferred m value average st dt fsrc fdst (range m st) calls.
Proof.
  intros Pt V cfg m value average st dt fsrc fdst R D. unfold quantity_transfer. apply Nat.ltb_lt in D. rewrite D.
  apply (down_spec cfg); auto. apply Forall_forall. intros s Hs. now apply live_is_live.
Qed.

Lemma C43_segment_to_lower_partial_pf : forall Pt V cfg (s : sstate Pt) a (value : tag -> addr -> V) (average : list V -> V) st dt (fsrc fdst : addr -> bool),
  cfg_cell cfg <> Hex -> sreach cfg s -> is_segment s a ->
  exists calls, transfer_down value average (st_mesh s) st dt fsrc fdst (k_view (st_con s a) st) = Some calls /\
    transferred (st_mesh s) value average st dt fsrc fdst (k_view (st_con s a) st) calls /\
    forall x v, In (x, v) calls -> in_segment s a dt x.
Proof.
  intros Pt V cfg s a value average st dt fsrc fdst NH R SG.
  assert (Rm : ereach cfg (st_mesh s)) by (apply reach_ereach, (srun_mesh_reach cfg); auto).
  destruct (C20_closure_pf Pt cfg s a NH R SG) as (CL & LV & _).
  destruct (down_spec cfg (st_mesh s) Rm value average st dt fsrc fdst (k_view (st_con s a) st)) as (calls & E & N & H).
  - exact (increasing_live (st_mesh s) st _ (LV st)).
  - exists calls. split; auto. split; [split; auto|]. intros x v Hx. apply H in Hx as (_ & (y & Hy & _ & B) & _). eapply CL; eauto.
Qed.

Lemma up_spec Pt V cfg (m : @mesh Pt) (value : tag -> addr -> V) average st dt (fsrc fdst : addr -> bool) : ereach cfg m ->
  exists calls, transfer_up value average m st dt fsrc fdst (range m dt) = Some calls /\
    map fst calls = filter fdst (range m dt) /\
    forall x v, In (x, v) calls <-> fdst x = true /\ exists e, deref m dt x = Some e /\
      v = average (repeat (value dt x) (length (filter fsrc (boundary_of e st)))).
Proof.
  intros R. unfold transfer_up.
  assert (M : forall (A B : Type) (b : B) (l : list A), map (fun _ => b) l = repeat b (length l)) by (induction l; cbn; congruence).
  assert (G : forall l calls, Forall (is_live m dt) l -> exists calls', ofold (set_from_boundary value average m st dt fsrc fdst) l calls = Some (calls ++ calls') /\
    map fst calls' = filter fdst l /\ forall x v, In (x, v) calls' <-> In x l /\ fdst x = true /\ exists e, deref m dt x = Some e /\
      v = average (repeat (value dt x) (length (filter fsrc (boundary_of e st))))).
  { induction l as [|x l IH]; intros calls F; cbn [ofold filter].
    - exists []. rewrite app_nil_r. split; auto. split; auto. intros x v. simpl. intuition.
    - inversion F as [|? ? (e & D) F']; subst. unfold set_from_boundary at 1. destruct (fdst x) eqn:Fx.
      + rewrite D. cbn [option_map obind]. rewrite M. destruct (IH (calls ++ [(x, average (repeat (value dt x) (length (filter fsrc (boundary_of e st)))))]) F') as (c' & -> & K & H).
        eexists. rewrite <- app_assoc. cbn [app]. split; [reflexivity|]. split; [cbn [map fst]; now rewrite K|].
        intros y v. cbn [In]. rewrite H. split.
        * intros [E|(A & B & C)]; [inversion E; subst; eauto 6|auto].
        * intros ([<-|A] & B & e' & C1 & C2); [left; rewrite D in C1; inversion C1; subst; reflexivity|eauto 6].
      + cbn [obind]. destruct (IH calls F') as (c' & -> & K & H). exists c'. split; auto. split; auto.
        intros y v. cbn [In]. rewrite H. split; [intros (A & B); auto|]. intros ([<-|A] & B & C); [congruence|auto]. }
  destruct (G (range m dt) []) as (calls & E & K & H).
  { apply Forall_forall. intros x Hx. now apply live_is_live. }
  exists calls. split; auto. split; auto. intros x v. rewrite H. split; [intros (_ & A & B); auto|]. intros (A & e & D & E').
  split; [|eauto]. apply live_is_live. now exists e.
Qed.

Lemma C43_to_higher_reads_destination_pf : forall Pt V cfg (m : @mesh Pt) (value : tag -> addr -> V) (average : list V -> V) st dt (fsrc fdst : addr -> bool),
  ereach cfg m -> dim st < dim dt ->
  exists calls, quantity_transfer value average m st dt fsrc fdst = Some calls /\
    map fst calls = filter fdst (range m dt) /\
    forall x v, In (x, v) calls <-> fdst x = true /\ exists e, deref m dt x = Some e /\
      v = average (repeat (value dt x) (length (filter fsrc (boundary_of e st)))).
Proof.
  intros Pt V cfg m value average st dt fsrc fdst R D. unfold quantity_transfer.
  destruct (Nat.ltb_spec (dim dt) (dim st)); [lia|]. apply Nat.ltb_lt in D. rewrite D. now apply (up_spec Pt V cfg).
Qed.

Lemma C43_to_higher_refuted_pf : forall Pt V cfg (m : @mesh Pt) (value value' : tag -> addr -> V) (average : list V -> V) st dt (fsrc fdst : addr -> bool),
  ereach cfg m -> dim st < dim dt -> (forall x, value dt x = value' dt x) ->
  quantity_transfer value average m st dt fsrc fdst = quantity_transfer value' average m st dt fsrc fdst.
Proof.
  intros Pt V cfg m value value' average st dt fsrc fdst _ D E. unfold quantity_transfer.
  destruct (dim dt <? dim st) eqn:D1; [apply Nat.ltb_lt in D1; lia|]. destruct (dim st <? dim dt); auto. unfold transfer_up.
  generalize (@nil (addr * V)). induction (range m dt) as [|x l IH]; intros calls; cbn [ofold]; auto.
  assert (ES : set_from_boundary value average m st dt fsrc fdst calls x = set_from_boundary value' average m st dt fsrc fdst calls x)
    by (unfold set_from_boundary; now rewrite E).
  rewrite ES. destruct (set_from_boundary value' average m st dt fsrc fdst calls x); cbn [obind]; auto.
Qed.
