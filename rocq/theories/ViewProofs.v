(** Proofs of C11 and C12. *)
From Coq Require Import List Arith Bool Lia Permutation Sorted.
From Verif Require Import ModelTopo ModelMesh ModelErase ModelAccessor ModelQuery ModelView SpecMesh SpecErase SpecQuery SpecView
  MeshBase MeshInv MeshIds MeshWf MeshErase MeshSimple MeshDemo EraseDemo EraseProofs QueryBase QueryBnd QueryDemo ViewBase ViewTrans.
Import ListNotations.

Lemma C11_insert_unique_pf : forall h v,
  (In h v -> seq_insert_unique h v = v) /\ (~ In h v -> seq_insert_unique h v = v ++ [h]).
Proof.
  intros h v. unfold seq_insert_unique, seq_insert. destruct (existsb (fun x => h =? x) v) eqn:E.
  - apply existsb_exists in E as (x & Hx & E). apply Nat.eqb_eq in E. subst. tauto.
  - split; auto. intros H. rewrite <- not_true_iff_false in E. exfalso. apply E. apply existsb_exists. exists h.
    split; auto. apply Nat.eqb_refl.
Qed.

Lemma C11_erase_first_pf : forall h v,
  (~ In h v -> seq_erase h v = v) /\ (forall v1 v2, v = v1 ++ h :: v2 -> ~ In h v1 -> seq_erase h v = v1 ++ v2).
Proof.
  intros h v. split.
  - induction v as [|x v IH]; simpl; auto. intros H. destruct (Nat.eqb_spec x h) as [->|N]; [tauto|]. rewrite IH; auto.
  - induction v as [|x v IH]; intros v1 v2 E H; [destruct v1; discriminate|]. simpl.
    destruct v1 as [|y v1]; simpl in E; inversion E; subst.
    + now rewrite Nat.eqb_refl.
    + destruct (Nat.eqb_spec y h) as [->|N]; [simpl in H; tauto|]. simpl. f_equal. apply IH; auto. simpl in H. tauto.
Qed.

Lemma C11_erase_count_pf : forall h x v,
  count_occ Nat.eq_dec (seq_erase h v) x = count_occ Nat.eq_dec v x - (if Nat.eq_dec h x then 1 else 0).
Proof.
  intros h x v. induction v as [|y v IH]; simpl; [now destruct (Nat.eq_dec h x)|].
  destruct (Nat.eqb_spec y h) as [->|N].
  - destruct (Nat.eq_dec h x); lia.
  - simpl. destruct (Nat.eq_dec y x) as [->|]; rewrite IH; destruct (Nat.eq_dec h x); subst; try lia; congruence.
Qed.

Lemma run_app ops1 ops2 v : seq_run (ops1 ++ ops2) v = seq_run ops2 (seq_run ops1 v).
Proof. apply fold_left_app. Qed.

Lemma member_ext h ops : forall P Q : Prop, (P <-> Q) -> (member_after h ops P <-> member_after h ops Q).
Proof. induction ops as [|[x|x|x|] ops IH]; simpl; intros P Q H; auto; apply IH; tauto. Qed.

Lemma insert_unique_In h v a : In a (seq_insert_unique h v) <-> h = a \/ In a v.
Proof.
  destruct (C11_insert_unique_pf h v) as [A B]. destruct (in_dec Nat.eq_dec h v) as [H|H].
  - rewrite A by auto. intuition. now subst.
  - rewrite B by auto. rewrite in_app_iff. simpl. intuition.
Qed.

Lemma insert_unique_nodup h v : NoDup v -> NoDup (seq_insert_unique h v).
Proof.
  intros N. destruct (C11_insert_unique_pf h v) as [A B]. destruct (in_dec Nat.eq_dec h v) as [H|H].
  - now rewrite A.
  - rewrite B by auto. apply (Permutation_NoDup (Permutation_cons_append v h)). now constructor.
Qed.

Lemma erase_In h v a : NoDup v -> (In a (seq_erase h v) <-> h <> a /\ In a v).
Proof.
  intros N. destruct (C11_erase_first_pf h v) as [A B]. destruct (in_dec Nat.eq_dec h v) as [H|H].
  - apply in_split in H as (v1 & v2 & ->). assert (N2 := NoDup_remove_2 _ _ _ N). rewrite in_app_iff in N2.
    rewrite (B v1 v2) by tauto. rewrite !in_app_iff. simpl. intuition; subst; tauto.
  - rewrite A by auto. intuition. now subst.
Qed.

Lemma erase_nodup h v : NoDup v -> NoDup (seq_erase h v).
Proof.
  intros N. destruct (C11_erase_first_pf h v) as [A B]. destruct (in_dec Nat.eq_dec h v) as [H|H].
  - apply in_split in H as (v1 & v2 & ->). assert (N2 := NoDup_remove_2 _ _ _ N). rewrite in_app_iff in N2.
    rewrite (B v1 v2) by tauto. eapply NoDup_remove_1; eauto.
  - now rewrite A.
Qed.

Lemma C11_history_pf : forall ops, Forall unique_only ops ->
  NoDup (seq_run ops []) /\ forall h, In h (seq_run ops []) <-> member_after h ops False.
Proof.
  enough (G : forall ops v, Forall unique_only ops -> NoDup v ->
    NoDup (seq_run ops v) /\ forall h, In h (seq_run ops v) <-> member_after h ops (In h v)).
  { intros ops F. apply (G ops [] F). constructor. }
  induction ops as [|o ops IH]; intros v F N; simpl; [split; auto; tauto|].
  inversion F as [|? ? F1 F2]; subst.
  assert (N' : NoDup (seq_step v o)).
  { destruct o; simpl in *; [contradiction|now apply insert_unique_nodup|now apply erase_nodup|constructor]. }
  destruct (IH (seq_step v o) F2 N') as [A B]. split; auto. intros h. rewrite B. destruct o; simpl in *; try contradiction.
  - apply member_ext, insert_unique_In.
  - apply member_ext. now apply erase_In.
  - tauto.
Qed.

Lemma before_app l x y l' : before l x y -> before (l ++ l') x y.
Proof. intros (a & b & c & ->). exists a, b, (c ++ l'). rewrite <- !app_assoc. simpl. now rewrite <- app_assoc. Qed.

Lemma C11_order_kept_pf : forall v o x y, NoDup v -> before v x y -> In x (seq_step v o) -> In y (seq_step v o) ->
  before (seq_step v o) x y.
Proof.
  intros v o x y N B Hx Hy. destruct o as [h|h|h|]; simpl in *; [now apply before_app| | |easy].
  - destruct (C11_insert_unique_pf h v) as [U1 U2]. destruct (in_dec Nat.eq_dec h v) as [H|H].
    + now rewrite U1.
    + rewrite U2 by auto. now apply before_app.
  - destruct B as (a & b & c & ->). apply erase_In in Hx as [Nx _]; auto. apply erase_In in Hy as [Ny _]; auto.
    destruct (in_dec Nat.eq_dec h (a ++ x :: b ++ y :: c)) as [H|H].
    2: { rewrite (proj1 (C11_erase_first_pf h _)) by auto. exists a, b, c. auto. }
    assert (H' := H). rewrite !in_app_iff in H. cbn [In] in H. rewrite in_app_iff in H. cbn [In] in H.
    assert (ND : forall l1 l2, a ++ x :: b ++ y :: c = l1 ++ h :: l2 -> ~ In h l1).
    { intros l1 l2 E Hin. rewrite E in N. apply NoDup_remove_2 in N. apply N, in_app_iff. auto. }
    destruct H as [H|[H|[H|[H|H]]]]; try congruence; apply in_split in H as (p & q & ->).
    + assert (E : (p ++ h :: q) ++ x :: b ++ y :: c = p ++ h :: (q ++ x :: b ++ y :: c)) by (rewrite <- app_assoc; reflexivity).
      rewrite (proj2 (C11_erase_first_pf h _) _ _ E (ND _ _ E)). exists (p ++ q), b, c. now rewrite <- app_assoc.
    + assert (E : a ++ x :: (p ++ h :: q) ++ y :: c = (a ++ x :: p) ++ h :: (q ++ y :: c)) by (rewrite <- !app_assoc; reflexivity).
      rewrite (proj2 (C11_erase_first_pf h _) _ _ E (ND _ _ E)). exists a, (p ++ q), c. now rewrite <- !app_assoc.
    + assert (E : a ++ x :: b ++ y :: p ++ h :: q = (a ++ x :: b ++ y :: p) ++ h :: q).
      { rewrite <- !app_assoc. simpl. now rewrite <- app_assoc. }
      rewrite (proj2 (C11_erase_first_pf h _) _ _ E (ND _ _ E)). exists a, b, (p ++ q). rewrite <- !app_assoc. simpl. now rewrite <- app_assoc.
Qed.

Lemma element_view_eq {Pt} (m : @mesh Pt) t f : element_view m t f = map n_addr (filter (fun n => f (n_el n)) (m_nodes m t)).
Proof.
  unfold element_view. enough (G : forall l v, fold_left (fun v n => if f (n_el n) then seq_insert (n_addr n) v else v) l v =
    v ++ map n_addr (filter (fun n : node => f (n_el n)) l)) by (rewrite G; reflexivity).
  induction l as [|n l IH]; intros v; simpl; [now rewrite app_nil_r|]. destruct (f (n_el n)); simpl; rewrite IH; auto.
  unfold seq_insert. now rewrite <- app_assoc.
Qed.

Lemma C11_element_view_pf : forall Pt cfg (m : @mesh Pt) t f, ereach cfg m ->
  lists_exactly (element_view m t f) (fun a => exists e, deref m t a = Some e /\ f e = true) /\
  element_view m t f = filter (fun a => match deref m t a with Some e => f e | None => false end) (range m t).
Proof.
  intros Pt cfg m t f HR. pose proof (ereach_wf cfg m HR) as W. rewrite element_view_eq. split.
  - split.
    + pose proof (wf_addr cfg m t W) as N. clear -N. induction (m_nodes m t) as [|n l IH]; simpl in *; [constructor|].
      inversion N; subst. destruct (f (n_el n)); simpl; auto. constructor; auto. intros H. apply H1.
      apply in_map_iff in H as (x & <- & H). apply filter_In in H as [H _]. now apply in_map.
    + intros a. rewrite in_map_iff. split.
      * intros (n & <- & H). apply filter_In in H as [H1 H2]. exists (n_el n). split; auto. now apply (wf_In_deref cfg).
      * intros (e & D & F). apply deref_In in D as (n & Hn & <- & <-). exists n. split; auto. apply filter_In. auto.
  - unfold range.
    assert (G : forall l, incl l (m_nodes m t) ->
     map n_addr (filter (fun n => f (n_el n)) l) =
     filter (fun a => match deref m t a with Some e => f e | None => false end) (map n_addr l)).
    { induction l as [|n l IH]; intros HI; simpl; auto.
      rewrite (wf_In_deref cfg _ t n W) by (apply HI; left; auto).
      assert (HI' : incl l (m_nodes m t)) by (intros x Hx; apply HI; right; auto).
      destruct (f (n_el n)); simpl; rewrite IH; auto. }
    apply G, incl_refl.
Qed.

Lemma C11_mesh_view_insert_pf : forall Pt cfg (m : @mesh Pt) t h v, ereach cfg m -> is_live m t h -> id_increasing m t v ->
  exists v', set_insert m t h v = Some v' /\ id_increasing m t v' /\ NoDup v' /\ forall a, In a v' <-> a = h \/ In a v.
Proof.
  intros Pt cfg m t h v HR HL HI. destruct (set_insert_spec cfg m t h v (ereach_wf cfg m HR) HL HI) as (v' & E & I & X).
  exists v'. split; auto. split; auto. split; auto. eapply increasing_nodup; eauto.
Qed.

Lemma C11_mesh_view_erase_pf : forall Pt (m : @mesh Pt) t h v, id_increasing m t v ->
  id_increasing m t (seq_erase h v) /\ forall a, In a (seq_erase h v) <-> h <> a /\ In a v.
Proof.
  intros Pt m t h v HI. split; [|intros a; apply erase_In; eapply increasing_nodup; eauto].
  destruct HI as (ids & F & S). induction F as [|a i v ids H F IH]; simpl; [exists []; split; constructor|].
  inversion S as [|? ? S' FA]; subst. destruct (a =? h); [exists ids; auto|].
  destruct (in_dec Nat.eq_dec h v) as [Hin|Hin].
  2: { rewrite (proj1 (C11_erase_first_pf h v) Hin). exists (i :: ids). split; constructor; auto. }
  destruct (IH S') as (ids' & F' & S2). exists (i :: ids'). split; constructor; auto.
  apply Forall_forall. intros j Hj.
  assert (exists b, In b (seq_erase h v) /\ id_at m t b = Some j) as (b & Hb & Eb).
  { clear -F' Hj. induction F'; [easy|]. destruct Hj as [<-|Hj]; [exists x; simpl; auto|].
    destruct (IHF' Hj) as (b & ? & ?). exists b. simpl. auto. }
  assert (Hbv : In b v).
  { apply (erase_In h v b) in Hb; [tauto|]. apply (increasing_nodup m t). exists ids. auto. }
  destruct (increasing_In m t v ids b F Hbv) as (j' & Hj' & E'). rewrite Forall_forall in FA. assert (j' = j) by congruence. subst. auto.
Qed.

Lemma C11_equal_ids_refuted_pf : forall Pt (m : @mesh Pt) t h1 h2 e1 e2, deref m t h1 = Some e1 -> deref m t h2 = Some e2 ->
  h1 <> h2 -> e_id e1 = e_id e2 ->
  obind (set_insert m t h1 []) (set_insert m t h2) = Some [h1] /\ ~ In h2 [h1].
Proof.
  intros Pt m t h1 h2 e1 e2 D1 D2 N E. simpl. rewrite D1. cbn [option_map obind set_insert]. rewrite D2, D1. cbn [obind].
  rewrite E, Nat.ltb_irrefl. split; auto. intros [H|[]]. congruence.
Qed.

Lemma C12_mark_exact_pf : forall Pt cfg (s : qstate Pt) t h (v : tag -> list addr), qreach cfg s -> is_live (q_mesh s) t h ->
  good_view (q_mesh s) v ->
  exists s' v', mark_erase t h (s, v) = Some (s', v') /\ q_mesh s' = q_mesh s /\ qreach cfg s' /\ good_view (q_mesh s) v' /\
    forall t', NoDup (v' t') /\ forall a, In a (v' t') <-> refers_or_is (q_mesh s) t' a t h \/ In a (v t').
Proof.
  intros Pt cfg s t h v HR HL HG. destruct (mark_erase_spec cfg t h s v HR HL HG) as (s' & v' & E & M & QR & G & X).
  exists s', v'. split; auto. split; auto. split; auto. split; auto. intros t'. split; [|apply X].
  eapply increasing_nodup, G.
Qed.

Lemma C12_mark_closed_partial_pf : forall Pt cfg (s s' : qstate Pt) t h (v v' : tag -> list addr), qreach cfg s ->
  build_then_erase cfg (q_mesh s) -> cfg_cell cfg <> Hex -> is_live (q_mesh s) t h ->
  good_view (q_mesh s) v -> reference_closed (q_mesh s) v -> mark_erase t h (s, v) = Some (s', v') ->
  reference_closed (q_mesh s) v'.
Proof.
  intros Pt cfg s s' t h v v' HR HB HC HL HG HK HM.
  destruct (mark_erase_spec cfg t h s v HR HL HG) as (s2 & v2 & E & M & QR & G & X). rewrite HM in E. inversion E; subst.
  eapply mark_closed; eauto. eapply bte_transitive; eauto.
Qed.

Lemma C12_erase_element_partial_pf : forall Pt cfg (s : qstate Pt) t h, qreach cfg s ->
  build_then_erase cfg (q_mesh s) -> cfg_cell cfg <> Hex -> is_live (q_mesh s) t h ->
  exists s' gone, erase_element cfg t h s = Some s' /\ qreach cfg s' /\ build_then_erase cfg (q_mesh s') /\ no_dangling (q_mesh s') /\
    (forall t', lists_exactly (gone t') (fun a => refers_or_is (q_mesh s) t' a t h)) /\
    (forall t', Permutation (map (describe (q_mesh s')) (elements_of (q_mesh s') t'))
                            (map (describe (q_mesh s)) (elements_except (q_mesh s) t' (gone t')))).
Proof.
  intros Pt cfg s t h HR HB HC HL.
  destruct (mark_erase_spec cfg t h s empty_view HR HL (empty_view_good _)) as (s1 & v & E & M & QR & G & X).
  assert (K : reference_closed (q_mesh s) v).
  { eapply (C12_mark_closed_partial_pf Pt cfg s s1 t h empty_view v); eauto; [apply empty_view_good|].
    intros bt b t' a e []. }
  destruct (qreach_inv cfg s HR) as [ER _]. pose proof (ereach_wf cfg _ ER) as W.
  destruct (erase_elements_spec cfg (q_mesh s) v W (good_valid _ _ G) K) as (m' & EE & W' & P & _).
  unfold erase_element. rewrite E. cbn [obind]. unfold mesh_op. cbn [step]. rewrite M, EE. cbn [option_map].
  eexists. exists v. split; [reflexivity|]. cbn [q_mesh]. split; [|split; [|split; [|split]]].
  - eapply qreach_step with (s := s1) (o := QMesh (OErase v)); auto.
    + cbn [valid_qop valid_eop]. rewrite M. split; auto. now apply good_valid.
    + cbn [qstep]. unfold mesh_op. cbn [step]. rewrite M, EE. reflexivity.
  - eapply bte_erase; eauto. now apply good_valid.
  - eapply wf_no_dangling; eauto.
  - intros t'. split; [eapply increasing_nodup, G|]. intros a. rewrite X. unfold empty_view. simpl. tauto.
  - exact P.
Qed.

Lemma some_eq {A} (x y : A) : Some x = Some y -> x = y.
Proof. congruence. Qed.

Lemma C12_hexahedron_refuted_pf : exists (s : qstate unit) s' v' h, qreach (full_config Hex) s /\
  reach (full_config Hex) (q_mesh s) /\ is_live (q_mesh s) Line h /\
  mark_erase Line h (s, empty_view) = Some (s', v') /\ ~ reference_closed (q_mesh s) v'.
Proof.
  pose (c := full_config Hex). pose (s := qstate_of c mark_demo_hex).
  assert (QR : qreach c s) by (apply qdemo_ok; vm_compute; reflexivity).
  assert (RR : reach c (q_mesh s)) by (unfold s, mark_demo_hex; rewrite qmesh_of; apply demo_ok; vm_compute; reflexivity).
  assert (HL : is_live (q_mesh s) Line 12) by (apply liveb_sound; vm_compute; reflexivity).
  assert (B : option_map (fun e => boundary_of e Line) (deref (q_mesh s) Quad 2) = Some [1;2;12;9]) by (vm_compute; reflexivity).
  assert (B2 : option_map (fun e => (boundary_of e Quad, boundary_of e Line)) (deref (q_mesh s) Hex 0) =
     Some ([0;1;2;3;4;5], [0;1;2;3;4;5;6;7;8;9;10;11])) by (vm_compute; reflexivity).
  clearbody s. change (full_config Hex) with c. clearbody c.
  destruct (mark_erase_spec c Line 12 s empty_view QR HL (empty_view_good _)) as (s' & v' & E & M & _ & _ & X).
  exists s, s', v', 12. split; auto. split; auto. split; auto. split; auto. intros C.
  destruct (deref (q_mesh s) Quad 2) as [e2|] eqn:D2; [|discriminate]. cbn [option_map] in B.
  destruct (deref (q_mesh s) Hex 0) as [e6|] eqn:D6; [|discriminate]. cbn [option_map] in B2.
  assert (H : In 2 (v' Quad)).
  { apply X. left. right. exists e2. split; auto. unfold has_boundary. apply some_eq in B. rewrite B. simpl. auto. }
  assert (K : In 0 (v' Hex)).
  { eapply C; [exact H|exact D6|]. unfold has_boundary. apply some_eq in B2. rewrite (f_equal fst B2 : boundary_of e6 _ = _). simpl. auto. }
  apply X in K as [[[? _]|(e & D & K)]|[]]; [discriminate|].
  rewrite D6 in D. inversion D; subst e. unfold has_boundary in K. apply some_eq in B2. rewrite (f_equal snd B2 : boundary_of e6 _ = _) in K. simpl in K. intuition discriminate.
Qed.

Lemma C12_creation_after_erase_refuted_pf : exists (s : qstate unit) s' v' h, qreach (full_config Triangle) s /\
  is_live (q_mesh s) Vertex h /\
  mark_erase Vertex h (s, empty_view) = Some (s', v') /\ ~ reference_closed (q_mesh s) v'.
Proof.
  pose (c := full_config Triangle). pose (s := qstate_of c mark_demo_erased).
  assert (QR : qreach c s) by (apply qdemo_ok; vm_compute; reflexivity).
  assert (HL : is_live (q_mesh s) Vertex 2) by (apply liveb_sound; vm_compute; reflexivity).
  assert (B : option_map (fun e => boundary_of e Vertex) (deref (q_mesh s) Line 0) = Some [2;3]) by (vm_compute; reflexivity).
  assert (B2 : option_map (fun e => (boundary_of e Line, boundary_of e Vertex)) (deref (q_mesh s) Triangle 2) =
     Some ([0;5;3], [0;1;3])) by (vm_compute; reflexivity).
  clearbody s. change (full_config Triangle) with c. clearbody c.
  destruct (mark_erase_spec c Vertex 2 s empty_view QR HL (empty_view_good _)) as (s' & v' & E & M & _ & _ & X).
  exists s, s', v', 2. split; auto. split; auto. split; auto. intros C.
  destruct (deref (q_mesh s) Line 0) as [e2|] eqn:D2; [|discriminate]. cbn [option_map] in B.
  destruct (deref (q_mesh s) Triangle 2) as [e6|] eqn:D6; [|discriminate]. cbn [option_map] in B2.
  assert (H : In 0 (v' Line)).
  { apply X. left. right. exists e2. split; auto. unfold has_boundary. apply some_eq in B. rewrite B. simpl. auto. }
  assert (K : In 2 (v' Triangle)).
  { eapply C; [exact H|exact D6|]. unfold has_boundary. apply some_eq in B2. rewrite (f_equal fst B2 : boundary_of e6 _ = _). simpl. auto. }
  apply X in K as [[[? _]|(e & D & K)]|[]]; [discriminate|].
  rewrite D6 in D. inversion D; subst e. unfold has_boundary in K. apply some_eq in B2. rewrite (f_equal snd B2 : boundary_of e6 _ = _) in K. simpl in K. intuition discriminate.
Qed.
