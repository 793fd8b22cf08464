(** Boundaries are transitive in histories without creation after deletion. *)
From Coq Require Import List Arith Bool Lia Permutation Sorted.
From Verif Require Import ModelTopo ModelMesh ModelErase ModelAccessor ModelQuery ModelView SpecMesh SpecErase SpecQuery SpecView
  MeshBase MeshInv MeshIds MeshReach MeshProofs MeshWf MeshErase MeshSimple QueryBase QueryBnd ViewBase.
Import ListNotations.

Section Trans.
Context {Pt : Type}.
Notation mesh := (@mesh Pt).
Notation element := (@element Pt).
Notation node := (@node Pt).
Variable cfg : config.

Lemma vertex_added_live (m m' : mesh) i p t a : vertex_added m m' i p -> t <> Vertex -> is_live m' t a -> is_live m t a.
Proof. intros (_ & H & _) T (e & E). exists e. rewrite <- E. symmetry. apply deref_nodes_eq. now apply H. Qed.

Lemma reach_types (m : mesh) t a : reach cfg m -> is_live m t a -> t = Vertex \/ in_config cfg t.
Proof.
  intros HR. revert t a. induction HR as [|m o m' HR IH HV HS]; intros t a HL.
  - destruct HL as [e HL]. discriminate.
  - destruct (tag_eq_dec t Vertex) as [|T]; auto. destruct o as [p|i p|t0 vs|view|]; cbn [step] in HS.
    + destruct (make_vertex_added cfg m p) as (m2 & E2 & A & _). rewrite E2 in HS. simpl in HS. inversion HS; subst m2.
      apply (IH t a). eapply vertex_added_live; eauto.
    + destruct (make_vertex_id_added cfg m i p) as (m2 & E2 & A & _). rewrite E2 in HS. simpl in HS. inversion HS; subst m2.
      apply (IH t a). eapply vertex_added_live; eauto.
    + destruct (make_element cfg t0 m vs) as [[m1 a1]|] eqn:E; [|discriminate]. simpl in HS. inversion HS; subst m1.
      destruct (C06_only_own_boundary_appears_pf Pt cfg m m' t0 vs a1 HR HV E) as (_ & H & _).
      destruct HL as [e HL]. destruct (deref m t a) as [e0|] eqn:D; [apply (IH t a); exists e0; auto|].
      destruct HV as ((N0 & C0) & _).
      destruct (H t a e HL) as [[-> _]|[Dm _]]; [intros [e1 K]; congruence| |].
      * right. split; auto.
      * right. split; auto. right. destruct C0 as [->|C0]; lia.
    + contradiction.
    + inversion HS; subst. destruct HL as [e HL]. discriminate.
Qed.

Lemma kept_boundary (m : mesh) t a e bt b : reach cfg m -> deref m t a = Some e -> bt <> Vertex -> In b (boundary_of e bt) ->
  cfg_keep cfg bt = true.
Proof.
  intros HR HD T HB. apply deref_In in HD as (n & Hn & <- & <-).
  destruct (i_bnd cfg m [] (reach_inv cfg m HR) t n Hn) as (d & r & E & F & _).
  rewrite boundary_of_nonvertex in HB by auto. apply in_map_iff in HB as (x & <- & Hx).
  apply filter_In in Hx as [Hx Tx]. apply tag_eqb_eq in Tx.
  assert (exists ent, In ent d /\ b_tag x = fst ent) as (ent & He & Te).
  { clear - F Hx. induction F as [|y z l r' [G _] F IH]; [easy|]. destruct Hx as [<-|Hx]; [exists z; simpl; auto|].
    destruct (IH Hx) as (ent & ? & ?). exists ent. simpl. auto. }
  assert (In ent (btab cfg t)) by (rewrite E; apply in_app_iff; auto).
  unfold btab in H. apply filter_In in H as [_ K]. congruence.
Qed.

Lemma boundary_entry (m : mesh) t a e bt b : reach cfg m -> t <> Hex -> deref m t a = Some e -> bt <> Vertex -> In b (boundary_of e bt) ->
  exists k idx vs f, nth_error (ref_facets t bt) k = Some idx /\ deref m bt b = Some f /\ selects (e_verts e) idx vs /\
    same_vertices (e_verts f) vs.
Proof.
  intros HR H6 HD T HB. assert (K := kept_boundary m t a e bt b HR HD T HB).
  destruct (C03_boundary_complete_pf Pt cfg m HR t a e HD bt T K) as [HL HF]; [congruence|].
  apply In_nth_error in HB as [k Hk].
  assert (k < length (ref_facets t bt)) by (rewrite <- HL; apply nth_error_Some; congruence).
  destruct (nth_error (ref_facets t bt) k) as [idx|] eqn:E; [|apply nth_error_None in E; lia].
  destruct (HF k idx E) as (h & f & vs & H1 & H2 & H3 & H4). rewrite Hk in H1. inversion H1; subst h.
  exists k, idx, vs, f. auto.
Qed.

Lemma selects_incl {A} (l : list A) idx vs : selects l idx vs -> incl vs l.
Proof.
  unfold selects. induction 1 as [|i x idx vs H F IH]; intros y Hy; [easy|]. destruct Hy as [<-|Hy]; auto. eapply nth_error_In; eauto.
Qed.

(** Any two vertices of a tetrahedron are the end points of one of its lines. *)
Lemma tet_line (m : mesh) a e x y : reach cfg m -> deref m Tet a = Some e -> cfg_keep cfg Line = true ->
  In x (e_verts e) -> In y (e_verts e) -> x <> y ->
  exists h f, In h (boundary_of e Line) /\ deref m Line h = Some f /\ same_vertices (e_verts f) [x; y].
Proof.
  intros HR HD K Hx Hy N. destruct (C03_vertices_stored_pf Pt cfg m HR Tet a e ltac:(discriminate) HD) as (L & ND & _).
  destruct (C03_boundary_complete_pf Pt cfg m HR Tet a e HD Line ltac:(discriminate) K ltac:(discriminate)) as [_ HF].
  assert (G : forall k i j, nth_error (ref_facets Tet Line) k = Some [i; j] -> forall u v, nth_error (e_verts e) i = Some u ->
     nth_error (e_verts e) j = Some v -> (x = u /\ y = v \/ x = v /\ y = u) ->
     exists h f, In h (boundary_of e Line) /\ deref m Line h = Some f /\ same_vertices (e_verts f) [x; y]).
  { intros k i j Hk u v Hu Hv Hxy. destruct (HF k _ Hk) as (h & f & vs & H1 & H2 & H3 & H4). exists h, f.
    split; [eapply nth_error_In; eauto|]. split; auto. 
    inversion H3 as [|? u' ? ? A1 B1]; subst. inversion B1 as [|? v' ? ? A2 B2]; subst. inversion B2; subst.
    assert (u' = u) by congruence. assert (v' = v) by congruence. subst. unfold same_vertices in *.
    destruct Hxy as [[-> ->]|[-> ->]]; auto. rewrite H4. constructor. }
  destruct (e_verts e) as [|v0 [|v1 [|v2 [|v3 [|]]]]]; try discriminate. simpl in Hx, Hy.
  destruct Hx as [<-|[<-|[<-|[<-|[]]]]]; destruct Hy as [<-|[<-|[<-|[<-|[]]]]]; try congruence.
  all: first [eapply (G 0); [reflexivity|reflexivity|reflexivity|solve[auto]]
             |eapply (G 1); [reflexivity|reflexivity|reflexivity|solve[auto]]
             |eapply (G 2); [reflexivity|reflexivity|reflexivity|solve[auto]]
             |eapply (G 3); [reflexivity|reflexivity|reflexivity|solve[auto]]
             |eapply (G 4); [reflexivity|reflexivity|reflexivity|solve[auto]]
             |eapply (G 5); [reflexivity|reflexivity|reflexivity|solve[auto]]].
Qed.

Lemma reach_transitive (m : mesh) : reach cfg m -> cfg_cell cfg <> Hex -> boundary_transitive m.
Proof.
  intros HR HC t a bt b ct c (e & D & B) (eb & Db & Bb).
  pose proof (ereach_wf cfg m (reach_ereach cfg m HR)) as W.
  assert (D1 : dim bt < dim t) by (apply (bounded_dim cfg m t a bt b W); exists e; auto).
  assert (D2 : dim ct < dim bt) by (apply (bounded_dim cfg m bt b ct c W); exists eb; auto).
  assert (TC : t = Vertex \/ in_config cfg t) by (apply (reach_types m t a HR); exists e; auto).
  assert (t <> Hex) as T6.
  { intros ->. destruct TC as [|[_ [|TC]]]; [discriminate|congruence|]. destruct (cfg_cell cfg); simpl in TC; lia || congruence. }
  assert (bt <> Vertex) as TB by (intros ->; simpl in D2; lia).
  assert (bt <> Hex) as TB6 by (intros ->; destruct t; simpl in D1; lia).
  destruct (boundary_entry m t a e bt b HR T6 D TB B) as (k & idx & vs & f & Hk & Df & S & P).
  assert (f = eb) by congruence. subst f.
  assert (Sub : incl (e_verts eb) (e_verts e)).
  { intros x Hx. eapply selects_incl; eauto. eapply Permutation_in; eauto. }
  exists e. split; auto. destruct (tag_eq_dec ct Vertex) as [->|TV]; [apply Sub, Bb|].
  assert (t = Tet /\ bt = Triangle /\ ct = Line) as (-> & -> & ->).
  { destruct t; simpl in *; try lia; try congruence; destruct bt; simpl in *; try lia; try congruence;
      destruct ct; simpl in *; try lia; try congruence; auto; destruct k; discriminate. }
  assert (K : cfg_keep cfg Line = true) by (eapply (kept_boundary m Triangle b eb Line c); eauto; discriminate).
  destruct (boundary_entry m Triangle b eb Line c HR ltac:(discriminate) Db ltac:(discriminate) Bb) as (k2 & idx2 & vs2 & fc & Hk2 & Dc & S2 & P2).
  destruct (C03_vertices_stored_pf Pt cfg m HR Triangle b eb ltac:(discriminate) Db) as (L & ND & _).
  assert (exists x y, vs2 = [x; y] /\ In x (e_verts eb) /\ In y (e_verts eb) /\ x <> y) as (x & y & -> & Hx & Hy & Nxy).
  { assert (I2 := selects_incl _ _ _ S2). destruct k2 as [|[|[|k2]]]; simpl in Hk2; [| | |destruct k2; discriminate]; inversion Hk2; subst idx2;
    inversion S2 as [|? u ? ? A1 B1]; subst; inversion B1 as [|? v ? ? A2 B2]; subst; inversion B2; subst;
    (exists u, v; split; auto; split; [apply I2; simpl; auto|]; split; [apply I2; simpl; auto|]; intros ->;
     pose proof (nth_inj _ _ _ _ ND A1 A2); discriminate). }
  destruct (tet_line m a e x y HR D K (Sub x Hx) (Sub y Hy) Nxy) as (h & f & Hh & Dh & Ph).
  assert (h = c); [|subst; auto].
  eapply (C04_no_duplicate_facets_pf Pt cfg m HR Line ltac:(discriminate)); eauto.
  - destruct TC as [|[_ [|TC]]]; [discriminate|intros Q; rewrite <- H in Q; discriminate|]. intros Q. rewrite <- Q in TC. simpl in TC. lia.
  - unfold same_vertices in *. now rewrite Ph, P2.
Qed.

(** ** Deletion keeps transitivity *)
Lemma bounded_ids (m : mesh) t a bt b i j : wf cfg m -> id_at m t a = Some i -> id_at m bt b = Some j ->
  (bounded_by m t a bt b <-> exists d, In d (described_of m t) /\ d_id d = i /\ drefs d bt j).
Proof.
  intros W Hi Hj. split.
  - intros (e & E & B). apply deref_In in E as (n & Hn & <- & <-).
    exists (describe m (n_el n)). split; [apply described_In; eauto|].
    split. { simpl. unfold id_at in Hi. rewrite (wf_In_deref cfg m t n W Hn) in Hi. now inversion Hi. }
    apply drefs_references. exists b. split; auto. eapply has_boundary_references; eauto. apply W.
  - intros (d & Hd & Hid & R). apply described_In in Hd as (n & Hn & ->). apply drefs_references in R as (b' & R & Ib).
    assert (b' = b) by (eapply (id_at_inj cfg m bt); eauto). subst b'.
    assert (n_addr n = a).
    { apply (id_at_inj cfg m t _ _ i W); auto. unfold id_at. rewrite (wf_In_deref cfg m t n W Hn). simpl in *. congruence. }
    subst a. exists (n_el n). split; [eapply wf_In_deref; eauto|]. eapply has_boundary_references; eauto. apply W.
Qed.

Lemma erase_transitive (m m' : mesh) view : wf cfg m -> boundary_transitive m -> valid_view m view -> reference_closed m view ->
  erase_elements m view = Some m' -> boundary_transitive m'.
Proof.
  intros W T V C E. destruct (erase_elements_spec cfg m view W V C) as (m2 & E2 & W2 & P & _).
  rewrite E in E2. inversion E2; subst m2. clear E2.
  assert (Back : forall t d, In d (described_of m' t) -> In d (described_of m t)).
  { intros t d H. apply (Permutation_in _ (P t)) in H. apply in_map_iff in H as (e & <- & He).
    unfold elements_except in He. apply in_map_iff in He as (n & <- & Hn). apply filter_In in Hn as [Hn _].
    apply described_In. eauto. }
  assert (Id : forall t a i, id_at m' t a = Some i -> exists a0, id_at m t a0 = Some i).
  { intros t a i H. apply id_at_deref in H as (e & D & <-). apply deref_In in D as (n & Hn & <- & <-).
    assert (K : In (describe m' (n_el n)) (described_of m t)) by (apply Back, described_In; eauto).
    apply described_In in K as (n0 & H0 & K). exists (n_addr n0). unfold id_at. rewrite (wf_In_deref cfg m t n0 W H0). simpl.
    apply (f_equal d_id) in K. simpl in K. congruence. }
  assert (IdB : forall t a bt b, bounded_by m' t a bt b -> exists i j, id_at m' t a = Some i /\ id_at m' bt b = Some j).
  { intros t a bt b (e & D & B). destruct (wf_no_dangling cfg m' W2 t a e bt b D B) as (eb & Db).
    exists (e_id e), (e_id eb). split; apply id_at_deref; eauto. }
  intros t a bt b ct c B1 B2.
  destruct (IdB _ _ _ _ B1) as (i & j & Hi & Hj). destruct (IdB _ _ _ _ B2) as (j' & l & Hj' & Hl).
  assert (j' = j) by congruence. subst j'.
  destruct (Id _ _ _ Hi) as (a0 & Ha0). destruct (Id _ _ _ Hj) as (b0 & Hb0). destruct (Id _ _ _ Hl) as (c0 & Hc0).
  apply (bounded_ids m' t a bt b i j W2 Hi Hj) in B1 as (d1 & Hd1 & I1 & R1).
  apply (bounded_ids m' bt b ct c j l W2 Hj Hl) in B2 as (d2 & Hd2 & I2 & R2).
  assert (B1 : bounded_by m t a0 bt b0) by (apply (bounded_ids m t a0 bt b0 i j W Ha0 Hb0); exists d1; auto).
  assert (B2 : bounded_by m bt b0 ct c0) by (apply (bounded_ids m bt b0 ct c0 j l W Hb0 Hc0); exists d2; auto).
  pose proof (T _ _ _ _ _ _ B1 B2) as B3.
  apply (bounded_ids m t a0 ct c0 i l W Ha0 Hc0) in B3 as (d3 & Hd3 & I3 & R3).
  apply (bounded_ids m' t a ct c i l W2 Hi Hl). exists d1. split; auto. split; auto.
  assert (d3 = d1); [|now subst].
  apply Back in Hd1. apply described_In in Hd1 as (n1 & Hn1 & ->). apply described_In in Hd3 as (n3 & Hn3 & ->).
  f_equal. f_equal. eapply nodup_id_eq; eauto; [apply W|]. simpl in *. congruence.
Qed.

Lemma bte_ereach (m : mesh) : build_then_erase cfg m -> ereach cfg m.
Proof.
  induction 1 as [m H|m view m' H IH V C E]; [now apply reach_ereach|].
  eapply ereach_step with (o := OErase view); eauto. split; auto.
Qed.

Lemma bte_transitive (m : mesh) : build_then_erase cfg m -> cfg_cell cfg <> Hex -> boundary_transitive m.
Proof.
  intros H HC. induction H as [m H|m view m' H IH V C E]; [now apply reach_transitive|].
  eapply (erase_transitive m m' view); eauto. apply ereach_wf. now apply bte_ereach.
Qed.
End Trans.
