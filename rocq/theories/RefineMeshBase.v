(** Lemmas about the parts of one cell, for the refinement of meshes. *)
From Coq Require Import Reals List Arith Bool Lia.
From Verif Require Import ModelTopo ModelMesh ModelErase ModelGeom ModelRefineTet ModelRefineTri ModelRefine ModelRefineMesh
  SpecRefine SpecTri RefineTetTree RefineTetCheck RefineProofs TriProofs MeshBase.
Import ListNotations.

(** ** Labels used by the subdivisions *)
Definition legal (f : list bool) (l : nat) : bool := (l <? 4) || ((l <? 10) && bit f (l - 4)).
Fixpoint tree_legal (f : list bool) (t : dtree) : bool :=
  match t with
  | DLeaf P _ _ => forallb (fun c => (length c =? 4) && NoDupb c && forallb (legal f) c) P
  | DFail => true
  | DCmp a b c e t1 t2 | DDle a b c e t1 t2 => forallb (legal f) [a; b; c; e] && tree_legal f t1 && tree_legal f t2
  end.
Lemma trees_legal : forallb (fun f => tree_legal f (tree_of f)) (all_bits 6) = true.
Proof. vm_compute. reflexivity. Qed.
Lemma tree_of_legal fl : tree_legal (map fl (seq 0 6)) (tree_of (map fl (seq 0 6))) = true.
Proof.
  apply (proj1 (forallb_forall _ _) trees_legal). change 6 with (length (map fl (seq 0 6))) at 2. apply all_bits_complete.
Qed.

Definition legal_for (n k : nat) (fl : nat -> bool) (l : nat) : Prop := l < n \/ exists j, j < k /\ fl j = true /\ l = n + j.
Lemma legal_iff fl l : legal (map fl (seq 0 6)) l = true -> legal_for 4 6 fl l.
Proof.
  unfold legal, legal_for. intros H. apply orb_true_iff in H as [H|H]; [left; now apply Nat.ltb_lt|].
  apply andb_true_iff in H as [H1 H2]. apply Nat.ltb_lt in H1. unfold bit in H2.
  destruct (Nat.lt_ge_cases l 4) as [X|X]; [now left|]. right. exists (l - 4). split; [lia|]. split; [|lia].
  assert (K : l - 4 < 6) by lia. revert H2 K. generalize (l - 4). intros j H2 K.
  do 6 (destruct j as [|j]; [exact H2|]). lia.
Qed.

Lemma eval_ext f lg dle lg' dle' : (forall a b c e, legal f a = true -> legal f b = true -> legal f c = true -> legal f e = true ->
    lg a b c e = lg' a b c e /\ dle a b c e = dle' a b c e) ->
  forall t, tree_legal f t = true -> eval lg dle t = eval lg' dle' t.
Proof.
  intros E. induction t as [P s b| |a b c e t1 IH1 t2 IH2|a b c e t1 IH1 t2 IH2]; intros H; cbn [eval]; auto;
    cbn [tree_legal forallb] in H; rewrite !andb_true_iff in H; destruct H as [[(H1 & H2 & H3 & H4 & _) H5] H6];
    destruct (E a b c e H1 H2 H3 H4) as [E1 E2]; [rewrite E1|rewrite E2]; now rewrite IH1, IH2.
Qed.
Lemma eval_cells f lg dle P : forall t, tree_legal f t = true -> eval lg dle t = Some P ->
  forall c, In c P -> length c = 4 /\ NoDup c /\ forall l, In l c -> legal f l = true.
Proof.
  induction t as [P' s b| |a b c e t1 IH1 t2 IH2|a b c e t1 IH1 t2 IH2]; intros H E; cbn [eval] in E; try discriminate.
  - inversion E; subst. cbn [tree_legal] in H. intros c Hc. apply (proj1 (forallb_forall _ _) H) in Hc.
    rewrite !andb_true_iff in Hc. destruct Hc as [[H1 H2] H3]. split; [now apply Nat.eqb_eq|]. split; [now apply NoDupb_sound|].
    now apply forallb_forall.
  - cbn [tree_legal] in H. rewrite !andb_true_iff in H. destruct H as [[_ H5] H6]. destruct (lg a b c e); auto.
  - cbn [tree_legal] in H. rewrite !andb_true_iff in H. destruct H as [[_ H5] H6]. destruct (dle a b c e); auto.
Qed.

(** ** The parts of a cell depend on its own vertices only *)
Section Ext.
Variable d : nat.
Variables pos pos' : addr -> point.
Variables vid vid' : addr -> nat.
Variables vtx vtx' mid mid' : nat -> addr.
Variables fl fl' : nat -> bool.
Variables n k : nat.
Hypothesis EV : forall i, i < n -> vtx i = vtx' i.
Hypothesis EF : forall j, j < k -> fl j = fl' j.
Hypothesis EM : forall j, j < k -> fl j = true -> mid j = mid' j.
Hypothesis PV : forall i, i < n -> pos (vtx i) = pos' (vtx i) /\ vid (vtx i) = vid' (vtx i).
Hypothesis PM : forall j, j < k -> fl j = true -> pos (mid j) = pos' (mid j) /\ vid (mid j) = vid' (mid j).

Lemma handle_ext l : legal_for n k fl l -> handle_no n vtx mid l = handle_no n vtx' mid' l /\
  pos (handle_no n vtx mid l) = pos' (handle_no n vtx mid l) /\ vid (handle_no n vtx mid l) = vid' (handle_no n vtx mid l).
Proof.
  unfold handle_no. intros [H|(j & H & F & ->)].
  - apply Nat.ltb_lt in H as H'. rewrite H'. split; auto.
  - destruct (Nat.ltb_spec (n + j) n); [lia|]. replace (n + j - n) with j by lia. split; auto.
Qed.
End Ext.

Lemma map_map_ext {A B} (g h : A -> B) P : (forall c l, In c P -> In l c -> g l = h l) -> map (map g) P = map (map h) P.
Proof. intros H. apply map_ext_in. intros c Hc. apply map_ext_in. eauto. Qed.

Lemma tet_children_ext d pos pos' vid vid' vtx vtx' mid mid' fl fl' :
  (forall i, i < 4 -> vtx i = vtx' i) -> (forall j, j < 6 -> fl j = fl' j) -> (forall j, j < 6 -> fl j = true -> mid j = mid' j) ->
  (forall i, i < 4 -> pos (vtx i) = pos' (vtx i) /\ vid (vtx i) = vid' (vtx i)) ->
  (forall j, j < 6 -> fl j = true -> pos (mid j) = pos' (mid j) /\ vid (mid j) = vid' (mid j)) ->
  tet_children d (pos : addr -> point) vid vtx mid fl = tet_children d pos' vid' vtx' mid' fl'.
Proof.
  intros EV EF EM PV PM. unfold tet_children. rewrite !refine_tet_tree.
  assert (Ef : map fl' (seq 0 6) = map fl (seq 0 6)).
  { apply map_ext_in. intros j Hj. apply in_seq in Hj. symmetry. apply EF. lia. }
  rewrite Ef. set (f := map fl (seq 0 6)).
  assert (HX : forall l, legal f l = true -> handle_no 4 vtx mid l = handle_no 4 vtx' mid' l /\
     pos (handle_no 4 vtx mid l) = pos' (handle_no 4 vtx mid l) /\ vid (handle_no 4 vtx mid l) = vid' (handle_no 4 vtx mid l)).
  { intros l Hl. apply legal_iff in Hl. eapply handle_ext; eauto. }
  match goal with |- option_map _ ?x = option_map _ ?y => assert (EE : y = x) end.
  { symmetry. apply (eval_ext f); [|apply tree_of_legal]. intros a b c e Ha Hb Hc He.
    destruct (HX a Ha) as (A1 & A2 & A3). destruct (HX b Hb) as (B1 & B2 & B3). destruct (HX c Hc) as (C1 & C2 & C3). destruct (HX e He) as (E1 & E2 & E3).
    unfold stable_line_is_longer, line_length. rewrite <- A1, <- B1, <- C1, <- E1. rewrite A2, B2, C2, E2, A3, B3, C3, E3.
    split; [|reflexivity].
    destruct (vid' (handle_no 4 vtx mid a) <? vid' (handle_no 4 vtx mid b)), (vid' (handle_no 4 vtx mid c) <? vid' (handle_no 4 vtx mid e));
      rewrite ?A3, ?B3, ?C3, ?E3; reflexivity. }
  rewrite EE. match goal with |- option_map _ ?x = _ => destruct x as [P|] eqn:E end; cbn [option_map]; auto.
  f_equal. apply map_map_ext. intros c l Hc Hl. destruct (eval_cells _ _ _ _ _ (tree_of_legal fl) E c Hc) as (_ & _ & L). now apply HX, L.
Qed.

Lemma refine_tri_legal gt fl P : refine_tri gt fl = Some P -> forall c, In c P -> length c = 3 /\ NoDup c /\ forall l, In l c -> legal_for 3 3 fl l.
Proof.
  rewrite refine_tri_atom. generalize (let '(p, q, r, s) := tri_atom fl in gt p q r s). intros b.
  unfold refine_tri, tri_apply0, tri_apply1, tri_apply2, tri_apply3, tri_cells1, tri_cells2, legal_for. cbn [seq filter].
  destruct (fl 0) eqn:F0, (fl 1) eqn:F1, (fl 2) eqn:F2; cbn; destruct b; intros E; inversion E; subst; cbn [In];
    intros c Hc; repeat (destruct Hc as [<-|Hc]; [split; [reflexivity|split; [repeat constructor; cbn; lia|]]|]); try contradiction;
    intros l Hl; cbn [In] in Hl; repeat (destruct Hl as [<-|Hl]); try contradiction; try (left; lia);
    right; first [exists 0; repeat split; auto; lia|exists 1; repeat split; auto; lia|exists 2; repeat split; auto; lia].
Qed.

Lemma tri_children_ext d pos pos' (vid vid' : addr -> nat) vtx vtx' mid mid' fl fl' :
  (forall i, i < 3 -> vtx i = vtx' i) -> (forall j, j < 3 -> fl j = fl' j) -> (forall j, j < 3 -> fl j = true -> mid j = mid' j) ->
  (forall i, i < 3 -> pos (vtx i) = pos' (vtx i) /\ vid (vtx i) = vid' (vtx i)) ->
  (forall j, j < 3 -> fl j = true -> pos (mid j) = pos' (mid j) /\ vid (mid j) = vid' (mid j)) ->
  tri_children d (pos : addr -> point) vtx mid fl = tri_children d pos' vtx' mid' fl'.
Proof.
  intros EV EF EM PV PM. unfold tri_children.
  assert (HX : forall l, legal_for 3 3 fl l -> handle_no 3 vtx mid l = handle_no 3 vtx' mid' l /\
     pos (handle_no 3 vtx mid l) = pos' (handle_no 3 vtx mid l)).
  { intros l Hl. destruct (handle_ext pos pos' vid vid' vtx vtx' mid mid' fl 3 3 EV EM PV PM l Hl) as (? & ? & _). auto. }
  match goal with |- option_map _ ?x = option_map _ ?y => assert (E : y = x) end.
  { rewrite refine_tri_atom, (refine_tri_atom _ fl). 
    assert (A : tri_atom fl' = tri_atom fl) by (unfold tri_atom; rewrite <- !EF by lia; reflexivity). rewrite A.
    assert (L : forall a, a < 3 -> handle_no 3 vtx mid a = handle_no 3 vtx' mid' a /\ pos (handle_no 3 vtx mid a) = pos' (handle_no 3 vtx mid a)) by (intros; apply HX; now left).
    assert (B : forall b, refine_tri (fun _ _ _ _ => b) fl' = refine_tri (fun _ _ _ _ => b) fl).
    { intros b. unfold refine_tri, tri_apply0, tri_apply1, tri_apply2, tri_apply3. cbn [seq filter]. rewrite <- !EF by lia. reflexivity. }
    rewrite B. f_equal. assert (G : forall a b c e, a < 3 -> b < 3 -> c < 3 -> e < 3 -> 
       line_length d pos' (handle_no 3 vtx' mid' a) (handle_no 3 vtx' mid' b) = line_length d pos (handle_no 3 vtx mid a) (handle_no 3 vtx mid b)).
    { intros a b c e Ha Hb _ _. unfold line_length. destruct (L a Ha) as [A1 A2], (L b Hb) as [B1 B2]. rewrite <- A1, <- B1, A2, B2. reflexivity. }
    unfold tri_atom. destruct (fl 0 && fl 1); [|destruct (fl 0 && fl 2)]; rewrite !(G _ _ 0 0) by lia; reflexivity. }
  rewrite E. match goal with |- option_map _ ?x = _ => destruct x as [P|] eqn:EP end; cbn [option_map]; auto. f_equal.
  apply map_map_ext. intros c l Hc Hl. destruct (refine_tri_legal _ _ _ EP c Hc) as (_ & _ & H). now apply HX, H.
Qed.

Lemma nedges_pos t : t = Triangle \/ t = Tet -> nverts t = match t with Triangle => 3 | _ => 4 end /\ nedges t = match t with Triangle => 3 | _ => 6 end.
Proof. now intros [-> | ->]. Qed.

Lemma children_ext d t pos pos' vid vid' vtx vtx' mid mid' fl fl' : t = Triangle \/ t = Tet ->
  (forall i, i < nverts t -> vtx i = vtx' i) -> (forall j, j < nedges t -> fl j = fl' j) -> (forall j, j < nedges t -> fl j = true -> mid j = mid' j) ->
  (forall i, i < nverts t -> pos (vtx i) = pos' (vtx i) /\ vid (vtx i) = vid' (vtx i)) ->
  (forall j, j < nedges t -> fl j = true -> pos (mid j) = pos' (mid j) /\ vid (mid j) = vid' (mid j)) ->
  children d t pos vid vtx mid fl = children d t pos' vid' vtx' mid' fl'.
Proof.
  intros [-> | ->]; cbn [nverts nedges children].
  - apply tri_children_ext.
  - apply tet_children_ext.
Qed.

(** The parts exist and are proper cells. *)
Lemma children_ok d t pos vid vtx mid fl : t = Triangle \/ t = Tet -> corner_ids_distinct vid (nverts t) vtx ->
  (forall i j, i < nverts t -> j < nverts t -> vtx i = vtx j -> i = j) ->
  (forall i k, i < nverts t -> k < nedges t -> fl k = true -> vtx i <> mid k) ->
  (forall k l, k < nedges t -> l < nedges t -> fl k = true -> fl l = true -> mid k = mid l -> k = l) ->
  exists cs, children d t pos vid vtx mid fl = Some cs /\
    forall c, In c cs -> length c = nverts t /\ NoDup c /\
      forall u, In u c -> (exists i, i < nverts t /\ u = vtx i) \/ (exists k, k < nedges t /\ fl k = true /\ u = mid k).
Proof.
  intros T CI D1 D2 D3.
  assert (INJ : forall l l', legal_for (nverts t) (nedges t) fl l -> legal_for (nverts t) (nedges t) fl l' ->
     handle_no (nverts t) vtx mid l = handle_no (nverts t) vtx mid l' -> l = l').
  { intros l l' [H|(j & H & F & ->)] [H'|(j' & H' & F' & ->)]; unfold handle_no;
      repeat (match goal with |- context [?x <? ?y] => destruct (Nat.ltb_spec x y) end); try lia; intros E; auto.
    - replace (nverts t + j' - nverts t) with j' in E by lia. destruct (D2 l j'); auto.
    - replace (nverts t + j - nverts t) with j in E by lia. destruct (D2 l' j); auto.
    - replace (nverts t + j' - nverts t) with j' in E by lia. replace (nverts t + j - nverts t) with j in E by lia. f_equal. auto. }
  assert (K : forall P, (forall c, In c P -> length c = nverts t /\ NoDup c /\ forall l, In l c -> legal_for (nverts t) (nedges t) fl l) ->
    forall c, In c (map (map (handle_no (nverts t) vtx mid)) P) -> length c = nverts t /\ NoDup c /\
      forall u, In u c -> (exists i, i < nverts t /\ u = vtx i) \/ (exists k, k < nedges t /\ fl k = true /\ u = mid k)).
  { intros P HP c Hc. apply in_map_iff in Hc as (c0 & <- & Hc). destruct (HP c0 Hc) as (A & B & C). split; [now rewrite map_length|]. split.
    - assert (Z : forall l, (forall x, In x l -> In x c0) -> NoDup l -> NoDup (map (handle_no (nverts t) vtx mid) l)).
      { induction l as [|x l IH]; intros I N; cbn [map]; constructor.
        - intros Hx. apply in_map_iff in Hx as (y & E & Hy). inversion N; subst. apply INJ in E; subst; auto; [apply C, I; now right|apply C, I; now left].
        - apply IH; [|now inversion N]. intros y Hy. apply I. now right. }
      apply Z; auto.
    - intros u Hu. apply in_map_iff in Hu as (l & <- & Hl). destruct (C l Hl) as [H|(j & H & F & ->)]; unfold handle_no.
      + left. exists l. apply Nat.ltb_lt in H as H'. rewrite H'. auto.
      + right. exists j. destruct (Nat.ltb_spec (nverts t + j) (nverts t)); [lia|]. replace (nverts t + j - nverts t) with j by lia. auto. }
  destruct T as [-> | ->]; cbn [children nverts nedges] in *.
  - destruct (C33_children_vertices_pf addr d pos vtx mid fl) as (cs & E & _). exists cs. split; auto.
    unfold tri_children in E. destruct (refine_tri _ fl) as [P|] eqn:EP; [|discriminate]. cbn [option_map] in E. inversion E; subst.
    apply K. apply (refine_tri_legal _ _ _ EP).
  - destruct (C34_children_vertices_pf addr d pos vid vtx mid fl CI) as (cs & E & _). exists cs. split; auto.
    unfold tet_children in E. destruct (refine_tet _ _ fl) as [P|] eqn:EP; [|discriminate]. cbn [option_map] in E. inversion E; subst.
    apply K. rewrite refine_tet_tree in EP. intros c Hc. destruct (eval_cells _ _ _ _ _ (tree_of_legal fl) EP c Hc) as (A & B & C).
    split; auto. split; auto. intros l Hl. now apply legal_iff, C.
Qed.
