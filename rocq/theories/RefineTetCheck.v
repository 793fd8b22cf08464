(** The tetrahedron subdivision as decision trees, checks of their leaves, and
    the reduction of arbitrary comparisons to them. Used by the proofs of
    C34-C36. *)
From Coq Require Import List Arith Bool Lia Permutation ZArith.
From Verif Require Import ModelMesh MeshBase ModelRefineTet ModelRefineTri SpecRefine RefineTetTree.
Import ListNotations.

Fixpoint all_bits (n : nat) : list (list bool) :=
  match n with
  | O => [[]]
  | S n' => map (cons false) (all_bits n') ++ map (cons true) (all_bits n')
  end.

Lemma all_bits_complete l : In l (all_bits (length l)).
Proof.
  induction l as [|b l IH]; simpl; auto. apply in_app_iff.
  destruct b; [right|left]; now apply in_map.
Qed.

Definition bit (l : list bool) (k : nat) : bool := nth k l false.

(** Number of the edge between two vertices. *)
Definition edge_no (a b : nat) : nat :=
  match a, b with
  | 0, 1 | 1, 0 => 0
  | 0, 2 | 2, 0 => 1
  | 0, 3 | 3, 0 => 2
  | 1, 2 | 2, 1 => 3
  | 1, 3 | 3, 1 => 4
  | _, _ => 5
  end.
Lemma edge_no_lt a b : edge_no a b < 6.
Proof. unfold edge_no. destruct a as [|[|[|[|a]]]], b as [|[|[|[|b]]]]; lia. Qed.

Fixpoint eval (lg dle : nat -> nat -> nat -> nat -> bool) (t : dtree) : option (list (list nat)) :=
  match t with
  | DLeaf P _ _ => Some P
  | DFail => None
  | DCmp a b c d t f => if lg a b c d then eval lg dle t else eval lg dle f
  | DDle a b c d t f => if dle a b c d then eval lg dle t else eval lg dle f
  end.

Definition flags_no (f : list bool) : nat := fold_left (fun n b => n * 2 + (if b : bool then 1 else 0)) f 0.
Definition tree_of (f : list bool) : dtree := nth (flags_no f) trees DFail.

Lemma refine_tet_tree lg dle fl : refine_tet lg dle fl = eval lg dle (tree_of (map fl (seq 0 6))).
Proof.
  unfold refine_tet, edges_to_refine. cbn [seq map filter].
  unfold apply0, apply1, apply2, apply3, apply4, apply5, apply6.
  destruct (fl 0), (fl 1), (fl 2), (fl 3), (fl 4), (fl 5); cbn [length negb]; try reflexivity.
  destruct (dle 5 8 6 7) eqn:E1; cbn; rewrite ?E1; [destruct (dle 5 8 4 9) eqn:E2; cbn; rewrite ?E2; auto|];
    destruct (dle 6 7 5 8) eqn:E3; cbn; rewrite ?E3; auto; destruct (dle 6 7 4 9) eqn:E4; cbn; rewrite ?E4; auto.
Qed.

(** ** Contradictory comparisons: [(i, j)] stands for "edge i is longer than edge j". *)
Fixpoint reachb (n : nat) (path : list (nat * nat)) (i j : nat) : bool :=
  match n with
  | O => false
  | S n' => existsb (fun p => if Nat.eqb (fst p) i then (if Nat.eqb (snd p) j then true else reachb n' path (snd p) j) else false) path
  end.
Definition contra (path : list (nat * nat)) : bool := existsb (fun p => reachb 6 path (fst p) (fst p)) path.

Record good_cmp (lg : nat -> nat -> nat -> nat -> bool) (cmp : nat -> nat -> bool) : Prop := {
  gc_lg : forall a b c d, a < 4 -> b < 4 -> c < 4 -> d < 4 -> a <> b -> c <> d ->
    lg a b c d = cmp (edge_no a b) (edge_no c d);
  gc_irr : forall i, cmp i i = false;
  gc_asym : forall i j, i < 6 -> j < 6 -> i <> j -> cmp j i = negb (cmp i j);
  gc_trans : forall i j k, cmp i j = true -> cmp j k = true -> cmp i k = true }.

Definition sound (cmp : nat -> nat -> bool) (path : list (nat * nat)) : Prop :=
  forall i j, In (i, j) path -> cmp i j = true.

Lemma reachb_sound lg cmp path : good_cmp lg cmp -> sound cmp path ->
  forall n i j, reachb n path i j = true -> cmp i j = true.
Proof.
  intros G S. induction n as [|n IH]; intros i j H; simpl in H; [discriminate|].
  apply existsb_exists in H as ([x y] & HI & H). simpl in H. destruct (Nat.eqb_spec x i); [subst x|discriminate].
  destruct (Nat.eqb_spec y j).
  - subst y. auto.
  - apply (gc_trans _ _ G i y j); auto.
Qed.
Lemma contra_sound lg cmp path : good_cmp lg cmp -> sound cmp path -> contra path = true -> False.
Proof.
  intros G S H. apply existsb_exists in H as ([x y] & _ & H). cbn [fst] in H.
  apply (reachb_sound lg cmp path G S) in H. rewrite (gc_irr _ _ G) in H. discriminate.
Qed.

(** ** Checking all leaves of a tree *)
Section CheckTree.
Variable chk : list (nat * nat) -> list (list nat) -> list nat -> nat -> bool.
Fixpoint check_tree (path : list (nat * nat)) (t : dtree) : bool :=
  match t with
  | DLeaf P s b => chk path P s b
  | DFail => contra path
  | DCmp a b c d t f =>
      (a <? 4) && (b <? 4) && (c <? 4) && (d <? 4) && negb (a =? b) && negb (c =? d) && negb (edge_no a b =? edge_no c d) &&
      check_tree ((edge_no a b, edge_no c d) :: path) t && check_tree ((edge_no c d, edge_no a b) :: path) f
  | DDle _ _ _ _ t f => check_tree path t && check_tree path f
  end.

Lemma check_tree_sound lg dle cmp : good_cmp lg cmp -> forall t path, sound cmp path -> check_tree path t = true ->
  exists P path' s b, eval lg dle t = Some P /\ sound cmp path' /\ chk path' P s b = true.
Proof.
  intros G. induction t as [P s b| |a b c d t IHt f IHf|a b c d t IHt f IHf]; intros path S H; simpl in H.
  - exists P, path, s, b. auto.
  - exfalso. eapply contra_sound; eauto.
  - rewrite !andb_true_iff in H. destruct H as [[[[[[[[H1 H2] H3] H4] H5] H6] H7] H8] H9].
    apply Nat.ltb_lt in H1, H2, H3, H4. apply negb_true_iff, Nat.eqb_neq in H5, H6, H7.
    simpl. rewrite (gc_lg _ _ G) by auto. destruct (cmp (edge_no a b) (edge_no c d)) eqn:E.
    + apply (IHt _) in H8; auto. intros i j [X|X]; auto. injection X as <- <-. auto.
    + apply (IHf _) in H9; auto. intros i j [X|X]; auto. injection X as <- <-.
      rewrite (gc_asym _ _ G) with (i := edge_no a b); auto using edge_no_lt. now rewrite E.
  - apply andb_true_iff in H as [H1 H2]. simpl. destruct (dle a b c d); eauto.
Qed.
End CheckTree.

(** Boolean equality of lists. *)
Fixpoint list_eqb {A} (eqb : A -> A -> bool) (a b : list A) : bool :=
  match a, b with
  | [], [] => true
  | x :: a', y :: b' => eqb x y && list_eqb eqb a' b'
  | _, _ => false
  end.
Lemma list_eqb_eq {A} (eqb : A -> A -> bool) : (forall x y, eqb x y = true -> x = y) ->
  forall a b, list_eqb eqb a b = true -> a = b.
Proof.
  intros H. induction a as [|x a IH]; intros [|y b] E; simpl in E; try discriminate; auto.
  apply andb_true_iff in E as [E1 E2]. f_equal; auto.
Qed.

(** ** Renaming of the vertices *)
Definition perms4 : list (list nat) :=
  [[0;1;2;3];[0;1;3;2];[0;2;1;3];[0;2;3;1];[0;3;1;2];[0;3;2;1];[1;0;2;3];[1;0;3;2];[1;2;0;3];[1;2;3;0];[1;3;0;2];[1;3;2;0];
   [2;0;1;3];[2;0;3;1];[2;1;0;3];[2;1;3;0];[2;3;0;1];[2;3;1;0];[3;0;1;2];[3;0;2;1];[3;1;0;2];[3;1;2;0];[3;2;0;1];[3;2;1;0]].

Definition relab (s : list nat) (l : nat) : nat :=
  match l with
  | 0 | 1 | 2 | 3 => nth l s 0
  | 4 => 4 + edge_no (nth 0 s 0) (nth 1 s 0)
  | 5 => 4 + edge_no (nth 0 s 0) (nth 2 s 0)
  | 6 => 4 + edge_no (nth 0 s 0) (nth 3 s 0)
  | 7 => 4 + edge_no (nth 1 s 0) (nth 2 s 0)
  | 8 => 4 + edge_no (nth 1 s 0) (nth 3 s 0)
  | _ => 4 + edge_no (nth 2 s 0) (nth 3 s 0)
  end.

Definition same_cells (A B : list (list nat)) : bool :=
  let B' := map isort B in let A' := map isort A in
  forallb (fun c => existsb (list_eqb Nat.eqb c) B') A' && forallb (fun c => existsb (list_eqb Nat.eqb c) A') B'.

Fixpoint nodupb (l : list (list nat)) : bool :=
  match l with [] => true | x :: r => negb (existsb (list_eqb Nat.eqb x) r) && nodupb r end.

(** ** The trace of a subdivision on a face *)
Definition glob (a b c l : nat) : nat :=
  match l with 0 => a | 1 => b | 2 => c | 3 => 4 + edge_no a b | 4 => 4 + edge_no a c | _ => 4 + edge_no b c end.
Definition on_face_labels (a b c : nat) (cell : list nat) : list nat :=
  filter (fun l => existsb (Nat.eqb (glob a b c l)) cell) (seq 0 6).
Definition trace (a b c : nat) (P : list (list nat)) : list (list nat) :=
  filter (fun r => length r =? 3) (map (on_face_labels a b c) P).
Definition triples : list (nat * nat * nat) :=
  flat_map (fun a => flat_map (fun b => flat_map (fun c =>
    if (a =? b) || (a =? c) || (b =? c) then [] else [(a, b, c)]) (seq 0 4)) (seq 0 4)) (seq 0 4).
Definition sub_pat (A B : list (list nat)) : bool := forallb (fun c => existsb (list_eqb Nat.eqb c) B) A.

(** The only comparison refine_tri makes. *)
Definition tri_atom (fl : nat -> bool) : nat * nat * nat * nat :=
  if fl 0 && fl 1 then (0, 2, 1, 0) else if fl 0 && fl 2 then (1, 0, 2, 1) else (2, 1, 0, 2).
Lemma refine_tri_atom gt fl : refine_tri gt fl =
  refine_tri (fun _ _ _ _ => let '(p, q, r, s) := tri_atom fl in gt p q r s) fl.
Proof.
  unfold refine_tri, tri_apply1, tri_apply2, tri_atom. cbn [seq filter].
  destruct (fl 0), (fl 1), (fl 2); reflexivity.
Qed.

Definition same_trace (T : option (list (list nat))) (tr : list (list nat)) : bool :=
  match T with
  | Some T => let T := map isort T in sub_pat T tr && sub_pat tr T
  | None => false
  end.
Definition face_check (f : list bool) (path : list (nat * nat)) (P : list (list nat)) : bool :=
  forallb (fun t => let '(a, b, c) := t in
    let fl k := bit f (glob a b c (3 + k) - 4) in
    let tr := trace a b c P in
    let '(p, q, r, s) := tri_atom fl in
    let i := edge_no (glob a b c p) (glob a b c q) in
    let j := edge_no (glob a b c r) (glob a b c s) in
    (if contra ((i, j) :: path) then true else same_trace (refine_tri (fun _ _ _ _ => true) fl) tr) &&
    (if contra ((j, i) :: path) then true else same_trace (refine_tri (fun _ _ _ _ => false) fl) tr)) triples.

(** At most three labels of a cell lie on one face. *)
Definition trace_small (P : list (list nat)) : bool :=
  forallb (fun t => let '(a,b,c) := t in forallb (fun cell => length (on_face_labels a b c cell) <=? 3) P) triples.

(** ** Properties of the individual subdivisions *)
Definition labels_ok (f : list bool) (P : list (list nat)) : bool :=
  forallb (fun c => (length c =? 4) && nodupb (map (fun l => [l]) c) &&
    forallb (fun l => (l <? 4) || ((l <? 10) && bit f (l - 4))) c) P.
(** Every vertex of the parent and every flagged edge point is used. *)
Definition labels_used (f : list bool) (P : list (list nat)) : bool :=
  forallb (fun l => negb ((l <? 4) || bit f (l - 4)) || existsb (existsb (Nat.eqb l)) P) (seq 0 10).

(** The facets of the cells: shared by two cells, or on a face of the parent. *)
Definition facets4 (c : list nat) : list (list nat) :=
  match c with [a;b;c;d] => [[b;c;d]; [a;c;d]; [a;b;d]; [a;b;c]] | _ => [] end.
Definition outer (t : list nat) : bool :=
  existsb (fun abc => let '(a,b,c) := abc in forallb (fun l => existsb (Nat.eqb l) (map (glob a b c) (seq 0 6))) t) [(0,1,2);(0,1,3);(0,2,3);(1,2,3)].
Definition inclb (t c : list nat) : bool := forallb (fun x => existsb (Nat.eqb x) c) t.
Definition facets_ok (P : list (list nat)) : bool :=
  forallb (fun c => forallb (fun t => length (filter (inclb t) P) =? (if outer t then 1 else 2)) (facets4 c)) P.

(** Twice the barycentric coordinate [i] of label [l]. *)
Definition wz (l i : nat) : Z :=
  (if (l <? 4)%nat then (if (l =? i)%nat then 2 else 0)
   else let (a, b) := tet_edge (l - 4) in
    if (a =? i)%nat then 1 else if (b =? i)%nat then 1 else 0)%Z.
Definition det3 {A} (add sub mul : A -> A -> A) (a0 a1 a2 b0 b1 b2 c0 c1 c2 : A) : A :=
  add (sub (mul a0 (sub (mul b1 c2) (mul b2 c1))) (mul a1 (sub (mul b0 c2) (mul b2 c0)))) (mul a2 (sub (mul b0 c1) (mul b1 c0))).
(** Eight times the ratio of the signed volumes of a cell and its parent. *)
Definition cell_det (c : list nat) : Z :=
  match c with
  | [l0; l1; l2; l3] =>
    (let d l i := (wz l i - wz l0 i)%Z in
    det3 Z.add Z.sub Z.mul (d l1 1%nat) (d l1 2%nat) (d l1 3%nat) (d l2 1%nat) (d l2 2%nat) (d l2 3%nat) (d l3 1%nat) (d l3 2%nat) (d l3 3%nat))
  | _ => 0%Z
  end.
Definition dets_ok (P : list (list nat)) : bool :=
  let ds := map cell_det P in
  forallb (fun z => negb (z =? 0)%Z) ds && (fold_right Z.add 0 (map Z.abs ds) =? 8)%Z.

(** Is a cell turned around exactly in the configuration [turned_path]? *)
Definition inpath (path : list (nat * nat)) (i j : nat) : bool :=
  existsb (fun p => Nat.eqb (fst p) i && Nat.eqb (snd p) j) path.
Definition path_flags (f : list bool) (t : nat * nat * nat * nat) : bool :=
  let '(u, v, w, x) := t in
  forallb (fun k => Bool.eqb (bit f k) ((k =? edge_no u v) || (k =? edge_no v w) || (k =? edge_no u x))) (seq 0 6).
Definition turned_chk (f : list bool) (path : list (nat * nat)) (P : list (list nat)) : bool :=
  let neg := existsb (fun c => (cell_det c <? 0)%Z) P in
  match filter (path_flags f) turned_paths with
  | [] => negb neg
  | [(u, v, w, x)] =>
      if neg then inpath path (edge_no u v) (edge_no v w) && inpath path (edge_no u x) (edge_no u v)
      else inpath path (edge_no v w) (edge_no u v) || inpath path (edge_no u v) (edge_no u x)
  | _ => false
  end.

(** Everything that is checked at a leaf except the comparison with the
    subdivisions of RefineTetBase.v. *)
Definition leaf_ok (f : list bool) (path : list (nat * nat)) (P : list (list nat)) : bool :=
  labels_ok f P && labels_used f P && facets_ok P && trace_small P && nodupb (map isort P) && dets_ok P &&
  turned_chk f path P && face_check f path P.

Lemma leaves_ok : forallb (fun f => check_tree (fun path P _ _ => leaf_ok f path P) [] (tree_of f)) (all_bits 6) = true.
Proof. vm_compute. reflexivity. Qed.
