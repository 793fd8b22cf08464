(** Notations of numbers and a decision procedure for the hypotheses of C61-C63, for
    concrete meshes.  Not used by any theorem but the refutations by example. *)
From Coq Require Import Ascii String List Arith ZArith Bool Lia.
From Verif Require Import MeshDemo SegmentDemo ModelTopo ModelMesh ModelErase ModelSegmentation ModelSegment ModelCopySeg ModelXml ModelVtk
  SpecMesh SpecErase SpecSegmentation SpecSegment SpecCopy SpecCopySeg SpecXml SpecVtk MeshBase MeshInv VtkText VtkLink.
Import ModelSegmentation ListNotations.
Open Scope nat_scope.

(** Natural numbers, written without their last digit if [cut]. *)
Definition nats (cut : bool) (d : nat) : format nat :=
  mkFormat nat (fun x => nat_text (if cut then x / 10 else x)) size_of Nat.eqb 0 d.
Definition nats_rnd (cut : bool) (x : nat) : nat := if cut then x / 10 else x.
Lemma nats_sane cut d : d <= 3 -> sane_format (nats cut d) (nats_rnd cut).
Proof.
  intros D. constructor; cbn [nats f_wr f_rd f_eqb f_dim]; auto.
  - intros x. split; [apply int_nonempty|]. intros c Hc. pose proof (int_char_plain _ _ Hc) as (A & B & _). intros [<-|H]; [now apply B|].
    destruct c as [[] [] [] [] [] [] [] []]; cbn in H; try (now repeat destruct H as [H|H]; try discriminate H; try destruct H); discriminate A.
  - intros x. apply size_of_nat.
  - intros H. discriminate H.
  - intros x. apply Nat.eqb_refl.
Qed.

Section Check.
Context {K : Type}.
Variables (F : format K) (rnd : K -> K) (m : @mesh (list K)) (t : tag).

Definition points_differ (v w : addr) : bool :=
  (v =? w) || match point_at m v, point_at m w with Some p, Some q => negb (same_point F (map rnd p) (map rnd q)) | _, _ => true end.
Definition cells_differ (c d : addr) : bool :=
  (c =? d) || match vertices_at m t c, vertices_at m t d with Some p, Some q => negb (if list_eq_dec Nat.eq_dec p q then true else false) | _, _ => true end.
Definition writableb : bool :=
  forallb (fun v => match point_at m v with Some p => List.length p =? f_dim F | None => true end) (range m Vertex) &&
  forallb (fun v => forallb (points_differ v) (range m Vertex)) (range m Vertex) && forallb (fun c => forallb (cells_differ c) (range m t)) (range m t).

Lemma equal_same p : forall q, equal_points F p q -> same_point F p q = true.
Proof. induction p as [|x p IH]; intros q H; inversion H; subst; cbn; auto. rewrite H2. now apply IH. Qed.

Lemma writableb_sound (mem : Z -> addr -> Prop) : (forall z c, mem z c -> is_live m t c) -> writableb = true -> writable F rnd m t mem.
Proof.
  unfold writableb. rewrite !andb_true_iff, !forallb_forall. intros L [[A B] C].
  assert (V : forall v p, point_at m v = Some p -> In v (range m Vertex)).
  { intros v p H. apply range_is_live. unfold point_at in H. destruct (deref m Vertex v) as [e|] eqn:D; [exists e; auto|discriminate H]. }
  constructor.
  - intros v p H. specialize (A v (V v p H)). rewrite H in A. now apply Nat.eqb_eq in A.
  - intros z v z' w p q _ _ P Q E. specialize (B v (V v p P)). rewrite forallb_forall in B. specialize (B w (V w q Q)). unfold points_differ in B. rewrite P, Q in B.
    apply equal_same in E. rewrite E in B. destruct (Nat.eqb_spec v w); [auto|discriminate B].
  - intros z c z' c' M M' E. specialize (C c (proj2 (range_is_live m t c) (L z c M))). rewrite forallb_forall in C. specialize (C c' (proj2 (range_is_live m t c') (L z' c' M'))).
    unfold cells_differ in C. destruct (Nat.eqb_spec c c'); auto. rewrite <- E in C. destruct (L z c M) as (e & D). unfold vertices_at in C. rewrite D in C. cbn in C.
    destruct (list_eq_dec Nat.eq_dec (e_verts e) (e_verts e)); [discriminate C|congruence].
Qed.
End Check.

(** A property of the result that can be computed. *)
Lemma read_result {A B} (x : result A) (f : A -> B) v : (match x with Done a => Some (f a) | _ => None end) = Some v -> exists a, x = Done a /\ f a = v.
Proof. destruct x as [a| |]; intros H; try discriminate H. exists a. split; auto. now inversion H. Qed.

(** Two triangles with a common edge and a vertex on its own, and the same in the
    segments 7 and 3 of which the second triangle is in both. *)
Definition tri_ops : list (op (list nat)) :=
  [OVertex [10; 10]; OVertex [20; 10]; OVertex [10; 20]; OVertex [21; 21]; OElement Triangle [0; 1; 2]; OElement Triangle [1; 2; 3]].
Definition vtk_cfg := full_config Triangle.
Definition tri_mesh : @mesh (list nat) := st_mesh (sstate_of vtk_cfg (map (fun o => SMesh o) tri_ops)).
Definition tri_state : sstate (list nat) :=
  sstate_of vtk_cfg (map (fun o => SMesh o) tri_ops ++ [SManage (SgId 7); SManage (SgId 3); SAdd 0 Triangle 0; SAdd 0 Triangle 1; SAdd 1 Triangle 1]).
Definition to_reader : Z -> bool -> bool -> text -> target := fun _ _ _ _ => ForReader.

(** For the refutations by example. *)
Definition mesh_from (l : list (op (list nat))) : @mesh (list nat) := st_mesh (sstate_of vtk_cfg (map (fun o => SMesh o) l)).
Definition close_ops : list (op (list nat)) :=
  [OVertex [10; 10]; OVertex [20; 10]; OVertex [10; 20]; OVertex [11; 11]; OElement Triangle [0; 1; 2]; OElement Triangle [1; 2; 3]].
Definition one_ops : list (op (list nat)) := [OVertex [10; 10]; OVertex [20; 10]; OVertex [10; 20]; OElement Triangle [0; 1; 2]].
Definition other_ops : list (op (list nat)) := [OVertex [1; 1]; OVertex [2; 1]; OVertex [1; 2]].
(** The text of the only file. *)
Definition content_of (o : option (list (text * text))) : text := match o with Some [(_, x)] => x | _ => [] end.
Definition is_one (n : text) (o : option (list (text * text))) : bool := match o with Some [(k, _)] => text_eqb k n | _ => false end.
Lemma eqb_text a b : text_eqb a b = true -> a = b.
Proof. unfold text_eqb. destruct (list_eq_dec ascii_dec a b); congruence. Qed.
Lemma is_one_ok n o : is_one n o = true -> o = Some [(n, content_of o)].
Proof.
  destruct o as [[|[k x] [|y r]]|]; cbn [is_one content_of]; intros H; try discriminate H. apply eqb_text in H. now subst.
Qed.
