(** Basic lemmas about the definitions of ModelTopo.v and ModelMesh.v. *)
From Coq Require Import List Arith Bool Lia Permutation Sorted.
From Verif Require Import ModelTopo ModelMesh.
Import ListNotations.

Lemma tag_eqb_eq a b : tag_eqb a b = true <-> a = b.
Proof. destruct a, b; simpl; split; congruence. Qed.
Lemma tag_eqb_refl a : tag_eqb a a = true.
Proof. destruct a; reflexivity. Qed.
Lemma tag_eqb_neq a b : tag_eqb a b = false <-> a <> b.
Proof. destruct a, b; simpl; split; congruence. Qed.
Lemma tag_eq_dec (a b : tag) : {a = b} + {a <> b}.
Proof. decide equality. Qed.

Lemma upd_same {A} (f : tag -> A) t x : upd f t x t = x.
Proof. unfold upd. now rewrite tag_eqb_refl. Qed.
Lemma upd_other {A} (f : tag -> A) t t' x : t <> t' -> upd f t x t' = f t'.
Proof. intros H. unfold upd. apply tag_eqb_neq in H. now rewrite H. Qed.
Lemma upd_spec {A} (f : tag -> A) t t' x :
  upd f t x t' = if tag_eq_dec t t' then x else f t'.
Proof. destruct (tag_eq_dec t t'); [subst; apply upd_same | now apply upd_other]. Qed.

(** ** Sorting and keys *)

Lemma insert_sorted_perm x l : Permutation (x :: l) (insert_sorted x l).
Proof.
  induction l as [|y l IH]; simpl; auto.
  destruct (x <=? y); auto.
  rewrite perm_swap. constructor. auto.
Qed.

Lemma isort_perm l : Permutation l (isort l).
Proof.
  induction l as [|x l IH]; simpl; auto.
  rewrite <- insert_sorted_perm. now constructor.
Qed.

Lemma insert_sorted_sorted x l : StronglySorted le l -> StronglySorted le (insert_sorted x l).
Proof.
  induction l as [|y l IH]; simpl; intros H.
  - repeat constructor.
  - inversion H; subst. destruct (Nat.leb_spec x y).
    + constructor; auto. constructor; auto.
      eapply Forall_impl; [|eassumption]. simpl; intros; lia.
    + constructor; auto.
      eapply Permutation_Forall; [apply insert_sorted_perm|].
      constructor; auto; lia.
Qed.

Lemma isort_sorted l : StronglySorted le (isort l).
Proof.
  induction l; simpl; [constructor|]. now apply insert_sorted_sorted.
Qed.

Lemma sorted_perm_eq (a b : list nat) :
  StronglySorted le a -> StronglySorted le b -> Permutation a b -> a = b.
Proof.
  revert b. induction a as [|x a IH]; intros b Ha Hb Hp.
  - apply Permutation_nil in Hp. auto.
  - destruct b as [|y b]; [now apply Permutation_sym, Permutation_nil in Hp|].
    inversion Ha; inversion Hb; subst.
    assert (x = y).
    { rewrite Forall_forall in *.
      assert (In x (y :: b)) by (eapply Permutation_in; [eauto|now left]).
      assert (In y (x :: a)) by (eapply Permutation_in; [apply Permutation_sym; eauto|now left]).
      simpl in *. destruct H, H0; subst; auto.
      specialize (H2 _ H0). specialize (H6 _ H). lia. }
    subst. f_equal. apply IH; auto. eapply Permutation_cons_inv; eauto.
Qed.

Lemma isort_eq_iff a b : isort a = isort b <-> Permutation a b.
Proof.
  split; intros H.
  - rewrite (isort_perm a), H. symmetry. apply isort_perm.
  - apply sorted_perm_eq; try apply isort_sorted.
    rewrite <- isort_perm, H. apply isort_perm.
Qed.

Lemma isort_length l : length (isort l) = length l.
Proof. symmetry. apply Permutation_length, isort_perm. Qed.

Lemma lex_less_irrefl a : lex_less a a = false.
Proof.
  induction a as [|x a IH]; simpl; auto.
  rewrite Nat.ltb_irrefl. auto.
Qed.

Lemma lex_less_trans a b c : length a = length b -> length b = length c ->
  lex_less a b = true -> lex_less b c = true -> lex_less a c = true.
Proof.
  revert b c. induction a as [|x a IH]; intros [|y b] [|z c]; simpl; try discriminate; auto.
  intros L1 L2.
  destruct (Nat.ltb_spec y x), (Nat.ltb_spec x y), (Nat.ltb_spec z y), (Nat.ltb_spec y z),
    (Nat.ltb_spec z x), (Nat.ltb_spec x z); intros; try discriminate; auto; try lia.
  eapply IH; [| |eassumption|eassumption]; lia.
Qed.

Lemma lex_less_total a b : length a = length b ->
  lex_less a b = false -> lex_less b a = false -> a = b.
Proof.
  revert b. induction a as [|x a IH]; intros [|y b]; simpl; try discriminate; auto.
  intros L.
  destruct (Nat.ltb_spec y x), (Nat.ltb_spec x y); try discriminate; try lia.
  intros. f_equal; [lia|]. apply IH; auto.
Qed.

Lemma key_less_irrefl a : key_less a a = false.
Proof. unfold key_less. rewrite Nat.eqb_refl. simpl. apply lex_less_irrefl. Qed.

Lemma key_less_trans a b c : key_less a b = true -> key_less b c = true -> key_less a c = true.
Proof.
  unfold key_less.
  destruct (Nat.eqb_spec (length a) (length b)), (Nat.eqb_spec (length b) (length c)),
    (Nat.eqb_spec (length a) (length c)); simpl; rewrite ?Nat.ltb_lt; intros; try lia.
  eapply lex_less_trans; [| |eassumption|eassumption]; lia.
Qed.

Lemma key_less_total a b : key_less a b = false -> key_less b a = false -> a = b.
Proof.
  unfold key_less.
  destruct (Nat.eqb_spec (length a) (length b)), (Nat.eqb_spec (length b) (length a));
    simpl; rewrite ?Nat.ltb_ge; intros; try lia.
  now apply lex_less_total.
Qed.

Lemma key_equiv_eq a b : key_equiv a b = true <-> a = b.
Proof.
  unfold key_equiv. rewrite andb_true_iff, !negb_true_iff. split.
  - intros [? ?]. now apply key_less_total.
  - intros ->. rewrite key_less_irrefl. auto.
Qed.

(** ** Option helpers *)

Lemma obind_Some {A B} (o : option A) (f : A -> option B) y :
  obind o f = Some y <-> exists x, o = Some x /\ f x = Some y.
Proof.
  destruct o; simpl; split.
  - eauto.
  - intros (x & E & H). congruence.
  - discriminate.
  - intros (x & E & H). discriminate.
Qed.

Lemma omap_Forall2 {A B} (f : A -> option B) l r :
  omap f l = Some r <-> Forall2 (fun x y => f x = Some y) l r.
Proof.
  revert r. induction l as [|x l IH]; simpl; intros r.
  - split; intros H; [inversion H; constructor | inversion H; auto].
  - split; intros H.
    + apply obind_Some in H as (y & Hy & H). apply obind_Some in H as (ys & Hys & H).
      inversion H; subst. constructor; auto. now apply IH.
    + inversion H; subst. rewrite H2. simpl. apply IH in H4. now rewrite H4.
Qed.

Lemma Forall2_len {A B} (R : A -> B -> Prop) l r : Forall2 R l r -> length l = length r.
Proof. induction 1; simpl; auto. Qed.

Lemma omap_length {A B} (f : A -> option B) l r : omap f l = Some r -> length r = length l.
Proof. intros H. apply omap_Forall2 in H. symmetry. eapply Forall2_len; eauto. Qed.

Lemma omap_total {A B} (f : A -> option B) l :
  (forall x, In x l -> exists y, f x = Some y) -> exists r, omap f l = Some r.
Proof.
  induction l as [|x l IH]; simpl; intros H; eauto.
  destruct (H x) as [y Hy]; auto. rewrite Hy. simpl.
  destruct IH as [r Hr]; auto. rewrite Hr. simpl. eauto.
Qed.

Lemma omap_ext {A B} (f g : A -> option B) l :
  (forall x, In x l -> f x = g x) -> omap f l = omap g l.
Proof.
  induction l as [|x l IH]; simpl; intros H; auto.
  rewrite (H x); auto. rewrite IH; auto.
Qed.

Lemma omap_nth {A B} (f : A -> option B) l r i :
  omap f l = Some r -> nth_error r i = obind (nth_error l i) f.
Proof.
  intros H. apply omap_Forall2 in H. revert i.
  induction H; intros [|i]; simpl; auto.
Qed.

(** ** Node lists *)
Section N.
Context {Pt : Type}.
Implicit Types (l : list (@node Pt)) (n : @node Pt).

Lemma find_node_In l a n : find_node l a = Some n -> In n l /\ n_addr n = a.
Proof.
  intros H. apply find_some in H as [H1 H2]. now apply Nat.eqb_eq in H2.
Qed.

Lemma find_node_None l a : find_node l a = None <-> ~ In a (map n_addr l).
Proof.
  unfold find_node. induction l as [|n l IH]; simpl.
  - tauto.
  - destruct (Nat.eqb_spec (n_addr n) a).
    + split; [discriminate|]. intros H; exfalso; apply H; auto.
    + rewrite IH. split; intros H; [intros [?|?]; auto | tauto].
Qed.

Lemma In_find_node l n : NoDup (map n_addr l) -> In n l -> find_node l (n_addr n) = Some n.
Proof.
  unfold find_node. induction l as [|x l IH]; simpl; intros ND HI; [easy|].
  inversion ND; subst. destruct HI as [->|HI].
  - now rewrite Nat.eqb_refl.
  - destruct (Nat.eqb_spec (n_addr x) (n_addr n)) as [E|E].
    + exfalso. apply H1. rewrite E. now apply in_map.
    + auto.
Qed.

Lemma find_node_app l1 l2 a :
  find_node (l1 ++ l2) a = match find_node l1 a with Some n => Some n | None => find_node l2 a end.
Proof.
  unfold find_node. induction l1; simpl; auto. destruct (n_addr a0 =? a); auto.
Qed.

Lemma insert_keyed_perm n l : Permutation (n :: l) (insert_keyed n l).
Proof.
  induction l as [|x l IH]; simpl; auto.
  destruct (key_less (n_key n) (n_key x)); auto.
  rewrite perm_swap. now constructor.
Qed.

Lemma find_node_insert_keyed n l a : ~ In (n_addr n) (map n_addr l) ->
  find_node (insert_keyed n l) a = if n_addr n =? a then Some n else find_node l a.
Proof.
  unfold find_node. induction l as [|x l IH]; simpl; intros H.
  - reflexivity.
  - destruct (key_less (n_key n) (n_key x)); simpl.
    + reflexivity.
    + rewrite IH by tauto.
      destruct (Nat.eqb_spec (n_addr x) a), (Nat.eqb_spec (n_addr n) a); auto.
      exfalso. subst. apply H. auto.
Qed.

Lemma find_key_Some l k n : find_key l k = Some n -> In n l /\ n_key n = k.
Proof.
  intros H. apply find_some in H as [H1 H2]. split; auto. now apply key_equiv_eq.
Qed.

Lemma find_key_None l k : find_key l k = None -> forall n, In n l -> n_key n <> k.
Proof.
  intros H n HI E. apply (find_none _ _ H) in HI.
  assert (key_equiv (n_key n) k = true) by now apply key_equiv_eq. congruence.
Qed.

Definition klt n1 n2 : Prop := key_less (n_key n1) (n_key n2) = true.

Lemma insert_keyed_sorted n l :
  StronglySorted klt l -> (forall x, In x l -> n_key x <> n_key n) ->
  StronglySorted klt (insert_keyed n l).
Proof.
  induction l as [|x l IH]; simpl; intros HS HN.
  - repeat constructor.
  - inversion HS; subst. destruct (key_less (n_key n) (n_key x)) eqn:E.
    + constructor; auto. constructor; auto.
      eapply Forall_impl; [|eassumption]. unfold klt. intros y Hy.
      eapply key_less_trans; eauto.
    + constructor; [apply IH; auto|].
      eapply Permutation_Forall; [apply insert_keyed_perm|].
      constructor; auto. unfold klt.
      destruct (key_less (n_key x) (n_key n)) eqn:E'; auto.
      exfalso. apply (HN x); auto. now apply key_less_total.
Qed.

Lemma set_el_addrs l a e : map n_addr (set_el l a e) = map n_addr l.
Proof.
  induction l as [|x l IH]; simpl; auto. rewrite IH.
  destruct (n_addr x =? a); auto.
Qed.

Lemma set_el_keys l a e : map n_key (set_el l a e) = map n_key l.
Proof.
  induction l as [|x l IH]; simpl; auto. rewrite IH.
  destruct (n_addr x =? a); auto.
Qed.

Lemma find_node_set_el l a e b :
  find_node (set_el l a e) b =
  if a =? b then option_map (fun n => mkN (n_addr n) (n_key n) e) (find_node l b)
  else find_node l b.
Proof.
  unfold find_node. induction l as [|x l IH]; simpl.
  - now destruct (a =? b).
  - destruct (Nat.eqb_spec (n_addr x) a) as [E|E]; simpl;
    destruct (Nat.eqb_spec (n_addr x) b) as [E'|E'];
    destruct (Nat.eqb_spec a b) as [E''|E'']; simpl; auto; congruence.
Qed.

Lemma ssorted_keys l1 l2 : map n_key l1 = map n_key l2 ->
  StronglySorted klt l1 -> StronglySorted klt l2.
Proof.
  revert l2. induction l1 as [|x l1 IH]; intros [|y l2] H; try discriminate; auto.
  - simpl in H. injection H as H1 H2. intros HS. apply StronglySorted_inv in HS as [HS1 HS2].
    constructor; [eapply IH; eauto|].
    rewrite Forall_forall in *. intros z Hz.
    assert (In (n_key z) (map n_key l1)) by (rewrite H2; now apply in_map).
    apply in_map_iff in H as (w & Hw & HI).
    unfold klt in *. rewrite <- H1, <- Hw. apply HS2. auto.
Qed.

End N.

(** ** Orientation *)

Lemma index_of_Some x l j : index_of x l = Some j -> nth_error l j = Some x.
Proof.
  revert j. induction l as [|y l IH]; simpl; intros j H; [easy|].
  destruct (Nat.eqb_spec x y).
  - inversion H; subst; auto.
  - destruct (index_of x l); inversion H; subst. simpl. auto.
Qed.

Lemma index_of_In x l : In x l -> exists j, index_of x l = Some j.
Proof.
  induction l as [|y l IH]; simpl; [easy|].
  intros [->|H].
  - rewrite Nat.eqb_refl. eauto.
  - destruct (x =? y); eauto. destruct (IH H) as [j ->]. simpl. eauto.
Qed.

Lemma set_nth_length {A} (l : list A) i x : length (set_nth l i x) = length l.
Proof. revert i. induction l; intros [|i]; simpl; auto. Qed.

Lemma nth_error_set_nth {A} (l : list A) i j x : i < length l ->
  nth_error (set_nth l i x) j = if i =? j then Some x else nth_error l j.
Proof.
  revert i j. induction l as [|y l IH]; simpl; intros i j H; [lia|].
  destruct i, j; simpl; auto. apply IH. lia.
Qed.

Lemma match_orient_length stored i wanted o :
  length (match_orient stored i wanted o) = length o.
Proof.
  revert i o. induction stored as [|v st IH]; simpl; intros; auto.
  rewrite IH. destruct (index_of v wanted); auto. now rewrite set_nth_length.
Qed.

Lemma match_orient_spec stored i wanted o :
  length o = length wanted -> NoDup wanted -> NoDup stored ->
  forall j v, nth_error wanted j = Some v ->
   (forall k, nth_error stored k = Some v ->
     nth_error (match_orient stored i wanted o) j = Some (Some (i + k))) /\
   (~ In v stored -> nth_error (match_orient stored i wanted o) j = nth_error o j).
Proof.
  revert i o. induction stored as [|s st IH]; simpl; intros i o HL HW HS j v Hj.
  - split; auto. intros [|k]; discriminate.
  - inversion HS; subst.
    set (o' := match index_of s wanted with Some j0 => set_nth o j0 (Some i) | None => o end).
    assert (HL' : length o' = length wanted).
    { unfold o'. destruct (index_of s wanted); auto. now rewrite set_nth_length. }
    destruct (IH (i+1) o' HL' HW H2 j v Hj) as [IH1 IH2].
    split.
    + intros [|k]; simpl; intros Hk.
      * inversion Hk; subst. rewrite IH2; auto.
        unfold o'. destruct (index_of_In v wanted) as [j0 Hj0].
        { eapply nth_error_In; eauto. }
        rewrite Hj0. apply index_of_Some in Hj0.
        assert (j0 = j).
        { apply (proj1 (NoDup_nth_error wanted) HW).
          - apply nth_error_Some. congruence.
          - congruence. }
        subst. rewrite nth_error_set_nth.
        -- rewrite Nat.eqb_refl. f_equal. f_equal. lia.
        -- rewrite HL. apply nth_error_Some. congruence.
      * rewrite (IH1 k); auto. f_equal. f_equal. lia.
    + intros HN. rewrite IH2 by tauto.
      unfold o'. destruct (index_of s wanted) as [j0|] eqn:E; auto.
      apply index_of_Some in E.
      rewrite nth_error_set_nth.
      * destruct (Nat.eqb_spec j0 j); auto. subst. rewrite Hj in E. inversion E; subst.
        exfalso; apply HN; auto.
      * rewrite HL. apply nth_error_Some. congruence.
Qed.

Lemma compute_orient_spec stored wanted j v :
  NoDup wanted -> Permutation stored wanted ->
  nth_error wanted j = Some v ->
  exists k, nth_error (compute_orient stored wanted) j = Some (Some k) /\
            nth_error stored k = Some v.
Proof.
  intros HW HP Hj.
  assert (HS : NoDup stored) by (eapply Permutation_NoDup; [apply Permutation_sym; eauto|auto]).
  assert (HI : In v stored).
  { eapply Permutation_in; [apply Permutation_sym; eauto|]. eapply nth_error_In; eauto. }
  apply In_nth_error in HI as [k Hk].
  exists k. split; auto.
  destruct (match_orient_spec stored 0 wanted (repeat None (length wanted))
             (repeat_length _ _) HW HS j v Hj) as [H _].
  now apply H.
Qed.

Lemma default_orient_spec n j : j < n -> nth_error (default_orient n) j = Some (Some j).
Proof.
  intros H. unfold default_orient.
  rewrite nth_error_map.
  rewrite (nth_error_nth' _ 0) by now rewrite seq_length.
  simpl. rewrite seq_nth; auto.
Qed.

(** ** Topology tables *)

Definition all_tags := [Vertex; Line; Triangle; Quad; Tet; Hex].
Lemma all_tags_complete t : In t all_tags.
Proof. destruct t; simpl; tauto. Qed.

Definition NoDupb (l : list nat) : bool :=
  (fix go l := match l with [] => true | x :: l' => negb (existsb (Nat.eqb x) l') && go l' end) l.
Lemma NoDupb_sound l : NoDupb l = true -> NoDup l.
Proof.
  induction l as [|x l IH]; simpl; intros H; constructor.
  - apply andb_prop in H as [H _]. intros HI.
    apply negb_true_iff in H. assert (existsb (Nat.eqb x) l = true).
    { apply existsb_exists. exists x. split; auto. apply Nat.eqb_refl. }
    congruence.
  - apply andb_prop in H as [_ H]. auto.
Qed.

Definition entry_ok (t : tag) (e : tag * list nat) : bool :=
  (dim (fst e) <? dim t) && negb (tag_eqb (fst e) Vertex)
  && (length (snd e) =? nverts (fst e)) && NoDupb (snd e)
  && forallb (fun i => i <? nverts t) (snd e).

Lemma btable_ok t bt idx : In (bt, idx) (btable t) ->
  dim bt < dim t /\ bt <> Vertex /\ length idx = nverts bt /\ NoDup idx /\
  (forall i, In i idx -> i < nverts t).
Proof.
  assert (H : forallb (fun t => forallb (entry_ok t) (btable t)) all_tags = true)
    by (vm_compute; reflexivity).
  rewrite forallb_forall in H. specialize (H t (all_tags_complete t)).
  rewrite forallb_forall in H. intros HI. specialize (H _ HI).
  unfold entry_ok in H. simpl in H. rewrite !andb_true_iff in H.
  destruct H as ((((H1 & H2) & H3) & H4) & H5).
  apply Nat.ltb_lt in H1. apply negb_true_iff, tag_eqb_neq in H2.
  apply Nat.eqb_eq in H3. apply NoDupb_sound in H4.
  rewrite forallb_forall in H5.
  repeat split; auto. intros i Hi. apply Nat.ltb_lt. auto.
Qed.

Lemma btab_In cfg t e : In e (btab cfg t) <-> In e (btable t) /\ cfg_keep cfg (fst e) = true.
Proof. apply filter_In. Qed.
