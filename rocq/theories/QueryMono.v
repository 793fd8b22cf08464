(** A query that is defined when handles are dereferenced in a part of a mesh
    gives the same result when they are dereferenced in the whole mesh. *)
From Coq Require Import List Arith Bool.
From Verif Require Import ModelTopo ModelMesh ModelErase ModelAccessor ModelQuery.
Import ListNotations.

Section Mono.
Context {Pt : Type}.
Notation mesh := (@mesh Pt).
Notation node := (@node Pt).
Variables dm dm' : mesh.
Hypothesis D : forall t a e, deref dm t a = Some e -> deref dm' t a = Some e.

Lemma obind_mono {A B} (x x' : option A) (f f' : A -> option B) r :
  (forall y, x = Some y -> x' = Some y) -> (forall y z, f y = Some z -> f' y = Some z) -> obind x f = Some r -> obind x' f' = Some r.
Proof. intros H1 H2. destruct x as [y|]; [|easy]. rewrite (H1 y eq_refl). cbn. apply H2. Qed.
Lemma map_mono {A B} (x x' : option A) (f : A -> B) r :
  (forall y, x = Some y -> x' = Some y) -> option_map f x = Some r -> option_map f x' = Some r.
Proof. intros H1. destruct x as [y|]; [|easy]. now rewrite (H1 y eq_refl). Qed.
Lemma ofold_mono {A S} (f f' : S -> A -> option S) l : (forall s x r, f s x = Some r -> f' s x = Some r) ->
  forall s r, ofold f l s = Some r -> ofold f' l s = Some r.
Proof.
  intros H. induction l as [|x l IH]; intros s r; cbn; auto. apply obind_mono; auto.
Qed.
Lemma omap_mono {A B} (f f' : A -> option B) l : (forall x r, f x = Some r -> f' x = Some r) ->
  forall r, omap f l = Some r -> omap f' l = Some r.
Proof.
  intros H. induction l as [|x l IH]; intros r; cbn; auto. destruct (f x) as [y|] eqn:E; [|easy]. rewrite (H _ _ E).
  destruct (omap f l) as [ys|] eqn:E2; [|easy]. now rewrite (IH _ eq_refl).
Qed.

Lemma create_cob_mono bt ct m d r : create_cob dm bt ct m d = Some r -> create_cob dm' bt ct m d = Some r.
Proof.
  apply ofold_mono. intros s n r'. apply ofold_mono. intros s2 b r2. apply obind_mono; auto.
Qed.
Lemma ensure_cob_mono bt ct s r : ensure_cob dm bt ct s = Some r -> ensure_cob dm' bt ct s = Some r.
Proof. unfold ensure_cob. destruct (_ =? _); auto. apply map_mono. intros y. apply create_cob_mono. Qed.
Lemma query_cob_mono const bt ct s b r : query_cob_in dm const bt ct s b = Some r -> query_cob_in dm' const bt ct s b = Some r.
Proof.
  apply obind_mono; [intros y; apply ensure_cob_mono|]. intros y z. apply obind_mono; auto.
Qed.

Lemma nb_pair_mono t a1 d a0 r : nb_pair t dm a1 d a0 = Some r -> nb_pair t dm' a1 d a0 = Some r.
Proof.
  apply obind_mono; auto. intros e0 z. apply obind_mono; auto. intros e1 z1. apply obind_mono; auto. intros v z2.
  apply obind_mono; auto. intros ids. apply omap_mono. intros x r'. apply map_mono; auto.
Qed.
Lemma nb_pairs_mono t rest : forall pre d r, nb_pairs t dm pre rest d = Some r -> nb_pairs t dm' pre rest d = Some r.
Proof.
  induction rest as [|x l IH]; intros pre d r; cbn; auto. apply obind_mono; auto. intros y. apply ofold_mono.
  intros; now apply nb_pair_mono.
Qed.
Lemma nb_connector_mono t c sd n r : nb_connector dm t c sd n = Some r -> nb_connector dm' t c sd n = Some r.
Proof.
  destruct sd as [s d]. apply obind_mono; [intros y; apply query_cob_mono|]. intros [s1 [|x l]] z; auto. apply map_mono.
  intros y. apply nb_pairs_mono.
Qed.
Lemma ensure_nb_mono t c s r : ensure_nb dm t c s = Some r -> ensure_nb dm' t c s = Some r.
Proof.
  unfold ensure_nb. destruct (_ =? _); auto. apply map_mono. intros y. apply ofold_mono. intros; now apply nb_connector_mono.
Qed.
Lemma query_nb_mono const t c s a r : query_nb_in dm const t c s a = Some r -> query_nb_in dm' const t c s a = Some r.
Proof.
  apply obind_mono; [intros y; apply ensure_nb_mono|]. intros y z. apply obind_mono; auto.
Qed.

Lemma detect_mono cfg s r : detect_boundary cfg dm s = Some r -> detect_boundary cfg dm' s = Some r.
Proof.
  apply obind_mono.
  - intros y. apply ofold_mono. intros s0 x z. apply ofold_mono. intros s1 b z1. apply map_mono; auto.
  - intros y z. apply obind_mono; auto. intros w. apply ofold_mono. intros s0 t z1. apply map_mono. intros d.
    apply ofold_mono. intros d1 n z2. destruct (read_flag _ _); auto. apply ofold_mono. intros d2 b z3. apply map_mono; auto.
Qed.
Lemma query_bnd_mono cfg t s a r : query_bnd_in cfg dm t s a = Some r -> query_bnd_in cfg dm' t s a = Some r.
Proof.
  apply obind_mono.
  - intros y. destruct (_ =? _); auto. apply detect_mono.
  - intros y z. apply map_mono; auto.
Qed.

End Mono.
