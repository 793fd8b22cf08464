(** Lemmas for C73: the lines of a text. *)
From Coq Require Import Ascii String List Arith ZArith Bool Lia.
From Verif Require Import ModelTopo ModelMesh ModelErase ModelCopySeg ModelXml ModelVtk ModelNetgen ModelPoly SpecVtk SpecNetgen SpecPoly VtkText NetgenText.
Import ListNotations.
Open Scope nat_scope.

Lemma split_lines_take s : forall acc, split_lines acc s = match take_line s with (l, Some r) => (acc ++ l) :: split_lines [] r | (l, None) => [acc ++ l] end.
Proof.
  induction s as [|c s IH]; intros acc; cbn [split_lines take_line]; [now rewrite app_nil_r|].
  destruct (Ascii.eqb c "010"); [now rewrite app_nil_r|]. rewrite IH. destruct (take_line s) as [l [r|]]; now rewrite <- app_assoc.
Qed.
Lemma take_line_shorter s l r : take_line s = (l, Some r) -> List.length r < List.length s.
Proof.
  revert l. induction s as [|c s IH]; intros l; cbn [take_line]; [discriminate|]. destruct (Ascii.eqb c "010"); [intros [= <- <-]; cbn; lia|].
  destruct (take_line s) as [l' o]. intros [= <- ->]. specialize (IH l' eq_refl). cbn. lia.
Qed.
Lemma upto_before s : upto "#" s = before_comment s.
Proof. induction s as [|c s IH]; cbn [upto before_comment]; auto. now rewrite IH. Qed.
Lemma skip_only s : skip_spaces s = [] <-> only_spaces s = true.
Proof. induction s as [|c s IH]; cbn [skip_spaces only_spaces forallb]; [tauto|]. destruct (Ascii.eqb c " "); cbn; [exact IH|]. split; discriminate. Qed.
Lemma skip_words s : words_of (skip_spaces s) = words_of s.
Proof.
  induction s as [|c s IH]; cbn [skip_spaces]; auto. destruct (Ascii.eqb c " ") eqn:E; auto. apply Ascii.eqb_eq in E as ->.
  unfold words_of in *. cbn [split_words]. exact IH.
Qed.

(** What is left are the lines [ls]. *)
Definition ahead (st : stream) (ls : list text) : Prop :=
  lines_of (sm_text st) = ls /\ (sm_good st = false -> sm_text st = []).

Lemma ahead_good st l ls : ahead st (l :: ls) -> sm_good st = true.
Proof. intros [L G]. destruct (sm_good st); auto. rewrite G in L by auto. discriminate L. Qed.

Lemma valid_line_spec fuel : forall st ls, List.length (sm_text st) + 2 <= fuel -> ahead st ls ->
  match ls with
  | [] => exists st', valid_line fuel st = Some (None, st') /\ ahead st' []
  | l :: rest => exists s st', valid_line fuel st = Some (Some s, st') /\ words_of s = words_of l /\ ahead st' rest
  end.
Proof.
  induction fuel as [|fuel IH]; intros st ls L A; [lia|]. cbn [valid_line]. unfold getline.
  destruct (sm_good st) eqn:G.
  - destruct A as [A _]. destruct (sm_text st) as [|c r] eqn:T.
    + subst ls. cbn. eexists. split; [reflexivity|]. split; reflexivity.
    + rewrite <- T in *. unfold lines_of in A. rewrite split_lines_take in A. cbn [app] in A. destruct (take_line (sm_text st)) as [l [r'|]] eqn:E.
      * pose proof (take_line_shorter _ _ _ E) as Sh. rewrite upto_before. cbn [map filter] in A.
        assert (A' : forall x, filter (fun l => negb (only_spaces l)) (map before_comment (split_lines [] r')) = x -> ahead (mkStream r' true) x) by (intros x X; split; [exact X|discriminate]).
        destruct (skip_spaces (before_comment l)) as [|d s] eqn:S.
        -- pose proof S as S'. rewrite skip_only in S. rewrite S in A. cbn [negb] in A. apply IH; auto. cbn. lia.
        -- assert (N : only_spaces (before_comment l) = false) by (destruct (only_spaces (before_comment l)) eqn:O; auto; apply skip_only in O; congruence).
           rewrite N in A. cbn [negb] in A. subst ls. eexists _, _. split; [reflexivity|]. split; [now rewrite <- S, skip_words|]. apply A'. reflexivity.
      * rewrite upto_before. cbn [map filter] in A.
        assert (Z : ahead (mkStream [] false) []) by (split; [reflexivity|reflexivity]).
        destruct (skip_spaces (before_comment l)) as [|d s] eqn:S.
        -- pose proof S as S'. rewrite skip_only in S. rewrite S in A. cbn [negb] in A. subst ls. apply (IH (mkStream [] false) []); auto. cbn. rewrite T in L. cbn in L. lia.
        -- assert (N : only_spaces (before_comment l) = false) by (destruct (only_spaces (before_comment l)) eqn:O; auto; apply skip_only in O; congruence).
           rewrite N in A. cbn [negb] in A. subst ls. eexists _, _. split; [reflexivity|]. split; [now rewrite <- S, skip_words|]. exact Z.
  - destruct ls as [|l ls].
    + exists st. split; auto.
    + apply ahead_good in A. congruence.
Qed.

Lemma get_some st l ls : ahead st (l :: ls) -> exists s st', get_valid_line st = Done (Some s, st') /\ words_of s = words_of l /\ ahead st' ls.
Proof.
  intros A. destruct (valid_line_spec (S (S (List.length (sm_text st)))) st (l :: ls)) as (s & st' & E & W & A'); [lia|exact A|].
  exists s, st'. unfold get_valid_line. now rewrite E.
Qed.
Lemma get_none st : ahead st [] -> exists st', get_valid_line st = Done (None, st').
Proof.
  intros A. destruct (valid_line_spec (S (S (List.length (sm_text st)))) st []) as (st' & E & A'); [lia|exact A|].
  exists st'. unfold get_valid_line. now rewrite E.
Qed.
Lemma need_some st l ls : ahead st (l :: ls) -> exists c st', need_line st = Done (c, st') /\ fed c (words_of l) /\ ahead st' ls.
Proof.
  intros A. destruct (get_some st l ls A) as (s & st' & E & W & A'). exists (mkStream s true), st'. unfold need_line. rewrite E. cbn. split; auto. split; auto.
  split; auto.
Qed.
Lemma need_none st : ahead st [] -> need_line st = Thrown.
Proof. intros A. destruct (get_none st A) as (st' & E). unfold need_line. now rewrite E. Qed.

Lemma ahead_text s : ahead (mkStream s true) (lines_of s).
Proof. split; [reflexivity|discriminate]. Qed.

Lemma need_int_spec st z ws : fed st (num z :: ws) -> exists st', need_int st = Done (z, st') /\ fed st' ws.
Proof. intros H. destruct (fed_int st z ws H) as (st' & E & F & _). exists st'. unfold need_int. rewrite E. cbn. auto. Qed.
Lemma next_int_spec st z ws : fed st (num z :: ws) -> exists st', next_int st = Done (Some z, st') /\ fed st' ws.
Proof. intros H. destruct (fed_int st z ws H) as (st' & E & F & _). exists st'. auto. Qed.
Lemma next_word_none st : fed st [] -> exists st', next_word st = (None, st') /\ fed st' [].
Proof.
  intros [W _]. unfold next_word. destruct (sm_good st) eqn:G.
  - pose proof (read_word_words (sm_text st)) as R. destruct (read_word (sm_text st)) as [[w r]|].
    + destruct R as [R _]. congruence.
    + eexists. split; [reflexivity|]. split; [reflexivity|congruence].
  - exists st. split; auto. split; [exact W|congruence].
Qed.
Lemma next_int_none st : fed st [] -> exists st', next_int st = Done (None, st') /\ fed st' [].
Proof. intros H. destruct (next_word_none st H) as (st' & E & F). exists st'. unfold next_int. rewrite E. auto. Qed.
Lemma need_int_none st : fed st [] -> need_int st = Undefined.
Proof. intros H. destruct (next_int_none st H) as (st' & E & F). unfold need_int. rewrite E. reflexivity. Qed.
Lemma int_or_num d st z ws : fed st (num z :: ws) -> exists st', int_or d st = Done (z, st') /\ fed st' ws.
Proof. intros H. destruct (next_int_spec st z ws H) as (st' & E & F). exists st'. unfold int_or. rewrite E. auto. Qed.
Lemma int_or_none d st : fed st [] -> exists st', int_or d st = Done (d, st') /\ fed st' [].
Proof. intros H. destruct (next_int_none st H) as (st' & E & F). exists st'. unfold int_or. rewrite E. auto. Qed.
