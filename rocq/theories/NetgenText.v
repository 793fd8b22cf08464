(** Lemmas for C67: the words of a text. *)
From Coq Require Import Ascii String DecimalString Decimal DecimalZ List Arith ZArith Bool Lia.
From Verif Require Import ModelTopo ModelMesh ModelErase ModelQuery ModelView ModelSegmentation ModelSegment ModelCopy ModelCopySeg ModelXml ModelVtk ModelNetgen
  SpecVtk SpecNetgen VtkText.
Import ModelSegmentation ListNotations.
Open Scope nat_scope.

Lemma sep_blank c : separator c = blank c.
Proof. destruct c as [[] [] [] [] [] [] [] []]; reflexivity. Qed.

Lemma split_take s : forall w, w <> [] -> split_words w s = (w ++ fst (take_word s)) :: words_of (snd (take_word s)).
Proof.
  induction s as [|c s IH]; intros w W; cbn [split_words take_word].
  - cbn. rewrite app_nil_r. destruct w; congruence.
  - rewrite sep_blank. destruct (blank c) eqn:B; cbn [fst snd].
    + rewrite app_nil_r. unfold words_of. cbn [split_words]. rewrite sep_blank, B. destruct w; congruence.
    + rewrite IH by (destruct w; discriminate). destruct (take_word s) as [u r]. cbn [fst snd]. now rewrite <- app_assoc.
Qed.
Lemma words_skip s : words_of (skip_blanks s) = words_of s.
Proof. induction s as [|c s IH]; cbn [skip_blanks]; auto. unfold words_of in *. cbn [split_words]. rewrite sep_blank. destruct (blank c) eqn:B; [exact IH|]. cbn [split_words]. now rewrite sep_blank, B. Qed.
Lemma take_app s : fst (take_word s) ++ snd (take_word s) = s.
Proof. induction s as [|c s IH]; cbn [take_word]; auto. destruct (blank c); cbn; auto. destruct (take_word s). cbn in *. now rewrite IH. Qed.
Lemma skip_app s : exists b, s = b ++ skip_blanks s.
Proof. induction s as [|c s (b & IH)]; cbn [skip_blanks]; [exists []; auto|]. destruct (blank c); [|exists []; auto]. exists (c :: b). cbn. now rewrite <- IH. Qed.
Lemma skip_head s c r : skip_blanks s = c :: r -> blank c = false.
Proof. induction s as [|x s IH]; cbn [skip_blanks]; [discriminate|]. destruct (blank x) eqn:B; auto. now intros [= <- <-]. Qed.

Lemma read_word_words s : match read_word s with
  | None => words_of s = []
  | Some (w, r) => words_of s = w :: words_of r /\ exists u, s = u ++ r
  end.
Proof.
  unfold read_word. rewrite <- (words_skip s). destruct (skip_app s) as (b & E). destruct (skip_blanks s) as [|c r] eqn:S; [reflexivity|].
  pose proof (skip_head _ _ _ S) as B. pose proof (take_app (c :: r)) as A.
  assert (W : words_of (c :: r) = (c :: fst (take_word r)) :: words_of (snd (take_word r))).
  { unfold words_of at 1. cbn [split_words]. rewrite sep_blank, B. cbn [app]. now rewrite split_take. }
  cbn [take_word] in *. rewrite B in *. destruct (take_word r) as [u r']. cbn [fst snd] in *. split; [exact W|]. exists (b ++ c :: u). rewrite <- app_assoc, <- A in *. exact E.
Qed.

Lemma split_nonempty s c : separator c = false -> forall w, split_words w (s ++ [c]) <> [].
Proof.
  intros B. induction s as [|x s IH]; intros w; cbn [app split_words].
  - rewrite B. cbn. destruct w; discriminate.
  - destruct (separator x); [destruct w; [apply IH|discriminate]|apply IH].
Qed.
Lemma ends_words s : ends_in_word s -> words_of s <> [].
Proof. intros (r & c & -> & B). now apply split_nonempty. Qed.
Lemma ends_suffix u r : ends_in_word (u ++ r) -> r = [] \/ ends_in_word r.
Proof.
  intros (x & c & E & B). destruct r as [|d r]; auto. destruct (@exists_last _ (d :: r)) as (r0 & d' & E'); [discriminate|].
  right. rewrite E' in *. rewrite app_assoc in E. apply app_inj_tail in E as [_ ->]. exists r0, c. auto.
Qed.

(** The state of the stream: the words to come; the text does not end with blanks. *)
Definition fed (st : stream) (ws : list text) : Prop := words_of (sm_text st) = ws /\ (ws <> [] -> sm_good st = true).
Definition tight (st : stream) : Prop := (sm_text st = [] /\ sm_good st = false) \/ ends_in_word (sm_text st).

Lemma tight_end st : fed st [] -> tight st -> sm_good st = false.
Proof. intros [W _] [[_ G]|E]; auto. now apply ends_words in E. Qed.

Lemma fed_word st w ws : fed st (w :: ws) -> exists st', next_word st = (Some w, st') /\ fed st' ws /\ (tight st -> tight st').
Proof.
  intros [W G]. unfold next_word. rewrite G by discriminate. pose proof (read_word_words (sm_text st)) as R. destruct (read_word (sm_text st)) as [[w' r]|].
  - destruct R as [R (u & E)]. rewrite R in W. inversion W; subst w' ws. eexists. split; [reflexivity|]. split.
    + split; [reflexivity|]. cbn. destruct r; auto.
    + intros T. destruct r as [|c r]; [left; auto|]. right. cbn [sm_text]. destruct T as [[T _]|T].
      * rewrite T in E. destruct u; discriminate E.
      * rewrite E in T. apply ends_suffix in T as [T|T]; [discriminate|exact T].
  - rewrite R in W. discriminate W.
Qed.
Lemma not_good_word st : sm_good st = false -> next_word st = (None, st).
Proof. intros G. unfold next_word. now rewrite G. Qed.

Lemma int_of_num z : int_of (num z) = Some z.
Proof.
  assert (A : int_of (num z) = Some (atoi (num z))).
  { unfold int_of, num. unfold decimal. destruct (Z.to_int z) as [u|u]; cbn [NilZero.string_of_int list_ascii_of_string].
    - destruct (uint_head u) as (c & r & E & d & D). unfold txt in E. pose proof (nilzero_chars u) as C. unfold txt in C. rewrite E in *.
      assert (X : Ascii.eqb c "-" || Ascii.eqb c "+" = false) by (destruct c as [[] [] [] [] [] [] [] []]; try discriminate D; reflexivity).
      rewrite X. replace (forallb _ (c :: r)) with true; [reflexivity|]. symmetry. apply forallb_forall. intros x H. destruct (C x H) as (y & ->). reflexivity.
    - cbn [Ascii.eqb orb]. destruct (uint_head u) as (c & r & E & d & D). unfold txt in E. pose proof (nilzero_chars u) as C. unfold txt in C. rewrite E in *.
      cbv [Ascii.eqb Bool.eqb]. cbv iota. cbn [orb].
      replace (forallb _ (c :: r)) with true; [reflexivity|]. symmetry. apply forallb_forall. intros x H. destruct (C x H) as (y & ->). reflexivity. }
  rewrite A. f_equal. apply atoi_decimal.
Qed.
Lemma fed_int st z ws : fed st (num z :: ws) -> exists st', next_int st = Done (Some z, st') /\ fed st' ws /\ (tight st -> tight st').
Proof.
  intros F. destruct (fed_word st _ _ F) as (st' & E & F' & T). exists st'. unfold next_int. rewrite E, int_of_num. cbn. auto.
Qed.
Lemma fed_good st w ws : fed st (w :: ws) -> sm_good st = true.
Proof. intros [_ G]. apply G. discriminate. Qed.

Section Coords.
Context {K : Type}.
Variable F : format K.

Lemma coords_spec ws p rest : point_text F ws p -> forall st, fed st (ws ++ rest) ->
  exists st', read_coords F (List.length p) st = Done (p, st') /\ fed st' rest /\ (tight st -> tight st').
Proof.
  intros H. induction H as [|w x ws p Hx H IH]; intros st FD; cbn [List.length read_coords].
  - exists st. auto.
  - destruct (fed_word st _ _ FD) as (st1 & E1 & F1 & T1). rewrite E1, Hx. cbn [of_option rbind fst snd].
    destruct (IH st1 F1) as (st2 & E2 & F2 & T2). rewrite E2. cbn. exists st2. auto.
Qed.
Lemma coords_dead n : forall st, sm_good st = false -> read_coords F n st = Done (repeat (f_zero F) n, st).
Proof. induction n as [|n IH]; intros st G; cbn [read_coords repeat]; auto. rewrite not_good_word by auto. cbn [rbind fst snd]. rewrite IH by auto. reflexivity. Qed.
Lemma coords_short ws p : point_text F ws p -> forall k st, k < List.length ws -> fed st (firstn k ws) -> tight st ->
  exists q st', read_coords F (List.length p) st = Done (q, st') /\ sm_good st' = false.
Proof.
  intros H. induction H as [|w x ws p Hx H IH]; intros k st L FD T; cbn [List.length] in *; [lia|].
  destruct k as [|k]; cbn [firstn] in FD.
  - eexists _, st. split; [apply (coords_dead (S (List.length p))), tight_end; auto|now apply tight_end].
  - destruct (fed_word st _ _ FD) as (st1 & E1 & F1 & T1). cbn [read_coords]. rewrite E1, Hx. cbn [of_option rbind fst snd].
    destruct (IH k st1) as (q & st2 & E2 & G2); auto; [lia|]. rewrite E2. cbn. eauto.
Qed.
End Coords.
