From Coq Require Import Ascii String List Arith Bool Lia.
From Verif Require Import ModelCopySeg ModelXml SpecXml.
Import ListNotations.
Local Open Scope char_scope.

Lemma lower_small c : lower c = small c.
Proof. destruct c as [[] [] [] [] [] [] [] []]; reflexivity. Qed.
Lemma lower_all_small s : lower_all s = small_letters s.
Proof. unfold lower_all, small_letters. apply map_ext. apply lower_small. Qed.

Lemma skip_junk junk r : free_of ["<"] junk -> skip_to_tag (junk ++ "<" :: r) = Some r.
Proof.
  induction junk as [|x junk IH]; intros F; cbn [app skip_to_tag]; [reflexivity|].
  destruct (Ascii.eqb_spec x "<") as [->|_].
  - destruct (F "<"); simpl; auto.
  - apply IH. intros c Hc. apply F. now right.
Qed.

Lemma read_name_spec n c r : tag_name_ok n -> c = " " \/ c = ">" -> read_name (n ++ c :: r) = (lower_all n, Some c, r).
Proof.
  intros F H. induction n as [|x n IH]; cbn [app read_name lower_all map].
  - destruct H as [-> | ->]; reflexivity.
  - destruct (Ascii.eqb_spec x " ") as [->|_]; [destruct (F " "); simpl; auto|].
    destruct (Ascii.eqb_spec x ">") as [->|_]; [destruct (F ">"); simpl; auto|].
    cbn [orb]. rewrite IH; [reflexivity|]. intros y Hy. apply F. now right.
Qed.

(** Characters outside of a string. *)
Lemma read_outside s : forall c r tok attrs, c <> ">" -> free_of [" "; """"; ">"] s ->
  read_attrs c (s ++ r) (mkA false tok attrs) = read_attrs (last s c) r (mkA false (tok ++ lower_all s) attrs).
Proof.
  induction s as [|x s IH]; intros c r tok attrs Hc F.
  - cbn [app lower_all map last]. now rewrite app_nil_r.
  - cbn [app read_attrs]. destruct (Ascii.eqb_spec c ">") as [->|_]; [congruence|].
    assert (Fx : ~ In x [" "; """"; ">"]) by (apply F; now left).
    unfold attr_char. cbn [a_inside a_token a_attrs].
    destruct (Ascii.eqb_spec x """") as [->|_]; [destruct Fx; simpl; auto|]. cbn [orb andb].
    destruct (Ascii.eqb_spec x " ") as [->|_]; [destruct Fx; simpl; auto|]. cbn [rbind].
    rewrite IH; [|intros ->; apply Fx; simpl; auto|intros y Hy; apply F; now right].
    replace ((tok ++ [lower x]) ++ lower_all s) with (tok ++ lower_all (x :: s)) by (cbn; now rewrite <- app_assoc).
    replace (last (x :: s) c) with (last s x); [reflexivity|].
    destruct s as [|y s]; [reflexivity|]. cbn. clear. revert y. induction s as [|z s IHs]; intros y; [reflexivity|]. cbn in *. apply IHs.
Qed.

(** Characters inside of a string. *)
Lemma read_inside s : forall c r tok attrs, c <> ">" -> free_of [""""; ">"] s ->
  exists c', c' <> ">" /\ read_attrs c (s ++ r) (mkA true tok attrs) = read_attrs c' r (mkA true (tok ++ s) attrs).
Proof.
  induction s as [|x s IH]; intros c r tok attrs Hc F.
  - exists c. split; auto. cbn [app]. now rewrite app_nil_r.
  - assert (Fx : ~ In x [""""; ">"]) by (apply F; now left).
    assert (Hx : x <> ">") by (intros ->; apply Fx; simpl; auto).
    destruct (IH x r (tok ++ [x]) attrs Hx) as (c' & Hc' & E); [intros y Hy; apply F; now right|].
    exists c'. split; auto. cbn [app read_attrs]. destruct (Ascii.eqb_spec c ">") as [->|_]; [congruence|].
    unfold attr_char. cbn [a_inside a_token a_attrs].
    destruct (Ascii.eqb_spec x """") as [->|_]; [destruct Fx; simpl; auto|]. cbn [orb andb rbind].
    rewrite E. now rewrite <- app_assoc.
Qed.

Lemma find_char_app c s r : ~ In c s -> find_char c (s ++ c :: r) = Some (List.length s).
Proof.
  induction s as [|x s IH]; intros H; cbn [app find_char List.length]; [now rewrite Ascii.eqb_refl|].
  destruct (Ascii.eqb_spec x c) as [->|_]; [destruct H; now left|]. rewrite IH; [reflexivity|]. intros Hc. apply H. now right.
Qed.
Lemma rfind_char_none c s : ~ In c s -> rfind_char c s = None.
Proof.
  induction s as [|x s IH]; intros H; cbn [rfind_char]; [reflexivity|]. rewrite IH by (intros Hc; apply H; now right).
  destruct (Ascii.eqb_spec x c) as [->|_]; [destruct H; now left|reflexivity].
Qed.
Lemma rfind_char_app c s r : ~ In c r -> rfind_char c (s ++ c :: r) = Some (List.length s).
Proof.
  intros H. induction s as [|x s IH]; cbn [app rfind_char List.length].
  - rewrite rfind_char_none by auto. now rewrite Ascii.eqb_refl.
  - now rewrite IH.
Qed.
Lemma firstn_exact {A} (l r : list A) : firstn (List.length l) (l ++ r) = l.
Proof. rewrite firstn_app, Nat.sub_diag, firstn_all. apply app_nil_r. Qed.
Lemma skipn_exact {A} (l r : list A) n : n = List.length l -> skipn n (l ++ r) = r.
Proof. intros ->. rewrite skipn_app, Nat.sub_diag, skipn_all. reflexivity. Qed.

Lemma lower_notin c s : (forall x, lower x = c -> x = c) -> ~ In c s -> ~ In c (lower_all s).
Proof. intros L H Hc. apply in_map_iff in Hc as (x & E & Hx). apply L in E. subst. contradiction. Qed.
Lemma lower_eq x : lower x = "=" -> x = "=".
Proof. destruct x as [[] [] [] [] [] [] [] []]; try discriminate; auto. Qed.

Lemma attribute_spec n v : attr_ok (n, v) ->
  attribute (lower_all n ++ ["="; """"] ++ v ++ [""""]) = Done (lower_all n, v).
Proof.
  intros [[Nn Fn] [Nv Fv]]. cbn [fst snd] in *. unfold attribute.
  assert (E : find_char "=" (lower_all n ++ ["="; """"] ++ v ++ [""""]) = Some (List.length (lower_all n))).
  { apply find_char_app. apply lower_notin; [apply lower_eq|]. intros H. apply (Fn "=" H). simpl. auto. }
  rewrite E. assert (L : List.length (lower_all n) <> 0%nat).
  { unfold lower_all. rewrite map_length. destruct n; [congruence|discriminate]. }
  destruct (List.length (lower_all n)) as [|k] eqn:Ek; [congruence|]. rewrite <- Ek.
  assert (Lt : Nat.ltb (List.length (lower_all n ++ ["="; """"] ++ v ++ [""""])) (List.length (lower_all n) + 2) = false).
  { apply Nat.ltb_ge. rewrite !app_length. cbn. lia. }
  rewrite Lt.
  assert (S : skipn (List.length (lower_all n) + 2) (lower_all n ++ ["="; """"] ++ v ++ [""""]) = v ++ [""""]).
  { rewrite app_assoc. apply skipn_exact. rewrite app_length. reflexivity. }
  rewrite S, rfind_char_app by (intros []).
  destruct (List.length v) as [|j] eqn:Ev; [destruct v; [congruence|discriminate]|]. rewrite <- Ev.
  now rewrite !firstn_exact.
Qed.

Lemma free_incl cs cs' s : incl cs' cs -> free_of cs s -> free_of cs' s.
Proof. intros I F c Hc H. apply (F c Hc). now apply I. Qed.

Lemma written_attr_app nv r : written_attr nv ++ r = " " :: (fst nv ++ "=" :: """" :: snd nv ++ """" :: r).
Proof. unfold written_attr. cbn [app]. rewrite <- app_assoc. cbn [app]. now rewrite <- app_assoc. Qed.

Lemma last_not (c : ascii) s d : d <> c -> ~ In c s -> last s d <> c.
Proof.
  intros D. revert d D. induction s as [|x s IH]; intros d D H; [auto|]. destruct s as [|y s]; [cbn; intros ->; apply H; now left|].
  change (last (x :: y :: s) d) with (last (y :: s) d). apply IH; auto. intros Hc. apply H. now right.
Qed.

(** One attribute. *)
Lemma read_attr_spec nv c r attrs : attr_ok nv -> c <> ">" ->
  read_attrs c (written_attr nv ++ r) (mkA false [] attrs) = read_attrs """" r (mkA false [] (attrs ++ [(lower_all (fst nv), snd nv)])).
Proof.
  destruct nv as [n v]. intros O Hc. pose proof O as [[Nn Fn] [Nv Fv]]. rewrite written_attr_app. cbn [fst snd] in *.
  cbn [read_attrs]. destruct (Ascii.eqb_spec c ">") as [->|_]; [congruence|].
  change (attr_char " " (mkA false [] attrs)) with (Done (mkA false [] attrs)). cbn [rbind].
  replace (n ++ "=" :: """" :: v ++ """" :: r) with ((n ++ ["="]) ++ """" :: v ++ """" :: r) by now rewrite <- app_assoc.
  rewrite read_outside; [|discriminate|].
  2:{ intros x Hx. apply in_app_iff in Hx as [Hx|[<-|[]]]; [|cbn; intuition discriminate].
      intros H. apply (Fn x Hx). cbn in *. tauto. }
  cbn [app]. assert (Hl : last (n ++ ["="]) " " <> ">").
  { apply last_not; [discriminate|]. intros H. apply in_app_iff in H as [H|[H|[]]]; [|discriminate]. apply (Fn _ H). cbn. auto. }
  set (c1 := last _ _) in *. cbn [read_attrs]. destruct (Ascii.eqb_spec c1 ">") as [E|_]; [congruence|].
  unfold attr_char at 1. cbn [a_inside a_token a_attrs orb andb]. change (Ascii.eqb """" """") with true. cbn [rbind orb andb].
  destruct (read_inside v """" (""""  :: r) ((lower_all (n ++ ["="])) ++ [""""]) attrs) as (c2 & Hc2 & E2); [discriminate|auto|].
  etransitivity; [exact E2|]. cbn [read_attrs]. destruct (Ascii.eqb_spec c2 ">") as [E|_]; [congruence|].
  unfold attr_char at 1. cbn [a_inside a_token a_attrs]. change (Ascii.eqb """" """") with true. cbn [rbind orb andb].
  assert (T : ((lower_all (n ++ ["="]) ++ [""""]) ++ v) ++ [""""] = lower_all n ++ ["="; """"] ++ v ++ [""""]).
  { unfold lower_all. rewrite map_app. cbn [map]. rewrite <- !app_assoc. reflexivity. }
  rewrite T, (attribute_spec n v O). reflexivity.
Qed.

Lemma read_attrs_spec l : forall c r attrs, Forall attr_ok l -> c <> ">" -> exists c', c' <> ">" /\
  read_attrs c (concat (map written_attr l) ++ r) (mkA false [] attrs) =
  read_attrs c' r (mkA false [] (attrs ++ map (fun nv => (lower_all (fst nv), snd nv)) l)).
Proof.
  induction l as [|nv l IH]; intros c r attrs F Hc; cbn [map concat app].
  - exists c. split; auto. now rewrite app_nil_r.
  - inversion F; subst. rewrite <- app_assoc, read_attr_spec by auto.
    destruct (IH """" r (attrs ++ [(lower_all (fst nv), snd nv)])) as (c' & Hc' & E); auto; [discriminate|].
    exists c'. split; auto. rewrite E. now rewrite <- app_assoc.
Qed.

(** The tail before the closing bracket. *)
Lemma read_tail s : forall c r tok attrs, c <> ">" -> free_of [""""; ">"] s ->
  read_attrs c (s ++ ">" :: r) (mkA false tok attrs) = Done (attrs, r).
Proof.
  induction s as [|x s IH]; intros c r tok attrs Hc F.
  - cbn [app read_attrs]. destruct (Ascii.eqb_spec c ">") as [->|_]; [congruence|].
    unfold attr_char. cbn [a_inside a_token a_attrs]. change (Ascii.eqb ">" """") with false. change (Ascii.eqb ">" " ") with false.
    cbn [orb andb rbind]. destruct r; reflexivity.
  - assert (Fx : ~ In x [""""; ">"]) by (apply F; now left).
    cbn [app read_attrs]. destruct (Ascii.eqb_spec c ">") as [->|_]; [congruence|].
    unfold attr_char. cbn [a_inside a_token a_attrs].
    destruct (Ascii.eqb_spec x """") as [->|_]; [destruct Fx; simpl; auto|]. cbn [orb andb rbind].
    destruct (Ascii.eqb x " "); apply IH; try (intros ->; apply Fx; simpl; auto; fail); intros y Hy; apply F; now right.
Qed.

Lemma parse_written junk name attrs tail rest : free_of ["<"] junk -> tag_name_ok name -> Forall attr_ok attrs -> tail_ok attrs tail ->
  parse_tag (junk ++ written_tag name attrs tail ++ rest) =
  Done (mkTag (lower_all name) (map (fun nv => (lower_all (fst nv), snd nv)) attrs), rest).
Proof.
  intros J N A [T0 T1]. unfold parse_tag, written_tag. cbn [app]. rewrite skip_junk by auto.
  rewrite <- !app_assoc. cbn [app]. destruct attrs as [|nv attrs].
  - cbn [map concat app]. destruct (T1 eq_refl) as [->|(tl & ->)].
    + cbn [app]. rewrite read_name_spec by auto. reflexivity.
    + cbn [app]. rewrite read_name_spec by auto. change (Ascii.eqb " " ">") with false.
      rewrite read_tail; [reflexivity|discriminate|]. intros x Hx. apply T0. now right.
  - cbn [map concat]. rewrite <- app_assoc, written_attr_app, read_name_spec by auto. change (Ascii.eqb " " ">") with false.
    inversion A; subst. pose proof (read_attr_spec nv " " (concat (map written_attr attrs) ++ tail ++ ">" :: rest) [] H1) as E.
    assert (NE : " " <> ">") by discriminate. specialize (E NE). rewrite written_attr_app in E.
    cbn [read_attrs] in E. change (Ascii.eqb " " ">") with false in E. change (attr_char " " (mkA false [] [])) with (Done (mkA false [] [])) in E.
    cbn [rbind] in E. etransitivity; [apply f_equal2; [exact E|reflexivity]|].
    destruct (read_attrs_spec attrs """" (tail ++ ">" :: rest) ([] ++ [(lower_all (fst nv), snd nv)])) as (c' & Hc' & E2); auto; [discriminate|].
    rewrite E2, read_tail by auto. reflexivity.
Qed.

Lemma C60_parse_pf : forall junk name attrs tail rest,
  free_of ["<"] junk -> tag_name_ok name -> Forall attr_ok attrs -> tail_ok attrs tail ->
  parse_tag (junk ++ written_tag name attrs tail ++ rest) =
  Done (mkTag (small_letters name) (map (fun nv => (small_letters (fst nv), snd nv)) attrs), rest).
Proof.
  intros. rewrite parse_written by auto. rewrite <- lower_all_small. f_equal. f_equal. f_equal.
  apply map_ext. intros nv. now rewrite lower_all_small.
Qed.

Lemma skip_to_tag_suffix s : forall r, skip_to_tag s = Some r -> exists p, s = p ++ "<" :: r.
Proof.
  induction s as [|x s IH]; intros r H; cbn [skip_to_tag] in H; [discriminate|].
  destruct (Ascii.eqb_spec x "<") as [->|_]; [inversion H; subst; exists []; reflexivity|].
  apply IH in H as (p & ->). exists (x :: p). reflexivity.
Qed.
Lemma read_name_suffix s : forall n e r, read_name s = (n, e, r) -> exists p, s = p ++ r.
Proof.
  induction s as [|x s IH]; intros n e r H; cbn [read_name] in H; [inversion H; subst; exists []; reflexivity|].
  destruct (_ || _); [inversion H; subst; exists [x]; reflexivity|].
  destruct (read_name s) as [[n' e'] r'] eqn:E. inversion H; subst. destruct (IH _ _ _ eq_refl) as (p & ->). exists (x :: p). reflexivity.
Qed.
Lemma read_attrs_suffix s : forall c st a r, read_attrs c s st = Done (a, r) -> exists p, s = p ++ r.
Proof.
  induction s as [|x s IH]; intros c st a r H; cbn [read_attrs] in H; destruct (Ascii.eqb c ">").
  - inversion H; subst. exists []. reflexivity.
  - destruct (attr_char c st); [|discriminate..]. inversion H; subst. exists []. reflexivity.
  - inversion H; subst. exists []. reflexivity.
  - destruct (attr_char x st); [|discriminate..]. apply IH in H as (p & ->). exists (x :: p). reflexivity.
Qed.

Lemma C60_progress_pf : forall s, parse_tag s = Thrown \/ exists t r p, parse_tag s = Done (t, r) /\ s = p ++ r /\ p <> [].
Proof.
  intros s. unfold parse_tag. destruct (skip_to_tag s) as [r|] eqn:E; [|auto].
  apply skip_to_tag_suffix in E as (p & ->). destruct (read_name r) as [[n e] r'] eqn:En.
  pose proof (read_name_suffix _ _ _ _ En) as (p' & ->).
  assert (Q : forall p2, p ++ "<" :: p' ++ p2 = (p ++ "<" :: p') ++ p2) by (intros; now rewrite <- app_assoc).
  assert (NN : forall q, (p ++ "<" :: p') ++ q <> []) by (intros q; destruct p; discriminate).
  destruct e as [c|].
  - destruct (Ascii.eqb c ">").
    + right. exists (mkTag n []), r', (p ++ "<" :: p'). rewrite Q. split; auto. split; auto. destruct p; discriminate.
    + destruct (read_attrs c r' (mkA false [] [])) as [[a r2]| |] eqn:Ea; cbn [rbind]; auto.
      * right. pose proof (read_attrs_suffix _ _ _ _ _ Ea) as (p2 & ->). exists (mkTag n a), r2, ((p ++ "<" :: p') ++ p2).
        cbn [fst snd]. split; auto. split; [rewrite Q; rewrite <- (app_assoc (p ++ "<" :: p') p2 r2); reflexivity|apply NN].
      * exfalso. assert (U : forall s c st, read_attrs c s st <> Undefined).
        { assert (UA : forall t, attribute t <> Undefined).
          { intros t. unfold attribute. destruct (find_char "=" t) as [[|k]|]; try discriminate.
            destruct (Nat.ltb _ _); try discriminate. destruct (rfind_char _ _) as [[|j]|]; discriminate. }
          assert (UC : forall c st, attr_char c st <> Undefined).
          { intros c0 st. unfold attr_char. destruct (_ && _); [|discriminate]. match goal with |- rbind (attribute ?T) _ <> _ => pose proof (UA T); destruct (attribute T); cbn; congruence end. }
          induction s as [|x s IH]; intros c0 st; cbn [read_attrs]; destruct (Ascii.eqb c0 ">"); try discriminate.
          - pose proof (UC c0 st). destruct (attr_char c0 st); cbn; congruence.
          - pose proof (UC x st). destruct (attr_char x st); cbn; auto; congruence. }
        eapply U; eauto.
  - right. exists (mkTag n []), [], (p ++ "<" :: p' ++ r'). split; auto. split; [now rewrite app_nil_r|destruct p; discriminate].
Qed.

Lemma C60_bracket_refuted_pf : forall junk name attrs a v w tail rest,
  free_of ["<"] junk -> tag_name_ok name -> Forall attr_ok attrs -> attr_name_ok a -> free_of [""""; ">"] v ->
  parse_tag (junk ++ written_tag name (attrs ++ [(a, v ++ ">" :: w)]) tail ++ rest) =
  Done (mkTag (small_letters name) (map (fun nv => (small_letters (fst nv), snd nv)) attrs), w ++ """" :: tail ++ ">" :: rest).
Proof.
  intros junk name attrs a v w tail rest J N A [Na Fa] Fv. unfold parse_tag, written_tag. cbn [app]. rewrite skip_junk by auto.
  rewrite map_app, concat_app. cbn [map concat]. rewrite app_nil_r, <- !app_assoc. rewrite written_attr_app. cbn [fst snd app].
  rewrite <- !app_assoc. cbn [app].
  assert (K : forall c at0, c <> ">" -> read_attrs c (" " :: a ++ "=" :: """" :: v ++ ">" :: w ++ """" :: tail ++ ">" :: rest) (mkA false [] at0)
    = Done (at0, w ++ """" :: tail ++ ">" :: rest)).
  { intros c at0 Hc. cbn [read_attrs]. destruct (Ascii.eqb_spec c ">") as [->|_]; [congruence|].
    change (attr_char " " (mkA false [] at0)) with (Done (mkA false [] at0)). cbn [rbind].
    replace (a ++ "=" :: """" :: v ++ ">" :: w ++ """" :: tail ++ ">" :: rest) with ((a ++ ["="]) ++ """" :: v ++ ">" :: w ++ """" :: tail ++ ">" :: rest) by now rewrite <- app_assoc.
    rewrite read_outside; [|discriminate|].
    2:{ intros x Hx. apply in_app_iff in Hx as [Hx|[<-|[]]]; [|cbn; intuition discriminate].
        intros H. apply (Fa x Hx). cbn in *. tauto. }
    assert (Hl : last (a ++ ["="]) " " <> ">").
    { apply last_not; [discriminate|]. intros H. apply in_app_iff in H as [H|[H|[]]]; [|discriminate]. apply (Fa _ H). cbn. auto. }
    set (c1 := last _ _) in *. cbn [app read_attrs]. destruct (Ascii.eqb_spec c1 ">") as [E|_]; [congruence|].
    unfold attr_char at 1. cbn [a_inside a_token a_attrs orb andb]. change (Ascii.eqb """" """") with true. cbn [rbind orb andb].
    destruct (read_inside v """" (">" :: w ++ """" :: tail ++ ">" :: rest) ((lower_all (a ++ ["="])) ++ [""""]) at0) as (c2 & Hc2 & E2); [discriminate|auto|].
    etransitivity; [exact E2|]. cbn [read_attrs]. destruct (Ascii.eqb_spec c2 ">") as [E|_]; [congruence|].
    unfold attr_char at 1. cbn [a_inside a_token a_attrs]. change (Ascii.eqb ">" """") with false. cbn [rbind orb andb].
    destruct (w ++ """" :: tail ++ ">" :: rest); reflexivity. }
  assert (M : map (fun nv => (lower_all (fst nv), snd nv)) attrs = map (fun nv => (small_letters (fst nv), snd nv)) attrs).
  { apply map_ext. intros nv. now rewrite lower_all_small. }
  destruct attrs as [|nv attrs].
  - cbn [map concat app]. rewrite read_name_spec by auto. change (Ascii.eqb " " ">") with false.
    assert (NE : " " <> ">") by discriminate. pose proof (K " " [] NE) as E.
    cbn [read_attrs] in E. change (Ascii.eqb " " ">") with false in E. change (attr_char " " (mkA false [] [])) with (Done (mkA false [] [])) in E.
    cbn [rbind] in E. etransitivity; [apply f_equal2; [exact E|reflexivity]|]. cbn. now rewrite lower_all_small.
  - cbn [map concat]. rewrite <- app_assoc, written_attr_app, read_name_spec by auto. change (Ascii.eqb " " ">") with false.
    inversion A; subst. set (R := " " :: a ++ _) in *.
    pose proof (read_attr_spec nv " " (concat (map written_attr attrs) ++ R) [] H1) as E.
    assert (NE : " " <> ">") by discriminate. specialize (E NE). rewrite written_attr_app in E.
    cbn [read_attrs] in E. change (Ascii.eqb " " ">") with false in E. change (attr_char " " (mkA false [] [])) with (Done (mkA false [] [])) in E.
    cbn [rbind] in E. etransitivity; [apply f_equal2; [exact E|reflexivity]|].
    destruct (read_attrs_spec attrs """" R ([] ++ [(lower_all (fst nv), snd nv)])) as (c' & Hc' & E2); auto; [discriminate|].
    rewrite E2. unfold R. rewrite K by auto. cbn [rbind fst snd]. rewrite <- lower_all_small. f_equal. f_equal. f_equal. exact M.
Qed.

Lemma C60_empty_refuted_pf : forall junk name a tail rest,
  free_of ["<"] junk -> tag_name_ok name -> attr_name_ok a ->
  parse_tag (junk ++ written_tag name [(a, [])] tail ++ rest) = Thrown.
Proof.
  intros junk name a tail rest J N [Na Fa]. unfold parse_tag, written_tag. cbn [app]. rewrite skip_junk by auto.
  cbn [map concat]. rewrite app_nil_r, <- !app_assoc. rewrite written_attr_app. cbn [fst snd app].
  rewrite read_name_spec by auto. change (Ascii.eqb " " ">") with false.
  cbn [app]. set (R := tail ++ ">" :: rest).
  replace (a ++ "=" :: """" :: """" :: R) with ((a ++ ["="]) ++ """" :: """" :: R) by now rewrite <- app_assoc.
  rewrite read_outside; [|discriminate|].
  2:{ intros x Hx. apply in_app_iff in Hx as [Hx|[<-|[]]]; [|cbn; intuition discriminate].
      intros H. apply (Fa x Hx). cbn in *. tauto. }
  assert (Hl : last (a ++ ["="]) " " <> ">").
  { apply last_not; [discriminate|]. intros H. apply in_app_iff in H as [H|[H|[]]]; [|discriminate]. apply (Fa _ H). cbn. auto. }
  set (c1 := last _ _) in *. cbn [app read_attrs]. destruct (Ascii.eqb_spec c1 ">") as [E|_]; [congruence|].
  unfold attr_char. cbn [a_inside a_token a_attrs orb andb]. change (Ascii.eqb """" """") with true. cbn [rbind orb andb a_inside a_token a_attrs].
  change (Ascii.eqb """" ">") with false. cbn [rbind].
  assert (T : (lower_all (a ++ ["="]) ++ [""""]) ++ [""""] = lower_all a ++ "=" :: ["""" ; """"]).
  { unfold lower_all. rewrite map_app. cbn [map]. rewrite <- !app_assoc. reflexivity. }
  rewrite T. unfold attribute. rewrite find_char_app.
  2:{ apply lower_notin; [apply lower_eq|]. intros H. apply (Fa _ H). cbn. auto. }
  destruct (List.length (lower_all a)) as [|k] eqn:Ek; [reflexivity|]. rewrite <- Ek. destruct (Nat.ltb _ _); [reflexivity|].
  assert (S : skipn (List.length (lower_all a) + 2) (lower_all a ++ ["="; """"; """"]) = [""""]).
  { change (lower_all a ++ ["="; """"; """"]) with (lower_all a ++ ["="; """"] ++ [""""]). rewrite app_assoc. apply skipn_exact. rewrite app_length. reflexivity. }
  rewrite S. reflexivity.
Qed.

Lemma text_eqb_eq a b : text_eqb a b = true <-> a = b.
Proof. unfold text_eqb. destruct (list_eq_dec ascii_dec a b); split; auto; discriminate. Qed.

Lemma C60_attributes_pf : forall junk name attrs tail rest t r,
  free_of ["<"] junk -> tag_name_ok name -> Forall attr_ok attrs -> tail_ok attrs tail ->
  parse_tag (junk ++ written_tag name attrs tail ++ rest) = Done (t, r) ->
  forall a,
    ((exists n v, In (n, v) attrs /\ small_letters n = a) -> check_attr a t = Done tt) /\
    ((forall n v, In (n, v) attrs -> small_letters n <> a) -> check_attr a t = Thrown /\ get_value a t = []) /\
    (forall before n v after, attrs = before ++ (n, v) :: after -> small_letters n = a ->
       (forall n' v', In (n', v') before -> small_letters n' <> a) -> get_value a t = v).
Proof.
  intros junk name attrs tail rest t r H1 H2 H3 H4 E a. rewrite (C60_parse_pf _ _ _ _ _ H1 H2 H3 H4) in E. injection E as <- <-. clear.
  unfold check_attr, get_value, find_attr. cbn [t_attrs].
  set (g := fun nv : text * text => (small_letters (fst nv), snd nv)).
  assert (N : forall l, (forall n v, In (n, v) l -> small_letters n <> a) -> find (fun av : text * text => text_eqb (fst av) a) (map g l) = None).
  { induction l as [|[n v] l IH]; intros H; [reflexivity|]. cbn [map find g fst]. destruct (text_eqb (small_letters n) a) eqn:Q; [apply text_eqb_eq in Q; exfalso; apply (H n v); [now left|auto]|]. apply IH. intros n' v' I. apply (H n' v'). now right. }
  assert (F : forall l n v k, small_letters n = a -> (forall n' v', In (n', v') l -> small_letters n' <> a) -> find (fun av : text * text => text_eqb (fst av) a) (map g (l ++ (n, v) :: k)) = Some (a, v)).
  { induction l as [|[n v] l IH]; intros n1 v1 k E H.
    - cbn [app map find g fst]. rewrite E. destruct (text_eqb a a) eqn:Q; [unfold g; cbn [fst snd]; now rewrite E|]. assert (text_eqb a a = true) by now apply text_eqb_eq. congruence.
    - cbn [app map find g fst]. destruct (text_eqb (small_letters n) a) eqn:Q; [apply text_eqb_eq in Q; exfalso; apply (H n v); [now left|auto]|]. apply IH; auto. intros n' v' I. apply (H n' v'). now right. }
  split; [|split].
  - intros (n & v & I & E). destruct (find _ (map g attrs)) as [p|] eqn:Q; [reflexivity|]. exfalso. pose proof (find_none _ _ Q (g (n, v)) (in_map g _ _ I)) as X. cbn [g fst] in X. rewrite E in X. assert (text_eqb a a = true) by now apply text_eqb_eq. congruence.
  - intros H. rewrite (N attrs H). split; reflexivity.
  - intros l n v k -> E H. rewrite (F l n v k E H). reflexivity.
Qed.
