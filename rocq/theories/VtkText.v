(** Lemmas for C61-C63: the text of a .vtu file is read back. *)
From Coq Require Import Ascii String DecimalString Decimal DecimalZ List Arith ZArith Bool Lia.
From Verif Require Import ModelTopo ModelMesh ModelErase ModelQuery ModelView ModelSegmentation ModelSegment ModelCopy ModelCopySeg ModelXml ModelVtk
  SpecXml XmlProofs MeshBase.
Import ModelSegmentation ListNotations.
Open Scope nat_scope.

(** * Numbers *)

Lemma digits_pos u : forall acc, digits (Zpos acc) (txt (NilEmpty.string_of_uint u)) = Zpos (Pos.of_uint_acc u acc).
Proof.
  induction u; intros acc; [reflexivity|..]; unfold txt in *; cbn [NilEmpty.string_of_uint list_ascii_of_string digits Pos.of_uint_acc];
    rewrite <- IHu;
    match goal with |- context[digit ?c] => let v := eval vm_compute in (digit c) in change (digit c) with v end; cbv iota;
    (apply f_equal2; [|reflexivity]); lia.
Qed.

Lemma digits_zero u : digits 0 (txt (NilEmpty.string_of_uint u)) = Z.of_uint u.
Proof.
  unfold Z.of_uint. induction u; [reflexivity|exact IHu|..]; unfold txt in *; cbn [NilEmpty.string_of_uint list_ascii_of_string digits Pos.of_uint Z.of_N];
    match goal with |- context[digit ?c] => let v := eval vm_compute in (digit c) in change (digit c) with v end; cbv iota;
    rewrite <- digits_pos; reflexivity.
Qed.

Lemma digits_nilzero u : digits 0 (txt (NilZero.string_of_uint u)) = Z.of_uint u.
Proof. destruct u; [reflexivity|apply digits_zero..]. Qed.

Lemma uint_head u : exists c r, txt (NilZero.string_of_uint u) = c :: r /\ exists d, digit c = Some d.
Proof. destruct u; cbn; eexists _, _; (split; [reflexivity|]); eexists; reflexivity. Qed.

Lemma atoi_decimal z : atoi (int_text z) = z.
Proof.
  unfold int_text, decimal. rewrite <- (DecimalZ.of_to z) at 2. destruct (Z.to_int z) as [u|u]; cbn [NilZero.string_of_int Z.of_int].
  - rewrite <- digits_nilzero. destruct (uint_head u) as (c & r & E & d & D). rewrite E. unfold atoi.
    destruct c as [[] [] [] [] [] [] [] []]; try discriminate D; reflexivity.
  - unfold atoi. rewrite <- digits_nilzero. destruct (uint_head u) as (c & r & E & d & D). reflexivity.
Qed.
Lemma size_of_nat n : size_of (nat_text n) = Some n.
Proof. unfold size_of, nat_text. rewrite atoi_decimal. destruct (Z.ltb_spec (Z.of_nat n) 0); [lia|]. now rewrite Nat2Z.id. Qed.

(** * Words *)

Definition blanks (s : text) : Prop := Forall (fun c => blank c = true) s.
Definition word_ok (w : text) : Prop := w <> [] /\ Forall (fun c => blank c = false) w.

Lemma skip_blanks_app b s : blanks b -> skip_blanks (b ++ s) = skip_blanks s.
Proof. induction 1; cbn [app skip_blanks]; auto. now rewrite H. Qed.

Lemma take_word_app w c r : Forall (fun c => blank c = false) w -> blank c = true -> take_word (w ++ c :: r) = (w, c :: r).
Proof. intros F B. induction F; cbn [app take_word]; [now rewrite B|]. now rewrite H, IHF. Qed.

Lemma read_word_app b w c r : blanks b -> word_ok w -> blank c = true -> read_word (b ++ w ++ c :: r) = Some (w, c :: r).
Proof.
  intros Hb [Nw Fw] Hc. unfold read_word. rewrite skip_blanks_app by auto.
  destruct w as [|x w]; [congruence|]. inversion Fw; subst. cbn [app skip_blanks]. rewrite H1.
  change (x :: w ++ c :: r) with ((x :: w) ++ c :: r). now rewrite take_word_app.
Qed.

Lemma blank_not_open c : blank c = true -> c <> "<"%char.
Proof. intros H ->. discriminate H. Qed.
Lemma parse_blanks b s : blanks b -> parse_tag (b ++ s) = parse_tag s.
Proof.
  intros H. unfold parse_tag. replace (skip_to_tag (b ++ s)) with (skip_to_tag s); auto.
  induction H as [|c b Hc Hb IH]; auto. cbn [app skip_to_tag]. destruct (Ascii.eqb_spec c "<") as [->|_]; [discriminate Hc|]. exact IH.
Qed.

(** A text that consists of words between blanks and ends with a blank. *)
Inductive words_text : list text -> text -> Prop :=
| wt_nil b : blanks b -> words_text [] b
| wt_cons b w c r ws : blanks b -> word_ok w -> blank c = true -> words_text ws (c :: r) -> words_text (w :: ws) (b ++ w ++ c :: r).

Lemma words_blank b ws s : blanks b -> words_text ws s -> words_text ws (b ++ s).
Proof.
  intros H W. inversion W; subst; [constructor; now apply Forall_app|].
  rewrite app_assoc. constructor; auto. now apply Forall_app.
Qed.
Lemma words_app ws s ws' s' : words_text ws s -> words_text ws' s' -> words_text (ws ++ ws') (s ++ s').
Proof.
  intros W W'. induction W; cbn [app]; [now apply words_blank|].
  rewrite <- app_assoc, <- app_assoc. cbn [app]. constructor; auto.
Qed.
Lemma words_concat {A} (f : A -> list text) (g : A -> text) l : (forall x, In x l -> words_text (f x) (g x)) ->
  words_text (List.concat (map f l)) (List.concat (map g l)).
Proof.
  induction l as [|x l IH]; intros H; cbn [map List.concat]; [constructor; constructor|]. apply words_app; [apply H; now left|]. apply IH. intros y Hy. apply H. now right.
Qed.
Lemma words_one w c : word_ok w -> blank c = true -> words_text [w] (w ++ [c]).
Proof. intros. apply (wt_cons [] w c [] []); auto; constructor. constructor; auto. Qed.
Lemma words_joined ws ws' c r : Forall word_ok ws -> blank c = true -> words_text ws' (c :: r) -> words_text (ws ++ ws') (joined ws ++ c :: r).
Proof.
  intros Hw B W. induction Hw as [|w ws Hw Hws IH]; cbn [joined app]; auto.
  destruct ws as [|w' ws]; [apply (wt_cons [] w c r ws'); auto; constructor|].
  rewrite <- app_assoc. unfold sp. cbn [app] in *. apply (wt_cons [] w " "%char); auto; [constructor|].
  apply (words_blank [" "%char]); [constructor; auto; constructor|exact IH].
Qed.

Lemma read_word_text w ws s rest : words_text (w :: ws) s -> exists s', read_word (s ++ rest) = Some (w, s' ++ rest) /\ words_text ws s' /\ List.length s' < List.length s.
Proof.
  intros W. inversion W; subst. exists (c :: r). split; [|split; auto].
  - rewrite <- app_assoc, <- app_assoc. cbn [app]. now apply read_word_app.
  - destruct w; [destruct H2; congruence|]. rewrite !app_length. cbn. lia.
Qed.

Lemma words_until_spec p e ws : forall s c rest fuel, words_text ws s -> word_ok e -> blank c = true -> Forall (fun w => p w = false) ws -> p e = true ->
  List.length s < fuel -> words_until p fuel (s ++ e ++ c :: rest) = Some (ws, c :: rest).
Proof.
  induction ws as [|w ws IH]; intros s c rest fuel W E C N P L; (destruct fuel as [|n]; [lia|]); cbn [words_until].
  - inversion W; subst. rewrite read_word_app by auto. now rewrite P.
  - destruct (read_word_text w ws s (e ++ c :: rest) W) as (s' & R & W' & L'). rewrite R.
    inversion N; subst. rewrite H1, (IH s' c rest n W' E C H2 P) by lia. reflexivity.
Qed.

Lemma text_eqb_refl a : text_eqb a a = true.
Proof. unfold text_eqb. destruct list_eq_dec; auto. Qed.
Lemma text_eqb_false a b : a <> b -> text_eqb a b = false.
Proof. unfold text_eqb. destruct list_eq_dec; auto; contradiction. Qed.
Lemma text_eqb_iff a b : text_eqb a b = true <-> a = b.
Proof. unfold text_eqb. destruct list_eq_dec; split; auto; discriminate. Qed.

(** Numbers as words. *)
Lemma uint_chars u c : In c (txt (NilEmpty.string_of_uint u)) -> exists d, digit c = Some d.
Proof. induction u; cbn; [intros []|..]; (intros [<-|H]; [eexists; reflexivity|auto]). Qed.
Lemma nilzero_chars u c : In c (txt (NilZero.string_of_uint u)) -> exists d, digit c = Some d.
Proof. destruct u; [cbn; intros [<-|[]]; eexists; reflexivity|apply uint_chars..]. Qed.
Lemma int_chars z c : In c (int_text z) -> c = "-"%char \/ exists d, digit c = Some d.
Proof.
  unfold int_text, decimal. destruct (Z.to_int z) as [u|u]; cbn [NilZero.string_of_int].
  - intros H. right. eapply nilzero_chars; eauto.
  - cbn. intros [<-|H]; auto. right. eapply nilzero_chars; eauto.
Qed.
Lemma int_nonempty z : int_text z <> [].
Proof.
  unfold int_text, decimal. destruct (Z.to_int z) as [u|u]; cbn [NilZero.string_of_int]; [|discriminate].
  destruct (uint_head u) as (c & r & E & _). rewrite E. discriminate.
Qed.
Lemma int_char_plain z c : In c (int_text z) -> blank c = false /\ c <> "<"%char /\ c <> ">"%char /\ c <> """"%char.
Proof.
  intros H. apply int_chars in H as [->|(d & D)]; [repeat split; discriminate|].
  destruct c as [[] [] [] [] [] [] [] []]; try discriminate D; repeat split; discriminate.
Qed.
Lemma int_word z : word_ok (int_text z).
Proof. split; [apply int_nonempty|]. apply Forall_forall. intros c H. now apply int_char_plain in H. Qed.
Lemma int_value z : attr_value_ok (int_text z).
Proof. split; [apply int_nonempty|]. intros c H. apply int_char_plain in H as (_ & _ & ? & ?). cbn. intuition. Qed.
Lemma nat_word n : word_ok (nat_text n). Proof. apply int_word. Qed.
Lemma int_no_open z c : In c (int_text z) -> c <> "<"%char. Proof. intros H. now apply int_char_plain in H. Qed.

(** Words without a bracket are not the end of an array. *)
Lemma not_end_array w : ~ In "<"%char w -> end_array w = false.
Proof. intros H. apply text_eqb_false. intros ->. apply H. cbn. auto. Qed.
Lemma not_end_data w : ~ In "<"%char w -> end_data w = false.
Proof.
  intros H. apply text_eqb_false. intros E. apply H. destruct w as [|c w]; [discriminate|]. left.
  cbn in E. injection E as E _. destruct c as [[] [] [] [] [] [] [] []]; try discriminate E; reflexivity.
Qed.

(** * The reader on written text *)

Section Read.
Context {K : Type}.
Variable F : format K.
Notation reader := (@reader K).
Notation array := (@array K).

Lemma line_app s rest : line s ++ rest = txt s ++ eol ++ rest.
Proof. unfold line. now rewrite <- app_assoc. Qed.
Lemma blanks_eol : blanks eol. Proof. constructor; [reflexivity|constructor]. Qed.

Lemma bind_fin {A B} (a : @M K A) (f : A -> @M K B) r s x r' s' : a r s = Fin x r' s' -> bind a f r s = f x r' s'.
Proof. unfold bind. now intros ->. Qed.
Lemma tag_m_spec (r : reader) s t s' : parse_tag s = Done (t, s') -> tag_m r s = Fin t r s'.
Proof. unfold tag_m. now intros ->. Qed.
Lemma named_m_spec name (r : reader) s t s' : parse_tag s = Done (t, s') -> t_name t = lower_all (txt name) -> named_m name r s = Fin t r s'.
Proof. intros H N. unfold named_m. rewrite (bind_fin _ _ _ _ _ _ _ (tag_m_spec r s t s' H)). rewrite N, text_eqb_refl. reflexivity. Qed.

Lemma attr_m_spec a t v (r : reader) s : find_attr (txt a) t = Some v -> attr_m a t r s = Fin v r s.
Proof. unfold attr_m. now intros ->. Qed.
Lemma need_spec {A} (o : option A) x (r : reader) s : o = Some x -> need o r s = Fin x r s.
Proof. now intros ->. Qed.
Lemma modify_spec f (r : reader) s : modify f r s = Fin tt (f r) s. Proof. reflexivity. Qed.
Lemma ret_spec {A} (x : A) (r : reader) s : ret x r s = Fin x r s. Proof. reflexivity. Qed.

(** The number format. *)
Variable rnd : K -> K.
Hypothesis wr_word : forall x, word_ok (f_wr F x).
Hypothesis wr_open : forall x, ~ In "<"%char (f_wr F x).
Hypothesis rd_wr : forall x, f_rd F (f_wr F x) = Some (rnd x).
Hypothesis rd_zero : exists y, f_rd F (txt "0") = Some y.

Lemma numbers_words l : Forall word_ok (map (f_wr F) l).
Proof. apply Forall_forall. intros w H. apply in_map_iff in H as (x & <- & _). apply wr_word. Qed.

Lemma pad_words k : exists c r, List.concat (repeat (txt " 0") k) ++ eol = c :: r /\ blank c = true /\ words_text (repeat (txt "0") k) (c :: r).
Proof.
  induction k as [|k (c & r & E & B & W)].
  - exists "010"%char, []. split; [reflexivity|]. split; [reflexivity|]. constructor. apply blanks_eol.
  - exists " "%char, ("0"%char :: c :: r). split; [cbn [repeat List.concat]; cbn; now rewrite <- E|]. split; [reflexivity|].
    cbn [repeat]. apply (wt_cons [" "%char] (txt "0") c r); auto; [repeat constructor|split; [discriminate|repeat constructor]].
Qed.
Lemma point_words p : words_text (map (f_wr F) p ++ repeat (txt "0") (3 - f_dim F)) (write_point F p).
Proof.
  unfold write_point, write_numbers. destruct (pad_words (3 - f_dim F)) as (c & r & E & B & W). rewrite E.
  apply words_joined; auto. apply numbers_words.
Qed.

Lemma comps_spec ks : forall ws s rest (r : reader), words_text (ws) s -> Forall2 (fun w k => f_rd F w = Some k) (firstn (List.length ks) ws) ks ->
  exists s', comps_m F (List.length ks) r (s ++ rest) = Fin ks r (s' ++ rest) /\ words_text (skipn (List.length ks) ws) s'.
Proof.
  induction ks as [|k ks IH]; intros ws s rest r W H; cbn [List.length comps_m].
  - exists s. split; auto.
  - destruct ws as [|w ws]; [inversion H|]. cbn [List.length firstn skipn] in *. inversion H as [|? ? ? ? Hw Hks]; subst.
    destruct (read_word_text w ws s rest W) as (s1 & R & W1 & _).
    erewrite bind_fin by (unfold word_m; rewrite R; reflexivity). unfold need. rewrite Hw. cbn [ret].
    destruct (IH ws s1 rest r W1 Hks) as (s2 & E & W2). exists s2. split; auto.
    unfold bind. cbn. rewrite E. reflexivity.
Qed.

(** Points get the number of an equal point, or a new one. *)
Definition add_point (st : list (list K) * list nat) (p : list K) : list (list K) * list nat :=
  match find_point F p (fst st) with
  | Some i => (fst st, snd st ++ [i])
  | None => (fst st ++ [p], snd st ++ [List.length (fst st)])
  end.
Definition node_words (p : list K) : list text := map (f_wr F) p ++ repeat (txt "0") (3 - f_dim F).

Definition with_global (c : @local K) (l : list nat) : local :=
  mkL l (l_vertices c) (l_offsets c) (l_pscal c) (l_pvec c) (l_cscal c) (l_cvec c).

(** The rest of the reader is not touched. *)
Definition same_else (z : Z) (r r' : reader) : Prop :=
  r_open r' = r_open r /\ (forall y, y <> z -> r_local r' y = r_local r y).
Lemma same_else_refl z r : same_else z r r. Proof. split; auto. Qed.
Lemma same_else_trans z r1 r2 r3 : same_else z r1 r2 -> same_else z r2 r3 -> same_else z r1 r3.
Proof. intros [A B] [C D]. split; [congruence|]. intros y Hy. rewrite D, B; auto. Qed.
Lemma upd_local_at z f (r : reader) : r_local (upd_local z f r) z = f (r_local r z).
Proof. unfold upd_local. cbn. now rewrite Z.eqb_refl. Qed.
Lemma upd_local_else z f (r : reader) : same_else z r (upd_local z f r).
Proof. split; [reflexivity|]. intros y Hy. unfold upd_local. cbn. destruct (Z.eqb_spec y z); [contradiction|reflexivity]. Qed.

Lemma firstn_pad p : List.length p = f_dim F -> f_dim F <= 3 -> exists pad,
  Forall2 (fun w k => f_rd F w = Some k) (node_words p) (map rnd p ++ pad) /\ List.length (map rnd p ++ pad) = 3.
Proof.
  intros L D. destruct rd_zero as (y & Hy). exists (repeat y (3 - f_dim F)). split.
  - unfold node_words. apply Forall2_app.
    + clear L. induction p; cbn; constructor; auto.
    + induction (3 - f_dim F); cbn; constructor; auto.
  - rewrite app_length, map_length, repeat_length. lia.
Qed.

Lemma nodes_spec z ps : f_dim F <= 3 -> Forall (fun p => List.length p = f_dim F) ps -> forall s rest (r : reader),
  words_text (List.concat (map node_words ps)) s ->
  exists r' b, nodes_m F (List.length ps) 3 z r (s ++ rest) = Fin tt r' (b ++ rest) /\ blanks b /\ same_else z r r' /\ r_nums r' = r_nums r /\
    let st := fold_left add_point (map (map rnd) ps) (r_points r, l_global (r_local r z)) in
    r_points r' = fst st /\ r_local r' z = with_global (r_local r z) (snd st).
Proof.
  intros D. induction ps as [|p ps IH]; intros L s rest r W; cbn [List.length nodes_m map List.concat fold_left] in *.
  - inversion W; subst. exists r, s. split; auto. split; auto. split; [apply same_else_refl|]. split; auto. split; auto.
    cbn. destruct (r_local r z); reflexivity.
  - inversion L as [|? ? Lp Lps]; subst. destruct (firstn_pad p Lp D) as (pad & H & H3).
    assert (LW : List.length (node_words p) = 3).
    { unfold node_words. rewrite app_length, map_length, repeat_length. lia. }
    destruct (comps_spec (map rnd p ++ pad) (node_words p ++ List.concat (map node_words ps)) s rest r W) as (s1 & E & W1).
    { rewrite H3, firstn_app, LW, Nat.sub_diag, firstn_all2 by lia. cbn. now rewrite app_nil_r. }
    rewrite H3 in E, W1. rewrite skipn_app, LW, Nat.sub_diag, skipn_all2 in W1 by lia. cbn [app skipn] in W1.
    erewrite bind_fin by exact E.
    assert (PO : point_of F (map rnd p ++ pad) = map rnd p).
    { unfold point_of. rewrite <- app_assoc. replace (f_dim F) with (List.length (map rnd p)) by (rewrite map_length; auto). apply firstn_exact. }
    erewrite bind_fin by reflexivity. cbv beta zeta. rewrite PO.
    match goal with |- exists _ _, nodes_m F _ 3 z ?r1 _ = _ /\ _ => set (R1 := r1) end.
    assert (X : r_points R1 = fst (add_point (r_points r, l_global (r_local r z)) (map rnd p)) /\
      r_local R1 z = with_global (r_local r z) (snd (add_point (r_points r, l_global (r_local r z)) (map rnd p))) /\ same_else z r R1 /\ r_nums R1 = r_nums r).
    { unfold R1, add_point. cbn [fst snd]. destruct (find_point F (map rnd p) (r_points r)) as [i|]; (split; [reflexivity|]);
      (split; [rewrite upd_local_at; reflexivity|]); (split; [|reflexivity]);
      (eapply same_else_trans; [|apply upd_local_else]); split; auto. }
    clearbody R1. destruct X as (X1 & X2 & X3 & X4). destruct (IH Lps s1 rest R1 W1) as (r' & b & E' & B & S & N & P & Q).
    exists r', b. split; [exact E'|]. split; auto. split; [eapply same_else_trans; eauto|]. split; [congruence|].
    rewrite X1, X2 in P, Q. cbn [with_global l_global] in P, Q.
    match goal with |- context[fold_left add_point _ ?st] => replace st with (fst (add_point (r_points r, l_global (r_local r z)) (map rnd p)), snd (add_point (r_points r, l_global (r_local r z)) (map rnd p))) end.
    + split; auto.
    + now destruct (add_point _ _).
Qed.

(** Arrays of vertex numbers. *)
Lemma words_m_spec p e ws (r : reader) s c rest : words_text ws s -> word_ok e -> blank c = true -> Forall (fun w => p w = false) ws -> p e = true ->
  words_m p r (s ++ e ++ c :: rest) = Fin ws r (c :: rest).
Proof.
  intros. unfold words_m. rewrite (words_until_spec p e ws); auto. rewrite app_length. lia.
Qed.
Lemma write_words_text l : words_text (map nat_text l) (write_words l).
Proof.
  unfold write_words. replace (map nat_text l) with (List.concat (map (fun n => [nat_text n]) l)) by (clear; induction l; cbn; congruence).
  apply words_concat. intros n _. apply words_one; [apply nat_word|reflexivity].
Qed.
Lemma sizes_of l : omap size_of (map nat_text l) = Some l.
Proof. induction l as [|n l IH]; cbn [map omap]; auto. now rewrite size_of_nat, IH. Qed.
Lemma nat_texts_end l : Forall (fun w => end_array w = false) (map nat_text l).
Proof. apply Forall_forall. intros w H. apply in_map_iff in H as (n & <- & _). apply not_end_array. intros H. apply int_no_open in H. congruence. Qed.

Lemma end_word : word_ok (txt "</DataArray>"). Proof. split; [discriminate|repeat constructor]. Qed.

Lemma sizes_spec l s (r : reader) rest : words_text (map nat_text l) s ->
  sizes_m r (s ++ line "    </DataArray>" ++ rest) = Fin l r (eol ++ rest).
Proof.
  intros W. rewrite line_app. change (txt "    </DataArray>") with (txt "    " ++ txt "</DataArray>"). rewrite <- app_assoc.
  rewrite (app_assoc s). unfold sizes_m. erewrite bind_fin; [|apply (words_m_spec _ _ (map nat_text l))].
  - unfold need. rewrite sizes_of. reflexivity.
  - rewrite <- (app_nil_r (map nat_text l)). apply words_app; auto. constructor. repeat constructor.
  - apply end_word.
  - reflexivity.
  - apply nat_texts_end.
  - reflexivity.
Qed.
Lemma types_spec l s (r : reader) rest : words_text (map nat_text l) s ->
  words_m end_array r (s ++ line "    </DataArray>" ++ rest) = Fin (map nat_text l) r (eol ++ rest).
Proof.
  intros W. rewrite line_app. change (txt "    </DataArray>") with (txt "    " ++ txt "</DataArray>"). rewrite <- app_assoc.
  rewrite (app_assoc s). apply (words_m_spec _ _ (map nat_text l)).
  - rewrite <- (app_nil_r (map nat_text l)). apply words_app; auto. constructor. repeat constructor.
  - apply end_word.
  - reflexivity.
  - apply nat_texts_end.
  - reflexivity.
Qed.

(** One data array of points or cells. *)
Definition array_ok (a : array) : Prop :=
  attr_value_ok (ar_name a) /\ (ar_comps a = 1 \/ ar_comps a = 3) /\ Forall (fun v => List.length v = ar_comps a) (ar_vals a).
Definition array_tag (a : array) : xtag :=
  mkTag (txt "dataarray") [(txt "type", txt "Float32"); (txt "name", ar_name a); (txt "numberofcomponents", nat_text (ar_comps a)); (txt "format", txt "ascii")].
Definition array_body (a : array) : text :=
  List.concat (map (fun v => write_numbers F v ++ sp) (ar_vals a)) ++ eol ++ line "    </DataArray>".
Definition array_numbers (a : array) : list K := map rnd (List.concat (ar_vals a)).

Lemma value_ok s : s <> [] -> forallb (fun c => negb (Ascii.eqb c """") && negb (Ascii.eqb c ">")) s = true -> attr_value_ok s.
Proof.
  intros N H. split; auto. intros c Hc. rewrite forallb_forall in H. apply H in Hc. apply andb_true_iff in Hc as [A B].
  apply negb_true_iff in A, B. apply Ascii.eqb_neq in A, B. cbn. intuition.
Qed.
Lemma name_ok s : s <> [] -> forallb (fun c => negb (Ascii.eqb c " ") && negb (Ascii.eqb c "=") && negb (Ascii.eqb c """") && negb (Ascii.eqb c ">")) s = true -> attr_name_ok s.
Proof.
  intros N H. split; auto. intros c Hc. rewrite forallb_forall in H. apply H in Hc. rewrite !andb_true_iff, !negb_true_iff, !Ascii.eqb_neq in Hc.
  destruct Hc as [[[A B] C] D]. cbn. intuition.
Qed.

Lemma array_tag_spec b a rest : blanks b -> array_ok a -> parse_tag (b ++ write_array F a ++ rest) = Done (array_tag a, eol ++ array_body a ++ rest).
Proof.
  intros B (N & C & V). rewrite parse_blanks by auto.
  pose proof (parse_written (txt "    ") (txt "DataArray") [(txt "type", txt "Float32"); (txt "Name", ar_name a); (txt "NumberOfComponents", nat_text (ar_comps a)); (txt "format", txt "ascii")] []
    (eol ++ array_body a ++ rest)) as P.
  unfold write_array. unfold written_tag in P. cbn [map List.concat written_attr fst snd] in P. unfold array_body in *.
  unfold written_attr in P. cbn [fst snd] in P.
  etransitivity; [|apply P].
  - f_equal. unfold line. rewrite <- !app_assoc. cbn. rewrite <- !app_assoc. cbn. rewrite <- !app_assoc. cbn. reflexivity.
  - intros c Hc. cbn in Hc. cbn. intuition (subst; discriminate).
  - intros c Hc. cbn in Hc. cbn. intuition (subst; discriminate).
  - apply Forall_cons; [|apply Forall_cons; [|apply Forall_cons; [|apply Forall_cons; [|apply Forall_nil]]]]; (split; cbn [fst snd]; [apply name_ok; [discriminate|reflexivity]|]).
    + apply value_ok; [discriminate|reflexivity].
    + exact N.
    + apply int_value.
    + apply value_ok; [discriminate|reflexivity].
  - split; [intros c []|discriminate].
Qed.

Lemma array_words a : words_text (map (f_wr F) (List.concat (ar_vals a))) (List.concat (map (fun v => write_numbers F v ++ sp) (ar_vals a))).
Proof.
  rewrite concat_map.
  apply words_concat. intros v _. unfold write_numbers, sp. rewrite <- (app_nil_r (map (f_wr F) v)) at 1.
  apply words_joined; [apply numbers_words|reflexivity|]. constructor. repeat constructor.
Qed.
Lemma omap_rd l : omap (f_rd F) (map (f_wr F) l) = Some (map rnd l).
Proof. induction l as [|x l IH]; cbn [map omap]; auto. now rewrite rd_wr, IH. Qed.

Lemma numbers_spec a (r : reader) rest : numbers_m F r (eol ++ array_body a ++ rest) = Fin (array_numbers a) r (eol ++ rest).
Proof.
  unfold array_body, line, numbers_m. rewrite <- !app_assoc.
  change (txt "    </DataArray>") with (txt "    " ++ txt "</DataArray>"). rewrite <- app_assoc.
  set (S := List.concat _). replace (eol ++ S ++ eol ++ txt "    " ++ txt "</DataArray>" ++ eol ++ rest) with ((eol ++ S ++ eol ++ txt "    ") ++ txt "</DataArray>" ++ eol ++ rest) by now rewrite <- !app_assoc.
  erewrite bind_fin; [|apply (words_m_spec _ _ (map (f_wr F) (List.concat (ar_vals a))))].
  - unfold need. rewrite omap_rd. reflexivity.
  - apply words_blank; [apply blanks_eol|]. rewrite <- (app_nil_r (map (f_wr F) _)). apply words_app; [apply array_words|]. constructor. repeat constructor.
  - apply end_word.
  - reflexivity.
  - apply Forall_forall. intros w H. apply in_map_iff in H as (x & <- & _). apply not_end_data. apply wr_open.
  - reflexivity.
Qed.

(** A section of data arrays. *)
Definition put_array (cell : bool) (c : @local K) (a : array) : local :=
  if ar_comps a =? 1 then add_scalar cell (ar_name a, array_numbers a) c else add_vector cell (ar_name a, array_numbers a) c.

Lemma array_name a : find_attr (txt "name") (array_tag a) = Some (ar_name a). Proof. reflexivity. Qed.
Lemma array_comps a : find_attr (txt "numberofcomponents") (array_tag a) = Some (nat_text (ar_comps a)). Proof. reflexivity. Qed.

Lemma data_loop z cell close tc rest : parse_tag close = Done (tc, eol ++ rest) ->
  (t_name tc = txt "/pointdata" \/ t_name tc = txt "/celldata") ->
  forall l, Forall array_ok l -> forall fuel comps (r : reader) t s b, blanks b -> List.length l < fuel ->
  parse_tag (b ++ List.concat (map (write_array F) l) ++ close) = Done (t, s) ->
  exists r', data_m F fuel z cell comps t r s = Fin tt r' (eol ++ rest) /\ same_else z r r' /\ r_nums r' = r_nums r /\ r_points r' = r_points r /\
    r_local r' z = fold_left (put_array cell) l (r_local r z).
Proof.
  intros Hc Hn. induction l as [|a l IH]; intros Hl fuel comps r t s b B Lf P; (destruct fuel as [|n]; [lia|]).
  - cbn [map List.concat app] in P. rewrite parse_blanks in P by auto. rewrite Hc in P. injection P as <- <-.
    exists r. split; [|repeat split; auto]. cbn [data_m]. rewrite (text_eqb_false (t_name tc) (txt "dataarray")) by (destruct Hn as [-> | ->]; discriminate).
    destruct Hn as [-> | ->]; reflexivity.
  - inversion Hl as [|? ? Ha Hl']; subst. cbn [map List.concat] in P. rewrite <- app_assoc in P. rewrite array_tag_spec in P by auto.
    injection P as <- <-. cbn [data_m]. change (text_eqb (t_name (array_tag a)) (txt "dataarray")) with true. cbv iota.
    erewrite bind_fin by (unfold attr_m; rewrite array_name; reflexivity).
    erewrite bind_fin by (rewrite array_comps, size_of_nat; reflexivity).
    set (R1 := upd_local z (fun c => put_array cell c a) r).
    erewrite (bind_fin _ _ _ _ tt R1).
    2:{ destruct Ha as (_ & C & _). unfold R1, put_array. destruct C as [-> | ->]; erewrite bind_fin by apply numbers_spec; reflexivity. }
    destruct (parse_tag (eol ++ List.concat (map (write_array F) l) ++ close)) as [[t' s']| |] eqn:P.
    + erewrite bind_fin by (apply tag_m_spec; exact P).
      destruct (IH Hl' n (ar_comps a) R1 t' s' eol blanks_eol) as (r' & E & S & N & Q & L); [cbn in Lf; lia|exact P|].
      exists r'. split; [exact E|]. split; [eapply same_else_trans; [apply upd_local_else|exact S]|]. split; [exact N|]. split; [exact Q|].
      rewrite L. unfold R1. rewrite upd_local_at. reflexivity.
    + exfalso. rewrite parse_blanks in P by apply blanks_eol. destruct l as [|a' l].
      * cbn [map List.concat] in P. rewrite app_nil_l, Hc in P. discriminate P.
      * inversion Hl'; subst. cbn [map List.concat] in P. rewrite <- app_assoc in P. pose proof (array_tag_spec [] a' (List.concat (map (write_array F) l) ++ close) ltac:(constructor) H1) as X. rewrite app_nil_l in X. rewrite X in P. discriminate P.
    + exfalso. rewrite parse_blanks in P by apply blanks_eol. destruct l as [|a' l].
      * cbn [map List.concat] in P. rewrite app_nil_l, Hc in P. discriminate P.
      * inversion Hl'; subst. cbn [map List.concat] in P. rewrite <- app_assoc in P. pose proof (array_tag_spec [] a' (List.concat (map (write_array F) l) ++ close) ltac:(constructor) H1) as X. rewrite app_nil_l in X. rewrite X in P. discriminate P.
Qed.

Lemma arrays_length l : List.length l <= List.length (List.concat (map (write_array F) l)).
Proof.
  induction l as [|a l IH]; cbn [map List.concat]; [auto|]. rewrite app_length.
  enough (0 < List.length (write_array F a)) by (cbn; lia). unfold write_array. rewrite app_length. cbn. lia.
Qed.

Lemma section_spec z cell close tc rest l b (r : reader) : parse_tag close = Done (tc, eol ++ rest) ->
  (t_name tc = txt "/pointdata" \/ t_name tc = txt "/celldata") -> Forall array_ok l -> l <> [] -> blanks b ->
  exists r', point_cell_data_m F z cell r (b ++ List.concat (map (write_array F) l) ++ close) = Fin tt r' (eol ++ rest) /\
    same_else z r r' /\ r_nums r' = r_nums r /\ r_points r' = r_points r /\ r_local r' z = fold_left (put_array cell) l (r_local r z).
Proof.
  intros Hc Hn Hl N B. destruct l as [|a l]; [congruence|].
  assert (P : parse_tag (b ++ List.concat (map (write_array F) (a :: l)) ++ close) = Done (array_tag a, eol ++ array_body a ++ List.concat (map (write_array F) l) ++ close)).
  { cbn [map List.concat]. rewrite <- app_assoc. apply array_tag_spec; auto. now inversion Hl. }
  unfold point_cell_data_m. erewrite bind_fin by (apply tag_m_spec; exact P).
  apply (data_loop z cell close tc rest Hc Hn (a :: l) Hl _ _ _ _ _ b B); [|exact P].
  pose proof (arrays_length l). rewrite !app_length. cbn. lia.
Qed.

(** A whole file. *)
Definition piece_ok (t : tag) (p : piece) : Prop :=
  Forall (fun q => List.length q = f_dim F) (pc_points p) /\ Forall array_ok (pc_pdata p) /\ Forall array_ok (pc_cdata p).

Definition local_read (t : tag) (p : piece) (gl : list nat) (cs : list (list nat)) (c : @local K) : local :=
  let c1 := fold_left (put_array false) (pc_pdata p) (with_global c gl) in
  let c2 := mkL (l_global c1) (l_vertices c1 ++ List.concat cs) (l_offsets c1 ++ map (fun k => k * nverts t) (seq 1 (pc_num p)))
              (l_pscal c1) (l_pvec c1) (l_cscal c1) (l_cvec c1) in
  fold_left (put_array true) (pc_cdata p) c2.

Lemma cells_words cs : words_text (map nat_text (List.concat cs)) (List.concat (map write_cell cs)).
Proof.
  rewrite concat_map. apply words_concat. intros c _. unfold write_cell. rewrite <- (app_nil_r (map nat_text c)). apply words_app; [apply write_words_text|].
  constructor. apply blanks_eol.
Qed.


(** The fixed lines. *)
Definition line_tag (s : string) (t : xtag) : Prop :=
  forall b rest, blanks b -> exists b', blanks b' /\ parse_tag (b ++ line s ++ rest) = Done (t, b' ++ rest).
Ltac fixed_line := intros b rest B; eexists; split; [|rewrite (parse_blanks b) by auto; first [instantiate (1 := eol); reflexivity | instantiate (1 := txt " " ++ eol); reflexivity]]; repeat constructor.
Lemma line_xml : line_tag "<?xml version=""1.0""?>" (mkTag (txt "?xml") [(txt "version", txt "1.0")]). Proof. fixed_line. Qed.
Lemma line_vtk : line_tag "<VTKFile type=""UnstructuredGrid"" version=""0.1"" byte_order=""LittleEndian"">"
  (mkTag (txt "vtkfile") [(txt "type", txt "UnstructuredGrid"); (txt "version", txt "0.1"); (txt "byte_order", txt "LittleEndian")]). Proof. fixed_line. Qed.
Lemma line_grid : line_tag " <UnstructuredGrid>" (mkTag (txt "unstructuredgrid") []). Proof. fixed_line. Qed.
Lemma line_points : line_tag "   <Points>" (mkTag (txt "points") []). Proof. fixed_line. Qed.
Lemma line_coords : line_tag "    <DataArray type=""Float32"" NumberOfComponents=""3"" format=""ascii"">"
  (mkTag (txt "dataarray") [(txt "type", txt "Float32"); (txt "numberofcomponents", txt "3"); (txt "format", txt "ascii")]). Proof. fixed_line. Qed.
Lemma line_array_end : line_tag "    </DataArray>" (mkTag (txt "/dataarray") []). Proof. fixed_line. Qed.
Lemma line_points_end : line_tag "   </Points> " (mkTag (txt "/points") []). Proof. fixed_line. Qed.
Lemma line_cells : line_tag "   <Cells> " (mkTag (txt "cells") []). Proof. fixed_line. Qed.
Definition ints_tag (type name : string) : xtag := mkTag (txt "dataarray") [(txt "type", txt type); (txt "name", txt name); (txt "format", txt "ascii")].
Lemma line_conn : line_tag "    <DataArray type=""Int32"" Name=""connectivity"" format=""ascii"">" (ints_tag "Int32" "connectivity"). Proof. fixed_line. Qed.
Lemma line_offsets : line_tag "    <DataArray type=""Int32"" Name=""offsets"" format=""ascii"">" (ints_tag "Int32" "offsets"). Proof. fixed_line. Qed.
Lemma line_types : line_tag "    <DataArray type=""UInt8"" Name=""types"" format=""ascii"">" (ints_tag "UInt8" "types"). Proof. fixed_line. Qed.
Lemma line_cells_end : line_tag "   </Cells>" (mkTag (txt "/cells") []). Proof. fixed_line. Qed.
Lemma line_piece_end : line_tag "  </Piece>" (mkTag (txt "/piece") []). Proof. fixed_line. Qed.
Lemma line_grid_end : line_tag " </UnstructuredGrid>" (mkTag (txt "/unstructuredgrid") []). Proof. fixed_line. Qed.
Lemma line_vtk_end : line_tag "</VTKFile>" (mkTag (txt "/vtkfile") []). Proof. fixed_line. Qed.

Lemma line_piece b n k rest : blanks b ->
  parse_tag (b ++ txt "  <Piece NumberOfPoints=""" ++ nat_text n ++ txt """ NumberOfCells=""" ++ nat_text k ++ line """>" ++ rest) =
  Done (mkTag (txt "piece") [(txt "numberofpoints", nat_text n); (txt "numberofcells", nat_text k)], eol ++ rest).
Proof.
  intros B. rewrite parse_blanks by auto.
  pose proof (parse_written (txt "  ") (txt "Piece") [(txt "NumberOfPoints", nat_text n); (txt "NumberOfCells", nat_text k)] [] (eol ++ rest)) as P.
  unfold written_tag in P. cbn [map List.concat] in P. unfold written_attr in P. cbn [fst snd] in P.
  etransitivity; [|apply P].
  - f_equal. unfold line. do 5 (rewrite <- ?app_assoc; cbn [app txt list_ascii_of_string]). reflexivity.
  - intros c Hc. cbn in Hc. cbn. intuition (subst; discriminate).
  - intros c Hc. cbn in Hc. cbn. intuition (subst; discriminate).
  - apply Forall_cons; [|apply Forall_cons; [|apply Forall_nil]]; (split; cbn [fst snd]; [apply name_ok; [discriminate|reflexivity]|apply int_value]).
  - split; [intros c []|discriminate].
Qed.

Ltac tagline L := match goal with |- context[bind _ _ _ (?b ++ _)] =>
  let B := fresh "B" in let b' := fresh "b" in let P := fresh "P" in
  edestruct (L b) as (b' & B & P); [assumption|]; (erewrite bind_fin by (first [apply tag_m_spec; exact P | apply named_m_spec; [exact P|reflexivity]])); cbv beta zeta; clear P end.

Lemma bind_assoc {A B C} (a : @M K A) (f : A -> @M K B) (g : B -> @M K C) r s :
  bind (bind a f) g r s = bind a (fun x => bind (f x) g) r s.
Proof. unfold bind. destruct (a r s); reflexivity. Qed.

(** A section of data, if there are arrays. *)
Lemma data_section {C} z cell name lname l next tn b (r : reader) rest (g : xtag -> @M K C) :
  (name = "PointData"%string /\ lname = "pointdata"%string /\ cell = false \/ name = "CellData"%string /\ lname = "celldata"%string /\ cell = true) ->
  Forall array_ok l -> blanks b -> (text_eqb (t_name tn) (txt lname) = false) -> line_tag next tn ->
  exists r' b', bind tag_m (fun t => bind (if text_eqb (t_name t) (txt lname) then bind (point_cell_data_m F z cell) (fun _ => tag_m) else ret t) g) r
      (b ++ write_data F name l ++ line next ++ rest) = g tn r' (b' ++ rest) /\ blanks b' /\
    same_else z r r' /\ r_nums r' = r_nums r /\ r_points r' = r_points r /\ r_local r' z = fold_left (put_array cell) l (r_local r z).
Proof.
  intros Hn Hl B Nt L. destruct l as [|a l].
  - cbn [write_data]. rewrite app_nil_l. destruct (L b rest B) as (b' & B' & P). exists r, b'.
    split; [|split; [auto|repeat split; auto]]. erewrite bind_fin by (apply tag_m_spec; exact P). rewrite Nt. apply bind_fin, ret_spec.
  - unfold write_data. set (A := a :: l) in *. assert (NA : A <> []) by discriminate. clearbody A.
    assert (PO : forall b rest, blanks b -> parse_tag (b ++ txt "   <" ++ txt name ++ line ">" ++ rest) = Done (mkTag (txt lname) [], eol ++ rest)).
    { intros b0 rest0 B0. rewrite parse_blanks by auto. destruct Hn as [(-> & -> & _)|(-> & -> & _)]; reflexivity. }
    assert (PC : forall rest, parse_tag (txt "   </" ++ txt name ++ line ">" ++ rest) = Done (mkTag (txt "/" ++ txt lname) [], eol ++ rest)).
    { intros rest0. destruct Hn as [(-> & -> & _)|(-> & -> & _)]; reflexivity. }
    rewrite <- !app_assoc. erewrite bind_fin by (apply tag_m_spec; apply PO; exact B). cbn [t_name]. rewrite text_eqb_refl.
    destruct (section_spec z cell (txt "   </" ++ txt name ++ line ">" ++ line next ++ rest) _ (line next ++ rest) A eol r (PC _)) as (r' & E & S).
    { cbn [t_name]. destruct Hn as [(-> & -> & _)|(-> & -> & _)]; [left|right]; reflexivity. }
    { exact Hl. } { exact NA. } { apply blanks_eol. }
    destruct (L eol rest blanks_eol) as (b' & B' & P). exists r', b'. split; [|split; auto].
    rewrite bind_assoc. erewrite bind_fin by exact E. apply bind_fin, tag_m_spec. exact P.
Qed.

(** The arrays of the cells. *)
Definition put_conn (l : list nat) (c : @local K) : local := mkL (l_global c) (l_vertices c ++ l) (l_offsets c) (l_pscal c) (l_pvec c) (l_cscal c) (l_cvec c).
Definition put_offsets (l : list nat) (c : @local K) : local := mkL (l_global c) (l_vertices c) (l_offsets c ++ l) (l_pscal c) (l_pvec c) (l_cscal c) (l_cvec c).

Lemma conn_spec z l s b (r : reader) rest : blanks b -> words_text (map nat_text l) s ->
  cells_array_m z r (b ++ line "    <DataArray type=""Int32"" Name=""connectivity"" format=""ascii"">" ++ s ++ line "    </DataArray>" ++ rest) =
  Fin tt (upd_local z (put_conn l) r) (eol ++ rest).
Proof.
  intros B W. unfold cells_array_m. edestruct (line_conn b) as (b' & B' & P); [exact B|].
  erewrite bind_fin by (apply named_m_spec; [exact P|reflexivity]).
  erewrite bind_fin by (apply (attr_m_spec _ _ (txt "connectivity")); reflexivity).
  change (text_eqb (txt "connectivity") (txt "connectivity")) with true. cbv iota. rewrite app_assoc.
  erewrite bind_fin by (apply sizes_spec, words_blank; eauto). apply modify_spec.
Qed.
Lemma offsets_spec z l s b (r : reader) rest : blanks b -> words_text (map nat_text l) s ->
  cells_array_m z r (b ++ line "    <DataArray type=""Int32"" Name=""offsets"" format=""ascii"">" ++ s ++ line "    </DataArray>" ++ rest) =
  Fin tt (upd_local z (put_offsets l) r) (eol ++ rest).
Proof.
  intros B W. unfold cells_array_m. edestruct (line_offsets b) as (b' & B' & P); [exact B|].
  erewrite bind_fin by (apply named_m_spec; [exact P|reflexivity]).
  erewrite bind_fin by (apply (attr_m_spec _ _ (txt "offsets")); reflexivity).
  change (text_eqb (txt "offsets") (txt "connectivity")) with false. change (text_eqb (txt "offsets") (txt "offsets")) with true. cbv iota. rewrite app_assoc.
  erewrite bind_fin by (apply sizes_spec, words_blank; eauto). apply modify_spec.
Qed.
Lemma types_array_spec z l s b (r : reader) rest : blanks b -> words_text (map nat_text l) s ->
  cells_array_m z r (b ++ line "    <DataArray type=""UInt8"" Name=""types"" format=""ascii"">" ++ s ++ line "    </DataArray>" ++ rest) =
  Fin tt r (eol ++ rest).
Proof.
  intros B W. unfold cells_array_m. edestruct (line_types b) as (b' & B' & P); [exact B|].
  erewrite bind_fin by (apply named_m_spec; [exact P|reflexivity]).
  erewrite bind_fin by (apply (attr_m_spec _ _ (txt "types")); reflexivity).
  change (text_eqb (txt "types") (txt "connectivity")) with false. change (text_eqb (txt "types") (txt "offsets")) with false.
  change (text_eqb (txt "types") (txt "types")) with true. cbv iota. rewrite app_assoc.
  erewrite bind_fin by (apply types_spec, words_blank; eauto). apply ret_spec.
Qed.

Lemma some_inj {A} (x y : A) : Some x = Some y -> y = x. Proof. congruence. Qed.
Lemma vtu_written t p text z (r : reader) : f_dim F <= 3 -> piece_ok t p -> write_piece F t p = Some text ->
  exists r' s' cs, vtu_m F z r text = Fin tt r' s' /\ omap (reordered t) (pc_cells p) = Some cs /\ same_else z r r' /\
    r_nums r' = num_put z (pc_num p) (r_nums r) /\
    let st := fold_left add_point (map (map rnd) (pc_points p)) (r_points r, l_global (r_local r z)) in
    r_points r' = fst st /\ r_local r' z = local_read t p (snd st) cs (r_local r z).
Proof.
  intros D (Hp & Hpd & Hcd) W. unfold write_piece, write_cells in W.
  destruct (omap (reordered t) (pc_cells p)) as [cs|] eqn:Ecs; [|discriminate W]. cbn [option_map] in W.
  apply some_inj in W. subst text. unfold header, write_points, footer. rewrite <- !app_assoc.
  match goal with |- context[vtu_m F z r ?x] => change x with ([] ++ x) end.
  assert (B0 : blanks []) by constructor.
  unfold vtu_m, xml_m. rewrite bind_assoc.
  tagline line_xml. cbn [t_name]. erewrite bind_fin by apply ret_spec.
  tagline line_vtk. tagline line_grid.
  erewrite bind_fin by (apply named_m_spec; [apply line_piece; assumption|reflexivity]).
  erewrite (bind_fin (attr_m _ _)) by (apply (attr_m_spec _ _ (nat_text (List.length (pc_points p)))); reflexivity).
  erewrite (bind_fin (need _)) by (apply need_spec, size_of_nat).
  erewrite (bind_fin (attr_m _ _)) by (apply (attr_m_spec _ _ (nat_text (pc_num p))); reflexivity).
  erewrite (bind_fin (need _)) by (apply need_spec, size_of_nat).
  erewrite (bind_fin (modify _)) by apply modify_spec.
  pose proof blanks_eol as Beol.
  set (R0 := mkR _ _ _ _).
  tagline line_points. tagline line_coords.
  erewrite (bind_fin (attr_m _ _)) by (apply (attr_m_spec _ _ (txt "3")); reflexivity).
  erewrite (bind_fin (need _)) by (apply (need_spec _ 3); reflexivity).
  match goal with |- context[bind (nodes_m _ _ _ _) _ _ (?b ++ List.concat ?c ++ eol ++ ?rest)] =>
    destruct (nodes_spec z (pc_points p) D Hp (b ++ List.concat c ++ eol) rest R0) as (r1 & bb & E1 & BB & S1 & N1 & P1 & L1) end.
  { apply words_blank; [assumption|]. rewrite <- (app_nil_r (List.concat (map node_words _))). apply words_app; [|constructor; assumption].
    apply words_concat. intros q _. apply point_words. }
  rewrite <- !app_assoc in E1. erewrite bind_fin by exact E1. clear E1.
  tagline line_array_end. tagline line_points_end.
  match goal with |- context[bind tag_m (fun t => bind _ ?g) r1 (?bq ++ write_data F "PointData" _ ++ _ ++ ?rest)] =>
    destruct (data_section z false "PointData" "pointdata" (pc_pdata p) "   <Cells> " (mkTag (txt "cells") []) bq r1 rest g ltac:(left; repeat split; reflexivity) Hpd ltac:(assumption) ltac:(reflexivity) line_cells) as (r2 & b2' & E2 & BB2 & S2 & N2 & P2 & L2) end.
  rewrite E2. clear E2. cbn [t_name]. erewrite bind_fin by apply ret_spec.
  erewrite bind_fin; [|].
  2:{ match goal with |- cells_array_m z r2 (?b ++ line ?x ++ ?c ++ eol ++ ?rest) = _ => replace (c ++ eol ++ rest) with ((c ++ eol) ++ rest) by (symmetry; apply app_assoc_reverse || now rewrite <- app_assoc) end.
      apply (conn_spec z (List.concat cs)); [assumption|]. rewrite <- (app_nil_r (map nat_text _)). apply words_app; [apply cells_words|constructor; assumption]. }
  set (R3 := upd_local z (put_conn (List.concat cs)) r2).
  erewrite bind_fin; [|].
  2:{ match goal with |- cells_array_m z R3 (?b ++ line ?x ++ ?c ++ eol ++ ?rest) = _ => replace (c ++ eol ++ rest) with ((c ++ eol) ++ rest) by now rewrite <- app_assoc end.
      apply (offsets_spec z (map (fun k => k * nverts t) (seq 1 (pc_num p)))); [assumption|]. rewrite <- (app_nil_r (map nat_text _)). apply words_app; [apply write_words_text|constructor; assumption]. }
  set (R4 := upd_local z (put_offsets _) R3).
  erewrite bind_fin; [|].
  2:{ match goal with |- cells_array_m z R4 (?b ++ line ?x ++ ?c ++ eol ++ ?rest) = _ => replace (c ++ eol ++ rest) with ((c ++ eol) ++ rest) by now rewrite <- app_assoc end.
      apply (types_array_spec z (map (fun _ => vtk_type t) (seq 1 (pc_num p)))); [assumption|]. rewrite <- (app_nil_r (map nat_text _)). apply words_app; [apply write_words_text|constructor; assumption]. }
  tagline line_cells_end.
  match goal with |- context[bind tag_m (fun t => bind _ ?g) R4 (?bq ++ write_data F "CellData" _ ++ _ ++ ?rest)] =>
    destruct (data_section z true "CellData" "celldata" (pc_cdata p) "  </Piece>" (mkTag (txt "/piece") []) bq R4 rest g ltac:(right; repeat split; reflexivity) Hcd ltac:(assumption) ltac:(reflexivity) line_piece_end) as (r5 & b5' & E5 & BB5 & S5 & N5 & P5 & L5) end.
  rewrite E5. clear E5. cbn [t_name]. erewrite bind_fin by apply ret_spec.
  tagline line_grid_end.
  edestruct (line_vtk_end) as (b9 & B9 & P9); [eassumption|].
  erewrite bind_fin; [|apply named_m_spec; [rewrite <- (app_nil_r (line "</VTKFile>")); exact P9|reflexivity]].
  eexists r5, _, cs. split; [apply ret_spec|]. split; [reflexivity|].
  assert (S4 : same_else z r2 R4) by (eapply same_else_trans; apply upd_local_else).
  split; [|split].
  - eapply same_else_trans; [|exact S5]. eapply same_else_trans; [|exact S4]. eapply same_else_trans; [|exact S2]. exact S1.
  - rewrite N5. change (r_nums R4) with (r_nums r2). rewrite N2, N1. reflexivity.
  - cbv zeta. split.
    + rewrite P5. change (r_points R4) with (r_points r2). rewrite P2, P1. reflexivity.
    + rewrite L5. unfold R4. rewrite upd_local_at. unfold R3. rewrite upd_local_at. rewrite L2, L1. reflexivity.
Qed.

End Read.
