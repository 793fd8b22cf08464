(** Lemmas for C78: reading .tess files. *)
From Coq Require Import Ascii String List Arith ZArith Bool Lia Permutation.
From Verif Require Import ModelTopo ModelMesh ModelErase ModelCopySeg ModelXml ModelVtk ModelNetgen ModelPoly ModelNeper
  SpecMesh SpecErase SpecCopy SpecVtk SpecNetgen SpecPoly SpecNeper MeshBase NetgenText PolyText PolyBuild PolyRead.
Import ListNotations.
Open Scope nat_scope.

Lemma Forall2_len {A B} (Q : A -> B -> Prop) l k : Forall2 Q l k -> List.length l = List.length k.
Proof. induction 1; cbn; auto. Qed.
Lemma Forall2_split {A B} (Q : A -> B -> Prop) l1 : forall k1 l2 k2, List.length l1 = List.length k1 -> Forall2 Q (l1 ++ l2) (k1 ++ k2) -> Forall2 Q l1 k1 /\ Forall2 Q l2 k2.
Proof. induction l1 as [|a l1 IH]; intros [|b k1] l2 k2 L H; try discriminate; [auto|]. injection L as L. inversion H as [|? ? ? ? H1 H2]; subst. destruct (IH _ _ _ L H2). auto. Qed.

(** The lines that are left. *)
Definition raw (st : stream) (ls : list text) : Prop :=
  (sm_good st = true /\ ls = split_lines [] (sm_text st)) \/ (sm_good st = false /\ ls = []).

Lemma split_nil_inv s l ls : split_lines [] s = l :: ls -> ls = [] -> s = l.
Proof. rewrite split_lines_take. destruct (take_line s) as [x o] eqn:E. intros H ->. destruct o as [r|]; [|injection H as <-]. - injection H as <- H. rewrite split_lines_take in H. destruct (take_line r) as [y [r'|]]; discriminate.
  - clear - E. revert x E. induction s as [|c s IH]; cbn [take_line]; intros x E; [now injection E as <-|]. destruct (Ascii.eqb c "010"); [discriminate|]. destruct (take_line s) as [l' o] eqn:Q. injection E as <- ->. f_equal. now apply IH. Qed.
Lemma getline_raw x l ls : raw (snd x) (l :: ls) ->
  exists b st', getline_into x = (b, (l, st')) /\ raw st' ls /\ (b = false -> l = [] /\ ls = []).
Proof.
  intros [[G E]|[_ E]]; [|discriminate]. destruct x as [tmp st]. cbn [snd] in *. unfold getline_into. rewrite G. rewrite split_lines_take in E.
  destruct (sm_text st) as [|c s].
  - cbn in E. injection E as -> ->. exists false, (mkStream [] false). split; [reflexivity|]. split; [right; auto|auto].
  - destruct (take_line (c :: s)) as [l' [r|]]; cbn [app] in E; injection E as -> ->.
    + exists true, (mkStream r true). split; [reflexivity|]. split; [left; auto|discriminate].
    + exists true, (mkStream [] false). split; [reflexivity|]. split; [right; auto|discriminate].
Qed.
Lemma getline_end x : raw (snd x) [] -> exists y, getline_into x = (false, y).
Proof.
  destruct x as [tmp st]. intros [[G E]|[G _]]; cbn [snd] in *.
  - exfalso. rewrite split_lines_take in E. destruct (take_line (sm_text st)) as [l' [r|]]; discriminate.
  - unfold getline_into. rewrite G. eauto.
Qed.
Lemma next_raw x l ls : raw (snd x) (l :: ls) -> exists st, next x = (l, st) /\ raw st ls.
Proof. intros R. destruct (getline_raw x l ls R) as (b & st & E & R' & _). exists st. unfold next. now rewrite E. Qed.
Lemma raw_text s : raw (mkStream s true) (split_lines [] s).
Proof. left. auto. Qed.
Lemma split_length s : forall acc, List.length (split_lines acc s) <= S (List.length s).
Proof. induction s as [|c s IH]; intros acc; cbn [split_lines]; [auto|]. destruct (Ascii.eqb c "010"); cbn [List.length]; [specialize (IH [])|specialize (IH (acc ++ [c]))]; lia. Qed.

(** The words that begin the sections. *)
Lemma starts_spec p : forall s, starts p s = true <-> exists b, s = p ++ b.
Proof.
  induction p as [|x p IH]; intros s; cbn [starts app]; [split; eauto|]. destruct s as [|c s]; [split; [discriminate|intros (b & E); discriminate]|].
  rewrite andb_true_iff, IH. split.
  - intros (E & b & ->). apply Ascii.eqb_eq in E as ->. eauto.
  - intros (b & E). injection E as -> ->. split; [apply Ascii.eqb_refl|eauto].
Qed.
Lemma contains_spec w s : contains (txt w) s = true <-> mentions s w.
Proof.
  unfold mentions. change (txt w) with (list_ascii_of_string w). generalize (list_ascii_of_string w) as p. intros p. induction s as [|c s IH]; cbn [contains]; rewrite orb_true_iff, starts_spec.
  - split; [intros [(b & E)|]; [exists [], b; exact E|discriminate]|]. intros (a & b & E). destruct a; [left; eauto|discriminate].
  - rewrite IH. split.
    + intros [(b & E)|(a & b & ->)]; [exists [], b; exact E|exists (c :: a), b; reflexivity].
    + intros ([|x a] & b & E); [left; eauto|]. injection E as -> ->. right. eauto.
Qed.
Lemma contains_false w s : ~ mentions s w -> contains (txt w) s = false.
Proof. intros N. destruct (contains (txt w) s) eqn:E; auto. now apply contains_spec in E. Qed.

Section Read.
Context {K : Type}.
Variable F : format K.
Notation pt := (list K).
Notation mesh := (@mesh pt).

Lemma line_fed l st ws : begins ws l -> exists more, fed (line_stream (l, st)) (ws ++ more).
Proof. intros (more & W). exists more. split; [exact W|reflexivity]. Qed.

(** A loop over entries. *)
Lemma entries {A S} (one : input * S -> nat -> result (input * S)) (R : A -> list text -> Prop) (I : list A -> S -> Prop) :
  (forall pre x ls rest xi s j, I pre s -> R x ls -> raw (snd xi) (ls ++ rest) -> exists xi' s', one (xi, s) j = Done (xi', s') /\ raw (snd xi') rest /\ In (fst xi') ls /\ I (pre ++ [x]) s') ->
  forall xs lss, Forall2 R xs lss -> forall pre xi s rest j, raw (snd xi) (List.concat lss ++ rest) -> I pre s ->
  exists xi' s', rfold one (seq j (List.length xs)) (xi, s) = Done (xi', s') /\ raw (snd xi') rest /\ (fst xi' = fst xi \/ In (fst xi') (List.concat lss)) /\ I (pre ++ xs) s'.
Proof.
  intros H xs lss FR. induction FR as [|x ls xs lss Rx FR IH]; intros pre xi s rest j RA Hi; cbn [List.length seq rfold List.concat] in *.
  - exists xi, s. rewrite app_nil_r. auto.
  - rewrite <- app_assoc in RA. destruct (H pre x ls _ xi s j Hi Rx RA) as (xi1 & s1 & E1 & A1 & I1 & J1). rewrite E1. cbn [rbind].
    destruct (IH (pre ++ [x]) xi1 s1 rest (Datatypes.S j) A1 J1) as (xi2 & s2 & E2 & A2 & I2 & J2). exists xi2, s2. split; [exact E2|]. split; [exact A2|]. split.
    + right. apply in_app_iff. destruct I2 as [-> |I2]; auto.
    + now rewrite <- app_assoc in J2.
Qed.

Lemma combine_snoc {A B} (l : list A) : forall (k : list B) x y, List.length l = List.length k -> combine (l ++ [x]) (k ++ [y]) = combine l k ++ [(x, y)].
Proof. induction l as [|a l IH]; intros [|b k] x y L; try discriminate; [reflexivity|]. cbn. injection L as L. now rewrite IH. Qed.

(** Vertices. *)
Definition numbered (V : list (Z * pt)) : list (nat * pt) := combine (seq 0 (List.length V)) (map snd V).
Lemma numbered_snoc V v : numbered (V ++ [v]) = numbered V ++ [(List.length V, snd v)].
Proof.
  unfold numbered. rewrite map_app. cbn [map]. assert (L : List.length (V ++ [v]) = List.length (map snd V ++ [snd v])) by (rewrite !app_length, map_length; reflexivity).
  rewrite L, combine_seq_snoc, map_length. reflexivity.
Qed.
Lemma numbered_length V : List.length (numbered V) = List.length V.
Proof. unfold numbered. rewrite combine_length, seq_length, map_length. lia. Qed.
Lemma numbered_fst V : map fst (numbered V) = seq 0 (List.length V).
Proof. unfold numbered. rewrite <- (map_length snd V). generalize (map snd V) as l. generalize 0 as s. intros s l. revert s. induction l as [|x l IH]; intros s; cbn; [auto|]. now rewrite IH. Qed.

Definition vertices_read (V : list (Z * pt)) (s : tstate K) : Prop :=
  has_vertices (numbered V) (ts_mesh s) /\ m_idgen (ts_mesh s) Vertex = List.length V /\
  ts_vertices s = rev (combine (map fst V) (seq 0 (List.length V))) /\ ts_lines s = [] /\ ts_plcs s = [] /\ ts_seeds s = [].

Lemma vertex_entry pre v ls rest xi s j : vertices_read pre s -> (right_dim F (snd v) /\ vertex_block F v ls) -> raw (snd xi) (ls ++ rest) ->
  exists xi' s', read_tess_vertex F (xi, s) j = Done (xi', s') /\ raw (snd xi') rest /\ In (fst xi') ls /\ vertices_read (pre ++ [v]) s'.
Proof.
  intros ((D & Nx & NL) & Ng & Ev & El & Ep & Es) [Dx (l1 & l2 & l3 & ws & -> & B1 & Pt & B3)] A. cbn [app] in A.
  destruct (next_raw xi _ _ A) as (s1 & E1 & R1). destruct (next_raw (l1, s1) _ _ R1) as (s2 & E2 & R2). destruct (next_raw (l2, s2) _ _ R2) as (s3 & E3 & R3).
  destruct (line_fed l1 s1 _ B1) as (m1 & F1). destruct (line_fed l3 s3 _ B3) as (m3 & F3). cbn [app] in F1.
  destruct (need_int_spec _ _ _ F1) as (c1 & N1 & _). destruct (coords_spec F ws (snd v) _ Pt _ F3) as (c2 & N2 & _). rewrite Dx in N2.
  unfold read_tess_vertex. cbn [fst snd]. rewrite E1, E2, E3, N1. cbn [rbind fst snd]. rewrite N2. cbn [rbind fst snd].
  unfold make_vertex. cbn [insert]. unfold push. replace (keyed plc_cfg Vertex) with false by reflexivity. cbn [gen_id obind]. replace (btab plc_cfg Vertex) with (@nil (tag * list nat)) by reflexivity.
  cbn [option_map fst snd of_option rbind]. eexists _, _. split; [reflexivity|]. split; [exact R3|]. split; [cbn; auto|].
  rewrite numbered_length in Nx. split; [|split; [|split; [|split; [|split]]]]; cbn [ts_mesh ts_vertices ts_lines ts_plcs ts_seeds]; auto.
  - split; [|split].
    + destruct D as [D1 D2 D3 D4 D5 D6]. constructor; try exact D3; try exact D4; try exact D5.
      * cbn. rewrite D1, Nx, numbered_snoc, vnodes_snoc, numbered_length, Ng. reflexivity.
      * cbn. rewrite NL. intros n [].
      * intros t T T'. cbn. unfold upd. destruct (tag_eqb Vertex t) eqn:Q; [destruct t; try discriminate Q; congruence|]. now apply D6.
    + cbn. rewrite Nx, numbered_length, app_length. reflexivity.
    + exact NL.
  - cbn. rewrite Ng, app_length. reflexivity.
  - rewrite Ev, Nx, app_length, map_app. cbn [List.length map]. rewrite Nat.add_1_r, seq_S. cbn [plus].
    rewrite combine_snoc by now rewrite map_length, seq_length. rewrite rev_app_distr. reflexivity.
Qed.

Lemma vertex_found (V : list (Z * pt)) k z : NoDup (map fst V) -> nth_error (map fst V) k = Some z -> vertex_of (rev (combine (map fst V) (seq 0 (List.length V)))) z = Some k.
Proof.
  intros N E. unfold vertex_of. set (l := rev _).
  assert (I : In (z, k) l).
  { unfold l. apply in_rev. rewrite rev_involutive. assert (L : List.length V = List.length (map fst V)) by now rewrite map_length. rewrite L.
    revert E. generalize (map fst V) as us. clear. intros us E.
    assert (G : forall s, In (z, s + k) (combine us (seq s (List.length us)))). { revert k E. induction us as [|u us IH]; intros [|k] E s; try discriminate; cbn [List.length seq combine]. - injection E as ->. left. f_equal. lia. - right. specialize (IH k E (S s)). now replace (s + S k) with (S s + k) by lia. }
    apply (G 0). }
  assert (U : forall k', In (z, k') l -> k' = k).
  { intros k' I'. unfold l in I'. apply in_rev in I'. rewrite ?rev_involutive in I'. assert (L : List.length V = List.length (map fst V)) by now rewrite map_length. rewrite L in I'.
    assert (G : forall us s j, In (z, j) (combine us (seq s (List.length us))) -> exists i, j = s + i /\ nth_error us i = Some z).
    { clear. induction us as [|u us IH]; intros s j I; [destruct I|]. cbn [List.length seq combine] in I. destruct I as [I|I]; [injection I as -> ->; exists 0; split; [lia|reflexivity]|]. apply IH in I as (i & -> & E). exists (S i). split; [lia|exact E]. }
    apply G in I' as (i & -> & E'). cbn. apply (proj1 (NoDup_nth_error _) N); [apply nth_error_Some; congruence|congruence]. }
  destruct (find (fun p => Z.eqb (fst p) z) l) as [[a b]|] eqn:Q.
  - apply find_some in Q as [Q1 Q2]. apply Z.eqb_eq in Q2. cbn in Q2. subst a. cbn. f_equal. now apply U.
  - exfalso. apply (find_none _ _ Q) in I. cbn in I. now rewrite Z.eqb_refl in I.
Qed.

(** Lines. *)
Definition either (E : list (nat * nat)) (ij : nat * nat) : Prop := In ij E \/ In (snd ij, fst ij) E.
Lemma joins_swap (m : mesh) a i j : joins m a (i, j) -> joins m a (j, i).
Proof. intros (u & v & H & J). exists u, v. split; auto. cbn [fst snd] in *. tauto. Qed.

Section Faces.
Variable V : list (Z * pt).
Hypothesis NV : NoDup (map fst V).
Variable S : list (nat * nat).
Definition at_pos (z : Z) (k : nat) : Prop := nth_error (map fst V) k = Some z.
Record lines_inv (s : tstate K) : Prop := {
  li_drawn : drawn (numbered V) (either S) (ts_mesh s);
  li_verts : ts_vertices s = rev (combine (map fst V) (seq 0 (List.length V)));
  li_lines : forall a b h, In ((a, b), h) (ts_lines s) -> exists i j, at_pos a i /\ at_pos b j /\ In h (range (ts_mesh s) Line) /\ joins (ts_mesh s) h (i, j)
}.
Lemma pos_id m k z : drawn (numbered V) (either S) m -> at_pos z k -> id_at m Vertex k = Some k.
Proof.
  intros D H. rewrite (drawn_id _ _ _ _ D), <- nth_error_map, numbered_fst. assert (L : k < List.length V) by (rewrite <- (map_length fst); apply nth_error_Some; unfold at_pos in H; congruence).
  rewrite nth_error_nth' with (d := 0); [now rewrite seq_nth|now rewrite seq_length].
Qed.
Lemma pos_fun z i j : at_pos z i -> at_pos z j -> i = j.
Proof. unfold at_pos. intros A B. apply (proj1 (NoDup_nth_error _) NV); [apply nth_error_Some; congruence|congruence]. Qed.

Lemma line_entry s hs a b i j : lines_inv s -> at_pos a i -> at_pos b j -> either S (i, j) ->
  exists s' h, tess_line (s, hs) (a, b) = Done (s', hs ++ [h]) /\ lines_inv s' /\ kept (ts_mesh s) (ts_mesh s') /\ In h (range (ts_mesh s') Line) /\ joins (ts_mesh s') h (i, j) /\
    ts_plcs s' = ts_plcs s /\ ts_seeds s' = ts_seeds s.
Proof.
  intros [D Ev L] A B HE. unfold tess_line. cbn [fst snd].
  assert (MM : (Z.min a b = a /\ Z.max a b = b) \/ (Z.min a b = b /\ Z.max a b = a)) by lia.
  assert (PP : exists x y, at_pos (Z.min a b) x /\ at_pos (Z.max a b) y /\ either S (x, y) /\ forall m h, joins m h (x, y) -> @joins K m h (i, j)).
  { destruct MM as [[-> ->]|[-> ->]]; [exists i, j; auto|exists j, i]. split; auto. split; auto. split; [destruct HE; [right|left]; auto|]. intros m h. apply joins_swap. }
  destruct PP as (x & y & X & Y & XE & XJ). destruct (line_of (ts_lines s) (Z.min a b, Z.max a b)) as [h|] eqn:Q.
  - unfold line_of in Q. destruct (find _ (ts_lines s)) as [[[c d] h']|] eqn:Fd; [|discriminate]. injection Q as ->. apply find_some in Fd as [I Ek]. cbn [fst snd] in Ek. apply andb_true_iff in Ek as [E1 E2]. apply Z.eqb_eq in E1, E2. subst c d.
    destruct (L _ _ _ I) as (i' & j' & A' & B' & R & J). rewrite (pos_fun _ _ _ A' X), (pos_fun _ _ _ B' Y) in J.
    exists s, h. split; [reflexivity|]. split; [constructor; auto|]. split; [apply kept_refl|]. split; [exact R|]. split; [apply XJ; exact J|]. split; reflexivity.
  - cbn [fst snd]. rewrite Ev, (vertex_found V x _ NV X), (vertex_found V y _ NV Y). cbn [of_option rbind].
    destruct (make_line_spec (numbered V) (either S) (ts_mesh s) x y x y D (pos_id _ _ _ D X) (pos_id _ _ _ D Y) XE) as (m' & h & E1 & D1 & K1 & R1 & J1).
    rewrite E1. cbn [of_option rbind fst snd]. eexists _, h. split; [reflexivity|]. cbn [ts_mesh ts_plcs ts_seeds]. split; [|split; [exact K1|split; [exact R1|split; [apply XJ; exact J1|split; reflexivity]]]]. constructor; cbn [ts_mesh ts_vertices ts_lines]; auto.
    intros c d h' [I|I].
    + injection I as <- <- <-. exists x, y. auto.
    + destruct (L _ _ _ I) as (i' & j' & A' & B' & R & J). exists i', j'. split; auto. split; auto. split; [exact (kept_range _ _ _ _ _ D K1 R)|exact (kept_joins _ _ _ _ K1 J)].
Qed.
Lemma lines_entry ijs : forall abs s hs, lines_inv s -> Forall2 (fun ab ij => at_pos (fst ab) (fst ij) /\ at_pos (snd ab) (snd ij)) abs ijs -> Forall (either S) ijs ->
  exists s' ls, rfold tess_line abs (s, hs) = Done (s', hs ++ ls) /\ lines_inv s' /\ kept (ts_mesh s) (ts_mesh s') /\ lines_for (ts_mesh s') ijs ls /\
    ts_plcs s' = ts_plcs s /\ ts_seeds s' = ts_seeds s.
Proof.
  induction ijs as [|[i j] ijs IH]; intros abs s hs Hi FA FE; inversion FA as [|[a b] ? abs' ? [A B] FA' Q1 Q2]; subst; cbn [rfold].
  - exists s, []. rewrite app_nil_r. split; [reflexivity|]. split; auto. split; [apply kept_refl|]. split; [constructor|auto].
  - inversion FE as [|? ? HE FE']; subst. destruct (line_entry s hs a b i j Hi A B HE) as (s1 & h & E1 & I1 & K1 & R1 & J1 & P1 & S1). rewrite E1. cbn [rbind].
    destruct (IH abs' s1 (hs ++ [h]) I1 FA' FE') as (s2 & ls & E2 & I2 & K2 & L2 & P2 & S2). exists s2, (h :: ls). rewrite E2, <- app_assoc. split; [reflexivity|]. split; auto. split; [eapply kept_trans; eauto|].
    split; [|split; congruence]. constructor; auto. split; [eapply kept_range; [exact (li_drawn _ I1)|exact K2|exact R1]|eapply kept_joins; eauto].
Qed.

Lemma vertex_missing z : ~ In z (map fst V) -> vertex_of (rev (combine (map fst V) (seq 0 (List.length V)))) z = None.
Proof.
  intros NI. unfold vertex_of. destruct (find _ _) as [[a b]|] eqn:Q; [|reflexivity]. exfalso. apply find_some in Q as [I E]. apply Z.eqb_eq in E. cbn in E. subst a. apply in_rev in I. apply in_combine_l in I. auto.
Qed.
Lemma bad_line s hs a b : lines_inv s -> ~ In a (map fst V) \/ ~ In b (map fst V) -> tess_line (s, hs) (a, b) = Undefined.
Proof.
  intros [D Ev L] NI. unfold tess_line. cbn [fst snd].
  assert (NK : ~ In (Z.min a b) (map fst V) \/ ~ In (Z.max a b) (map fst V)).
  { assert (MM : (Z.min a b = a /\ Z.max a b = b) \/ (Z.min a b = b /\ Z.max a b = a)) by lia. destruct MM as [[-> ->]|[-> ->]]; tauto. }
  destruct (line_of (ts_lines s) (Z.min a b, Z.max a b)) as [h|] eqn:Q.
  - exfalso. unfold line_of in Q. destruct (find _ (ts_lines s)) as [[[c d] h']|] eqn:Fd; [|discriminate]. apply find_some in Fd as [I Ek]. cbn [fst snd] in Ek. apply andb_true_iff in Ek as [E1 E2]. apply Z.eqb_eq in E1, E2. subst c d.
    destruct (L _ _ _ I) as (i' & j' & A' & B' & _). apply nth_error_In in A'. apply nth_error_In in B'. tauto.
  - rewrite Ev. destruct NK as [NK|NK].
    + rewrite (vertex_missing _ NK). reflexivity.
    + destruct (vertex_of _ (Z.min a b)); [|reflexivity]. cbn [of_option rbind]. rewrite (vertex_missing _ NK). reflexivity.
Qed.
Lemma bad_lines abs : (forall i j, i < List.length V -> j < List.length V -> either S (i, j)) -> forall s hs, lines_inv s ->
  Exists (fun ab => ~ In (fst ab) (map fst V) \/ ~ In (snd ab) (map fst V)) abs -> rfold tess_line abs (s, hs) = Undefined.
Proof.
  intros HS. induction abs as [|[a b] abs IH]; intros s hs Hi HE; [inversion HE|]. cbn [rfold].
  destruct (in_dec Z.eq_dec a (map fst V)) as [Ia|Ia]; [|rewrite bad_line by auto; reflexivity]. destruct (in_dec Z.eq_dec b (map fst V)) as [Ib|Ib]; [|rewrite bad_line by auto; reflexivity].
  apply In_nth_error in Ia as (i & Hp). apply In_nth_error in Ib as (j & Hq).
  assert (Li : i < List.length V) by (rewrite <- (map_length fst); apply nth_error_Some; congruence). assert (Lj : j < List.length V) by (rewrite <- (map_length fst); apply nth_error_Some; congruence).
  destruct (line_entry s hs a b i j Hi Hp Hq (HS i j Li Lj)) as (s1 & h & E1 & I1 & _). rewrite E1. cbn [rbind]. apply IH; auto.
  inversion HE as [? ? [X|X]|]; subst; auto; cbn [fst snd] in X; exfalso; apply X; eapply nth_error_In; eauto.
Qed.

Lemma ids_read f : forall st more, fed st (map num f ++ more) -> read_tess_ids (List.length f) st = Done f.
Proof.
  induction f as [|z f IH]; intros st more Fd; [reflexivity|]. cbn [List.length read_tess_ids map app] in *. destruct (int_or_num 0 st _ _ Fd) as (st1 & E1 & F1). rewrite E1. cbn [rbind fst snd]. rewrite (IH _ _ F1). reflexivity.
Qed.

Definition faces_read (gs : list (facet K)) (s : tstate K) : Prop := lines_inv s /\ Forall2 (plc_weak (ts_mesh s)) gs (ts_plcs s) /\ ts_seeds s = [].
Definition face_is (f : list Z) (g : facet K) : Prop := exists p, g = mkFacet [p] [] /\ Forall2 at_pos f p.
Lemma combine_pos f p : Forall2 at_pos f p -> Forall2 (fun ab ij => at_pos (fst ab) (fst ij) /\ at_pos (snd ab) (snd ij)) (combine f (tl f)) (combine p (tl p)).
Proof.
  intros H. induction H as [|z k f p Hz H IH]; [constructor|]. cbn [tl]. destruct H as [|z' k' f p Hz' H]; [constructor|]. cbn [combine]. constructor; auto.
Qed.
Lemma lines_for_comm (m : mesh) ijs a i j ls : lines_for m (ijs ++ [(i, j)]) (ls ++ [a]) -> lines_for m (ijs ++ [(j, i)]) (ls ++ [a]).
Proof.
  unfold lines_for. intros H. assert (L : List.length ijs = List.length ls). { apply Forall2_len in H. rewrite !app_length in H. cbn in H. lia. }
  apply Forall2_split in H as [H1 H2]; auto. apply Forall2_app; auto. inversion H2 as [|? ? ? ? [R J] _]; subst. constructor; [split; auto; now apply joins_swap|constructor].
Qed.
Lemma face_entry pre g f ls rest xi s j : faces_read pre s -> (face_is f g /\ (3 <= List.length f) /\ incl (facet_sides g) S /\ face_block f ls) -> raw (snd xi) (ls ++ rest) ->
  exists xi' s', read_tess_face (xi, s) j = Done (xi', s') /\ raw (snd xi') rest /\ In (fst xi') ls /\ faces_read (pre ++ [g]) s'.
Proof.
  intros (Hi & Hp & Hs) ((p & -> & Fp) & L3 & IS & (l1 & l2 & l3 & l4 & l5 & l6 & l7 & -> & B)) A. cbn [app] in A.
  destruct (next_raw xi _ _ A) as (s1 & E1 & R1). destruct (next_raw (l1, s1) _ _ R1) as (s2 & E2 & R2). destruct (next_raw (l2, s2) _ _ R2) as (s3 & E3 & R3). destruct (next_raw (l3, s3) _ _ R3) as (s4 & E4 & R4).
  destruct (next_raw (l4, s4) _ _ R4) as (s5 & E5 & R5). destruct (next_raw (l5, s5) _ _ R5) as (s6 & E6 & R6). destruct (next_raw (l6, s6) _ _ R6) as (s7 & E7 & R7).
  destruct (line_fed l4 s4 _ B) as (more & F4). cbn [app] in F4. destruct (need_int_spec _ _ _ F4) as (c1 & N1 & F5).
  unfold read_tess_face. cbn [fst snd]. rewrite E1, E2, E3, E4, N1. cbn [rbind fst snd]. replace (Z.of_nat (List.length f) <? 0)%Z with false by (symmetry; apply Z.ltb_ge; lia). rewrite Nat2Z.id, (ids_read f _ _ F5). cbn [rbind].
  assert (Lp : List.length p = List.length f) by (symmetry; now apply Forall2_len in Fp).
  destruct f as [|z0 f0] eqn:Ef; [cbn in L3; lia|]. rewrite <- Ef in *. destruct p as [|k0 p0] eqn:Epp; [rewrite Ef in Lp; discriminate|]. rewrite <- Epp in *.
  assert (H0 : at_pos z0 k0) by (rewrite Ef, Epp in Fp; now inversion Fp).
  assert (HL : at_pos (last f z0) (last p k0)) by (apply (Forall2_last at_pos); [exact Fp|rewrite Ef; discriminate]).
  assert (SD : sides p = combine p (tl p) ++ [(last p 0, k0)]). { unfold sides. replace (2 <? List.length p) with true by (symmetry; apply Nat.ltb_lt; lia). rewrite Epp. reflexivity. }
  assert (PL : last p 0 = last p k0) by (apply last_dd; rewrite Epp; discriminate).
  cbn [facet_sides fa_polygons flat_map] in IS. unfold facet_sides in IS. cbn [fa_polygons flat_map] in IS. rewrite app_nil_r in IS.
  destruct (lines_entry (combine p (tl p) ++ [(k0, last p k0)]) (combine f (tl f) ++ [(z0, last f z0)]) s [] Hi) as (s' & hs & Q1 & Q2 & Q3 & Q4 & Q5 & Q6).
  { apply Forall2_app; [now apply combine_pos|]. constructor; [split; assumption|constructor]. }
  { apply Forall_app. split; [apply Forall_forall; intros ij I; left; apply IS; rewrite SD; apply in_app_iff; auto|]. constructor; [right; apply IS; rewrite SD; apply in_app_iff; right; left; cbn; now rewrite PL|constructor]. }
  rewrite Q1. cbn [app rbind fst snd].
  assert (hs <> []) as NH. { intros ->. apply Forall2_len in Q4. rewrite app_length in Q4. cbn in Q4. lia. }
  destruct (exists_last NH) as (hs' & h & Eh). rewrite Eh in Q4. apply lines_for_comm in Q4. rewrite <- Eh, <- PL, <- SD in Q4.
  destruct (make_plc_spec (numbered V) (either S) (mkFacet [p] []) (mkDr (ts_mesh s') hs [])) as (c & C1 & C2).
  { rewrite numbered_fst. apply seq_NoDup. }
  { constructor; [rewrite Epp; discriminate|constructor]. }
  { split; [exact (li_drawn _ Q2)|]. split; [cbn; rewrite app_nil_r; exact Q4|]. cbn. intros v. split; [intros []|]. intros (i & [I|[]] & _). exfalso. rewrite I in Lp. cbn in Lp. lia. }
  cbn [dr_mesh dr_lines dr_loose fa_holes] in C1. rewrite C1. cbn [of_option rbind]. rewrite E5, E6, E7.
  eexists _, _. split; [reflexivity|]. split; [exact R7|]. split; [cbn; auto 10|]. split; [|split].
  - destruct Q2 as [a b c0]. constructor; auto.
  - cbn [ts_mesh ts_plcs]. rewrite Q5. apply Forall2_app; [|constructor; [exact C2|constructor]].
    clear - Hp Q3 Hi. induction Hp as [|? ? ? ? H Hp IH]; constructor; auto. eapply plc_weak_kept; [exact (li_drawn _ Hi)|exact Q3|exact H].
  - cbn [ts_seeds]. congruence.
Qed.
End Faces.

(** Seeds. *)
Definition seeds_read (s0 : tstate K) (ss : list (pt * Z)) (s : tstate K) : Prop :=
  ts_mesh s = ts_mesh s0 /\ ts_plcs s = ts_plcs s0 /\ ts_seeds s = ss.
Lemma seed_entry s0 pre x ls rest xi s j : seeds_read s0 pre s -> (right_dim F (fst x) /\ seed_block F x ls) -> raw (snd xi) (ls ++ rest) ->
  exists xi' s', read_tess_seed F (xi, s) j = Done (xi', s') /\ raw (snd xi') rest /\ In (fst xi') ls /\ seeds_read s0 (pre ++ [x]) s'.
Proof.
  intros (Hm & Hp & Hs) [Dx (l1 & l2 & l3 & ws & -> & Pt & B1)] A. cbn [app] in A.
  destruct (next_raw xi _ _ A) as (s1 & E1 & R1). destruct (next_raw (l1, s1) _ _ R1) as (s2 & E2 & R2). destruct (next_raw (l2, s2) _ _ R2) as (s3 & E3 & R3).
  destruct (line_fed l1 s1 _ B1) as (m1 & F1). cbn [app] in F1. destruct (need_int_spec _ _ _ F1) as (c1 & N1 & F2).
  destruct (coords_spec F ws (fst x) _ Pt _ F2) as (c2 & N2 & _). rewrite Dx in N2.
  unfold read_tess_seed. cbn [fst snd]. rewrite E1, N1. cbn [rbind fst snd]. rewrite N2. cbn [rbind fst snd]. rewrite E2, E3.
  eexists _, _. split; [reflexivity|]. split; [exact R3|]. split; [cbn; auto|]. split; [exact Hm|]. split; [exact Hp|]. cbn [ts_seeds]. rewrite Hs. now destruct x.
Qed.

(** The loop over the lines of the file. *)
Lemma skip_section w one (x : input * tstate K) : ~ mentions (fst (fst x)) w -> tess_section w one x = Done x.
Proof. intros H. unfold tess_section. now rewrite contains_false. Qed.
Lemma plain_no l w : plain l -> In w heads -> ~ mentions l w.
Proof. intros P. apply P. Qed.
Lemma loop_end n x s : raw (snd x) [] -> tess_loop F (S n) x s = Done s.
Proof. intros R. destruct (getline_end x R) as (y & E). cbn [tess_loop]. now rewrite E. Qed.
Lemma loop_plain a : forall rest n x s, raw (snd x) (a ++ rest) -> Forall plain a -> List.length (a ++ rest) < n ->
  exists n' x', tess_loop F n x s = tess_loop F n' x' s /\ raw (snd x') rest /\ List.length rest < n'.
Proof.
  induction a as [|l a IH]; intros rest n x s R P L; [exists n, x; auto|]. cbn [app List.length] in *. inversion P as [|? ? Pl P']; subst.
  destruct n as [|n]; [lia|]. destruct (getline_raw x _ _ R) as (b & st & E & R' & Hb). destruct b.
  - cbn [tess_loop]. rewrite E. rewrite skip_section by (apply plain_no; [exact Pl|cbn; auto]). cbn [rbind]. rewrite skip_section by (apply plain_no; [exact Pl|cbn; auto]). cbn [rbind]. rewrite skip_section by (apply plain_no; [exact Pl|cbn; auto]). cbn [rbind fst snd].
    apply IH; auto. lia.
  - destruct (Hb eq_refl) as [-> Hr]. apply app_eq_nil in Hr as [-> ->]. exists 1, (@nil ascii, st). split; [|split; [exact R'|auto]].
    transitivity (Done s); [cbn [tess_loop]; now rewrite E|symmetry; apply (loop_end 0); exact R'].
Qed.
Lemma section_read {A} w (one : input * tstate K -> nat -> result (input * tstate K)) (R : A -> list text -> Prop) (Q : A -> list text -> Prop) (I : list A -> tstate K -> Prop) xs ls rest x s :
  (forall pre y ls rest xi s j, I pre s -> R y ls -> raw (snd xi) (ls ++ rest) -> exists xi' s', one (xi, s) j = Done (xi', s') /\ raw (snd xi') rest /\ In (fst xi') ls /\ I (pre ++ [y]) s') ->
  (forall lss, Forall2 Q xs lss -> Forall2 R xs lss) -> section w Q xs ls -> raw (snd x) (ls ++ rest) -> I [] s ->
  exists h st x' s', getline_into x = (true, (h, st)) /\ head_line w h /\ tess_section w one ((h, st), s) = Done (x', s') /\ raw (snd x') rest /\ plain (fst x') /\ I xs s' /\
    List.length rest + 2 <= List.length (ls ++ rest).
Proof.
  intros H HQ (h & c & lss & -> & Hh & (more & Hc) & FQ & Pc & Pl) Rw Hi. cbn [app] in Rw. destruct (getline_raw x _ _ Rw) as (b & st & E & R1 & Hb). destruct b; [|destruct (Hb eq_refl); discriminate].
  exists h, st. destruct (next_raw (h, st) _ _ R1) as (st1 & E1 & R2).
  destruct (line_fed c st1 [num (Z.of_nat (List.length xs))]) as (more' & F1); [now exists more|]. cbn [app] in F1. destruct (need_int_spec _ _ _ F1) as (c1 & N1 & _).
  destruct (entries one R I H xs lss (HQ lss FQ) [] (c, st1) s rest 0 R2 Hi) as (x' & s' & E2 & R3 & J & Hs). exists x', s'. split; [exact E|]. split; [exact Hh|]. split; [|split; [exact R3|split; [|split; [exact Hs|]]]].
  - unfold tess_section. cbn [fst snd]. rewrite (proj2 (contains_spec w h) (proj1 Hh)), E1, N1. cbn [rbind fst snd]. rewrite Nat2Z.id. exact E2.
  - cbn [fst] in J. destruct J as [-> |J]; [exact Pc|]. rewrite Forall_forall in Pl. auto.
  - cbn [app List.length]. rewrite app_length. lia.
Qed.
Lemma head_other w l v : head_line w l -> In v heads -> v <> w -> ~ mentions l v.
Proof. intros [_ H]. apply H. Qed.

Lemma mesh_result_either (P : poly K) m cs : drawn (po_vertices P) (either (flat_map facet_sides (po_facets P))) m -> Forall2 (plc_weak m) (po_facets P) cs -> mesh_of_poly P m cs.
Proof.
  intros D W. constructor.
  - rewrite (drawn_vrange _ _ _ D). apply map_seq_nth. intros k x Hk. rewrite (drawn_id _ _ _ _ D), Hk. reflexivity.
  - rewrite (drawn_vrange _ _ _ D). apply map_seq_nth. intros k x Hk. unfold point_at. rewrite (drawn_deref _ _ _ _ D), Hk. reflexivity.
  - intros ij H. apply in_flat_map in H as (f & Hf & H). destruct (Forall2_In_l _ _ _ _ W Hf) as (c & _ & Wc). destruct (pw_lines _ _ _ Wc) as (ls & L & _).
    destruct (Forall2_In_l _ _ _ _ L H) as (a & _ & A1 & A2). exists a. split; auto. split; auto. intros b B1 B2. exact (joins_unique _ _ m a b ij D A1 B1 A2 B2).
  - intros a H. unfold range in H. apply in_map_iff in H as (n & <- & H). destruct (dw_lines _ _ _ D n H) as (u & v & i & j & Q1 & Q2 & Q3 & Q4 & Q5).
    assert (J : joins m (n_addr n) (i, j)) by (apply (proj2 (key_joins _ _ _ n (i, j) D H)); exact Q4).
    destruct Q5 as [Q5|Q5]; [exists (i, j); auto|exists (j, i); split; [exact Q5|now apply joins_swap]].
  - intros t T T'. unfold range. now rewrite (dw_rest _ _ _ D).
  - assert (Q : forall f c, plc_weak m f c -> plc_of_facet m f c) by (intros f c; apply (plc_strong _ _ m f c D)). clear - W Q. induction W; constructor; auto.
Qed.
End Read.
