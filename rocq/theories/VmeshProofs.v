(** C80: the contents and the name of a ViennaMesh file. *)
From Coq Require Import List Arith ZArith Bool Ascii String Sorted Lia.
From Verif Require Import ModelTopo ModelMesh ModelSegmentation ModelSegment ModelXml ModelVtk ModelVmesh
  SpecMesh SpecErase SpecQuery SpecView SpecSegmentation SpecSegment SpecVmesh SegmentationBase SegmentInv SegmentStep SegmentProofs VtkText VtkLink.
Import ListNotations.
Open Scope list_scope.

(** * Texts without a character *)
Definition freeb (c : ascii) (t : list ascii) : bool := forallb (fun x => negb (Ascii.eqb x c)) t.
Lemma freeb_app c a b : freeb c (a ++ b) = freeb c a && freeb c b.
Proof. apply forallb_app. Qed.
Lemma freeb_in c t : freeb c t = true -> ~ In c t.
Proof. intros H I. unfold freeb in H. rewrite forallb_forall in H. apply H in I. now rewrite Ascii.eqb_refl in I. Qed.
Lemma in_freeb c t : ~ In c t -> freeb c t = true.
Proof. intros H. apply forallb_forall. intros x I. destruct (Ascii.eqb_spec x c) as [->|]; [now destruct H|reflexivity]. Qed.

Lemma first_stop (c : ascii) a b x y : freeb c a = true -> freeb c b = true -> a ++ c :: x = b ++ c :: y -> a = b /\ x = y.
Proof.
  revert b. induction a as [|u a IH]; intros [|v b] A B E; cbn in *.
  - injection E as ->. auto.
  - injection E as -> _. now rewrite Ascii.eqb_refl in B.
  - injection E as -> _. now rewrite Ascii.eqb_refl in A.
  - injection E as -> E. apply andb_prop in A as (_ & A). apply andb_prop in B as (_ & B). destruct (IH b A B E) as (-> & ->). auto.
Qed.
Lemma last_stop (c : ascii) a b x y : freeb c x = true -> freeb c y = true -> a ++ c :: x = b ++ c :: y -> a = b /\ x = y.
Proof.
  intros X Y. apply freeb_in in X, Y. revert b. induction a as [|u a IH]; intros [|v b] E; cbn in *.
  - injection E as ->. auto.
  - injection E as _ E. destruct X. rewrite E. apply in_or_app. right. now left.
  - injection E as _ E. destruct Y. rewrite <- E. apply in_or_app. right. now left.
  - injection E as -> E. destruct (IH b E) as (-> & ->). auto.
Qed.

Lemma decimal_free c z : c <> "-"%char -> digit c = None -> freeb c (word (decimal z)) = true.
Proof. intros N D. apply in_freeb. intros I. apply (int_chars z) in I as [->|(d & E)]; [now destruct N|congruence]. Qed.
Lemma number_free c n : c <> "-"%char -> digit c = None -> freeb c (number n) = true.
Proof. apply decimal_free. Qed.
Lemma word_inj a b : word a = word b -> a = b.
Proof. intros E. rewrite <- (string_of_list_ascii_of_string a), <- (string_of_list_ascii_of_string b). unfold word in E. now rewrite E. Qed.
Lemma number_inj a b : number a = number b -> a = b.
Proof. intros E. apply word_inj, decimal_inj in E. lia. Qed.

(** * Reading a document back *)
Lemma field_back k n v v' X X' : freeb "<" v = true -> freeb "<" v' = true ->
  shown k (Field n v) ++ X = shown k (Field n v') ++ X' -> v = v' /\ X = X'.
Proof.
  intros F F' E. cbn [shown] in E. rewrite <- !app_assoc in E. do 4 apply app_inv_head in E.
  cbn [word list_ascii_of_string app] in E. apply (first_stop "<") in E as (-> & E); auto. split; [reflexivity|].
  injection E as E. apply app_inv_head in E. now injection E as E.
Qed.
Lemma segments_back E E' : forall l l', List.concat (map (shown 2) (map segment_part l)) ++ margin 1 ++ word "</" ++ E =
  List.concat (map (shown 2) (map segment_part l')) ++ margin 1 ++ word "</" ++ E' -> l = l' /\ E = E'.
Proof.
  assert (N : forall z, freeb "<" (word (decimal z)) = true) by (intros z; apply decimal_free; [discriminate|reflexivity]).
  induction l as [|((z & nv) & nc) l IH]; intros [|((z' & nv') & nc') l'] H.
  - cbn in H. injection H as H. auto.
  - cbn in H. discriminate.
  - cbn in H. discriminate.
  - cbn [map List.concat segment_part] in H. change (shown 2 (Group "segment" ?p)) with
      (margin 2 ++ word "<" ++ word "segment" ++ word ">" ++ newline ++ List.concat (map (shown 3) p) ++ margin 2 ++ word "</" ++ word "segment" ++ word ">" ++ newline) in H.
    rewrite <- !app_assoc in H. do 5 apply app_inv_head in H. cbn [map List.concat] in H. rewrite <- !app_assoc in H.
    apply field_back in H as (Z & H); auto. apply field_back in H as (_ & H); auto.
    apply field_back in H as (V & H); try apply N. apply field_back in H as (C & H); try apply N. cbn [app] in H.
    do 5 apply app_inv_head in H. apply IH in H as (-> & ->). apply word_inj, decimal_inj in Z. apply number_inj in V, C. subst. auto.
Qed.

Definition rest (d : nat) (t : string) (u : summary) : list ascii :=
  shown 1 (Field "geomdim" (number d)) ++ shown 1 (Field "celltype" (word t)) ++ shown 1 (Field "vertices" (number (su_vertices u))) ++
  shown 1 (Field "cells" (number (su_cells u))) ++ shown 1 (Field "segments" (number (List.length (su_segments u)))) ++
  (margin 1 ++ word "<" ++ word "segmentation" ++ word ">" ++ newline ++
   List.concat (map (shown 2) (map segment_part (su_segments u))) ++ margin 1 ++ word "</" ++ word "segmentation" ++ word ">" ++ newline) ++
  word "</" ++ word "mesh" ++ word ">" ++ newline.
Lemma document_text i d t u : shown 0 (document i d t u) =
  word "<mesh>" ++ newline ++ margin 1 ++ word "<file>" ++ i ++ word "</file>" ++ newline ++ rest d t u.
Proof.
  unfold document, rest. cbn [shown map List.concat]. rewrite <- !app_assoc. reflexivity.
Qed.
Lemma field_free c k n v : c <> " "%char -> freeb c (word "<>/") = true -> freeb c newline = true -> freeb c (word n) = true -> freeb c v = true ->
  freeb c (shown k (Field n v)) = true.
Proof.
  intros B S L N V. assert (M : freeb c (margin k) = true).
  { apply in_freeb. intros I. apply repeat_spec in I. auto. }
  change (word "<>/") with (word "<" ++ word ">" ++ word "/") in S. rewrite !freeb_app in S. apply andb_prop in S as (S1 & S). apply andb_prop in S as (S2 & S3).
  cbn [shown]. change (word "</") with (word "<" ++ word "/"). rewrite !freeb_app, N, V, L, M, S1, S2, S3. reflexivity.
Qed.
Lemma rest_free d t u : freeb "f" (word t) = true -> freeb "f" (rest d t u) = true.
Proof.
  intros T. assert (N : forall z, freeb "f" (word (decimal z)) = true) by (intros z; apply decimal_free; [discriminate|reflexivity]).
  assert (F : forall k n v, freeb "f" (word n) = true -> freeb "f" v = true -> freeb "f" (shown k (Field n v)) = true).
  { intros k n v. apply field_free; [discriminate|reflexivity|reflexivity]. }
  assert (G : forall l, freeb "f" (List.concat (map (shown 2) (map segment_part l))) = true).
  { induction l as [|((z & nv) & nc) l IH]; [reflexivity|]. cbn [map List.concat]. rewrite freeb_app, IH. cbn [segment_part].
    change (shown 2 (Group "segment" ?p)) with
      (margin 2 ++ word "<" ++ word "segment" ++ word ">" ++ newline ++ List.concat (map (shown 3) p) ++ margin 2 ++ word "</" ++ word "segment" ++ word ">" ++ newline).
    cbn [map List.concat]. rewrite !freeb_app, !F; auto; apply N. }
  unfold rest. rewrite !freeb_app, !F, G; auto; apply N.
Qed.

(** * The text of the writer *)
Lemma segment_text Pt cfg (s : sstate Pt) a z : id_of_seg (st_segs s) a = Some z -> vm_segment cfg s a =
  Some (shown 2 (segment_part (z, List.length (k_view (st_con s a) Vertex), List.length (k_view (st_con s a) (cfg_cell cfg))))).
Proof.
  intros E. unfold vm_segment. rewrite E. cbn [obind segment_part shown map List.concat]. rewrite <- !app_assoc. reflexivity.
Qed.
Definition sum_of {Pt} (cfg : config) (s : sstate Pt) : summary :=
  mkSum (List.length (range (st_mesh s) Vertex)) (List.length (range (st_mesh s) (cfg_cell cfg)))
    (map (fun p => (fst p, List.length (k_view (st_con s (snd p)) Vertex), List.length (k_view (st_con s (snd p)) (cfg_cell cfg)))) (g_ids (st_segs s))).
Lemma omap_some {A B} (f : A -> option B) g l : (forall x, In x l -> f x = Some (g x)) -> omap f l = Some (map g l).
Proof. induction l as [|x l IH]; intros H; [reflexivity|]. cbn [omap map]. rewrite (H x (or_introl eq_refl)). cbn [obind]. rewrite IH; [reflexivity|]. intros y I. apply H. now right. Qed.
Lemma omap_map {A B C} (f : B -> option C) (g : A -> B) l : omap f (map g l) = omap (fun x => f (g x)) l.
Proof. induction l as [|x l IH]; [reflexivity|]. cbn [omap map]. now rewrite IH. Qed.
Lemma writer_text Pt cfg d i (s : sstate Pt) : ginv (st_segs s) ->
  write_vmesh cfg d i s = Some (shown 0 (document i d (tag_name (cfg_cell cfg)) (sum_of cfg s))).
Proof.
  intros G. unfold write_vmesh, segment_range. rewrite omap_map.
  rewrite (omap_some _ (fun p => shown 2 (segment_part (fst p, List.length (k_view (st_con s (snd p)) Vertex), List.length (k_view (st_con s (snd p)) (cfg_cell cfg)))))).
  - cbn [obind]. f_equal. rewrite document_text. unfold rest, sum_of, segment_count. cbn [su_vertices su_cells su_segments].
    rewrite map_length, !map_map. cbn [shown]. rewrite <- !app_assoc. reflexivity.
  - intros (z & a) I. cbn [fst snd]. apply segment_text. destruct (gi_seg _ G _ _ I) as (n & E). unfold id_of_seg. now rewrite E.
Qed.

Lemma C80_contents_partial_pf : forall Pt cfg d input (s : sstate Pt), cfg_cell cfg <> Hex -> sreach cfg s ->
  exists celltype u, celltype_named (cfg_cell cfg) celltype /\ summarises cfg s u /\
    write_vmesh cfg d input s = Some (shown 0 (document input d celltype u)).
Proof.
  intros Pt cfg d i s NH R. pose proof (sreach_inv cfg NH s R) as I. pose proof (si_g _ _ I) as G.
  exists (tag_name (cfg_cell cfg)), (sum_of cfg s). split; [destruct (cfg_cell cfg); cbn; tauto|]. split; [|now apply writer_text].
  assert (RE : forall t, counts (is_live (st_mesh s) t) (List.length (range (st_mesh s) t))).
  { intros t. exists (range (st_mesh s) t). split; [|reflexivity]. split; [apply (SegmentInv.reach_wf cfg _ (si_reach _ _ I))|].
    intros a. apply range_is_live. }
  unfold summarises, sum_of. cbn [su_vertices su_cells su_segments]. split; [apply RE|]. split; [apply RE|].
  rewrite map_map. unfold su_id. cbn [fst]. split; [|split].
  - pose proof (gi_sorted _ G) as S. induction S as [|[k b] l S IH F]; simpl; constructor; auto.
    rewrite Forall_forall in *. intros z Hz. apply in_map_iff in Hz as (p & <- & Hp). now apply F in Hp.
  - intros z. rewrite (has_id_iff _ _ G), in_map_iff. split.
    + intros ([z' a] & E & H). simpl in E. subst. eauto.
    + intros (a & H). exists (z, a). auto.
  - intros z nv nc H. apply in_map_iff in H as ((z' & a) & E & H). cbn [fst snd] in E. injection E as -> <- <-.
    assert (SA : is_segment s a) by (apply in_range; eauto). exists a. split; [split; [exact SA|]|].
    + destruct (gi_seg _ G _ _ H) as (n & E). unfold id_of_seg. now rewrite E.
    + destruct (C20_closure_pf Pt cfg s a NH R SA) as (_ & _ & ND).
      split; (eexists; split; [|reflexivity]); (split; [apply ND|intros x; reflexivity]).
Qed.

Lemma C80_determined_pf : forall t t' i i' d d' n n' u u', celltype_named t n -> celltype_named t' n' ->
  shown 0 (document i d n u) = shown 0 (document i' d' n' u') -> i = i' /\ d = d' /\ t = t' /\ u = u'.
Proof.
  intros t t' i i' d d' n n' u u' T T' E.
  assert (NF : forall x y, celltype_named x y -> freeb "f" (word y) = true /\ freeb "<" (word y) = true).
  { intros x y H. repeat (destruct H as [H|H]; [injection H as <- <-; split; reflexivity|]). destruct H. }
  rewrite !document_text in E. do 4 apply app_inv_head in E.
  change (word "</file>" ++ newline ++ rest d n u) with (["<"; "/"]%char ++ "f"%char :: word "ile>" ++ newline ++ rest d n u) in E.
  change (word "</file>" ++ newline ++ rest d' n' u') with (["<"; "/"]%char ++ "f"%char :: word "ile>" ++ newline ++ rest d' n' u') in E.
  rewrite !app_assoc in E. rewrite <- (app_assoc (word "ile>")), <- (app_assoc (word "ile>")) in E.
  apply last_stop in E as (Ei & E); [|rewrite !freeb_app, rest_free; [reflexivity|now apply (NF t)]|rewrite !freeb_app, rest_free; [reflexivity|now apply (NF t')]].
  apply app_inv_tail in Ei. do 2 apply app_inv_head in E. unfold rest in E.
  assert (N : forall k, freeb "<" (number k) = true) by (intros z; apply number_free; [discriminate|reflexivity]).
  apply field_back in E as (E1 & E); try apply N. apply field_back in E as (E2 & E); [|now apply (NF t)|now apply (NF t')].
  apply field_back in E as (E3 & E); try apply N. apply field_back in E as (E4 & E); try apply N. apply field_back in E as (E5 & E); try apply N.
  rewrite <- !app_assoc in E. do 5 apply app_inv_head in E. apply segments_back in E as (E6 & _).
  apply number_inj in E1, E3, E4. apply word_inj in E2. subst i' d' n'. repeat split.
  - clear - T T'. unfold celltype_named in *. repeat (destruct T as [T|T]; [injection T as <- <-; cbn in T'; intuition (try congruence)|]). destruct T.
  - destruct u, u'. cbn in *. congruence.
Qed.

Lemma C80_names_refuted_pf : forall Pt cfg d input (s s' : sstate Pt) z name, cfg_cell cfg <> Hex -> sreach cfg s -> has_id (st_segs s) z ->
  sstep cfg s (SManage (SgRename z name)) = Some s' -> write_vmesh cfg d input s' = write_vmesh cfg d input s.
Proof.
  intros Pt cfg d i s s' z name NH R HZ E. pose proof (sreach_inv cfg NH s R) as I. pose proof (si_g _ _ I) as G.
  apply (has_id_iff _ _ G) in HZ as (a & HA). cbn [sstep sgstep] in E. unfold get_segment_id in E.
  pose proof (proj2 (find_id_spec _ z a (gi_sorted _ G)) HA) as FA. rewrite FA in E. cbn [sbind] in E.
  assert (SA : In a (segment_range (st_segs s))) by (apply in_range; eauto).
  destruct (set_name_inv a name _ G SA) as (g' & W & G' & EI & _).
  assert (ES : st_mesh s' = st_mesh s /\ st_con s' = st_con s /\ st_segs s' = g').
  { destruct (set_name a name (st_segs s)); cbn in W, E; try discriminate; injection W as <-; injection E as <-; auto. }
  destruct ES as (E1 & E2 & E3). rewrite !writer_text; [|exact G|now rewrite E3]. unfold sum_of. now rewrite E1, E2, E3, EI.
Qed.

(** * The name of the file *)
Lemma after_dot_spec s : (existsb is_dot s = false /\ after_dot s = s) \/ exists p, s = p ++ "."%char :: after_dot s.
Proof.
  induction s as [|c r IH]; [left; auto|]. cbn [after_dot existsb]. destruct (existsb is_dot r) eqn:X.
  - right. destruct IH as [[C _]|(p & E)]; [discriminate|]. exists (c :: p). cbn [app]. now rewrite <- E.
  - unfold is_dot. destruct (Ascii.eqb_spec c ".") as [->|N]; [right; now exists []|]. left. cbn. auto.
Qed.
Lemma after_dot_app p e : existsb is_dot e = false -> after_dot (p ++ "."%char :: e) = e.
Proof.
  intros N. induction p as [|c p IH]; cbn [app after_dot]; [now rewrite N|]. rewrite existsb_app. cbn. now rewrite orb_true_r.
Qed.

Lemma C80_file_name_partial_pf : forall out,
  (has_extension out -> vm_file_name out = out) /\
  (~ has_extension out -> out <> word "vmesh" -> vm_file_name out = out ++ word ".vmesh") /\
  (out <> word "vmesh" -> has_extension (vm_file_name out)).
Proof.
  intros out.
  assert (A : has_extension out -> vm_file_name out = out).
  { intros (p & ->). unfold vm_file_name. change (word ".vmesh") with ("."%char :: txt "vmesh"). rewrite after_dot_app; [|reflexivity].
    unfold text_eqb. destruct list_eq_dec as [|N]; [reflexivity|now destruct N]. }
  assert (B : ~ has_extension out -> out <> word "vmesh" -> vm_file_name out = out ++ word ".vmesh").
  { intros N V. unfold vm_file_name, text_eqb. destruct list_eq_dec as [Q|]; [|reflexivity].
    destruct (after_dot_spec out) as [[_ E]|(p & E)]; rewrite Q in E; [now destruct V|destruct N; now exists p]. }
  split; [exact A|]. split; [exact B|]. intros V. unfold vm_file_name, text_eqb. destruct list_eq_dec as [Q|]; [|now exists out].
  destruct (after_dot_spec out) as [[_ E]|(p & E)]; rewrite Q in E; [now destruct V|now exists p].
Qed.

Lemma C80_file_name_refuted_pf : vm_file_name (word "vmesh") = word "vmesh" /\ ~ has_extension (word "vmesh").
Proof.
  split; [reflexivity|]. intros (p & E). apply (f_equal (@List.length ascii)) in E. rewrite app_length in E. cbn in E. lia.
Qed.
