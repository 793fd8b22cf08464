(** C78, C79: a .tess file is read as the vertices, faces and polyhedra that it
    describes; what is not checked. *)
From Coq Require Import Ascii String List Arith ZArith Bool Lia.
From Verif Require Import ModelTopo ModelMesh ModelErase ModelCopySeg ModelXml ModelVtk ModelNetgen ModelPoly ModelNeper
  SpecMesh SpecErase SpecCopy SpecVtk SpecNetgen SpecPoly SpecNeper VtkDemo NetgenText PolyText PolyBuild PolyRead NeperRead.
Import ListNotations.
Open Scope nat_scope.

Lemma positions {K : Type} (V : list (Z * list K)) f : incl f (map fst V) -> exists p, Forall2 (at_pos V) f p.
Proof.
  induction f as [|z f IH]; intros H; [exists []; constructor|]. destruct IH as (p & Hp); [intros x I; apply H; now right|].
  destruct (In_nth_error (map fst V) z) as (k & Hk); [apply H; now left|]. exists (k :: p). constructor; auto.
Qed.
Lemma faces_are {K : Type} (T : tess K) : forall fs, Forall (tess_face_ok T) fs -> exists gs, Forall2 (face_is (te_vertices T)) fs gs.
Proof.
  induction fs as [|f fs IH]; intros H; [exists []; constructor|]. inversion H as [|? ? [_ H1] H2]; subst. destruct (IH H2) as (gs & G). destruct (positions (te_vertices T) f H1) as (p & Hp).
  exists (mkFacet [p] [] :: gs). constructor; auto. exists p. auto.
Qed.
Lemma face_is_fun {K : Type} (V : list (Z * list K)) f g g' : NoDup (map fst V) -> face_is V f g -> face_is V f g' -> g = g'.
Proof.
  intros N (p & -> & P) (q & -> & Q). do 2 f_equal. revert q Q. induction P as [|z k f p Hz P IH]; intros q Q; inversion Q as [|? k' ? q' Hz' Q']; subst; [reflexivity|].
  rewrite (pos_fun V N _ _ _ Hz Hz'). f_equal. auto.
Qed.

Lemma face_sides_range {K : Type} (T : tess K) fs gs : Forall2 (face_is (te_vertices T)) fs gs -> forall i j, In (i, j) (flat_map facet_sides gs) -> i < List.length (te_vertices T) /\ j < List.length (te_vertices T).
Proof.
  induction 1 as [|f g fs gs (p & -> & P) G IH]; intros i j I; [destruct I|]. cbn [flat_map] in I. apply in_app_iff in I as [I|I]; [|auto].
  assert (B : forall k, In k p -> k < List.length (te_vertices T)).
  { clear - P. intros k I. induction P as [|z x f p Hz P IH]; [destruct I|]. destruct I as [<- |I]; [|auto]. rewrite <- (map_length fst). apply nth_error_Some. unfold at_pos in Hz. congruence. }
  unfold facet_sides in I. cbn [fa_polygons flat_map] in I. rewrite app_nil_r in I. apply sides_in in I as [I1 I2]. auto.
Qed.

Lemma loop_step {K : Type} (F : format K) n x x1 s y1 y2 x4 s4 : getline_into x = (true, x1) -> tess_section "**vertex" (read_tess_vertex F) (x1, s) = Done y1 ->
  tess_section "**face" read_tess_face y1 = Done y2 -> tess_section "**polyhedron" (read_tess_seed F) y2 = Done (x4, s4) -> tess_loop F (S n) x s = tess_loop F n x4 s4.
Proof. intros G E1 E2 E3. cbn [tess_loop]. rewrite G, E1. cbn [rbind]. rewrite E2. cbn [rbind]. rewrite E3. reflexivity. Qed.

Lemma loop_undef_v {K : Type} (F : format K) n x x1 s : getline_into x = (true, x1) -> tess_section "**vertex" (read_tess_vertex F) (x1, s) = Undefined -> tess_loop F (S n) x s = Undefined.
Proof. intros G E1. cbn [tess_loop]. rewrite G, E1. reflexivity. Qed.
Lemma loop_undef_f {K : Type} (F : format K) n x x1 s y1 : getline_into x = (true, x1) -> tess_section "**vertex" (read_tess_vertex F) (x1, s) = Done y1 ->
  tess_section "**face" read_tess_face y1 = Undefined -> tess_loop F (S n) x s = Undefined.
Proof. intros G E1 E2. cbn [tess_loop]. rewrite G, E1. cbn [rbind]. rewrite E2. reflexivity. Qed.

Section Steps.
Context {K : Type}.
Variable F : format K.
Variable T : tess K.
Hypothesis OK : tess_ok F T.

Definition faces_known (S : list (nat * nat)) (fs : list (list Z)) (s : tstate K) : Prop :=
  exists gs, Forall2 (face_is (te_vertices T)) fs gs /\ faces_read (te_vertices T) S gs s.
Definition face_fits (S : list (nat * nat)) (f : list Z) (ls : list text) : Prop :=
  (exists g, face_is (te_vertices T) f g /\ incl (facet_sides g) S) /\ 3 <= List.length f /\ face_block f ls.
Lemma known_entry S pre f ls rest xi s j : faces_known S pre s -> face_fits S f ls -> raw (snd xi) (ls ++ rest) ->
  exists xi' s', read_tess_face (xi, s) j = Done (xi', s') /\ raw (snd xi') rest /\ In (fst xi') ls /\ faces_known S (pre ++ [f]) s'.
Proof.
  intros (gs & G & H) ((g & Hg & Hi) & L & B) A. destruct OK as (N & _).
  destruct (face_entry (te_vertices T) N S gs g f ls rest xi s j H) as (xi' & s' & E & R & I & H'); [repeat split; auto|exact A|].
  exists xi', s'. split; auto. split; auto. split; auto. exists (gs ++ [g]). split; [apply Forall2_app; auto|exact H'].
Qed.
Lemma vertices_fit lss : Forall2 (vertex_block F) (te_vertices T) lss -> Forall2 (fun v ls => right_dim F (snd v) /\ vertex_block F v ls) (te_vertices T) lss.
Proof. destruct OK as (_ & D & _). now apply Forall2_both. Qed.
Lemma faces_fit S fs gs lss : Forall2 (face_is (te_vertices T)) fs gs -> Forall (tess_face_ok T) fs -> incl (flat_map facet_sides gs) S -> Forall2 face_block fs lss -> Forall2 (face_fits S) fs lss.
Proof.
  intros G. revert lss. induction G as [|f g fs gs Hg G IH]; intros lss O I B; inversion B as [|? ? ? ? B1 B2]; subst; constructor.
  - inversion O as [|? ? [L _] _]; subst. split; [exists g; split; [exact Hg|]; intros x Hx; apply I; cbn; apply in_app_iff; auto|]. auto.
  - apply IH; auto; [now inversion O|]. intros x Hx. apply I. cbn. apply in_app_iff. auto.
Qed.
Lemma vertices_faces S s : vertices_read (te_vertices T) s -> faces_known S [] s.
Proof.
  intros (H & Hg & Hv & Hl & Hp & Hs). exists []. split; [constructor|]. split; [|split; [rewrite Hp; constructor|exact Hs]].
  constructor; [now apply has_drawn|exact Hv|]. rewrite Hl. intros a b h [].
Qed.

(** Up to the end of the vertices. *)
Lemma read_vertices a l1 rest n x s : raw (snd x) (a ++ l1 ++ rest) -> Forall plain a -> section "**vertex" (vertex_block F) (te_vertices T) l1 -> List.length (a ++ l1 ++ rest) < n ->
  vertices_read [] s -> exists n' x' s', tess_loop F n x s = tess_loop F n' x' s' /\ raw (snd x') rest /\ List.length rest < n' /\ vertices_read (te_vertices T) s'.
Proof.
  intros R Pa S L Hi. destruct (loop_plain F a (l1 ++ rest) n x s R Pa L) as (n1 & x1 & E1 & R1 & L1). rewrite E1.
  destruct (section_read "**vertex" (read_tess_vertex F) _ _ vertices_read (te_vertices T) l1 rest x1 s (vertex_entry F) vertices_fit S R1 Hi) as (h & st & x2 & s2 & G & Hh & E2 & R2 & P2 & H2 & L2).
  destruct n1 as [|n1]; [lia|]. exists n1, x2, s2. split; [|split; [exact R2|split; [lia|exact H2]]].
  eapply loop_step; [exact G|exact E2| |]; apply skip_section; apply plain_no; [exact P2|cbn; auto|exact P2|cbn; auto].
Qed.
End Steps.

Lemma start_read {K : Type} : vertices_read (K := K) [] (mkTs empty_mesh [] [] [] []).
Proof. split; [apply has_empty|]. repeat split. Qed.

Lemma C78_read_pf : forall (K : Type) (F : format K) file (T : tess K), f_dim F <= 3 ->
  tess_lines F T (split_lines [] file) -> tess_ok F T ->
  exists P m cs, read_tess F (Some file) empty_mesh = Done (m, cs, te_seeds T) /\ renumbered T P /\ mesh_of_poly P m cs.
Proof.
  intros K F file T _ (a & l1 & b & l2 & c & l3 & d & W & Pa & Pb & Pc & Pd & S1 & S2 & S3) O. pose proof O as (N & _ & OF & OS).
  destruct (faces_are T (te_faces T) OF) as (gs & G). set (S := flat_map facet_sides gs).
  unfold read_tess. pose proof (raw_text file) as R0. rewrite W in R0. pose proof (split_length file []) as L0. rewrite W in L0.
  destruct (read_vertices F T O a l1 (b ++ l2 ++ c ++ l3 ++ d) (Datatypes.S (Datatypes.S (List.length file))) ([], mkStream file true) _ R0 Pa S1 ltac:(lia) start_read) as (n1 & x1 & s1 & E1 & R1 & L1 & H1). rewrite E1.
  destruct (loop_plain F b _ n1 x1 s1 R1 Pb L1) as (n2 & x2 & E2 & R2 & L2). rewrite E2.
  destruct (section_read "**face" read_tess_face _ _ (faces_known T S) (te_faces T) l2 (c ++ l3 ++ d) x2 s1 (known_entry F T O S) (fun lss => faces_fit T S _ gs lss G OF (incl_refl _)) S2 R2 (vertices_faces T S s1 H1))
    as (h & st & x3 & s3 & G3 & Hh & E3 & R3 & P3 & (gs' & G' & (Hi & Hp & Hs)) & L3).
  assert (gs' = gs). { clear - G G' N. revert gs' G'. induction G as [|f g fs gs Hg G IH]; intros gs' G'; inversion G' as [|? g' ? ? Hg' G'']; subst; [reflexivity|]. rewrite (face_is_fun _ _ _ _ N Hg Hg'). f_equal. auto. } subst gs'.
  destruct n2 as [|n2]; [lia|].
  assert (E4 : tess_loop F (Datatypes.S n2) x2 s1 = tess_loop F n2 x3 s3).
  { eapply loop_step; [exact G3| |exact E3|]; apply skip_section; [apply (head_other _ _ _ Hh); [cbn; auto|discriminate]|apply plain_no; [exact P3|cbn; auto]]. }
  rewrite E4. destruct (loop_plain F c (l3 ++ d) n2 x3 s3 R3 Pc ltac:(lia)) as (n4 & x4 & E5 & R4 & L4). rewrite E5.
  destruct (section_read "**polyhedron" (read_tess_seed F) _ _ (seeds_read s3) (te_seeds T) l3 d x4 s3 (seed_entry F s3) (fun lss => Forall2_both _ _ _ _ OS) S3 R4) as (h' & st' & x5 & s5 & G5 & Hh' & E6 & R5 & P5 & (Q1 & Q2 & Q3) & L5).
  { split; [reflexivity|]. split; [reflexivity|exact Hs]. }
  destruct n4 as [|n4]; [lia|].
  assert (E7 : tess_loop F (Datatypes.S n4) x4 s3 = tess_loop F n4 x5 s5).
  { eapply loop_step; [exact G5| | |exact E6]; apply skip_section; apply (head_other _ _ _ Hh'); [cbn; auto|discriminate|cbn; auto|discriminate]. }
  rewrite E7. rewrite <- (app_nil_r d) in R5. destruct (loop_plain F d [] n4 x5 s5 R5 Pd ltac:(rewrite app_nil_r; lia)) as (n6 & x6 & E8 & R6 & L6). rewrite E8.
  destruct n6 as [|n6]; [lia|]. rewrite (loop_end F n6 x6 s5 R6). cbn [rbind].
  exists (mkPoly (numbered (te_vertices T)) gs [] []), (ts_mesh s5), (ts_plcs s5). split; [now rewrite Q3|]. split; [split; [reflexivity|exact G]|].
  apply mesh_result_either; cbn [po_vertices po_facets]; rewrite Q1; [exact (li_drawn _ _ _ Hi)|rewrite Q2; exact Hp].
Qed.

Lemma entries_stop {A S} (one : input * S -> nat -> result (input * S)) (R : A -> list text -> Prop) (I : list A -> S -> Prop) :
  (forall pre x ls rest xi s j, I pre s -> R x ls -> raw (snd xi) (ls ++ rest) -> exists xi' s', one (xi, s) j = Done (xi', s') /\ raw (snd xi') rest /\ In (fst xi') ls /\ I (pre ++ [x]) s') ->
  forall xs lss, Forall2 R xs lss -> forall n pre xi s rest j, List.length xs < n -> raw (snd xi) (List.concat lss ++ rest) -> I pre s ->
  (forall xi s j, raw (snd xi) rest -> I (pre ++ xs) s -> one (xi, s) j = Undefined) -> rfold one (seq j n) (xi, s) = Undefined.
Proof.
  intros H xs lss FR. induction FR as [|x ls xs lss Rx FR IH]; intros n pre xi s rest j L RA Hi HU; destruct n as [|n]; try (cbn in L; lia); cbn [seq rfold List.concat] in *.
  - rewrite HU; auto. now rewrite app_nil_r.
  - rewrite <- app_assoc in RA. destruct (H pre x ls _ xi s j Hi Rx RA) as (xi1 & s1 & E1 & A1 & _ & J1). rewrite E1. cbn [rbind].
    apply (IH n (pre ++ [x]) xi1 s1 rest (Datatypes.S j)); auto; [cbn in L; lia|]. intros. apply HU; auto. now rewrite <- app_assoc in *.
Qed.

Lemma C79_truncated_refuted_pf : forall (K : Type) (F : format K) file a h c lss (vs : list (Z * list K)) n, f_dim F <= 3 ->
  split_lines [] file = a ++ h :: c :: List.concat lss ++ [[]] ->
  Forall plain a -> head_line "**vertex" h -> begins [num (Z.of_nat n)] c ->
  Forall2 (vertex_block F) vs lss -> Forall (fun v => right_dim F (snd v)) vs -> List.length vs < n ->
  read_tess F (Some file) empty_mesh = Undefined.
Proof.
  intros K F file a h c lss vs n _ W Pa Hh Bc B D L. unfold read_tess. pose proof (raw_text file) as R0. rewrite W in R0. pose proof (split_length file []) as L0. rewrite W in L0.
  destruct (loop_plain F a _ (S (S (List.length file))) ([], mkStream file true) (mkTs empty_mesh [] [] [] []) R0 Pa ltac:(lia)) as (n1 & x1 & E1 & R1 & L1). rewrite E1.
  destruct n1 as [|n1]; [cbn in L1; lia|]. destruct (getline_raw x1 _ _ R1) as (b & st & G & R2 & Hb). destruct b; [|destruct (Hb eq_refl); discriminate].
  destruct (next_raw (h, st) _ _ R2) as (st1 & E2 & R3). destruct (line_fed c st1 _ Bc) as (more & F1). cbn [app] in F1. destruct (need_int_spec _ _ _ F1) as (c1 & N1 & _).
  rewrite (loop_undef_v F n1 x1 (h, st)); [reflexivity|exact G|]. unfold tess_section. cbn [fst snd]. rewrite (proj2 (contains_spec "**vertex" h) (proj1 Hh)), E2, N1. cbn [rbind fst snd]. rewrite Nat2Z.id.
  apply (entries_stop (read_tess_vertex F) _ vertices_read (vertex_entry F) vs lss (Forall2_both _ _ _ _ D B) n [] (c, st1) _ [[]] 0 L R3 start_read).
  intros xi s j R _. destruct (next_raw xi _ _ R) as (st2 & E3 & _). unfold read_tess_vertex. cbn [fst snd]. rewrite E3. rewrite need_int_none; [reflexivity|]. split; [reflexivity|intros Q; contradiction].
Qed.

Lemma C79_unknown_vertex_refuted_pf : forall (K : Type) (F : format K) file (T : tess K) a l1 b h c lss f lf rest n, f_dim F <= 3 ->
  split_lines [] file = a ++ l1 ++ b ++ h :: c :: List.concat lss ++ lf ++ rest ->
  Forall plain a -> Forall plain b -> section "**vertex" (vertex_block F) (te_vertices T) l1 -> tess_ok F T ->
  head_line "**face" h -> begins [num (Z.of_nat n)] c -> Forall2 face_block (te_faces T) lss -> List.length (te_faces T) < n ->
  face_block f lf -> 2 <= List.length f -> ~ incl f (tess_ids T) -> read_tess F (Some file) empty_mesh = Undefined.
Proof.
  intros K F file T a l1 b h c lss f lf rest n _ W Pa Pb S1 O Hh Bc B L Bf Lf NI. pose proof O as (N & _ & OF & _). unfold read_tess. pose proof (raw_text file) as R0. rewrite W in R0. pose proof (split_length file []) as L0. rewrite W in L0.
  destruct (faces_are T (te_faces T) OF) as (gs & G). set (S := list_prod (seq 0 (List.length (te_vertices T))) (seq 0 (List.length (te_vertices T)))).
  assert (HS : forall i j, i < List.length (te_vertices T) -> j < List.length (te_vertices T) -> In (i, j) S) by (intros i j Li Lj; apply in_prod; apply in_seq; lia).
  assert (IS : incl (flat_map facet_sides gs) S) by (intros [i j] I; apply (face_sides_range T _ _ G) in I as [Li Lj]; auto).
  destruct (read_vertices F T O a l1 _ (Datatypes.S (Datatypes.S (List.length file))) ([], mkStream file true) _ R0 Pa S1 ltac:(lia) start_read) as (n1 & x1 & s1 & E1 & R1 & L1 & H1). rewrite E1.
  destruct (loop_plain F b _ n1 x1 s1 R1 Pb L1) as (n2 & x2 & E2 & R2 & L2). rewrite E2.
  destruct n2 as [|n2]; [lia|]. destruct (getline_raw x2 _ _ R2) as (b2 & st & G2 & R3 & Hb). destruct b2; [|destruct (Hb eq_refl); discriminate].
  destruct (next_raw (h, st) _ _ R3) as (st1 & E3 & R4). destruct (line_fed c st1 _ Bc) as (more & F1). cbn [app] in F1. destruct (need_int_spec _ _ _ F1) as (c1 & N1 & _).
  erewrite (loop_undef_f F n2 x2 (h, st)); [reflexivity|exact G2|apply skip_section; apply (head_other _ _ _ Hh); [cbn; auto|discriminate]|].
  unfold tess_section. cbn [fst snd]. rewrite (proj2 (contains_spec "**face" h) (proj1 Hh)), E3, N1. cbn [rbind fst snd]. rewrite Nat2Z.id.
  apply (entries_stop read_tess_face (face_fits T S) (faces_known T S) (known_entry F T O S) (te_faces T) lss (faces_fit T S _ gs lss G OF IS B) n [] (c, st1) s1 (lf ++ rest) 0 L R4 (vertices_faces T S s1 H1)).
  intros xi s j R (gs' & _ & (Hi & _)). destruct Bf as (k1 & k2 & k3 & k4 & k5 & k6 & k7 & -> & Bf). cbn [app] in R.
  destruct (next_raw xi _ _ R) as (t1 & Q1 & V1). destruct (next_raw (k1, t1) _ _ V1) as (t2 & Q2 & V2). destruct (next_raw (k2, t2) _ _ V2) as (t3 & Q3 & V3). destruct (next_raw (k3, t3) _ _ V3) as (t4 & Q4 & V4).
  destruct (line_fed k4 t4 _ Bf) as (more4 & F4). cbn [app] in F4. destruct (need_int_spec _ _ _ F4) as (c4 & N4 & F5).
  unfold read_tess_face. cbn [fst snd]. rewrite Q1, Q2, Q3, Q4, N4. cbn [rbind fst snd]. replace (Z.of_nat (List.length f) <? 0)%Z with false by (symmetry; apply Z.ltb_ge; lia). rewrite Nat2Z.id, (ids_read f _ _ F5). cbn [rbind].
  destruct f as [|z0 f0] eqn:Ef; [cbn in Lf; lia|]. rewrite <- Ef in *.
  rewrite (bad_lines (te_vertices T) N S); [reflexivity|intros; left; auto|exact Hi|].
  assert (X : exists z, In z f /\ ~ In z (map fst (te_vertices T))).
  { clear - NI. unfold tess_ids in NI. induction f as [|z f IH]; [exfalso; apply NI; intros x []|]. destruct (in_dec Z.eq_dec z (map fst (te_vertices T))) as [I|I]; [|exists z; split; auto; now left].
    destruct IH as (y & Y1 & Y2); [intros H; apply NI; intros x [<-|Hx]; auto|]. exists y. split; auto. now right. }
  destruct X as (z & I & NZ). apply Exists_exists.
  assert (Y : exists ab, In ab (combine f (tl f)) /\ (z = fst ab \/ z = snd ab)).
  { clear - I Lf. destruct f as [|x f]; [destruct I|]. destruct f as [|y f]; [cbn in Lf; lia|]. clear Lf. cbn [tl]. revert x y I. induction f as [|w f IH]; intros x y I.
    - exists (x, y). split; [now left|]. destruct I as [->|[->|[]]]; auto.
    - destruct I as [->|I]; [exists (z, y); split; [now left|auto]|]. destruct (IH y w I) as (ab & I1 & I2). exists ab. split; auto. now right. }
  destruct Y as (ab & I1 & I2). exists ab. split; [apply in_app_iff; auto|]. destruct I2 as [-> | ->]; auto.
Qed.

Lemma C79_any_file_refuted_pf : forall (K : Type) (F : format K) file (m : @mesh (list K)),
  Forall plain (split_lines [] file) -> read_tess F (Some file) m = Done (m, [], []).
Proof.
  intros K F file m P. unfold read_tess. pose proof (raw_text file) as R0. pose proof (split_length file []) as L0. rewrite <- (app_nil_r (split_lines [] file)) in R0.
  destruct (loop_plain F _ [] (S (S (List.length file))) ([], mkStream file true) (mkTs m [] [] [] []) R0 P ltac:(rewrite app_nil_r; lia)) as (n & x & E & R & L). rewrite E.
  destruct n as [|n]; [lia|]. now rewrite loop_end.
Qed.
