(** Lemmas for C62 and C63: what is written is read back. *)
From Coq Require Import Ascii String List Arith ZArith Bool Lia Sorted.
From Verif Require Import ModelTopo ModelMesh ModelErase ModelQuery ModelView ModelSegmentation ModelSegment ModelCopy ModelCopySeg ModelXml ModelVtk
  SpecMesh SpecErase SpecQuery SpecSegmentation SpecSegment SpecCopy SpecCopySeg SpecXml SpecVtk MeshBase MeshInv MeshReach MeshWf MeshErase MeshSimple QueryBase SegmentationBase
  CopyBase CopySegBase ViewBase SegmentView SegmentInv SegmentStep VtkText VtkPvd VtkSim VtkBuild VtkSource.
Import ModelSegmentation ListNotations.
Open Scope nat_scope.

Lemma separators_blank w : free_of separators w -> Forall (fun c => blank c = false) w.
Proof.
  intros H. apply Forall_forall. intros c Hc. specialize (H c Hc). destruct (blank c) eqn:E; auto. exfalso. apply H.
  destruct c as [[] [] [] [] [] [] [] []]; try discriminate E; cbn; auto 10.
Qed.

Lemma nth_concat {A} (n : nat) (ls : list (list A)) i k l : Forall (fun l => List.length l = n) ls -> nth_error ls i = Some l -> k < n ->
  nth_error (List.concat ls) (k + i * n) = nth_error l k.
Proof.
  intros H. revert i. induction H as [|x ls L H IH]; intros i E Hk; [destruct i; discriminate E|]. cbn [List.concat]. destruct i as [|i]; cbn in E.
  - inversion E; subst. rewrite nth_error_app1 by lia. f_equal. lia.
  - rewrite nth_error_app2 by (cbn; lia). rewrite <- (IH i E Hk). f_equal. cbn. lia.
Qed.
Lemma Forall2_nth {A B} (P : A -> B -> Prop) l l' i x : Forall2 P l l' -> nth_error l i = Some x -> exists y, nth_error l' i = Some y /\ P x y.
Proof. intros H. revert i. induction H as [|a b l l' Hab H IH]; intros [|i] E; cbn in *; try discriminate; eauto. inversion E; subst. eauto. Qed.
Lemma Forall2_seq {A} (P : nat -> A -> Prop) (l : list A) : (forall i x, nth_error l i = Some x -> P i x) -> Forall2 P (seq 0 (List.length l)) l.
Proof.
  enough (G : forall j, (forall i x, nth_error l i = Some x -> P (j + i) x) -> Forall2 P (seq j (List.length l)) l) by (intros; apply G; auto).
  induction l as [|x l IH]; intros j H; cbn; constructor.
  - replace j with (j + 0) by lia. now apply H.
  - apply IH. intros i y E. replace (S j + i) with (j + S i) by lia. now apply H.
Qed.
Lemma combine_map2 {A B C} (f : A -> B) (g : A -> C) l : combine (map f l) (map g l) = map (fun x => (f x, g x)) l.
Proof. induction l; cbn; congruence. Qed.

Lemma range_is_live {Pt} (m : @mesh Pt) t a : In a (range m t) <-> is_live m t a.
Proof. unfold range. rewrite range_deref. reflexivity. Qed.
Lemma part_cell {Pt} cfg (s : sstate Pt) a x : cfg_cell cfg <> Hex -> sreach cfg s -> bounded_by (st_mesh s) (cfg_cell cfg) a (cfg_cell cfg) x -> False.
Proof.
  intros NH R H. pose proof (sreach_inv cfg NH s R) as I. pose proof (bounded_dim cfg (st_mesh s) _ _ _ _ (reach_wf cfg _ (si_reach cfg s I)) H). lia.
Qed.

Section Link.
Context {K : Type}.
Variable F : format K.
Variable rnd : K -> K.
Hypothesis SF : sane_format F rnd.
Variable cfg : config.
Hypothesis NH : cfg_cell cfg <> Hex.
Hypothesis TV : cfg_cell cfg <> Vertex.
Notation pt := (list K).
Notation mesh := (@mesh pt).
Notation t := (cfg_cell cfg).
Variable m : mesh.
Hypothesis R : reach cfg m.

Lemma fw x : word_ok (f_wr F x).
Proof. destruct (sf_word _ _ SF x) as [A B]. split; auto. apply separators_blank. intros c Hc D. apply (B c Hc). now right. Qed.
Lemma fo x : ~ In "<"%char (f_wr F x).
Proof. intros H. destruct (sf_word _ _ SF x) as [_ B]. apply (B _ H). now left. Qed.
Lemma fz : exists y, f_rd F (txt "0") = Some y.
Proof. pose proof (sf_zero _ _ SF) as Z. unfold txt. destruct (f_rd F (list_ascii_of_string "0")); eauto; congruence. Qed.

(** One file. *)
Record sjob := mkJ { j_id : Z; j_cells : list addr; j_us : list addr; j_cs : list addr; j_vq : list (@quantity K); j_cq : list (@quantity K); j_piece : @piece K }.
Record jok (j : sjob) : Prop := {
  jk_src : source_piece m t (j_cells j) (j_us j) (j_cs j) (j_vq j) (j_cq j) (j_piece j);
  jk_vq : Forall quantity_ok (j_vq j);
  jk_cq : Forall quantity_ok (j_cq j)
}.
Variable jobs : list sjob.
Hypothesis JOK : Forall jok jobs.
Definition member (z : Z) (c : addr) : Prop := exists j, In j jobs /\ j_id j = z /\ In c (j_cells j).
Hypothesis WR : writable F rnd m t member.

Definition rp (v : addr) : pt := match point_at m v with Some p => map rnd p | None => [] end.
Definition in_jobs (v : addr) : Prop := exists j, In j jobs /\ In v (j_us j).

Lemma job_in j : In j jobs -> jok j. Proof. rewrite Forall_forall in JOK. auto. Qed.
Lemma used_iff z v : used_by m t member z v <-> exists j, In j jobs /\ j_id j = z /\ In v (j_us j).
Proof.
  split.
  - intros (c & vs & (j & Hj & Ez & Hc) & V & Hv). exists j. split; auto. split; auto. apply (sp_us _ _ _ _ _ _ _ _ (jk_src _ (job_in j Hj))).
    apply in_flat_map. exists c. split; auto. now rewrite V.
  - intros (j & Hj & Ez & Hv). apply (sp_us _ _ _ _ _ _ _ _ (jk_src _ (job_in j Hj))) in Hv. apply in_flat_map in Hv as (c & Hc & Hv).
    destruct (vertices_at m t c) as [vs|] eqn:V; [|destruct Hv]. exists c, vs. split; auto. exists j. auto.
Qed.
Lemma job_point v : in_jobs v -> exists p, point_at m v = Some p.
Proof.
  intros (j & Hj & Hv). pose proof (sp_points _ _ _ _ _ _ _ _ (jk_src _ (job_in j Hj))) as S. apply In_nth_error in Hv as (i & Hi).
  destruct (Forall2_nth _ _ _ _ _ S Hi) as (p & _ & Hp). eauto.
Qed.
Lemma rp_inj v w : in_jobs v -> in_jobs w -> same_point F (rp v) (rp w) = (w =? v).
Proof.
  intros Hv Hw. destruct (job_point v Hv) as (p & P), (job_point w Hw) as (q & Q). destruct (Nat.eqb_spec w v) as [->|N].
  - unfold rp. rewrite P. clear - SF. induction p as [|x p IH]; cbn; auto. rewrite (sf_equal _ _ SF). exact IH.
  - destruct (same_point F (rp v) (rp w)) eqn:E; auto. exfalso. apply N. symmetry.
    destruct Hv as (j & Hj & Hv), Hw as (j' & Hj' & Hw). eapply (w_points _ _ _ _ _ WR (j_id j) v (j_id j') w p q); auto; try (apply used_iff; eauto).
    unfold rp in E. rewrite P, Q in E. revert E. generalize (map rnd p) as a, (map rnd q) as b. clear. induction a as [|x a IH]; intros [|y b] E; cbn in E; try discriminate; constructor.
    + now apply andb_true_iff in E as [E _].
    + apply IH. now apply andb_true_iff in E as [_ E].
Qed.

Lemma find_point_index v W : in_jobs v -> (forall w, In w W -> in_jobs w) -> find_point F (rp v) (map rp W) = index_of v W.
Proof.
  intros Hv. induction W as [|w W IH]; intros H; cbn [map find_point index_of]; auto. rewrite rp_inj; auto; [|apply H; now left].
  destruct (v =? w); auto. rewrite IH; auto. intros; apply H; now right.
Qed.

Lemma nth_prefix {A} (l X : list A) i x : nth_error l i = Some x -> nth_error (l ++ X) i = Some x.
Proof. intros H. rewrite nth_error_app1; auto. apply nth_error_Some. congruence. Qed.

Lemma add_points us : forall W gl, (forall v, In v us -> in_jobs v) -> (forall v, In v W -> in_jobs v) -> NoDup W ->
  exists W' gs, fold_left (add_point F) (map rp us) (map rp W, gl) = (map rp W', gl ++ gs) /\ NoDup W' /\ (exists X, W' = W ++ X) /\
    (forall v, In v W' <-> In v W \/ In v us) /\ Forall2 (fun v g => nth_error W' g = Some v) us gs.
Proof.
  induction us as [|v us IH]; intros W gl Hu HW ND; cbn [map fold_left].
  - exists W, []. rewrite app_nil_r. split; auto. split; auto. split; [exists []; now rewrite app_nil_r|]. split; [intros; cbn; tauto|constructor].
  - assert (Hv : in_jobs v) by (apply Hu; now left). unfold add_point at 2. cbn [fst snd]. rewrite find_point_index by auto. destruct (index_of v W) as [i|] eqn:E.
    + destruct (IH W (gl ++ [i])) as (W' & gs & E' & N' & (X & EX) & I' & F'); auto; [intros; apply Hu; now right|].
      exists W', (i :: gs). rewrite E', <- app_assoc. split; auto. split; auto. split; [eauto|]. apply index_of_Some in E. split.
      * intros x. rewrite I'. cbn. split; [tauto|]. intros [A|[<-|A]]; auto. left. eapply nth_error_In; eauto.
      * constructor; auto. rewrite EX. now apply nth_prefix.
    + assert (Nv : ~ In v W) by (intros H; apply index_of_In in H as (j & H); congruence).
      replace (map rp W ++ [rp v]) with (map rp (W ++ [v])) by now rewrite map_app. rewrite map_length.
      destruct (IH (W ++ [v]) (gl ++ [List.length W])) as (W' & gs & E' & N' & (X & EX) & I' & F').
      { intros; apply Hu; now right. } { intros x Hx. apply in_app_iff in Hx as [Hx|[<-|[]]]; auto. }
      { apply NoDup_snoc; auto. }
      exists W', (List.length W :: gs). rewrite E', <- app_assoc. split; auto. split; auto. split; [exists (v :: X); rewrite EX, <- app_assoc; reflexivity|]. split.
      * intros x. rewrite I', in_app_iff. cbn. tauto.
      * constructor; auto. rewrite EX, <- app_assoc. rewrite nth_error_app2, Nat.sub_diag by lia. reflexivity.
Qed.

Lemma piece_points j : In j jobs -> map (map rnd) (pc_points (j_piece j)) = map rp (j_us j).
Proof.
  intros Hj. pose proof (sp_points _ _ _ _ _ _ _ _ (jk_src _ (job_in j Hj))) as S. induction S as [|v q us ps E S IH]; cbn; auto. rewrite IH. f_equal. unfold rp. now rewrite E.
Qed.
Lemma piece_is_ok j : In j jobs -> piece_ok F t (j_piece j).
Proof.
  intros Hj. pose proof (job_in j Hj) as J. pose proof (jk_src _ J) as S. split; [|split].
  - pose proof (sp_points _ _ _ _ _ _ _ _ S) as SP. apply Forall_forall. intros q Hq. clear - SP Hq WR. induction SP as [|v p us ps E SP IH]; [destruct Hq|]. destruct Hq as [<-|Hq]; auto.
    eapply (w_dim _ _ _ _ _ WR); eauto.
  - rewrite (sp_pdata _ _ _ _ _ _ _ _ S). apply Forall_forall. intros a Ha. apply in_map_iff in Ha as (q & <- & Hq). pose proof (jk_vq _ J) as Q. rewrite Forall_forall in Q. destruct (Q q Hq) as (A & B & C).
    split; auto. split; auto. cbn. apply Forall_forall. intros x Hx. apply in_map_iff in Hx as (y & <- & _). apply C.
  - rewrite (sp_cdata _ _ _ _ _ _ _ _ S). apply Forall_forall. intros a Ha. apply in_map_iff in Ha as (q & <- & Hq). pose proof (jk_cq _ J) as Q. rewrite Forall_forall in Q. destruct (Q q Hq) as (A & B & C).
    split; auto. split; auto. cbn. apply Forall_forall. intros x Hx. apply in_map_iff in Hx as (y & <- & _). apply C.
Qed.

(** The state of the reader after the files [done]. *)
Record rstate (done : list sjob) (W : list addr) (r : @reader K) : Prop := {
  rs_open : r_open r = false;
  rs_points : r_points r = map rp W;
  rs_nodup : NoDup W;
  rs_in : forall v, In v W <-> exists j, In j done /\ In v (j_us j);
  rs_nums : r_nums r = map (fun j => (j_id j, pc_num (j_piece j))) done;
  rs_new : forall z, ~ In z (map j_id done) -> r_local r z = no_local;
  rs_local : forall j, In j done -> exists gl cs, Forall2 (fun v g => nth_error W g = Some v) (j_us j) gl /\ omap (reordered t) (pc_cells (j_piece j)) = Some cs /\
     r_local r (j_id j) = local_read rnd t (j_piece j) gl cs no_local
}.

Lemma parse_segment_spec done W r j fs name text : rstate done W r -> incl (done ++ [j]) jobs -> Forall (fun i => (j_id i < j_id j)%Z) done ->
  write_piece F t (j_piece j) = Some text -> fs name = Some text ->
  exists W' r', parse_segment F fs name (j_id j) r = Some r' /\ rstate (done ++ [j]) W' r'.
Proof.
  intros S I L E N. assert (Hj : In j jobs) by (apply I, in_app_iff; right; now left). assert (Id : incl done jobs) by (intros x Hx; apply I, in_app_iff; auto).
  unfold parse_segment, open_file. rewrite (rs_open _ _ _ S), N.
  destruct (vtu_written F rnd fw fo (sf_read _ _ SF) fz t (j_piece j) text (j_id j) (set_open true r) (sf_dim _ _ SF) (piece_is_ok j Hj) E) as (r' & s' & cs & E1 & E2 & (O & LO) & N1 & PL).
  rewrite E1. cbn [set_open r_points r_local r_nums r_open] in *.
  assert (NI : ~ In (j_id j) (map j_id done)). { intros X. apply in_map_iff in X as (i & Ei & Hi). rewrite Forall_forall in L. specialize (L i Hi). lia. }
  rewrite (rs_new _ _ _ S _ NI) in PL. rewrite (piece_points j Hj), (rs_points _ _ _ S) in PL. cbn [no_local l_global] in PL.
  destruct (add_points (j_us j) W []) as (W' & gs & EA & ND & (X & EX) & IW & FG).
  { intros v Hv. exists j. auto. } { intros v Hv. apply (rs_in _ _ _ S) in Hv as (i & Hi & Hv). exists i. auto. } { apply S. }
  rewrite EA in PL. cbn [fst snd app] in PL. destruct PL as [P1 P2].
  exists W', (set_open false r'). split; auto. constructor; cbn [set_open r_points r_local r_nums r_open]; auto.
  - intros v. rewrite IW, (rs_in _ _ _ S). split.
    + intros [(i & Hi & Hv)|Hv]; [exists i|exists j]; rewrite in_app_iff; cbn; auto.
    + intros (i & Hi & Hv). apply in_app_iff in Hi as [Hi|[<-|[]]]; auto. left. eauto.
  - rewrite N1, (rs_nums _ _ _ S), num_put_last, map_app; auto. apply Forall_map. eapply Forall_impl; [|exact L]. cbn. auto.
  - intros z Hz. rewrite map_app, in_app_iff in Hz. rewrite LO by (intros ->; apply Hz; right; now left). apply (rs_new _ _ _ S). tauto.
  - intros i Hi. apply in_app_iff in Hi as [Hi|[<-|[]]].
    + destruct (rs_local _ _ _ S i Hi) as (gl & cs' & Fg & Ec & El). exists gl, cs'. split; [|split; auto].
      * eapply Forall2_impl'; [|exact Fg]. cbn. intros a b Hab. rewrite EX. now apply nth_prefix.
      * rewrite LO; auto. intros Q. apply NI. rewrite <- Q. now apply in_map.
    + exists gs, cs. split; auto.
Qed.

Lemma chain_spec fs (name : sjob -> text) (body : sjob -> text) : (forall j, In j jobs -> write_piece F t (j_piece j) = Some (body j) /\ fs (name j) = Some (body j)) ->
  forall todo done W r, jobs = done ++ todo -> StronglySorted (fun i j => (j_id i < j_id j)%Z) jobs -> rstate done W r ->
  exists W' r', ofold (fun r zf => parse_segment F fs (snd zf) (fst zf) r) (map (fun j => (j_id j, name j)) todo) r = Some r' /\ rstate jobs W' r'.
Proof.
  intros H. induction todo as [|j todo IH]; intros done W r E S RS; cbn [map ofold].
  - rewrite app_nil_r in E. subst done. eauto.
  - assert (Hj : In j jobs) by (rewrite E, in_app_iff; right; now left). destruct (H j Hj) as [H1 H2].
    destruct (parse_segment_spec done W r j fs (name j) (body j) RS) as (W1 & r1 & E1 & RS1); auto.
    { rewrite E. intros x. rewrite !in_app_iff. cbn. tauto. }
    { rewrite E in S. clear - S. apply Forall_forall. intros i Hi. induction done as [|d done IH]; [destruct Hi|]. cbn in S. apply StronglySorted_inv in S as [S FS]. destruct Hi as [->|Hi]; auto.
      rewrite Forall_forall in FS. apply FS, in_app_iff. right. now left. }
    cbn [fst snd]. rewrite E1. cbn [obind]. apply (IH (done ++ [j]) W1 r1); auto. now rewrite <- app_assoc.
Qed.

Lemma rstate_start : rstate [] [] (pre_clear false).
Proof. constructor; cbn; auto; try constructor; try easy. intros (j & [] & _). Qed.

(** ** The data of the reader *)
Lemma scalar_spec (acc : addr -> list K) us els : (forall a, List.length (acc a) = 1) -> List.length els = List.length us ->
  scalar_values els (map rnd (List.concat (map acc us))) = Some (combine els (map (fun x => map rnd (acc x)) us)).
Proof.
  intros L E. unfold scalar_values.
  enough (G : forall us els pre, List.length els = List.length us -> let l := map rnd (List.concat (map acc us)) in
    omap (fun ix => option_map (fun e => (e, [snd ix])) (nth_error (pre ++ els) (fst ix))) (combine (seq (List.length pre) (List.length l)) l) = Some (combine els (map (fun x => map rnd (acc x)) us))) by (apply (G us els []); auto).
  clear us els E. induction us as [|u us IH]; intros [|e els] pre E; try discriminate E; [reflexivity|]. cbn [map List.concat].
  pose proof (L u) as Lu. destruct (acc u) as [|x [|]]; try discriminate Lu. cbn [app map List.length seq combine omap fst snd].
  rewrite nth_error_app2, Nat.sub_diag by auto. cbn [nth_error option_map obind].
  specialize (IH els (pre ++ [e]) ltac:(now inversion E)). cbv zeta in IH. rewrite <- app_assoc, app_length, Nat.add_1_r in IH. cbn [app] in IH. rewrite IH. reflexivity.
Qed.
Lemma vector_spec w (acc : addr -> list K) us els : w <> ForSegment -> (forall a, List.length (acc a) = 3) -> List.length els = List.length us ->
  vector_values w els (map rnd (List.concat (map acc us))) = Some (combine els (map (fun x => map rnd (acc x)) us)).
Proof.
  intros Nw L E. unfold vector_values.
  assert (LC : List.length (map rnd (List.concat (map acc us))) = 3 * List.length us).
  { rewrite map_length. clear - L. induction us as [|u us IH]; cbn [map List.concat List.length]; auto. rewrite app_length, L, IH. lia. }
  replace (match w with ForSegment => _ | _ => _ end) with (List.length us) by (destruct w; [|congruence|]; rewrite LC, Nat.mul_comm, Nat.div_mul; auto).
  clear LC.
  enough (G : forall us els pre lp, List.length els = List.length us -> List.length lp = 3 * List.length pre -> let l := lp ++ map rnd (List.concat (map acc us)) in
    omap (fun i => obind (nth_error (pre ++ els) i) (fun e =>
     obind (nth_error l (3 * i)) (fun x => obind (nth_error l (3 * i + 1)) (fun y => obind (nth_error l (3 * i + 2)) (fun u => Some (e, [x; y; u])))))) (seq (List.length pre) (List.length us)) =
     Some (combine els (map (fun x => map rnd (acc x)) us))) by (apply (G us els [] []); auto).
  clear us els E. induction us as [|u us IH]; intros [|e els] pre lp E EL; try discriminate E; [reflexivity|]. cbn [map List.concat].
  pose proof (L u) as Lu. destruct (acc u) as [|x [|y [|v [|]]]]; try discriminate Lu. cbn [app map List.length seq combine omap].
  rewrite nth_error_app2, Nat.sub_diag by auto. cbn [nth_error obind].
  rewrite (nth_error_app2 lp) by lia. rewrite (nth_error_app2 lp) by lia. rewrite (nth_error_app2 lp) by lia.
  replace (3 * List.length pre - List.length lp) with 0 by lia. replace (3 * List.length pre + 1 - List.length lp) with 1 by lia. replace (3 * List.length pre + 2 - List.length lp) with 2 by lia. cbn [nth_error obind].
  specialize (IH els (pre ++ [e]) (lp ++ [rnd x; rnd y; rnd v]) ltac:(now inversion E)). cbv zeta in IH.
  rewrite <- !app_assoc, !app_length in IH. cbn [app List.length] in IH. rewrite (Nat.add_1_r (List.length pre)) in IH. rewrite IH; [reflexivity|lia].
Qed.

Definition one (q : @quantity K) : bool := fst (snd q) =? 1.
Definition pairs (l : list addr) (qs : list (@quantity K)) : list (text * list K) := map (fun q => (fst q, map rnd (List.concat (map (snd (snd q)) l)))) qs.
Lemma fold_put cell l qs c : Forall quantity_ok qs ->
  fold_left (put_array rnd cell) (map (array_of l) qs) c =
  if cell then mkL (l_global c) (l_vertices c) (l_offsets c) (l_pscal c) (l_pvec c) (l_cscal c ++ pairs l (filter one qs)) (l_cvec c ++ pairs l (filter (fun q => negb (one q)) qs))
  else mkL (l_global c) (l_vertices c) (l_offsets c) (l_pscal c ++ pairs l (filter one qs)) (l_pvec c ++ pairs l (filter (fun q => negb (one q)) qs)) (l_cscal c) (l_cvec c).
Proof.
  intros H. revert c. induction H as [|q qs Q H IH]; intros c; cbn [map fold_left filter pairs].
  - cbn. rewrite !app_nil_r. destruct cell, c; reflexivity.
  - rewrite IH. unfold put_array. cbn [array_of ar_comps ar_name]. unfold array_numbers. cbn [array_of ar_vals]. unfold one at 3 5 9 11. destruct (fst (snd q) =? 1) eqn:E; cbn [negb].
    + unfold one. rewrite ?E. destruct cell; cbn [add_scalar l_global l_vertices l_offsets l_pscal l_pvec l_cscal l_cvec map pairs]; rewrite <- ?app_assoc; reflexivity.
    + unfold one. rewrite ?E. destruct cell; cbn [add_vector l_global l_vertices l_offsets l_pscal l_pvec l_cscal l_cvec map pairs]; rewrite <- ?app_assoc; reflexivity.
Qed.

Lemma local_read_spec j gl cs : In j jobs -> local_read rnd t (j_piece j) gl cs no_local =
  mkL gl (List.concat cs) (map (fun k => k * nverts t) (seq 1 (List.length (j_cs j)))) (pairs (j_us j) (filter one (j_vq j))) (pairs (j_us j) (filter (fun q => negb (one q)) (j_vq j)))
    (pairs (j_cs j) (filter one (j_cq j))) (pairs (j_cs j) (filter (fun q => negb (one q)) (j_cq j))).
Proof.
  intros Hj. pose proof (job_in j Hj) as J. pose proof (jk_src _ J) as S. unfold local_read. rewrite (sp_pdata _ _ _ _ _ _ _ _ S), (sp_cdata _ _ _ _ _ _ _ _ S), (sp_num _ _ _ _ _ _ _ _ S).
  rewrite (fold_put false (j_us j) (j_vq j)) by apply J. cbv zeta. rewrite (fold_put true (j_cs j) (j_cq j)) by apply J. reflexivity.
Qed.

Definition delivered (z : Z) (cell : bool) (els l : list addr) (q : @quantity K) : @delivery K :=
  ModelVtk.mkD z cell (fst q) (combine els (map (fun x => map rnd (snd (snd q) x)) l)).
Lemma scalars_spec z cell els l qs : List.length els = List.length l -> Forall quantity_ok qs ->
  omap (fun x => option_map (ModelVtk.mkD z cell (fst x)) (scalar_values els (snd x))) (pairs l (filter one qs)) = Some (map (delivered z cell els l) (filter one qs)).
Proof.
  intros L H. induction H as [|q qs (_ & Q1 & Q2) H IH]; cbn [filter]; auto. destruct (one q) eqn:E; auto. unfold one in E. apply Nat.eqb_eq in E. cbn [pairs map omap fst snd].
  rewrite scalar_spec; auto; [|intros a; now rewrite Q2]. cbn [option_map obind]. fold (pairs l (filter one qs)). rewrite IH. reflexivity.
Qed.
Lemma vectors_spec (reg : text -> target) z cell els l qs : (forall n, reg n <> ForSegment) -> List.length els = List.length l -> Forall quantity_ok qs ->
  omap (fun x => option_map (ModelVtk.mkD z cell (fst x)) (vector_values (reg (fst x)) els (snd x))) (pairs l (filter (fun q => negb (one q)) qs)) =
  Some (map (delivered z cell els l) (filter (fun q => negb (one q)) qs)).
Proof.
  intros N L H. induction H as [|q qs (_ & Q1 & Q2) H IH]; cbn [filter]; auto. destruct (one q) eqn:E; cbn [negb]; auto. unfold one in E. apply Nat.eqb_neq in E. cbn [pairs map omap fst snd].
  rewrite vector_spec; auto; [|intros a; rewrite Q2; destruct Q1; congruence]. cbn [option_map obind]. fold (pairs l (filter (fun q => negb (one q)) qs)). rewrite IH. reflexivity.
Qed.

Lemma deliver_spec reg j gl cs loc : In j jobs -> (forall z b n, reg z b true n <> ForSegment) -> List.length gl = List.length (j_us j) -> List.length loc = List.length (j_cs j) ->
  deliver reg (local_read rnd t (j_piece j) gl cs no_local) (j_id j) loc =
  Some (map (delivered (j_id j) false gl (j_us j)) (filter one (j_vq j)) ++ map (delivered (j_id j) false gl (j_us j)) (filter (fun q => negb (one q)) (j_vq j)) ++
        map (delivered (j_id j) true loc (j_cs j)) (filter one (j_cq j)) ++ map (delivered (j_id j) true loc (j_cs j)) (filter (fun q => negb (one q)) (j_cq j))).
Proof.
  intros Hj N L1 L2. rewrite local_read_spec by auto. unfold deliver. cbn [l_global l_pscal l_pvec l_cscal l_cvec].
  rewrite (scalars_spec _ false gl (j_us j)) by (auto; apply (job_in j Hj)). cbn [obind].
  rewrite (vectors_spec (fun n => reg (j_id j) false true n) _ false gl (j_us j)) by (auto; apply (job_in j Hj)). cbn [obind].
  rewrite (scalars_spec _ true loc (j_cs j)) by (auto; apply (job_in j Hj)). cbn [obind].
  rewrite (vectors_spec (fun n => reg (j_id j) true true n) _ true loc (j_cs j)) by (auto; apply (job_in j Hj)). cbn [obind]. reflexivity.
Qed.


(** ** The mesh of the reader *)
Section Final.
Variable W : list addr.
Variable r : @reader K.
Hypothesis RS : rstate jobs W r.
Hypothesis IDS : NoDup (map j_id jobs).

Definition phi (v : addr) : addr := match index_of v W with Some i => i | None => 0 end.
Definition verts (c : addr) : list addr := match vertices_at m t c with Some vs => vs | None => [] end.
Definition key (c : addr) : list nat := map phi (verts c).
Definition cells_of (j : sjob) : list (list nat) := map key (j_cs j).

Lemma phi_nth v i : nth_error W i = Some v -> phi v = i.
Proof.
  intros H. assert (Hv : In v W) by (eapply nth_error_In; eauto). unfold phi. destruct (index_of_In v W Hv) as (k & E). rewrite E. apply index_of_Some in E.
  eapply NoDup_nth_error; [apply RS|apply nth_error_Some; congruence|congruence].
Qed.
Lemma phi_spec v : In v W -> nth_error W (phi v) = Some v.
Proof. intros H. apply In_nth_error in H as (i & H). now rewrite (phi_nth v i H). Qed.
Lemma phi_inj v w : In v W -> In w W -> phi v = phi w -> v = w.
Proof. intros A B E. apply phi_spec in A, B. congruence. Qed.
Lemma phi_lt v : In v W -> phi v < List.length W.
Proof. intros H. apply phi_spec in H. apply nth_error_Some. congruence. Qed.
Lemma globals us gl : Forall2 (fun v g => nth_error W g = Some v) us gl -> gl = map phi us.
Proof. induction 1 as [|v g us gl E H IH]; cbn; auto. now rewrite (phi_nth v g E), <- IH. Qed.
Lemma W_used v : In v W <-> exists z, used_by m t member z v.
Proof.
  rewrite (rs_in _ _ _ RS). split.
  - intros (j & Hj & Hv). exists (j_id j). apply used_iff. eauto.
  - intros (z & U). apply used_iff in U as (j & Hj & _ & Hv). eauto.
Qed.
Lemma member_iff z c : member z c <-> exists j, In j jobs /\ j_id j = z /\ In c (j_cs j).
Proof.
  split; intros (j & Hj & E & Hc); exists j; split; auto; split; auto; now apply (sp_cs _ _ _ _ _ _ _ _ (jk_src _ (job_in j Hj))).
Qed.
Lemma member_verts z c : member z c -> exists e, deref m t c = Some e /\ List.length (e_verts e) = nverts t /\ NoDup (e_verts e) /\ (forall v, In v (e_verts e) -> In v W).
Proof.
  intros M. apply member_iff in M as (j & Hj & Ez & Hc). pose proof (jk_src _ (job_in j Hj)) as S. apply In_nth_error in Hc as (i & Hi).
  destruct (Forall2_nth _ _ _ _ _ (sp_cells _ _ _ _ _ _ _ _ S) Hi) as (k & _ & e & D & FK). exists e. destruct (cell_verts cfg m R t TV c e D) as (A & B & _).
  split; auto. split; auto. split; auto. intros v Hv. apply (rs_in _ _ _ RS). exists j. split; auto.
  apply In_nth_error in Hv as (x & Hx). destruct (Forall2_nth _ _ _ _ _ FK Hx) as (y & _ & Hy). eapply nth_error_In; eauto.
Qed.
Lemma member_key z c e : member z c -> deref m t c = Some e -> key c = map phi (e_verts e).
Proof. intros _ D. unfold key, verts, vertices_at. now rewrite D. Qed.
Lemma key_inj z c z' c' : member z c -> member z' c' -> key c = key c' -> c = c'.
Proof.
  intros M M' E. destruct (member_verts z c M) as (e & D & _ & _ & I), (member_verts z' c' M') as (e' & D' & _ & _ & I').
  rewrite (member_key z c e M D), (member_key z' c' e' M' D') in E. apply (w_cells _ _ _ _ _ WR z c z' c' M M'). unfold vertices_at. rewrite D, D'. cbn. f_equal.
  revert E I I'. generalize (e_verts e) as a, (e_verts e') as b. clear - RS. induction a as [|x a IH]; intros [|y b] E I I'; cbn in E; try discriminate; auto.
  injection E as E1 E2. f_equal; [apply phi_inj; auto; [apply I|apply I']; now left|]. apply IH; auto; intros; [apply I|apply I']; now right.
Qed.

Lemma omap_F2 {A B} (f : A -> option B) l ys : omap f l = Some ys -> Forall2 (fun x y => f x = Some y) l ys.
Proof.
  revert ys. induction l as [|x l IH]; intros ys E; cbn [omap] in E; [inversion E; constructor|]. destruct (f x) as [y|] eqn:Ex; [|discriminate E]. cbn [obind] in E.
  destruct (omap f l) as [zs|]; [|discriminate E]. cbn in E. inversion E; subst. constructor; auto.
Qed.

Lemma job_is_ok j : In j jobs -> job_ok cfg (List.length W) (r_local r (j_id j)) (cells_of j).
Proof.
  intros Hj. destruct (rs_local _ _ _ RS j Hj) as (gl & cs & FG & EC & EL). rewrite EL, local_read_spec by auto. pose proof (jk_src _ (job_in j Hj)) as S.
  assert (MK : forall k, In k (cells_of j) -> exists c e, In c (j_cs j) /\ deref m t c = Some e /\ k = map phi (e_verts e) /\ List.length (e_verts e) = nverts t /\ NoDup (e_verts e) /\ (forall v, In v (e_verts e) -> In v W)).
  { intros k Hk. apply in_map_iff in Hk as (c & <- & Hc). assert (M : member (j_id j) c) by (apply member_iff; eauto).
    destruct (member_verts _ c M) as (e & D & A & B & C). exists c, e. rewrite (member_key _ c e M D). auto 10. }
  constructor; cbn [l_offsets l_vertices l_global].
  - unfold cells_of. now rewrite map_length.
  - intros k Hk. destruct (MK k Hk) as (c & e & _ & _ & -> & L & _). now rewrite map_length.
  - intros k Hk. destruct (MK k Hk) as (c & e & _ & _ & -> & _ & N & I). clear - RS N I. induction N as [|v l N' N IH]; cbn; constructor.
    + intros H. apply in_map_iff in H as (w & E & H). apply phi_inj in E; [subst w; auto| |]; apply I; cbn; auto.
    + apply IH. intros; apply I; now right.
  - intros k Hk. destruct (MK k Hk) as (c & e & _ & _ & -> & _ & _ & I). apply Forall_forall. intros g Hg. apply in_map_iff in Hg as (v & <- & Hv). apply phi_lt; auto.
  - intros i k Hk. unfold cells_of in Hk. assert (Hi : exists c, nth_error (j_cs j) i = Some c /\ key c = k).
    { clear - Hk. revert i Hk. induction (j_cs j) as [|x l IH]; intros [|i] H; cbn in H; try discriminate; [exists x; split; auto; congruence|]. apply IH. exact H. }
    destruct Hi as (c & Hi & <-). destruct (Forall2_nth _ _ _ _ _ (sp_cells _ _ _ _ _ _ _ _ S) Hi) as (k0 & Hk0 & e & D & FK).
    destruct (Forall2_nth _ _ _ _ _ (omap_F2 _ _ _ EC) Hk0) as (ws & Hws & Er). destruct (cell_verts cfg m R t TV c e D) as (Le & _ & _).
    assert (L0 : List.length k0 = nverts t) by (rewrite <- Le; clear - FK; induction FK; cbn; auto).
    destruct (reordered_spec t TV k0 L0) as (ws' & Er' & Lw & NW). assert (ws' = ws) by congruence. subst ws'.
    assert (ALL : Forall (fun l => List.length l = nverts t) cs).
    { pose proof (omap_F2 _ _ _ EC) as F2. pose proof (sp_cells _ _ _ _ _ _ _ _ S) as SC. apply Forall_forall. intros w Hw. apply In_nth_error in Hw as (x & Hx).
      assert (F2' : Forall2 (fun y k => reordered t k = Some y) cs (pc_cells (j_piece j))) by (clear - F2; induction F2; constructor; auto).
      destruct (Forall2_nth _ _ _ _ _ F2' Hx) as (kx & Hkx & Ekx).
      assert (SC' : Forall2 (fun k c => exists e, deref m t c = Some e /\ Forall2 (fun v i => nth_error (j_us j) i = Some v) (e_verts e) k) (pc_cells (j_piece j)) (j_cs j)) by (clear - SC; induction SC; constructor; auto).
      destruct (Forall2_nth _ _ _ _ _ SC' Hkx) as (cx & _ & ex & Dx & Fx). destruct (cell_verts cfg m R t TV cx ex Dx) as (Lx & _ & _).
      assert (Lkx : List.length kx = nverts t) by (rewrite <- Lx; clear - Fx; induction Fx; cbn; auto).
      destruct (reordered_spec t TV kx Lkx) as (w' & Ew & Lw' & _). congruence. }
    unfold key, verts, vertices_at. rewrite D. cbn [option_map]. rewrite <- Le at 1. rewrite <- (map_length phi (e_verts e)). apply Forall2_seq. intros q g Hq.
    assert (Hv : exists v, nth_error (e_verts e) q = Some v /\ phi v = g).
    { clear - Hq. revert q Hq. induction (e_verts e) as [|x l IH]; intros [|i] H; cbn in H; try discriminate; [exists x; split; auto; congruence|]. apply IH. exact H. }
    destruct Hv as (v & Hv & <-). destruct (Forall2_nth _ _ _ _ _ FK Hv) as (y & Hy & Uy). destruct (Forall2_nth _ _ _ _ _ FG Uy) as (g & Hg & Wg).
    unfold cell_number. cbn [l_vertices l_global]. assert (Lq : q < nverts t) by (rewrite <- Le; apply nth_error_Some; congruence).
    rewrite (nth_concat (nverts t) cs i (reorder t q) ws ALL Hws); [|rewrite <- Lw; apply nth_error_Some; rewrite NW by auto; congruence].
    rewrite NW by auto. rewrite Hy. cbn [obind]. rewrite Hg. f_equal. symmetry. now apply phi_nth.
Qed.

Lemma concat_lengths {A B} (f : A -> list B) l : List.length (List.concat (map f l)) = fold_right (fun z n => List.length (f z) + n) 0 l.
Proof. induction l as [|x l IH]; cbn; auto. now rewrite app_length, IH. Qed.

Lemma filter_split {A} (f : A -> bool) l : List.length (filter f l) + List.length (filter (fun x => negb (f x)) l) = List.length l.
Proof. induction l as [|x l IH]; cbn; auto. destruct (f x); cbn; lia. Qed.

(** The quantities by id. *)
Definition job_of (z : Z) : option sjob := find (fun j => Z.eqb (j_id j) z) jobs.
Definition vq_of (z : Z) : list (@quantity K) := match job_of z with Some j => j_vq j | None => [] end.
Definition cq_of (z : Z) : list (@quantity K) := match job_of z with Some j => j_cq j | None => [] end.
Lemma job_of_in j : In j jobs -> job_of (j_id j) = Some j.
Proof.
  unfold job_of. intros H. revert IDS. clear - H. induction jobs as [|i l IH]; [destruct H|]. intros N. cbn [map] in N. inversion N as [|? ? N1 N2]; subst. cbn [find].
  destruct H as [->|H]; [now rewrite Z.eqb_refl|]. destruct (Z.eqb_spec (j_id i) (j_id j)) as [E|]; [|now apply IH]. elim N1. rewrite E. now apply in_map.
Qed.
Lemma job_unique i j : In i jobs -> In j jobs -> j_id i = j_id j -> i = j.
Proof. intros A B E. apply job_of_in in A, B. congruence. Qed.

Lemma setup_link reg : (forall z b n, reg z b true n <> ForSegment) ->
  exists dst ds psi, setup cfg reg r (new_sstate empty_mesh) = Done (dst, ds) /\
    read_back rnd m t member dst phi psi /\
    all_delivered rnd m t member (map j_id jobs) vq_of cq_of phi psi ds /\
    (forall z, has_id (st_segs dst) z <-> In z (map j_id jobs)) /\
    exists T, sreach cfg T /\ same_state_but_generator dst T.
Proof.
  intros RG. assert (LW : List.length (r_points r) = List.length W) by now rewrite (rs_points _ _ _ RS), map_length.
  assert (LL : forall j, In j jobs -> exists gl cs, gl = map phi (j_us j) /\ r_local r (j_id j) = local_read rnd t (j_piece j) gl cs no_local).
  { intros j Hj. destruct (rs_local _ _ _ RS j Hj) as (gl & cs & FG & _ & EL). exists gl, cs. split; auto. now apply globals. }
  destruct (setup_spec cfg NH TV reg r (map (fun j => (j_id j, cells_of j)) jobs)) as (dst & T & cells & new & E & SIM & B & VN & FN).
  { rewrite (rs_nums _ _ _ RS), map_map. apply map_ext_in. intros j Hj. cbn. unfold cells_of. rewrite map_length. f_equal. apply (jk_src _ (job_in j Hj)). }
  { intros z ks Hz. apply in_map_iff in Hz as (j & Ej & Hj). injection Ej as <- <-. rewrite LW. split; [now apply job_is_ok|]. destruct (LL j Hj) as (gl & cs & Egl & EL). split.
    - rewrite EL, local_read_spec by auto. cbn [l_global]. subst gl. apply Forall_forall. intros g Hg. apply in_map_iff in Hg as (v & <- & Hv). apply phi_lt, (rs_in _ _ _ RS). eauto.
    - intros loc Hl. rewrite EL, deliver_spec; auto; [discriminate|subst gl; apply map_length|]. rewrite Hl. apply map_length. }
  rewrite LW in B. rewrite map_map in B. cbn [fst] in B.
  set (psi := fun c => match find_cell (key c) cells with Some a => a | None => 0 end).
  assert (DN : forall z k, In (z, k) (flat_map (fun j => map (pair (fst j)) (snd j)) (map (fun j => (j_id j, cells_of j)) jobs)) <-> exists c, member z c /\ k = key c).
  { intros z k. rewrite in_flat_map. split.
    - intros (x & Hx & Hk). apply in_map_iff in Hx as (j & <- & Hj). cbn in Hk. apply in_map_iff in Hk as (k' & Ek & Hk). injection Ek as <- <-. apply in_map_iff in Hk as (c & <- & Hc).
      exists c. split; auto. apply member_iff. eauto.
    - intros (c & M & ->). apply member_iff in M as (j & Hj & <- & Hc). exists (j_id j, cells_of j). split; [now apply (in_map (fun j => (j_id j, cells_of j)))|]. cbn. apply in_map. now apply in_map. }
  assert (KU : forall k a b, In (k, a) cells -> In (k, b) cells -> a = b).
  { pose proof (bi_keys _ _ _ _ _ _ B) as N. clear - N. induction cells as [|[k a] l IH]; intros k' x y H1 H2; [destruct H1|]. cbn in N. inversion N as [|? ? N1 N2]; subst.
    destruct H1 as [H1|H1], H2 as [H2|H2]; try congruence; [injection H1 as -> ->|injection H2 as -> ->|]; [elim N1; now apply (in_map fst) in H2|elim N1; now apply (in_map fst) in H1|eauto]. }
  assert (PSI : forall z c, member z c -> In (key c, psi c) cells).
  { intros z c M. assert (H : In (key c) (map fst cells)) by (eapply (bi_dn _ _ _ _ _ _ B z); apply DN; eauto). unfold psi. destruct (find_cell (key c) cells) as [a|] eqn:Ef; [now apply find_cell_some|].
    exfalso. now apply find_cell_none in Ef. }
  assert (PSI' : forall k a, In (k, a) cells -> exists z c, member z c /\ k = key c /\ a = psi c).
  { intros k a H. destruct (bi_all _ _ _ _ _ _ B k) as (z & Hz); [now apply (in_map fst) in H|]. apply DN in Hz as (c & M & ->). exists z, c. split; auto. split; auto. eapply KU; eauto. }
  assert (PINJ : forall z c z' c', member z c -> member z' c' -> psi c = psi c' -> c = c').
  { intros z c z' c' M M' Ep. apply (key_inj z c z' c'); auto. pose proof (bi_cells _ _ _ _ _ _ B _ _ (PSI z c M)) as V. pose proof (bi_cells _ _ _ _ _ _ B _ _ (PSI z' c' M')) as V'. rewrite Ep in V. congruence. }
  assert (SD : forall t' a, deref (st_mesh dst) t' a = deref (st_mesh T) t' a) by (intros; apply sim_deref, SIM).
  assert (LIVE : forall t' a, is_live (st_mesh dst) t' a <-> is_live (st_mesh T) t' a) by (intros; unfold is_live; now setoid_rewrite SD).
  assert (VAT : forall t' a, vertices_at (st_mesh dst) t' a = vertices_at (st_mesh T) t' a) by (intros; unfold vertices_at; now rewrite SD).
  assert (PART : forall t' x a, part_of (st_mesh dst) t' x t a <-> part_of (st_mesh T) t' x t a) by (intros; unfold part_of, bounded_by; now setoid_rewrite SD).
  assert (INS : forall z t' x, in_segment_id dst z t' x <-> in_segment_id T z t' x).
  { intros. destruct SIM as (_ & S1 & S2 & _). unfold in_segment_id, segment_has_id, is_segment, in_segment. now rewrite S1, S2. }
  exists dst, (List.concat new), psi. split; auto. split; [|split; [|split]].
  - constructor.
    + intros a. rewrite LIVE. rewrite <- range_is_live. rewrite (proj1 (bi_verts _ _ _ _ _ _ B)). rewrite in_seq. split.
      * intros [_ Ha]. cbn in Ha. destruct (nth_error W a) as [v|] eqn:Hv; [|apply nth_error_None in Hv; lia]. assert (Hin : In v W) by (eapply nth_error_In; eauto).
        apply W_used in Hin as (z & U). exists z, v. split; auto. symmetry. now apply phi_nth.
      * intros (z & v & U & ->). split; [lia|]. cbn. apply phi_lt, W_used. eauto.
    + intros z v z' w U U'. apply phi_inj; apply W_used; eauto.
    + intros z v U. assert (Hv : In v W) by (apply W_used; eauto). apply used_iff in U as (j & Hj & _ & Hvj). destruct (job_point v) as (p & P); [exists j; auto|]. exists p. split; auto.
      unfold point_at at 1. rewrite SD. fold (point_at (st_mesh T) (phi v)). rewrite (vertex_nodes_point _ _ (phi v) VN), (rs_points _ _ _ RS).
      rewrite (map_nth_error rp (phi v) W (phi_spec v Hv)). unfold rp. now rewrite P.
    + intros a. rewrite LIVE, <- range_is_live. rewrite (bi_range _ _ _ _ _ _ B), <- in_rev, in_map_iff. split.
      * intros ((k & b) & <- & H). apply PSI' in H as (z & c & M & _ & ->). eauto.
      * intros (z & c & M & ->). exists (key c, psi c). split; auto. eapply PSI; eauto.
    + exact PINJ.
    + intros z c M. destruct (member_verts z c M) as (e & D & _). exists (e_verts e). split; [unfold vertices_at; now rewrite D|]. rewrite VAT, <- (member_key z c e M D).
      apply (bi_cells _ _ _ _ _ _ B). eapply PSI; eauto.
    + intros t' a vs Nt V. rewrite VAT in V. unfold vertices_at in V. destruct (deref (st_mesh T) t' a) as [e|] eqn:D; [|discriminate V]. cbn in V. injection V as <-.
      destruct (bi_rest _ _ _ _ _ _ B t' a e Nt D) as (k & b & H & I). destruct (PSI' k b H) as (z & c & M & -> & ->). exists z, c, (key c). split; auto. split; auto.
      rewrite VAT. apply (bi_cells _ _ _ _ _ _ B _ _ H).
    + intros z c z' M. rewrite INS, (bi_in _ _ _ _ _ _ B). split.
      * intros (k & a & Hk & Ha & P). apply DN in Hk as (c' & M' & ->). assert (a = psi c') by (eapply KU; eauto). subst a.
        assert (Q : psi c = psi c'). { destruct P as [[_ ->]|P]; auto. exfalso. eapply part_cell; eauto. apply (bi_reach _ _ _ _ _ _ B). }
        rewrite (PINJ z c z' c' M M' Q). exact M'.
      * intros M'. exists (key c), (psi c). split; [apply DN; eauto|]. split; [eapply PSI; eauto|]. now left.
    + intros z t' x. rewrite INS, (bi_in _ _ _ _ _ _ B). split.
      * intros (k & a & Hk & Ha & P). apply DN in Hk as (c' & M' & ->). assert (a = psi c') by (eapply KU; eauto). subst a. exists c'. rewrite PART. auto.
      * intros (c & M & P). exists (key c), (psi c). rewrite PART in P. split; [apply DN; eauto|]. split; auto. eapply PSI; eauto.
  - assert (DEL : forall j d, In (j, d) (combine jobs new) -> In j jobs /\ d =
      map (delivered (j_id j) false (map phi (j_us j)) (j_us j)) (filter one (j_vq j)) ++ map (delivered (j_id j) false (map phi (j_us j)) (j_us j)) (filter (fun q => negb (one q)) (j_vq j)) ++
      map (delivered (j_id j) true (map psi (j_cs j)) (j_cs j)) (filter one (j_cq j)) ++ map (delivered (j_id j) true (map psi (j_cs j)) (j_cs j)) (filter (fun q => negb (one q)) (j_cq j))).
    { enough (GG : forall js new, Forall2 (fun j d => exists l, Forall2 (fun k a => In (k, a) cells) (snd j) l /\ deliver reg (r_local r (fst j)) (fst j) l = Some d) (map (fun j => (j_id j, cells_of j)) js) new -> incl js jobs ->
        forall j d, In (j, d) (combine js new) -> In j jobs /\ d =
      map (delivered (j_id j) false (map phi (j_us j)) (j_us j)) (filter one (j_vq j)) ++ map (delivered (j_id j) false (map phi (j_us j)) (j_us j)) (filter (fun q => negb (one q)) (j_vq j)) ++
      map (delivered (j_id j) true (map psi (j_cs j)) (j_cs j)) (filter one (j_cq j)) ++ map (delivered (j_id j) true (map psi (j_cs j)) (j_cs j)) (filter (fun q => negb (one q)) (j_cq j)))
        by (apply (GG jobs new FN); intros x; auto).
      clear - LL RG KU PSI JOK RS. induction js as [|j js IH]; intros new FN SUB; inversion FN as [|? d ? new' (l & Fl & El) FN']; subst; cbn [combine]; [intros ? ? []|]. cbn [fst snd] in *.
      assert (Hj : In j jobs) by (apply SUB; now left). intros i d' [H|H]; [|apply (IH new' FN'); auto; intros y Hy; apply SUB; now right]. injection H as <- <-. split; auto.
      destruct (LL j Hj) as (gl & cs & -> & EL). rewrite EL in El.
      assert (l = map psi (j_cs j)).
      { assert (MM : forall c, In c (j_cs j) -> member (j_id j) c) by (intros c Hc; apply member_iff; eauto). revert Fl MM. unfold cells_of. generalize (j_cs j) as q. clear - KU PSI. intros q Fl. remember (map key q) as kq eqn:Ek.
        revert q Ek. induction Fl as [|k a ks l H Fl IH]; intros [|c q] Ek MM; cbn in Ek; try discriminate; auto. injection Ek as -> ->. cbn. f_equal; [eapply KU; eauto; eapply PSI; apply MM; now left|]. apply IH; auto. intros; apply MM; now right. }
      subst l. rewrite deliver_spec in El; auto; [|apply map_length|apply map_length]. congruence. }
    assert (LN : List.length new = List.length jobs) by (clear - FN; rewrite <- (map_length (fun j => (j_id j, cells_of j)) jobs); induction FN; cbn; auto).
    assert (GET : forall j, In j jobs -> exists d, In (j, d) (combine jobs new) /\ In d new).
    { revert LN. clear. revert new. induction jobs as [|i l IH]; intros [|d new] L j H; try discriminate L; [destruct H|]. cbn. destruct H as [->|H]; [eauto|].
      destruct (IH new ltac:(now inversion L) j H) as (d' & A & B). eauto. }
    assert (GET' : forall d, In d new -> exists j, In (j, d) (combine jobs new)).
    { revert LN. clear. revert new. induction jobs as [|i l IH]; intros [|d new] L d' H; try discriminate L; [destruct H|]. cbn. destruct H as [->|H]; [eauto|].
      destruct (IH new ltac:(now inversion L) d' H) as (j & A). eauto. }
    assert (DV : forall j q, In j jobs -> delivers rnd (j_id j) false q (used_by m t member (j_id j)) phi (delivered (j_id j) false (map phi (j_us j)) (j_us j) q)).
    { intros j q Hj. split; auto. split; auto. split; auto. exists (j_us j). split; [apply (jk_src _ (job_in j Hj))|]. split; [|apply combine_map2].
      intros v. rewrite used_iff. split; [eauto|]. intros (i & Hi & Ei & Hv). now rewrite <- (job_unique i j Hi Hj Ei). }
    assert (DC : forall j q, In j jobs -> delivers rnd (j_id j) true q (member (j_id j)) psi (delivered (j_id j) true (map psi (j_cs j)) (j_cs j) q)).
    { intros j q Hj. split; auto. split; auto. split; auto. exists (j_cs j). split; [apply (jk_src _ (job_in j Hj))|]. split; [|apply combine_map2].
      intros v. rewrite member_iff. split; [eauto|]. intros (i & Hi & Ei & Hv). now rewrite <- (job_unique i j Hi Hj Ei). }
    assert (SPL : forall (q : @quantity K) l, In q l <-> In q (filter one l) \/ In q (filter (fun q => negb (one q)) l)) by (intros q l; rewrite !filter_In; destruct (one q); cbn; intuition congruence).
    split; [|split; [|split]].
    + intros z q Hz Hq. apply in_map_iff in Hz as (j & <- & Hj). unfold vq_of in Hq. rewrite (job_of_in j Hj) in Hq. destruct (GET j Hj) as (d & Hd & Hn). exists (delivered (j_id j) false (map phi (j_us j)) (j_us j) q).
      split; auto. apply in_concat. exists d. split; auto. destruct (DEL j d Hd) as (_ & ->). rewrite !in_app_iff. apply SPL in Hq as [Hq|Hq]; [left|right; left]; now apply in_map.
    + intros z q Hz Hq. apply in_map_iff in Hz as (j & <- & Hj). unfold cq_of in Hq. rewrite (job_of_in j Hj) in Hq. destruct (GET j Hj) as (d & Hd & Hn). exists (delivered (j_id j) true (map psi (j_cs j)) (j_cs j) q).
      split; auto. apply in_concat. exists d. split; auto. destruct (DEL j d Hd) as (_ & ->). rewrite !in_app_iff. apply SPL in Hq as [Hq|Hq]; [right; right; left|right; right; right]; now apply in_map.
    + intros d Hd. apply in_concat in Hd as (l & Hl & Hd). destruct (GET' l Hl) as (j & Hj). destruct (DEL j l Hj) as (Hjj & ->). exists (j_id j).
      rewrite !in_app_iff in Hd. destruct Hd as [Hd|[Hd|[Hd|Hd]]]; apply in_map_iff in Hd as (q & <- & Hq); exists q; (split; [now apply in_map|]); [left|left|right|right]; unfold vq_of, cq_of; rewrite (job_of_in j Hjj); (split; [apply SPL; auto|auto]).
    + assert (EQ : new = map (fun j => map (delivered (j_id j) false (map phi (j_us j)) (j_us j)) (filter one (j_vq j)) ++ map (delivered (j_id j) false (map phi (j_us j)) (j_us j)) (filter (fun q => negb (one q)) (j_vq j)) ++
        map (delivered (j_id j) true (map psi (j_cs j)) (j_cs j)) (filter one (j_cq j)) ++ map (delivered (j_id j) true (map psi (j_cs j)) (j_cs j)) (filter (fun q => negb (one q)) (j_cq j))) jobs).
      { assert (DEL' : forall j d, In (j, d) (combine jobs new) -> d = map (delivered (j_id j) false (map phi (j_us j)) (j_us j)) (filter one (j_vq j)) ++ map (delivered (j_id j) false (map phi (j_us j)) (j_us j)) (filter (fun q => negb (one q)) (j_vq j)) ++
        map (delivered (j_id j) true (map psi (j_cs j)) (j_cs j)) (filter one (j_cq j)) ++ map (delivered (j_id j) true (map psi (j_cs j)) (j_cs j)) (filter (fun q => negb (one q)) (j_cq j))) by (intros j d H; apply (DEL j d H)).
        revert LN DEL'. clear. revert new. generalize psi as f, phi as g. clear. intros f g. induction jobs as [|i l IH]; intros [|d new] L H; try discriminate L; auto. cbn [map]. f_equal; [apply H; now left|]. apply IH; auto. intros; apply H; now right. }
      rewrite EQ, concat_lengths. clear - IDS. assert (G : forall l, incl l jobs -> fold_right (fun z n => List.length (map (delivered (j_id z) false (map phi (j_us z)) (j_us z)) (filter one (j_vq z)) ++ map (delivered (j_id z) false (map phi (j_us z)) (j_us z)) (filter (fun q => negb (one q)) (j_vq z)) ++
        map (delivered (j_id z) true (map psi (j_cs z)) (j_cs z)) (filter one (j_cq z)) ++ map (delivered (j_id z) true (map psi (j_cs z)) (j_cs z)) (filter (fun q => negb (one q)) (j_cq z))) + n) 0 l = fold_right (fun z n => List.length (vq_of z) + List.length (cq_of z) + n) 0 (map j_id l)).
      { induction l as [|j l IH]; intros I; cbn [fold_right map]; auto. rewrite IH by (intros x Hx; apply I; now right). assert (Ev : vq_of (j_id j) = j_vq j) by (unfold vq_of; rewrite (job_of_in j) by (apply I; now left); reflexivity). assert (Ec : cq_of (j_id j) = j_cq j) by (unfold cq_of; rewrite (job_of_in j) by (apply I; now left); reflexivity). rewrite Ev, Ec.
        rewrite !app_length, !map_length. pose proof (filter_split one (j_vq j)). pose proof (filter_split one (j_cq j)). lia. }
      apply G. intros x; auto.
  - intros z. rewrite (proj1 (proj2 SIM)). apply (bi_ids _ _ _ _ _ _ B).
  - exists T. split; [apply (bi_reach _ _ _ _ _ _ B)|exact SIM].
Qed.

End Final.
End Link.
