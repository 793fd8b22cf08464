(** Lemmas about copying elements. *)
From Coq Require Import List Arith Bool Lia Permutation.
From Verif Require Import ModelTopo ModelMesh ModelErase ModelQuery ModelCopy SpecMesh SpecErase SpecCopy
  MeshBase MeshInv MeshIds MeshReach MeshProofs MeshWf MeshErase MeshSimple.
Import ListNotations.

(** ** Every vertex has a point *)
Section Points.
Context {Pt : Type}.
Notation mesh := (@mesh Pt).
Variable cfg : config.

Definition pointed (m : mesh) : Prop := forall n, In n (m_nodes m Vertex) -> e_pt (n_el n) <> None.

Lemma put_vnodes (m : mesh) t a e : t <> Vertex -> m_nodes (put m t a e) Vertex = m_nodes m Vertex.
Proof. intros T. unfold put. cbn. apply upd_other. auto. Qed.

Lemma insert_vnodes depth : forall gen t (m m' : mesh) e a fresh, t <> Vertex ->
  insert depth cfg gen t m e = Some (m', (a, fresh)) -> m_nodes m' Vertex = m_nodes m Vertex.
Proof.
  assert (PV : forall gen t (m m1 : mesh) e a fresh, t <> Vertex -> push cfg t gen m e = Some (m1, (a, fresh)) -> m_nodes m1 Vertex = m_nodes m Vertex).
  { intros gen t m m1 e a fresh T H. apply push_cases in H as [(_ & N & _)|(_ & _ & k & nodes' & g & -> & _)]; [apply N|].
    cbn. apply upd_other; auto. }
  induction depth as [|d IHd]; intros gen t m m' e a fresh T H; cbn [insert] in H;
    apply obind_Some in H as ((m1 & a1 & fr) & Hp & H); apply PV in Hp; auto.
  - destruct fr; [destruct (btab cfg t); [|discriminate]|]; inversion H; subst; auto.
  - destruct fr; [|inversion H; subst; auto].
    apply obind_Some in H as (m2 & Hf & H). inversion H; subst. cbn [m_nodes log_insert]. rewrite <- Hp.
    assert (Loop : forall l (mc mr : mesh), (forall x, In x l -> In x (btab cfg t)) ->
       ofold (boundary_step (insert d cfg true) t a) l mc = Some mr -> m_nodes mr Vertex = m_nodes mc Vertex).
    { induction l as [|[bt idx] l IHl]; intros mc mr Hin Hl.
      - inversion Hl; subst. auto.
      - cbn [ofold] in Hl. apply obind_Some in Hl as (ms & Hs & Hl).
        unfold boundary_step in Hs.
        apply obind_Some in Hs as (host & Hh & Hs).
        apply obind_Some in Hs as (vs & Hv & Hs).
        apply obind_Some in Hs as ((mi & h & fr) & Hi & Hs).
        apply obind_Some in Hs as (st & Hst & Hs).
        apply obind_Some in Hs as (host1 & Hh1 & Hs).
        assert (Hb := Hin _ (or_introl eq_refl)). apply btab_In in Hb as [Hb _].
        apply btable_ok in Hb as (B1 & B2 & B3).
        apply IHd in Hi; auto. inversion Hs; subst. apply IHl in Hl; [|intros; apply Hin; now right].
        rewrite Hl, put_vnodes; auto. }
    apply Loop in Hf; auto.
Qed.

Lemma pointed_step (m m' : mesh) o : wf cfg m -> pointed m -> valid_eop cfg m o -> step cfg m o = Some m' -> pointed m'.
Proof.
  intros W HP V H. destruct o; cbn [step valid_eop] in *.
  - destruct (make_vertex_added cfg m p) as (m1 & E & (A & _) & _). rewrite E in H. cbn in H. inversion H; subst.
    intros n. rewrite A. intros Hn. apply in_app_iff in Hn as [Hn|[<-|[]]]; [auto|cbn; discriminate].
  - destruct (make_vertex_id_added cfg m i p) as (m1 & E & (A & _) & _). rewrite E in H. cbn in H. inversion H; subst.
    intros n. rewrite A. intros Hn. apply in_app_iff in Hn as [Hn|[<-|[]]]; [auto|cbn; discriminate].
  - destruct V as ([T _] & V2 & _). unfold make_element in H. rewrite V2, Nat.eqb_refl in H.
    destruct (insert _ _ _ _ _ _) as [[m2 [a2 f2]]|] eqn:E; [|discriminate]. cbn in H. inversion H; subst.
    apply insert_vnodes in E; auto. intros n. rewrite E. auto.
  - destruct V as [V C]. destruct (erase_elements_spec cfg m view W V C) as (m1 & E & _ & P & _). rewrite H in E. inversion E; subst.
    intros n Hn. assert (D : In (describe m1 (n_el n)) (described_of m1 Vertex)) by (apply described_In; eauto).
    apply (Permutation_in _ (P Vertex)) in D. apply in_map_iff in D as (e & E1 & D). unfold elements_except in D.
    apply in_map_iff in D as (n' & <- & D). apply filter_In in D as [D _].
    assert (Q : e_pt (n_el n) = e_pt (n_el n')) by (unfold describe in E1; congruence). rewrite Q. auto.
  - inversion H; subst. intros n [].
Qed.

Lemma ereach_pointed (m : mesh) : ereach cfg m -> pointed m.
Proof.
  induction 1 as [|m o m' R IH V E]; [intros n []|]. eapply pointed_step; eauto. now apply ereach_wf.
Qed.
End Points.

(** ** First uses *)
Lemma memb_app a l : forall l', memb a (l ++ l') = memb a l || memb a l'.
Proof. intros. unfold memb. apply existsb_app. Qed.

Definition fu (acc l : list addr) : list addr := fold_left (fun acc x => if memb x acc then acc else acc ++ [x]) l acc.
Lemma fu_In l : forall acc x, In x (fu acc l) <-> In x acc \/ In x l.
Proof.
  induction l as [|y l IH]; intros acc x; cbn [fu fold_left]; [simpl; tauto|]. change (fold_left _ l ?A) with (fu A l). rewrite IH.
  destruct (memb y acc) eqn:E; [apply memb_In in E|rewrite in_app_iff]; simpl; intuition (subst; auto).
Qed.
Lemma fu_NoDup l : forall acc, NoDup acc -> NoDup (fu acc l).
Proof.
  induction l as [|y l IH]; intros acc H; cbn [fu fold_left]; auto. change (fold_left _ l ?A) with (fu A l). apply IH.
  destruct (memb y acc) eqn:E; auto. apply NoDup_app_last; auto. now apply memb_notIn.
Qed.
Lemma fu_app l1 l2 acc : fu acc (l1 ++ l2) = fu (fu acc l1) l2.
Proof. apply fold_left_app. Qed.
Lemma fu_last l x acc : fu acc (l ++ [x]) = if memb x (fu acc l) then fu acc l else fu acc l ++ [x].
Proof. rewrite fu_app. reflexivity. Qed.

Lemma NoDup_app_r {A} (l l' : list A) : NoDup (l ++ l') -> NoDup l'.
Proof. induction l; cbn; auto. intros H. inversion H; subst; auto. Qed.

(** ** The copy *)
Section Copying.
Context {Pt : Type}.
Notation mesh := (@mesh Pt).
Variable cfg : config.
Variable src : mesh.
Hypothesis Wsrc : exists cfgs, wf cfgs src.
Hypothesis Psrc : pointed src.
Hypothesis Ssrc : simple src.
(** What is known about the destination: [reach] or [ereach]. *)
Variable Q : mesh -> Prop.
Hypothesis Qstep : forall d o d', Q d -> valid_op cfg d o -> o <> OClear -> step cfg d o = Some d' -> Q d'.

Definition mapped (vm : vmap) (x y : addr) : Prop := exists i, id_at src Vertex x = Some i /\ vlookup i vm = Some y.

(** [used]: the source vertices met so far; [pre]: the vertices that were there
    before. *)
Record vinv (pre : list addr) (d : mesh) (vm : vmap) (used : list addr) : Prop := mkVI {
  vi_q : Q d;
  vi_inv : inv cfg d [];
  vi_range : exists new, range d Vertex = pre ++ new /\
    Forall2 (fun x y => mapped vm x y /\ point_at d y = point_at src x /\ point_at src x <> None) (fu [] used) new;
  vi_only : forall i y, vlookup i vm = Some y -> exists x, In x used /\ id_at src Vertex x = Some i
}.

Lemma vlookup_cons i j y vm : vlookup i ((j, y) :: vm) = if i =? j then Some y else vlookup i vm.
Proof. unfold vlookup. cbn [find fst]. rewrite Nat.eqb_sym. now destruct (i =? j). Qed.

Lemma src_inj x x' i : id_at src Vertex x = Some i -> id_at src Vertex x' = Some i -> x = x'.
Proof. destruct Wsrc as (c & W). now apply (id_at_inj c). Qed.

Lemma Forall2_in_l {A B} (R : A -> B -> Prop) l r x : Forall2 R l r -> In x l -> exists y, In y r /\ R x y.
Proof. induction 1; intros []; [subst; exists y; simpl; auto|]. destruct IHForall2 as (z & ? & ?); auto. exists z. simpl. auto. Qed.
Lemma Forall2_app_one {A B} (R : A -> B -> Prop) l r x y : Forall2 R l r -> R x y -> Forall2 R (l ++ [x]) (r ++ [y]).
Proof. intros. apply Forall2_app; auto. Qed.

(** The other elements do not change when a vertex is made. *)
Lemma copy_vertex_spec pre d vm used x : vinv pre d vm used -> is_live src Vertex x ->
  exists d' vm' y, copy_vertex cfg src (d, vm) x = Some ((d', vm'), y) /\ vinv pre d' vm' (used ++ [x]) /\
    mapped vm' x y /\ (forall x y, mapped vm x y -> mapped vm' x y) /\ is_live d' Vertex y /\
    (forall t a e, deref d t a = Some e -> deref d' t a = Some e) /\ (forall t, t <> Vertex -> m_nodes d' t = m_nodes d t).
Proof.
  intros [HQ HI (new & RN & F) O] (v & D). assert (Hi : id_at src Vertex x = Some (e_id v)) by (unfold id_at; now rewrite D).
  unfold copy_vertex. rewrite D. cbn [obind snd fst]. destruct (vlookup (e_id v) vm) as [y|] eqn:E.
  - exists d, vm, y. split; auto. assert (Hx : In x (fu [] used)).
    { destruct (O _ _ E) as (x' & Hx' & I'). rewrite (src_inj x x' (e_id v)); auto. apply fu_In. auto. }
    assert (M : mapped vm x y) by (exists (e_id v); auto).
    split; [|split; [auto|split; [auto|split; [|auto]]]].
    + constructor; auto.
      * exists new. split; auto. rewrite fu_last. apply memb_In in Hx. now rewrite Hx.
      * intros i y0 L. destruct (O i y0 L) as (x0 & ? & ?). exists x0. rewrite in_app_iff. auto.
    + destruct (Forall2_in_l _ _ _ x F Hx) as (y' & Hy' & (i & Ii & Li) & _). assert (y' = y) by congruence. subst. apply (proj1 (range_deref d Vertex y)). change (In y (range d Vertex)). rewrite RN. apply in_app_iff. auto.
  - assert (Hp : exists p, e_pt v = Some p).
    { apply deref_In in D as (n & Hn & _ & <-). specialize (Psrc n Hn). destruct (e_pt (n_el n)); [eauto|congruence]. }
    destruct Hp as (p & Hp). rewrite Hp. cbn [obind].
    destruct (make_vertex_added cfg d p) as (d' & E' & A & G). rewrite E'. cbn [option_map fst snd].
    assert (ST : step cfg d (OVertex p) = Some d') by (cbn [step]; now rewrite E').
    assert (Q' : Q d') by (eapply Qstep; eauto; [exact I|discriminate]).
    assert (HI' : inv cfg d' []). { destruct (step_inv cfg d (OVertex p) HI I) as (d2 & E2 & I2). congruence. }
    pose proof (vertex_added_deref cfg d d' _ p [] HI A) as DD.
    assert (FR : forall t a e, deref d t a = Some e -> deref d' t a = Some e).
    { intros t a e X. rewrite DD. destruct (tag_eq_dec t Vertex) as [->|]; auto. destruct (Nat.eqb_spec a (m_next d Vertex)) as [->|]; auto.
      exfalso. apply (fresh_addr cfg d [] Vertex HI). apply range_deref. eauto. }
    assert (Dy : deref d' Vertex (m_next d Vertex) = Some (mkE (m_idgen d Vertex) [] [] (Some p))).
    { rewrite DD. destruct (tag_eq_dec Vertex Vertex); [|congruence]. now rewrite Nat.eqb_refl. }
    assert (NI : ~ In x (fu [] used)).
    { intros Hx. destruct (Forall2_in_l _ _ _ x F Hx) as (y' & Hy' & (i & Ii & Li) & _). congruence. }
    assert (MM : forall x y, mapped vm x y -> mapped ((e_id v, m_next d Vertex) :: vm) x y).
    { intros x0 y0 (i & Ii & Li). exists i. split; auto. rewrite vlookup_cons. destruct (Nat.eqb_spec i (e_id v)); [congruence|auto]. }
    assert (MX : mapped ((e_id v, m_next d Vertex) :: vm) x (m_next d Vertex)).
    { exists (e_id v). split; auto. rewrite vlookup_cons. now rewrite Nat.eqb_refl. }
    exists d', ((e_id v, m_next d Vertex) :: vm), (m_next d Vertex). split; [reflexivity|]. split; [|split; [auto|split; [auto|split; [now eexists; eauto|split; auto]]]].
    + constructor; auto.
      * rewrite fu_last. destruct (memb x (fu [] used)) eqn:M; [apply memb_In in M; contradiction|].
        exists (new ++ [m_next d Vertex]). split; [unfold range in *; rewrite (proj1 A), map_app, RN, app_assoc; reflexivity|]. apply Forall2_app_one.
        -- assert (Lv : forall y, In y new -> is_live d Vertex y) by (intros y Hy; apply (proj1 (range_deref d Vertex y)); change (In y (range d Vertex)); rewrite RN; apply in_app_iff; auto).
           revert Lv. clear - F MM FR. induction F as [|x0 y0 l r (M0 & P0 & N0) F IH]; intros Lv; constructor.
           ++ split; auto. split; [|auto]. rewrite <- P0. unfold point_at. destruct (Lv y0 (or_introl eq_refl)) as (e0 & D0). now rewrite D0, (FR _ _ _ D0).
           ++ apply IH. intros y Hy. apply Lv. now right.
        -- split; auto. unfold point_at. rewrite Dy, D. cbn. rewrite Hp. split; [auto|discriminate].
      * intros i y0. rewrite vlookup_cons. destruct (Nat.eqb_spec i (e_id v)) as [->|].
        -- intros _. exists x. rewrite in_app_iff. simpl. auto.
        -- intros L. destruct (O i y0 L) as (x0 & ? & ?). exists x0. rewrite in_app_iff. auto.
    + intros t T. apply (proj1 (proj2 A) t T).
Qed.

Lemma copy_vertices_spec pre xs : forall d vm used, vinv pre d vm used -> Forall (is_live src Vertex) xs ->
  exists d' vm' ys, copy_vertices cfg src (d, vm) xs = Some ((d', vm'), ys) /\ vinv pre d' vm' (used ++ xs) /\
    Forall2 (mapped vm') xs ys /\ (forall x y, mapped vm x y -> mapped vm' x y) /\ Forall (is_live d' Vertex) ys /\
    (forall t a e, deref d t a = Some e -> deref d' t a = Some e) /\ (forall t, t <> Vertex -> m_nodes d' t = m_nodes d t).
Proof.
  induction xs as [|x xs IH]; intros d vm used V L; cbn [copy_vertices].
  - exists d, vm, []. rewrite app_nil_r. auto 10.
  - inversion L; subst. destruct (copy_vertex_spec pre d vm used x V H1) as (d1 & vm1 & y & E & V1 & M1 & MM1 & L1 & F1 & N1).
    rewrite E. cbn [obind fst snd]. destruct (IH d1 vm1 (used ++ [x]) V1 H2) as (d2 & vm2 & ys & E2 & V2 & M2 & MM2 & L2 & F2 & N2).
    rewrite E2. cbn [option_map fst snd]. exists d2, vm2, (y :: ys). split; [reflexivity|]. rewrite <- app_assoc in V2. split; [exact V2|].
    split; [constructor; auto|]. split; [auto|]. split; [|split; [auto|intros t T; rewrite N2, N1; auto]].
    constructor; auto. destruct L1 as (e & D). exists e. auto.
Qed.

Lemma mapped_fun vm x y y' : mapped vm x y -> mapped vm x y' -> y = y'.
Proof. intros (i & I1 & L1) (j & I2 & L2). congruence. Qed.

Lemma mapped_inj pre d vm used x x' y : vinv pre d vm used -> In x used -> In x' used -> mapped vm x y -> mapped vm x' y -> x = x'.
Proof.
  intros [HQ HI (new & RN & F) O] Hx Hx' M M'. assert (ND : NoDup (range d Vertex)) by apply (inv_winv cfg d [] HI).
  rewrite RN in ND. apply NoDup_app_r in ND.
  assert (Ix : In x (fu [] used)) by (apply fu_In; auto). assert (Ix' : In x' (fu [] used)) by (apply fu_In; auto).
  revert ND Ix Ix'. clear - F M M'. induction F as [|a b l r (M0 & _) F IH]; intros ND; [easy|]. inversion ND; subst.
  assert (K : forall z, In z l -> mapped vm z y -> b <> y).
  { intros z Hz Mz ->. destruct (Forall2_in_l _ _ _ z F Hz) as (y' & Hy' & My' & _). rewrite (mapped_fun vm z y y' Mz My') in *. contradiction. }
  intros [->|Hx] [->|Hx']; auto; exfalso.
  - apply (K x'); auto. now apply (mapped_fun vm x).
  - apply (K x); auto. now apply (mapped_fun vm x').
Qed.

Variable t : tag.
Hypothesis Tc : t = cfg_cell cfg.
Hypothesis Tv : t <> Vertex.

(** The state of a copy after the elements [cs]. *)
Record cinv (d : mesh) (vm : vmap) (cs : list addr) : Prop := mkCI {
  ci_v : vinv [] d vm (corners src t cs);
  ci_c : Forall2 (fun c a => exists e e', deref src t c = Some e /\ deref d t a = Some e' /\ Forall2 (mapped vm) (e_verts e) (e_verts e')) cs (range d t);
  ci_r : forall t' a e, t' <> Vertex -> deref d t' a = Some e -> exists c ec, deref d t c = Some ec /\ incl (e_verts e) (e_verts ec)
}.

Lemma src_verts c e : deref src t c = Some e -> Forall (is_live src Vertex) (e_verts e) /\ NoDup (e_verts e) /\ length (e_verts e) = nverts t.
Proof.
  intros D. apply deref_In in D as (n & Hn & _ & <-). destruct Wsrc as (cf & W & ND & [_ L V _]). split; [|split; [apply (Ssrc t n Hn)|apply L; auto]].
  apply Forall_forall. intros v Hv. apply live_is_live. eapply V; eauto.
Qed.

Lemma NoDup_mapped pre d vm used xs ys : vinv pre d vm used -> incl xs used -> NoDup xs -> Forall2 (mapped vm) xs ys -> NoDup ys.
Proof.
  intros V I ND F. induction F as [|x y xs ys M F IH]; constructor.
  - intros Hy. inversion ND; subst. apply H1.
    assert (exists z, In z xs /\ mapped vm z y) as (z & Hz & Mz).
    { clear - F Hy. induction F; [easy|]. destruct Hy as [->|Hy]; [exists x; simpl; auto|]. destruct (IHF Hy) as (z & ? & ?). exists z. simpl. auto. }
    rewrite (mapped_inj pre d vm used x z y); auto; apply I; simpl; auto.
  - inversion ND; subst. apply IH; auto. intros z Hz. apply I. now right.
Qed.

Lemma corners_app cs c e : deref src t c = Some e -> corners src t (cs ++ [c]) = corners src t cs ++ e_verts e.
Proof. intros D. unfold corners. rewrite flat_map_app. cbn. unfold vertices_at. rewrite D. cbn. now rewrite app_nil_r. Qed.

Lemma copy_element_spec d vm cs c : cinv d vm cs -> is_live src t c ->
  exists d' vm' a, copy_element cfg src t (d, vm) c = Some ((d', vm'), a) /\ cinv d' vm' (cs ++ [c]) /\ range d' t = range d t ++ [a] /\
    (forall t a e, deref d t a = Some e -> deref d' t a = Some e).
Proof.
  intros [V C RE] (e & D). destruct (src_verts c e D) as (Lv & ND & Len). unfold copy_element. rewrite D. cbn [obind].
  destruct (copy_vertices_spec [] (e_verts e) d vm _ V Lv) as (d1 & vm1 & ys & E1 & V1 & M1 & MM1 & L1 & F1 & N1). rewrite E1. cbn [obind fst snd].
  assert (Q1 := vi_q _ _ _ _ V1). assert (HI := vi_inv _ _ _ _ V1).
  assert (VO : valid_op cfg d1 (OElement t ys)).
  { split; [split; auto|]. split; [|split; auto].
    - assert (X : length (e_verts e) = length ys) by (clear - M1; induction M1; simpl; auto). congruence.
    - apply (NoDup_mapped [] d1 vm1 (corners src t cs ++ e_verts e) (e_verts e)); auto. intros z Hz. apply in_app_iff. auto. }
  destruct (valid_element_spec cfg d1 t ys HI VO) as (d2 & a & fr & E2 & HI2 & P). rewrite E2. cbn [option_map fst snd].
  assert (K : keyed cfg t = false) by (unfold keyed; rewrite Tc, tag_eqb_refl; apply andb_false_r).
  destruct (p_self _ _ _ _ _ _ _ _ P K) as [RA ->]. destruct (p_elem _ _ _ _ _ _ _ _ P) as (e2 & D2 & _ & X). destruct (X eq_refl) as (EV & _).
  assert (Q2 : Q d2) by (eapply (Qstep d1 (OElement t ys)); eauto; [discriminate|cbn [step]; now rewrite E2]).
  assert (RG : range d1 t = range d t) by (unfold range; now rewrite (N1 t Tv)).
  exists d2, vm1, a. split; [reflexivity|]. split; [|split; [congruence|intros; now apply (p_frame _ _ _ _ _ _ _ _ P), F1]].
  destruct (p_vert _ _ _ _ _ _ _ _ P) as (PV & _).
  constructor.
  - rewrite (corners_app cs c e D). destruct V1 as [_ _ (new & RN & F) O]. constructor; auto. exists new. split; [unfold range in *; now rewrite PV|].
    eapply Forall2_impl'; [|exact F]. intros x y (A1 & A2 & A3). split; auto. split; auto. rewrite <- A2. unfold point_at, deref. now rewrite PV.
  - rewrite RA, RG. apply Forall2_app_one.
    + eapply Forall2_impl'; [|exact C]. intros c0 a0 (e0 & e0' & X1 & X2 & X3). exists e0, e0'. split; auto. split; [now apply (p_frame _ _ _ _ _ _ _ _ P), F1|].
      eapply Forall2_impl'; [|exact X3]. auto.
    + exists e, e2. split; auto. split; auto. now rewrite EV.
  - intros t' a' e' T' D'. destruct (p_new _ _ _ _ _ _ _ _ P _ _ _ D') as [H|(_ & [(-> & -> & _)|(_ & _ & _ & H & _)])].
    + assert (H0 : deref d t' a' = Some e') by (rewrite <- H; apply deref_nodes_eq; now rewrite N1).
      destruct (RE t' a' e' T' H0) as (c0 & ec & D0 & I0). exists c0, ec. split; auto. now apply (p_frame _ _ _ _ _ _ _ _ P), F1.
    + exists a, e'. split; [auto|]. intros z; auto.
    + exists a, e2. split; auto. now rewrite EV.
Qed.

Lemma cinv_clear (d : mesh) : Q (clear_mesh d) -> cinv (clear_mesh d) [] [].
Proof.
  intros R. constructor; cbn.
  - constructor; cbn; [auto|apply inv_clear|exists []; split; [reflexivity|constructor]|discriminate].
  - constructor.
  - intros t' a e _. discriminate.
Qed.

(** At the end there is a vertex map. *)
Lemma cinv_copy d vm cs : cinv d vm cs -> exists phi, is_copy src d t cs phi.
Proof.
  intros [V C RE]. assert (V' := V). destruct V' as [HQ HI (new & RN & F) O]. cbn [app] in RN. rewrite <- RN in F. clear RN.
  exists (fun x => match id_at src Vertex x with Some i => match vlookup i vm with Some y => y | None => 0 end | None => 0 end).
  set (phi := fun x => _). assert (PH : forall x y, mapped vm x y -> phi x = y) by (intros x y (i & I1 & L1); unfold phi; now rewrite I1, L1).
  assert (MU : forall x, In x (corners src t cs) -> mapped vm x (phi x) /\ point_at d (phi x) = point_at src x /\ point_at src x <> None).
  { intros x Hx. assert (Ix : In x (fu [] (corners src t cs))) by (apply fu_In; auto).
    destruct (Forall2_in_l _ _ _ x F Ix) as (y & _ & M & P). now rewrite (PH x y M). }
  constructor.
  - clear - C PH. induction C as [|c a cs l (e & e' & D & D' & M) C IH]; cbn [map]; auto. f_equal; auto. unfold vertices_at. rewrite D, D'. cbn. f_equal.
    clear - M PH. induction M; cbn [map]; auto. f_equal; auto. symmetry. now apply PH.
  - change (first_uses ?l) with (fu [] l). clear - F PH. induction F as [|x y l r (M & _) F IH]; cbn [map]; auto. f_equal; auto. symmetry. now apply PH.
  - intros x y Hx Hy E. eapply (mapped_inj [] d vm); eauto; [apply MU; auto|rewrite E; apply MU; auto].
  - intros x Hx. split; apply MU; auto.
  - intros t' a vs T H. unfold vertices_at in H. destruct (deref d t' a) as [e|] eqn:D; [|discriminate]. cbn in H. inversion H; subst.
    destruct (RE t' a e T D) as (c & ec & Dc & I). exists c, (e_verts ec). split; [apply range_deref; eauto|]. unfold vertices_at. rewrite Dc. auto.
Qed.

End Copying.
