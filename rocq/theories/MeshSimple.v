(** In every history, also after deletions: creation is defined, and no element
    lists a vertex or a boundary element twice. *)
From Coq Require Import List Arith Bool Lia Permutation Sorted.
From Verif Require Import ModelTopo ModelMesh ModelErase SpecMesh SpecErase MeshBase MeshInv MeshIds MeshReach MeshWf MeshErase.
Import ListNotations.

Section Simple.
Context {Pt : Type}.
Notation mesh := (@mesh Pt).
Notation element := (@element Pt).
Notation node := (@node Pt).
Variable cfg : config.

(** ** Creation is defined *)
Lemma live_key_of (m : mesh) vs : (forall v, In v vs -> live m Vertex v) -> exists k, key_of m vs = Some k.
Proof. apply key_of_total. Qed.

Lemma push_total gen t (m : mesh) e : (forall v, In v (e_verts e) -> live m Vertex v) ->
  exists r, push cfg t gen m e = Some r.
Proof.
  intros H. unfold push. destruct (keyed cfg t).
  - destruct (live_key_of m _ H) as [k ->]. cbn [obind]. destruct find_key; eauto. destruct gen; simpl; eauto.
  - destruct gen; simpl; eauto.
Qed.

Lemma omap_nth_total {A} (l : list A) idx : (forall i, In i idx -> i < length l) -> exists r, omap (nth_error l) idx = Some r.
Proof.
  intros H. apply omap_total. intros i Hi. apply H in Hi. apply nth_error_Some in Hi.
  destruct (nth_error l i); [eauto|congruence].
Qed.

Lemma omap_nth_In {A} (l : list A) idx r x : omap (nth_error l) idx = Some r -> In x r -> In x l.
Proof.
  intros H Hx. apply omap_Forall2 in H. induction H as [|i y idx r Hi HF IH]; simpl in *; [easy|].
  destruct Hx as [->|Hx]; auto. eapply nth_error_In; eauto.
Qed.

Lemma insert_total depth : forall gen t (m : mesh) e, dim t <= depth ->
  refs m -> e_bnd e = [] -> (t = Vertex -> e_verts e = []) ->
  (t <> Vertex -> length (e_verts e) = nverts t) ->
  (forall v, In v (e_verts e) -> live m Vertex v) ->
  exists r, insert depth cfg gen t m e = Some r.
Proof.
  induction depth as [|d IHd]; intros gen t m e Hd HR HB HT HL HV; cbn [insert];
    destruct (push_total gen t m e HV) as [(m1 & a & fr) Hp]; rewrite Hp; cbn [obind].
  - assert (t = Vertex) by (destruct t; simpl in *; auto; lia). subst t. destruct fr; eauto. simpl. eauto.
  - destruct fr; [|eauto].
    assert (P1 : refs m1 /\ (forall t' a', live m t' a' -> live m1 t' a') /\ live m1 t a).
    { apply push_cases in Hp as [(E & _)|(_ & -> & k & nodes' & g & -> & HP & _)]; [discriminate|].
      destruct (refs_add m t nodes' _ g HR HP) as (Q1 & Q2 & Q3); auto. }
    destruct P1 as (R1 & L1 & A1).
    assert (Loop : forall l (mc : mesh), (forall x, In x l -> In x (btab cfg t)) -> refs mc -> live mc t a ->
       exists mr, ofold (boundary_step (insert d cfg true) t a) l mc = Some mr).
    { induction l as [|[bt idx] l IHl]; intros mc Hin Rc Ac; [exists mc; reflexivity|]. cbn [ofold].
      assert (Hb := Hin _ (or_introl eq_refl)). apply btab_In in Hb as [Hb _].
      apply btable_ok in Hb as (B1 & B2 & B3 & B4 & B5).
      assert (Tv : t <> Vertex) by (intros ->; simpl in *; lia).
      unfold boundary_step at 1. pose proof Ac as Ac'. apply range_deref in Ac as [host Hh]. rewrite Hh. cbn [obind].
      pose proof Hh as Hh'. apply deref_In in Hh' as (nh & Hnh & _ & Enh).
      destruct (omap_nth_total (e_verts host) idx) as [vs Hvs].
      { intros i Hi. rewrite <- Enh, (r_len mc Rc t nh); auto. }
      rewrite Hvs. cbn [obind].
      assert (Hvl : forall v, In v vs -> live mc Vertex v).
      { intros v Hv. apply (omap_nth_In _ _ _ _ Hvs) in Hv. rewrite <- Enh in Hv. eapply (r_verts mc Rc); eauto. }
      destruct (IHd true bt mc (mkE 0 vs [] None)) as [(mi & h & f) Hi]; auto; [lia| | |].
      { intros; congruence. }
      { intros _. simpl. rewrite (omap_length _ _ _ Hvs). auto. }
      rewrite Hi. cbn [obind].
      destruct (insert_refs cfg d true bt mc mi (mkE 0 vs [] None) h f Rc eq_refl (fun H => False_ind _ (B2 H)) (fun _ => eq_trans (omap_length _ _ _ Hvs) B3) Hvl Hi) as (Ri & Li & Ai).
      pose proof Ai as Ai'. apply range_deref in Ai as [st Hst]. rewrite Hst. cbn [obind].
      pose proof (Li _ _ Ac') as Am. apply range_deref in Am as [host1 Hh1]. rewrite Hh1. cbn [obind].
      apply IHl.
      - intros; apply Hin; now right.
      - apply refs_put_bnd; auto.
      - apply live_put, Li, Ac'. }
    destruct (Loop (btab cfg t) m1) as [mr Hr]; auto. rewrite Hr. cbn [obind]. eauto.
Qed.

Lemma step_total (m : mesh) o : wf cfg m -> valid_op cfg m o -> exists m', step cfg m o = Some m'.
Proof.
  intros (W & N & R) HV. destruct o as [p|i p|t vs|view|]; cbn [step].
  - unfold make_vertex. destruct (insert_total 0 true Vertex m (mkE 0 [] [] (Some p))) as [r ->]; simpl; eauto; congruence || easy.
  - unfold make_vertex_with_id. destruct (insert_total 0 false Vertex m (mkE i [] [] (Some p))) as [r ->]; simpl; eauto; congruence || easy.
  - destruct HV as (V1 & V2 & V3 & V4). unfold make_element. rewrite V2, Nat.eqb_refl.
    destruct (insert_total (dim t) true t m (mkE 0 vs [] None)) as [r ->]; simpl; eauto.
    + intros ->. destruct V1. congruence.
    + rewrite Forall_forall in V4. intros v Hv. apply live_is_live; auto.
  - easy.
  - eauto.
Qed.

(** ** No repetitions *)
Definition simple (m : mesh) : Prop := forall t n, In n (m_nodes m t) ->
  NoDup (e_verts (n_el n)) /\ NoDup (map (fun b => (b_tag b, b_addr b)) (e_bnd (n_el n))).

Definition kat (m : mesh) (t : tag) (a : addr) : option (list nat) := option_map n_key (find_node (m_nodes m t) a).

Lemma kat_put (m : mesh) t a e t' a' : kat (put m t a e) t' a' = kat m t' a'.
Proof.
  unfold kat. simpl. rewrite upd_spec. destruct (tag_eq_dec t t') as [<-|]; auto.
  unfold find_node, set_el. induction (m_nodes m t) as [|x l IH]; simpl; auto.
  destruct (Nat.eqb_spec (n_addr x) a); simpl; destruct (n_addr x =? a'); auto.
Qed.

Lemma kat_add (m : mesh) t nodes' n g t' a' k : winv cfg m -> Permutation (n :: m_nodes m t) nodes' -> n_addr n = m_next m t ->
  kat m t' a' = Some k -> kat (add_node t nodes' g m) t' a' = Some k.
Proof.
  intros W HP HA. unfold kat. simpl. rewrite upd_spec. destruct (tag_eq_dec t t') as [<-|]; auto.
  assert (ND : NoDup (map n_addr (n :: m_nodes m t))).
  { simpl. constructor; [|apply W]. rewrite HA. intros H. apply in_map_iff in H as (x & E & Hx). apply (w_next cfg m W) in Hx. lia. }
  rewrite <- (find_node_perm _ _ a' ND HP). unfold find_node at 2. simpl.
  destruct (Nat.eqb_spec (n_addr n) a') as [E|E]; auto.
  intros H. exfalso. destruct (find_node (m_nodes m t) a') as [x|] eqn:F; [|discriminate].
  apply find_node_In in F as [Hx Ex]. apply (w_next cfg m W) in Hx. lia.
Qed.

Lemma kat_add_new (m : mesh) t nodes' n g : winv cfg m -> Permutation (n :: m_nodes m t) nodes' -> n_addr n = m_next m t ->
  kat (add_node t nodes' g m) t (n_addr n) = Some (n_key n).
Proof.
  intros W HP HA. unfold kat. simpl. rewrite upd_same.
  assert (ND : NoDup (map n_addr (n :: m_nodes m t))).
  { simpl. constructor; [|apply W]. rewrite HA. intros H. apply in_map_iff in H as (x & E & Hx). apply (w_next cfg m W) in Hx. lia. }
  rewrite <- (find_node_perm _ _ (n_addr n) ND HP). unfold find_node. simpl. now rewrite Nat.eqb_refl.
Qed.

Lemma push_kat t gen (m m1 : mesh) e a fresh : winv cfg m -> push cfg t gen m e = Some (m1, (a, fresh)) ->
  (forall t' a' k, kat m t' a' = Some k -> kat m1 t' a' = Some k) /\
  (keyed cfg t = true -> kat m1 t a = key_of m (e_verts e)).
Proof.
  intros W H. pose proof H as H0. split.
  - apply push_cases in H as [(_ & N & _)|(_ & -> & k & nodes' & g & -> & HP & _)].
    + intros. unfold kat. now rewrite N.
    + intros. eapply kat_add; eauto.
  - intros K. unfold push in H. rewrite K in H. apply obind_Some in H as (k & Hk & H). rewrite Hk.
    destruct (find_key (m_nodes m t) k) as [n|] eqn:F.
    + inversion H; subst. apply find_key_Some in F as [F1 <-]. unfold kat. simpl. rewrite In_find_node; auto. apply W.
    + destruct gen; simpl in H; inversion H; subst.
      * unfold kat; simpl; rewrite upd_same; rewrite find_node_insert_keyed; [simpl; now rewrite Nat.eqb_refl|];
        simpl; intros X; apply in_map_iff in X as (x & E & Hx); apply (w_next cfg m W) in Hx; lia.
      * unfold kat; simpl; rewrite upd_same; rewrite find_node_insert_keyed; [simpl; now rewrite Nat.eqb_refl|];
        simpl; intros X; apply in_map_iff in X as (x & E & Hx); apply (w_next cfg m W) in Hx; lia.
Qed.

Definition ent_neq (x y : tag * list nat) : Prop := fst x = fst y -> isort (snd x) <> isort (snd y).
Lemma btable_distinct t : ForallOrdPairs ent_neq (btable t).
Proof. destruct t; vm_compute; repeat constructor; intros; discriminate. Qed.
Lemma FOP_filter {A} (R : A -> A -> Prop) f l : ForallOrdPairs R l -> ForallOrdPairs R (filter f l).
Proof.
  induction 1 as [|x l HF HP IH]; simpl; [constructor|]. destruct (f x); auto. constructor; auto.
  rewrite Forall_forall in *. intros y Hy. apply filter_In in Hy as [Hy _]. auto.
Qed.
Lemma FOP_app {A} (R : A -> A -> Prop) l1 x l2 y : ForallOrdPairs R (l1 ++ x :: l2) -> In y l1 -> R y x.
Proof.
  induction l1 as [|z l1 IH]; simpl; [easy|]. intros H [->|Hy]; inversion H; subst.
  - rewrite Forall_forall in H2. apply H2. apply in_or_app. right. now left.
  - auto.
Qed.

Lemma vkey_perm (m : mesh) vs1 vs2 k : NoDup (ids m Vertex) -> NoDup (map n_addr (m_nodes m Vertex)) ->
  key_of m vs1 = Some k -> key_of m vs2 = Some k -> Permutation vs1 vs2.
Proof.
  intros HN HA H1 H2.
  pose proof (key_of_live _ _ _ H1) as L1. pose proof (key_of_live _ _ _ H2) as L2.
  apply key_of_vid in H1. apply key_of_vid in H2. rewrite H1 in H2. apply isort_eq_iff in H2.
  assert (VI : forall a b, live m Vertex a -> live m Vertex b -> vid m a = vid m b -> a = b).
  { intros a b Ha Hb E. unfold live in *. apply in_map_iff in Ha as (na & <- & Ia). apply in_map_iff in Hb as (nb & <- & Ib).
    unfold vid, deref in E. rewrite (In_find_node _ _ HA Ia), (In_find_node _ _ HA Ib) in E. simpl in E.
    f_equal. unfold ids in HN. clear - HN Ia Ib E. induction (m_nodes m Vertex) as [|x l IH]; [easy|].
    simpl in HN. inversion HN; subst. destruct Ia as [->|Ia], Ib as [->|Ib]; auto.
    - exfalso. apply H1. unfold nid at 1. rewrite E. now apply (in_map nid).
    - exfalso. apply H1. unfold nid at 1. rewrite <- E. now apply (in_map nid). }
  apply Permutation_map_inv in H2 as (l3 & E & HP).
  assert (vs1 = l3); [|now subst].
  assert (L3 : forall v, In v l3 -> live m Vertex v).
  { intros v Hv. apply L2. eapply Permutation_in; [apply Permutation_sym; eauto|auto]. }
  clear - E L1 L3 VI. revert l3 E L3.
  induction vs1 as [|x vs1 IH]; intros [|y l3] E L3; simpl in *; try discriminate; auto.
  injection E as E1 E2. f_equal; [apply VI; auto; apply L1; auto|apply IH; auto].
Qed.

Lemma NoDup_omap_nth {A} (l : list A) idx r : NoDup l -> NoDup idx -> omap (nth_error l) idx = Some r -> NoDup r.
Proof.
  intros ND NI H. apply omap_Forall2 in H. induction H as [|i x idx r Hi HF IH]; [constructor|].
  inversion NI; subst. constructor; auto. intros Hx. apply H1.
  clear - ND Hi HF Hx. induction HF as [|j y idx r Hj HF IH]; [easy|]. destruct Hx as [->|Hx]; [left|right; auto].
  apply (proj1 (NoDup_nth_error l) ND); [|congruence]. apply nth_error_Some. congruence.
Qed.

Lemma insert_simple depth : forall gen t (m m' : mesh) e a fresh,
  winv cfg m -> refs m -> simple m -> NoDup (ids m Vertex) -> id_lt gen m t (e_id e) ->
  e_bnd e = [] -> (t = Vertex -> e_verts e = []) -> (t <> Vertex -> allowed cfg t) ->
  (t <> Vertex -> length (e_verts e) = nverts t) -> NoDup (e_verts e) ->
  (forall v, In v (e_verts e) -> live m Vertex v) ->
  insert depth cfg gen t m e = Some (m', (a, fresh)) ->
  simple m' /\ (forall t' a' k, kat m t' a' = Some k -> kat m' t' a' = Some k) /\
  (keyed cfg t = true -> kat m' t a = key_of m (e_verts e)) /\
  (t <> Vertex -> m_nodes m' Vertex = m_nodes m Vertex) /\
  (forall t', dim t < dim t' -> m_nodes m' t' = m_nodes m t').
Proof.
  induction depth as [|d IHd]; intros gen t m m' e a fresh HW HR HS HN Hid HB HT HA HL HD HV H; cbn [insert] in H;
    apply obind_Some in H as ((m1 & a1 & fr) & Hp & H);
    pose proof (push_kat _ _ _ _ _ _ _ HW Hp) as [K1 K2];
    pose proof (push_winv _ _ _ _ _ _ _ _ HW Hid Hp) as (W1 & _);
    (assert (P1 : simple m1 /\ refs m1 /\ (t <> Vertex -> m_nodes m1 Vertex = m_nodes m Vertex) /\
        (forall t', dim t < dim t' -> m_nodes m1 t' = m_nodes m t') /\
        (fr = true -> exists host, deref m1 t a1 = Some host /\ e_verts host = e_verts e /\ e_bnd host = []));
     [apply push_cases in Hp as [(-> & N & _ & _ & _ & n & Hn & <-)|(-> & -> & k & nodes' & g & -> & HP & _)];
      [split; [intros t' x Hx; rewrite N in Hx; eauto|]; split; [eapply refs_same; eauto|]; repeat split; auto; discriminate
      |destruct (refs_add m t nodes' _ g HR HP) as (Q1 & Q2 & Q3); auto; split; [|split; [auto|split; [|split]]];
        [intros t' x; simpl; rewrite upd_spec; destruct (tag_eq_dec t t') as [<-|]; [|apply HS];
         intros Hx; apply (Permutation_in x (Permutation_sym HP)) in Hx as [<-|Hx]; [|eauto]; simpl; rewrite HB; split; [auto|constructor]
        |intros T; simpl; now rewrite upd_other
        |intros t' T; simpl; rewrite upd_other; auto; intros ->; lia
        |intros _; assert (D : deref (add_node t nodes' g m) t (m_next m t) = Some (set_id (new_id gen m t (e_id e)) e));
         [unfold deref; simpl; rewrite upd_same;
          assert (ND : NoDup (map n_addr (mkN (m_next m t) k (set_id (new_id gen m t (e_id e)) e) :: m_nodes m t)));
          [simpl; constructor; [|apply HW]; intros X; apply in_map_iff in X as (x & E & Hx); apply (w_next cfg m HW) in Hx; lia|];
          rewrite <- (find_node_perm _ _ (m_next m t) ND HP); unfold find_node; simpl; now rewrite Nat.eqb_refl|];
         rewrite D; eexists; split; [reflexivity|]; simpl; auto]]|]);
    destruct P1 as (S1 & R1 & V1 & D1 & F1).
  - destruct fr; [destruct (btab cfg t); [|discriminate]|]; inversion H; subst; repeat split; auto; eapply S1; eauto.
  - destruct fr; [|inversion H; subst; split; [exact S1|repeat split; auto]].
    apply obind_Some in H as (m2 & Hf & H). inversion H; subst. clear H.
    destruct (F1 eq_refl) as (host0 & Hh0 & Ev0 & Eb0).
    set (vs0 := e_verts e) in *.
    assert (Loop : forall l done (mc mr : mesh), done ++ l = btab cfg t -> winv cfg mc -> refs mc -> simple mc ->
       m_nodes mc Vertex = m_nodes m Vertex -> t <> Vertex ->
       (exists host, deref mc t a = Some host /\ e_verts host = vs0 /\
          Forall2 (fun b ent => b_tag b = fst ent /\ exists vs k, omap (nth_error vs0) (snd ent) = Some vs /\
             key_of m vs = Some k /\ kat mc (b_tag b) (b_addr b) = Some k) (e_bnd host) done) ->
       ofold (boundary_step (insert d cfg true) t a) l mc = Some mr ->
       simple mr /\ (forall t' a' k, kat mc t' a' = Some k -> kat mr t' a' = Some k) /\
       m_nodes mr Vertex = m_nodes m Vertex /\ (forall t', dim t < dim t' -> m_nodes mr t' = m_nodes mc t')).
    { induction l as [|[bt idx] l IHl]; intros done mc mr Hd Wc Rc Sc Vc Tv (host & Hh & Ev & HF) Hl.
      - inversion Hl; subst. auto.
      - cbn [ofold] in Hl. apply obind_Some in Hl as (ms & Hs & Hl).
        unfold boundary_step in Hs. rewrite Hh in Hs. cbn [obind] in Hs.
        apply obind_Some in Hs as (vs & Hv & Hs).
        apply obind_Some in Hs as ((mi & h & fr) & Hi & Hs).
        apply obind_Some in Hs as (st & Hst & Hs).
        apply obind_Some in Hs as (host1 & Hh1 & Hs).
        assert (Hb : In (bt, idx) (btab cfg t)) by (rewrite <- Hd; apply in_or_app; right; now left).
        pose proof Hb as Hb0.
        apply btab_In in Hb as [Hb _]. apply btable_ok in Hb as (B1 & B2 & B3 & B4 & B5).
        destruct (allowed_boundary cfg t bt idx (HA Tv) Hb0) as [Abt Kbt].
        rewrite Ev in Hv.
        assert (Lv : forall v, In v vs -> live mc Vertex v).
        { intros v Hv'. apply (omap_nth_In _ _ _ _ Hv) in Hv'. unfold live. rewrite Vc. apply HV; auto. }
        assert (Hlen : length vs = nverts bt) by (rewrite (omap_length _ _ _ Hv); auto).
        assert (NDvs : NoDup vs) by (eapply NoDup_omap_nth; [| |exact Hv]; auto).
        assert (KV : key_of mc vs = key_of m vs) by (apply key_of_vertices; auto).
        pose proof (insert_winv cfg _ _ _ _ _ _ _ _ Wc (or_introl eq_refl) Hi) as (Wi & _).
        destruct (insert_refs cfg d true bt mc mi (mkE 0 vs [] None) h fr Rc eq_refl (fun H => False_ind _ (B2 H)) (fun _ => Hlen) Lv Hi) as (Ri & Li & Ai).
        apply IHd in Hi as (Si & Ki & Kh & Vi & Di); auto; simpl; try congruence; try (unfold ids; rewrite Vc; exact HN); try now left.
        specialize (Kh Kbt). simpl in Kh. rewrite KV in Kh. specialize (Vi B2).
        assert (host1 = host). { unfold deref in Hh, Hh1. rewrite (Di t B1) in Hh1. congruence. } subst host1.
        destruct (live_key_of m vs) as [kv Hkv].
        { intros v Hv'. apply Lv in Hv'. unfold live in *. now rewrite <- Vc. }
        assert (HF' : Forall2 (fun b ent => b_tag b = fst ent /\ exists vs k, omap (nth_error vs0) (snd ent) = Some vs /\
             key_of m vs = Some k /\ kat mi (b_tag b) (b_addr b) = Some k) (e_bnd host) done).
        { eapply Forall2_impl'; [|exact HF]. intros b ent (Q1 & vs' & k' & Q2 & Q3 & Q4). split; auto.
          exists vs', k'. auto. }
        assert (Hnew : ~ In (bt, h) (map (fun b => (b_tag b, b_addr b)) (e_bnd host))).
        { intros Hin. apply in_map_iff in Hin as (b & Eb & Hb). inversion Eb; subst bt h.
          assert (exists ent, In ent done /\ b_tag b = fst ent /\ exists vs k, omap (nth_error vs0) (snd ent) = Some vs /\
             key_of m vs = Some k /\ kat mi (b_tag b) (b_addr b) = Some k) as (ent & He & Q1 & vs' & k' & Q2 & Q3 & Q4).
          { clear - HF' Hb. induction HF' as [|x y lb ld Q HF IH]; [easy|]. destruct Hb as [->|Hb]; [exists y; split; [now left|auto]|].
            destruct (IH Hb) as (ent & ? & ?). exists ent. split; [now right|auto]. }
          assert (k' = kv) by congruence. subst k'.
          assert (HPm : Permutation vs' vs). { eapply (vkey_perm m); eauto. apply HW. }
          assert (Hneq : ent_neq ent (b_tag b, idx)).
          { eapply FOP_app; [|exact He]. rewrite Hd. apply FOP_filter, btable_distinct. }
          apply Hneq; auto. apply isort_eq_iff. simpl.
          eapply selects_perm_inv; [exact HD| | |exact HPm]; apply selects_omap; auto. }
        set (host' := mkE (e_id host) (e_verts host) (e_bnd host ++ [mkB bt h (if fr then default_orient (length vs) else compute_orient (e_verts st) vs)]) (e_pt host)) in *.
        inversion Hs; subst ms. clear Hs.
        assert (Dp : deref (put mi t a host') t a = Some host').
        { rewrite deref_put. destruct (tag_eq_dec t t); [|congruence]. rewrite Nat.eqb_refl, Hh1. reflexivity. }
        apply (IHl (done ++ [(bt, idx)])) in Hl as (Sr & Kr & Vr & Dr).
        + split; auto. split; [|split; auto].
          * intros t' a' k Hk. apply Kr. rewrite kat_put. auto.
          * intros t' T. rewrite Dr by auto. simpl. rewrite upd_other by (intros ->; lia). apply Di. lia.
        + rewrite <- app_assoc. exact Hd.
        + eapply winv_put; eauto.
        + apply refs_put_bnd; auto.
        + intros t' x. simpl. rewrite upd_spec. destruct (tag_eq_dec t t') as [<-|]; [|apply Si].
          intros Hx. apply in_set_el in Hx as (y & Hy & _ & _ & [[_ ->]|[_ ->]]); [|eauto].
          apply deref_In in Hh1 as (n1 & Hn1 & _ & En1). destruct (Si t n1 Hn1) as [U1 U2]. rewrite En1 in U1, U2.
          split; [exact U1|]. simpl. rewrite map_app. simpl. now apply NoDup_app_last.
        + simpl. rewrite upd_other by auto. congruence.
        + auto.
        + exists host'. split; auto. split; auto. unfold host'. cbn [e_bnd]. apply Forall2_app.
          * eapply Forall2_impl'; [|exact HF']. intros b ent (Q1 & vs' & k' & Q2 & Q3 & Q4). split; auto.
            exists vs', k'. rewrite kat_put. auto.
          * constructor; [|constructor]. split; [reflexivity|]. exists vs, kv. cbn [snd b_tag b_addr].
            rewrite kat_put. rewrite Kh. auto. }
    destruct (tag_eq_dec t Vertex) as [->|Tv].
    + simpl in Hf. inversion Hf; subst m2. split; [exact S1|repeat split; auto].
    + apply (Loop (btab cfg t) [] m1) in Hf as (Sr & Kr & Vr & Dr); auto.
      * split; [exact Sr|]. split; [|split; [|split]].
        -- intros t' a' k Hk. apply (Kr t' a' k). auto.
        -- intros K. specialize (K2 K). destruct (live_key_of m vs0 HV) as [k Hk]. rewrite Hk in *. apply (Kr t a k K2).
        -- intros _. exact Vr.
        -- intros t' T. change (m_nodes m2 t' = m_nodes m t'). rewrite Dr by auto. auto.
      * exists host0. rewrite Eb0. repeat split; auto.
Qed.

Lemma step_simple (m m' : mesh) o : wf cfg m -> simple m -> valid_op cfg m o -> step cfg m o = Some m' -> simple m'.
Proof.
  intros (W & N & R) S HV H. destruct o as [p|i p|t vs|view|]; cbn [step] in H; cbn [valid_op] in HV.
  - destruct (make_vertex cfg m p) as [[m1 a]|] eqn:E; [|discriminate]. simpl in H. inversion H; subst.
    unfold make_vertex in E. destruct (insert _ _ _ _ _ _) as [[m2 [a2 f2]]|] eqn:E2; [|discriminate].
    simpl in E. inversion E; subst.
    apply insert_simple in E2 as (Q & _); auto; try congruence; try easy; [now left|constructor].
  - destruct (make_vertex_with_id cfg m i p) as [[m1 a]|] eqn:E; [|discriminate]. simpl in H. inversion H; subst.
    unfold make_vertex_with_id in E. destruct (insert _ _ _ _ _ _) as [[m2 [a2 f2]]|] eqn:E2; [|discriminate].
    simpl in E. inversion E; subst. destruct HV as [V1 V2].
    apply insert_simple in E2 as (Q & _); auto; try congruence; try easy; [now right|constructor].
  - destruct (make_element cfg t m vs) as [[m1 a]|] eqn:E; [|discriminate]. simpl in H. inversion H; subst.
    unfold make_element in E. destruct (length vs =? nverts t); [|discriminate].
    destruct (insert _ _ _ _ _ _) as [[m2 [a2 f2]]|] eqn:E2; [|discriminate].
    simpl in E. inversion E; subst. destruct HV as (V1 & V2 & V3 & V4).
    apply insert_simple in E2 as (Q & _); auto; try easy.
    + now left.
    + intros ->. destruct V1. congruence.
    + simpl. rewrite Forall_forall in V4. intros v Hv. apply live_is_live; auto.
  - easy.
  - inversion H. intros t n. simpl. easy.
Qed.

(** ** Deletion: described elements keep their lists, so the property at the
    level of ids is carried over. *)
Lemma describe_simple (m : mesh) (e : element) : wf cfg m ->
  (forall bt b, references e bt b -> live m bt b) ->
  (NoDup (e_verts e) <-> NoDup (d_verts (describe m e))) /\
  (NoDup (map (fun b => (b_tag b, b_addr b)) (e_bnd e)) <-> NoDup (map fst (d_bnd (describe m e)))).
Proof.
  intros W HL. split.
  - simpl. assert (L : forall v, In v (e_verts e) -> live m Vertex v) by (intros v Hv; apply HL; left; auto).
    clear HL. induction (e_verts e) as [|v l IH]; simpl; [split; constructor|].
    assert (IH' := IH (fun v H => L v (or_intror H))). clear IH.
    assert (Q : In v l <-> In (id_at m Vertex v) (map (id_at m Vertex) l)).
    { split; [apply in_map|]. intros H. apply in_map_iff in H as (w & E & Hw).
      destruct (wf_live_id m Vertex v (L v (or_introl eq_refl))) as [i Hi].
      assert (w = v) by (eapply (id_at_inj cfg m); eauto; congruence). now subst. }
    split; intros H; inversion H; subst; constructor; tauto.
  - simpl. rewrite map_map. simpl.
    assert (L : forall b, In b (e_bnd e) -> live m (b_tag b) (b_addr b)) by (intros b Hb; apply HL; right; eauto).
    clear HL. induction (e_bnd e) as [|b l IH]; simpl; [split; constructor|].
    assert (IH' := IH (fun v H => L v (or_intror H))). clear IH.
    assert (Q : In (b_tag b, b_addr b) (map (fun b => (b_tag b, b_addr b)) l) <->
       In (b_tag b, id_at m (b_tag b) (b_addr b)) (map (fun x => (b_tag x, id_at m (b_tag x) (b_addr x))) l)).
    { split; intros H; apply in_map_iff in H as (w & E & Hw).
      - inversion E. apply in_map_iff. exists w. split; auto.
      - inversion E as [[E1 E2]]. rewrite E1 in E2. destruct (wf_live_id m (b_tag b) (b_addr b) (L b (or_introl eq_refl))) as [i Hi].
        assert (b_addr w = b_addr b) by (eapply (id_at_inj cfg m); eauto; congruence).
        apply in_map_iff. exists w. rewrite E1, H. auto. }
    split; intros H; inversion H; subst; constructor; tauto.
Qed.

Lemma erase_simple (m m' : mesh) view : wf cfg m -> simple m -> valid_view m view -> reference_closed m view ->
  erase_elements m view = Some m' -> simple m'.
Proof.
  intros W S V C E. destruct (erase_elements_spec cfg m view W V C) as (m2 & E2 & W2 & P & _).
  rewrite E in E2. inversion E2; subst m2. clear E2. intros t n Hn.
  assert (D : In (describe m' (n_el n)) (map (describe m) (elements_except m t (view t)))).
  { eapply Permutation_in; [apply P|]. apply described_In. eauto. }
  apply in_map_iff in D as (e & Ee & He). unfold elements_except in He. apply in_map_iff in He as (n0 & <- & Hn0).
  apply filter_In in Hn0 as [Hn0 _].
  destruct (describe_simple m' (n_el n) W2) as [A1 A2].
  { intros bt b Hb. eapply (references_live m' t n); eauto. apply W2. }
  destruct (describe_simple m (n_el n0) W) as [B1 B2].
  { intros bt b Hb. eapply (references_live m t n0); eauto. apply W. }
  rewrite A1, A2, <- Ee. destruct (S t n0 Hn0). tauto.
Qed.

Lemma ereach_simple (m : mesh) : ereach cfg m -> simple m.
Proof.
  induction 1 as [|m o m' HR IH HV HS]; [intros t n; simpl; easy|].
  pose proof (ereach_wf cfg m HR) as W.
  destruct o as [p|i p|t vs|view|];
    [exact (step_simple m m' _ W IH HV HS)|exact (step_simple m m' _ W IH HV HS)|exact (step_simple m m' _ W IH HV HS)| |exact (step_simple m m' _ W IH HV HS)].
  destruct HV as [V1 V2]. eapply erase_simple; eauto.
Qed.

Lemma ereach_total (m : mesh) o : ereach cfg m -> valid_eop cfg m o -> exists m', step cfg m o = Some m'.
Proof.
  intros HR HV. pose proof (ereach_wf cfg m HR) as W. destruct o as [p|i p|t vs|view|];
    [exact (step_total m _ W HV)|exact (step_total m _ W HV)|exact (step_total m _ W HV)| |exact (step_total m _ W HV)].
  destruct HV as [V1 V2]. destruct (erase_elements_spec cfg m view W V1 V2) as (m' & E & _). eauto.
Qed.

Lemma simple_boundary (m : mesh) t n bt : simple m -> In n (m_nodes m t) -> NoDup (boundary_of (n_el n) bt).
Proof.
  intros S Hn. destruct (S t n Hn) as [A B]. destruct (tag_eq_dec bt Vertex) as [->|T]; [exact A|].
  rewrite boundary_of_nonvertex by auto.
  induction (e_bnd (n_el n)) as [|b l IH]; simpl; [constructor|]. simpl in B. inversion B; subst.
  destruct (tag_eqb (b_tag b) bt) eqn:Q; auto. simpl. constructor; auto.
  intros H. apply H1. apply in_map_iff in H as (x & E & Hx). apply filter_In in Hx as [Hx Qx].
  apply tag_eqb_eq in Q, Qx. apply in_map_iff. exists x. split; auto. congruence.
Qed.
End Simple.
