(** The view of a segment seen as a mesh: it is well formed when the view is
    good and closed, and queries on it are queries on the whole mesh restricted
    to the segment. *)
From Coq Require Import List Arith ZArith Bool Lia Permutation Sorted.
From Verif Require Import ModelTopo ModelMesh ModelErase ModelAccessor ModelQuery ModelView ModelSegmentation ModelSegment
  SpecMesh SpecErase SpecQuery SpecView SpecSegment
  MeshBase MeshInv MeshIds MeshReach MeshProofs MeshWf MeshErase MeshSimple QueryBase QueryBnd QueryMono ViewBase.
Import ListNotations.
Open Scope nat_scope.

Section SegmentView.
Context {Pt : Type}.
Notation mesh := (@mesh Pt).
Notation element := (@element Pt).
Notation node := (@node Pt).
Variable cfg : config.

Lemma view_nodes_In (m : mesh) t l n : In n (view_nodes m t l) <->
  exists a e, In a l /\ deref m t a = Some e /\ n = mkN a [e_id e] e.
Proof.
  unfold view_nodes. rewrite in_flat_map. split.
  - intros (a & Ha & Hn). destruct (deref m t a) as [e|] eqn:D; [|easy]. destruct Hn as [<-|[]]. eauto.
  - intros (a & e & Ha & D & ->). exists a. split; auto. rewrite D. now left.
Qed.

Definition all_live (m : mesh) (v : tag -> list addr) : Prop := forall t a, In a (v t) -> is_live m t a.

Lemma good_all_live (m : mesh) v : good_view m v -> all_live m v.
Proof. intros G t a Ha. pose proof (increasing_live m t (v t) (G t)) as H. rewrite Forall_forall in H. auto. Qed.

Lemma view_nodes_addr (m : mesh) t l : (forall a, In a l -> is_live m t a) -> map n_addr (view_nodes m t l) = l.
Proof.
  induction l as [|a l IH]; intros H; auto. unfold view_nodes in *. cbn [flat_map].
  destruct (H a (or_introl eq_refl)) as (e & ->). cbn. f_equal. apply IH. intros; apply H; now right.
Qed.

Definition vmesh (m : mesh) (v : tag -> list addr) (cc : nat) : mesh :=
  mkM (fun t => view_nodes m t (v t)) (m_next m) (m_idgen m) cc [].

Lemma view_mesh_some (m : mesh) v cc : all_live m v -> view_mesh m v cc = Some (vmesh m v cc).
Proof.
  intros L. unfold view_mesh. replace (forallb _ all_tags) with true; auto. symmetry.
  apply forallb_forall. intros t _. apply forallb_forall. intros a Ha. destruct (L t a Ha) as (e & ->). auto.
Qed.

Lemma vmesh_addr (m : mesh) v cc t : all_live m v -> map n_addr (m_nodes (vmesh m v cc) t) = v t.
Proof. intros L. apply view_nodes_addr. intros a. apply L. Qed.

Lemma vmesh_live (m : mesh) v cc t a : all_live m v -> (live (vmesh m v cc) t a <-> In a (v t)).
Proof. intros L. unfold live. now rewrite vmesh_addr. Qed.

Lemma vmesh_deref (m : mesh) v cc t a e : good_view m v ->
  (deref (vmesh m v cc) t a = Some e <-> In a (v t) /\ deref m t a = Some e).
Proof.
  intros G. pose proof (good_all_live m v G) as L. split.
  - intros D. apply deref_In in D as (n & Hn & <- & <-). apply view_nodes_In in Hn as (b & f & Hb & D & ->). auto.
  - intros [Ha D]. unfold deref. change a with (n_addr (mkN a [e_id e] e)) at 1. rewrite (In_find_node (m_nodes (vmesh m v cc) t) (mkN a [e_id e] e)); auto.
    + rewrite vmesh_addr by auto. apply (increasing_nodup m t), G.
    + cbn [vmesh m_nodes]. apply view_nodes_In. eauto.
Qed.

Lemma vmesh_ids (m : mesh) v cc t : good_view m v -> StronglySorted lt (ids (vmesh m v cc) t).
Proof.
  intros G. destruct (G t) as (is & F & S). unfold ids. cbn [vmesh m_nodes].
  replace (map nid (view_nodes m t (v t))) with is; auto. clear S.
  induction F as [|a i l is Ha F IH]; auto. unfold view_nodes in *. cbn [flat_map].
  apply id_at_deref in Ha as (e & -> & E). cbn. rewrite <- IH. unfold nid. cbn. now rewrite E.
Qed.

Lemma vmesh_wf (m : mesh) v cc : wf cfg m -> good_view m v -> boundary_closed m v -> wf cfg (vmesh m v cc).
Proof.
  intros W G C. pose proof (good_all_live m v G) as L. assert (W' := W). destruct W' as (WI & _ & WR).
  assert (N : forall t n, In n (m_nodes (vmesh m v cc) t) -> In (n_addr n) (v t) /\ deref m t (n_addr n) = Some (n_el n) /\
            exists n', In n' (m_nodes m t) /\ n_addr n' = n_addr n /\ n_el n' = n_el n).
  { intros t n Hn. apply view_nodes_In in Hn as (a & e & Ha & D & ->). cbn. split; auto. split; auto.
    apply deref_In in D as (n' & H1 & H2 & H3). exists n'. auto. }
  assert (IDS : nodup_ids (vmesh m v cc)).
  { intros t. pose proof (vmesh_ids m v cc t G) as S. induction S as [|i l S IH F]; constructor; auto.
    intros Hi. rewrite Forall_forall in F. apply F in Hi. lia. }
  split; [|split; auto].
  - constructor.
    + intros t. rewrite vmesh_addr by auto. apply (increasing_nodup m t), G.
    + intros t n Hn. destruct (N t n Hn) as (_ & _ & n' & H1 & H2 & _). rewrite <- H2. now apply (w_next cfg m WI).
    + intros t i Hi. unfold ids in Hi. apply in_map_iff in Hi as (n & <- & Hn).
      destruct (N t n Hn) as (_ & _ & n' & H1 & _ & H3). apply (w_idlt cfg m WI). unfold nid. rewrite <- H3. now apply (in_map nid).
    + intros t _. pose proof (vmesh_ids m v cc t G) as S. unfold ids in S.
      assert (K : forall n, In n (m_nodes (vmesh m v cc) t) -> n_key n = [nid n]).
      { intros n Hn. apply view_nodes_In in Hn as (a & e & _ & _ & ->). auto. }
      revert S K. generalize (m_nodes (vmesh m v cc) t). induction l as [|n l IH]; intros S K; [constructor|].
      inversion S as [|? ? S' F]; subst. constructor; [apply IH; auto; intros; apply K; now right|].
      rewrite Forall_forall in *. intros n' Hn'. unfold klt. rewrite (K n (or_introl eq_refl)), (K n' (or_intror Hn')).
      specialize (F (nid n') (in_map nid _ _ Hn')). unfold key_less. cbn [length Nat.eqb negb lex_less]. destruct (Nat.ltb_spec (nid n') (nid n)) as [X|X]; [exfalso; lia|]. apply Nat.ltb_lt in F. now rewrite F.
  - constructor.
    + intros n Hn. destruct (N _ n Hn) as (_ & _ & n' & H1 & _ & <-). now apply (r_vv m WR).
    + intros t n T Hn. destruct (N _ n Hn) as (_ & _ & n' & H1 & _ & <-). now apply (r_len m WR).
    + intros t n x Hn Hx. apply vmesh_live; auto. destruct (N _ n Hn) as (Ha & D & _). apply (C t (n_addr n)); auto.
      exists (n_el n). split; auto.
    + intros t n b Hn Hb. destruct (N _ n Hn) as (Ha & D & n' & H1 & H2 & H3). rewrite <- H3 in Hb.
      destruct (r_bnd m WR t n' b H1 Hb) as (A1 & A2 & A3). split; auto. split; auto. apply vmesh_live; auto.
      apply (C t (n_addr n)); auto. exists (n_el n). split; auto. unfold has_boundary, boundary_of.
      destruct (b_tag b) eqn:T; [congruence|..]; (apply in_map_iff; exists b; split; auto; apply filter_In; split; [congruence|]; rewrite T; reflexivity).
Qed.

Lemma vmesh_simple (m : mesh) v cc : simple m -> simple (vmesh m v cc).
Proof.
  intros S t n Hn. apply view_nodes_In in Hn as (a & e & _ & D & ->). cbn [n_el].
  apply deref_In in D as (n' & H1 & H2 & <-). now apply (S t).
Qed.

Lemma vmesh_bounded (m : mesh) v cc ct a bt b : good_view m v ->
  (bounded_by (vmesh m v cc) ct a bt b <-> In a (v ct) /\ bounded_by m ct a bt b).
Proof.
  intros G. unfold bounded_by. split.
  - intros (e & D & B). apply vmesh_deref in D as [H D]; auto. eauto.
  - intros (H & e & D & B). exists e. split; auto. now apply vmesh_deref.
Qed.

(** ** The caches depend on the iterated elements only *)
Definition vq (m : mesh) (k : @content) : qstate Pt := mkQ (vmesh m (k_view k) (k_cc k)) (k_cob k) (k_nb k) (k_bnd k).

Lemma seg_q_some (m : mesh) k : all_live m (k_view k) -> seg_q m k = Some (vq m k).
Proof. intros L. unfold seg_q. rewrite view_mesh_some by auto. reflexivity. Qed.

Lemma cob_ok_nodes (m1 m2 : mesh) bt ct d : (forall t, m_nodes m1 t = m_nodes m2 t) -> cob_ok m1 bt ct d -> cob_ok m2 bt ct d.
Proof. intros N H n Hn. rewrite <- N in Hn. rewrite (H n Hn). unfold cobs. now rewrite N. Qed.
Lemma bounded_nodes (m1 m2 : mesh) ct a bt b : (forall t, m_nodes m1 t = m_nodes m2 t) -> bounded_by m1 ct a bt b -> bounded_by m2 ct a bt b.
Proof. intros N (e & D & B). exists e. split; auto. unfold deref in *. now rewrite <- N. Qed.
Lemma share_nodes (m1 m2 : mesh) t c a b : (forall t, m_nodes m1 t = m_nodes m2 t) -> share m1 t c a b -> share m2 t c a b.
Proof. intros N (H & k & B1 & B2). split; auto. exists k. split; eapply bounded_nodes; eauto. Qed.
Lemma nb_ok_nodes (m1 m2 : mesh) t c d : (forall t, m_nodes m1 t = m_nodes m2 t) -> nb_data_ok m1 t c d -> nb_data_ok m2 t c d.
Proof.
  intros N H n Hn. rewrite <- N in Hn. destruct (H n Hn) as (l & E & X). exists l. split; auto.
  eapply lists_exactly_iff; [|exact X]. intros a. split; apply share_nodes; auto.
Qed.
Lemma bnd_ok_nodes (m1 m2 : mesh) t d : (forall t, m_nodes m1 t = m_nodes m2 t) -> bnd_ok cfg m1 t d -> bnd_ok cfg m2 t d.
Proof.
  intros N H n Hn. rewrite <- N in Hn. rewrite (H n Hn). unfold flag, coflag, cobs. now rewrite !N.
Qed.

(** Caches that are exact stay exact when the iterated elements stay the same,
    and become harmlessly obsolete when the counter goes up. *)
Lemma qinv_same (s : qstate Pt) (m2 : mesh) : (forall t, m_nodes (q_mesh s) t = m_nodes m2 t) -> m_cc m2 = m_cc (q_mesh s) ->
  qinv cfg s -> qinv cfg (mkQ m2 (q_cob s) (q_nb s) (q_bnd s)).
Proof.
  intros N CC [A B C]. constructor; cbn [q_mesh q_cob q_nb q_bnd]; rewrite CC.
  - intros bt ct. destruct (A bt ct) as [A1 A2]. split; auto. intros E. eapply cob_ok_nodes; eauto.
  - intros t c. destruct (B t c) as [A1 A2]. split; auto. intros E. eapply nb_ok_nodes; eauto.
  - intros t T. destruct (C t T) as [A1 A2]. split; auto. intros E. eapply bnd_ok_nodes; eauto.
Qed.
Lemma qinv_bump (s : qstate Pt) (m2 : mesh) : m_cc (q_mesh s) < m_cc m2 ->
  qinv cfg s -> qinv cfg (mkQ m2 (q_cob s) (q_nb s) (q_bnd s)).
Proof.
  intros CC [A B C]. constructor; cbn [q_mesh q_cob q_nb q_bnd].
  - intros bt ct. destruct (A bt ct) as [A1 A2]. split; [lia|]. intros E. lia.
  - intros t c. destruct (B t c) as [A1 A2]. split; [lia|]. intros E. lia.
  - intros t T. destruct (C t T) as [A1 A2]. split; [lia|]. intros E. lia.
Qed.

(** ** Queries on a segment *)
Lemma vmesh_sub (m : mesh) v cc t a e : good_view m v -> deref (vmesh m v cc) t a = Some e -> deref m t a = Some e.
Proof. intros G D. now apply vmesh_deref in D. Qed.

Record content_ok (m : mesh) (k : @content) : Prop := mkCO {
  co_good : good_view m (k_view k);
  co_closed : boundary_closed m (k_view k);
  co_q : qinv cfg (vq m k)
}.

Lemma with_caches_ok (m : mesh) k q : content_ok m k -> qinv cfg q -> q_mesh q = vmesh m (k_view k) (k_cc k) -> content_ok m (with_caches k q).
Proof.
  intros [A B C] Q E. constructor; cbn [with_caches k_view]; auto. unfold vq. cbn.
  rewrite <- E. now destruct q.
Qed.

Lemma seg_cob_spec (m : mesh) k const bt ct b : wf cfg m -> simple m -> content_ok m k -> In b (k_view k bt) ->
  exists (q : qstate Pt) l, seg_cob const bt ct m k b = Some (with_caches k q, l) /\ content_ok m (with_caches k q) /\
    lists_exactly l (fun x => In x (k_view k ct) /\ bounded_by m ct x bt b).
Proof.
  intros W S K Hb. assert (K' := K). destruct K' as [G C Q]. pose proof (good_all_live m _ G) as L.
  assert (WV := vmesh_wf m (k_view k) (k_cc k) W G C).
  destruct (query_cob_spec cfg const (vq m k) bt ct b WV (vmesh_simple m _ _ S) Q) as (q & E & I & M & _).
  { now apply vmesh_live. }
  unfold seg_cob. rewrite (seg_q_some m k L). cbn [obind].
  unfold query_cob in E. rewrite (query_cob_mono _ m (fun t a e => vmesh_sub m _ _ t a e G) _ _ _ _ _ _ E).
  cbn [option_map fst snd]. do 2 eexists. split; [reflexivity|]. split; [now apply with_caches_ok|].
  eapply lists_exactly_iff; [|apply (cobs_exact cfg); auto]. intros a. cbn [vq q_mesh]. now apply vmesh_bounded.
Qed.

Lemma seg_nb_spec (m : mesh) k const t c a : wf cfg m -> simple m -> content_ok m k -> In a (k_view k t) ->
  exists (q : qstate Pt) l, seg_nb const t c m k a = Some (with_caches k q, l) /\ content_ok m (with_caches k q) /\
    lists_exactly l (fun x => In x (k_view k t) /\ share m t c a x).
Proof.
  intros W S K Hb. assert (K' := K). destruct K' as [G C Q]. pose proof (good_all_live m _ G) as L.
  assert (WV := vmesh_wf m (k_view k) (k_cc k) W G C).
  destruct (query_nb_spec cfg const (vq m k) t c a WV (vmesh_simple m _ _ S) Q) as (q & l & E & X & I & M).
  { now apply vmesh_live. }
  unfold seg_nb. rewrite (seg_q_some m k L). cbn [obind].
  unfold query_nb in E. rewrite (query_nb_mono _ m (fun t a e => vmesh_sub m _ _ t a e G) _ _ _ _ _ _ E).
  cbn [option_map fst snd]. do 2 eexists. split; [reflexivity|]. split; [now apply with_caches_ok|].
  eapply lists_exactly_iff; [|exact X]. intros x. unfold share. cbn [vq q_mesh]. split.
  - intros (N & j & B1 & B2). apply vmesh_bounded in B1 as [B1 B1'], B2 as [B2 B2']; auto. split; auto. split; auto. eauto.
  - intros (H & N & j & B1 & B2). split; auto. exists j. split; apply vmesh_bounded; auto.
Qed.

Lemma seg_bnd_spec (m : mesh) k t a : wf cfg m -> simple m -> content_ok m k -> In a (k_view k t) -> bnd_tag cfg t ->
  exists (q : qstate Pt), seg_bnd cfg t m k a = Some (with_caches k q, flag cfg (vmesh m (k_view k) (k_cc k)) t a) /\ content_ok m (with_caches k q).
Proof.
  intros W S K Hb T. assert (K' := K). destruct K' as [G C Q]. pose proof (good_all_live m _ G) as L.
  assert (WV := vmesh_wf m (k_view k) (k_cc k) W G C).
  destruct (query_bnd_spec cfg (vq m k) t a WV (vmesh_simple m _ _ S) Q T) as (q & E & I & M).
  { now apply vmesh_live. }
  unfold seg_bnd. rewrite (seg_q_some m k L). cbn [obind].
  unfold query_bnd in E. rewrite (query_bnd_mono _ m (fun t a e => vmesh_sub m _ _ t a e G) _ _ _ _ _ E).
  cbn [option_map fst snd]. eexists. split; [reflexivity|]. now apply with_caches_ok.
Qed.

End SegmentView.
