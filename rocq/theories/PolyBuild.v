(** Lemmas for C73: the mesh that the reader of .poly files builds. *)
From Coq Require Import Ascii String List Arith ZArith Bool Lia Permutation.
From Verif Require Import ModelTopo ModelMesh ModelErase ModelCopySeg ModelXml ModelVtk ModelNetgen ModelPoly
  SpecMesh SpecErase SpecCopy SpecNetgen SpecPoly MeshBase.
Import ListNotations.
Open Scope nat_scope.

Lemma In_insert_unique l h x : In x (insert_unique l h) <-> In x l \/ x = h.
Proof.
  unfold insert_unique. destruct (existsb (Nat.eqb h) l) eqn:E.
  - apply existsb_exists in E as (y & H & E). apply Nat.eqb_eq in E as <-. split; [auto|intros [H'| ->]; auto].
  - rewrite in_app_iff. cbn. intuition.
Qed.
Lemma NoDup_insert_unique l h : NoDup l -> NoDup (insert_unique l h).
Proof.
  intros N. unfold insert_unique. destruct (existsb (Nat.eqb h) l) eqn:E; auto.
  assert (H : ~ In h l). { intros H. rewrite (proj2 (existsb_exists _ _)) in E; [discriminate|]. exists h. split; auto. apply Nat.eqb_refl. }
  apply (Permutation_NoDup (l := h :: l)); [apply Permutation_cons_append|now constructor].
Qed.
Lemma In_unique hs : forall l x, In x (fold_left insert_unique hs l) <-> In x l \/ In x hs.
Proof.
  induction hs as [|h hs IH]; intros l x; cbn [fold_left]; [cbn; tauto|]. rewrite IH, In_insert_unique. cbn. intuition.
Qed.
Lemma NoDup_unique hs : forall l, NoDup l -> NoDup (fold_left insert_unique hs l).
Proof. induction hs as [|h hs IH]; intros l N; cbn [fold_left]; auto. apply IH. now apply NoDup_insert_unique. Qed.

Section Build.
Context {K : Type}.
Variable F : format K.
Notation pt := (list K).
Notation mesh := (@mesh pt).

Definition vnode (k : addr) (v : nat * pt) : @node pt := mkN k [] (mkE (fst v) [] [] (Some (snd v))).
Definition vnodes (V : list (nat * pt)) : list (@node pt) := map (fun kv => vnode (fst kv) (snd kv)) (combine (seq 0 (List.length V)) V).

Lemma combine_seq_snoc {A} (l : list A) x : forall s, combine (seq s (List.length (l ++ [x]))) (l ++ [x]) = combine (seq s (List.length l)) l ++ [(s + List.length l, x)].
Proof.
  induction l as [|y l IH]; intros s; cbn [app List.length seq combine]; [now rewrite Nat.add_0_r|]. rewrite IH. cbn. now rewrite Nat.add_succ_r.
Qed.
Lemma vnodes_snoc V v : vnodes (V ++ [v]) = vnodes V ++ [vnode (List.length V) v].
Proof. unfold vnodes. rewrite combine_seq_snoc, map_app. reflexivity. Qed.
Lemma vnodes_addrs V : map n_addr (vnodes V) = seq 0 (List.length V).
Proof.
  unfold vnodes. rewrite map_map. cbn. generalize 0 as s. induction V as [|v V IH]; intros s; cbn [List.length seq combine map]; auto. now rewrite IH.
Qed.
Lemma vnodes_find V k : find_node (vnodes V) k = option_map (vnode k) (nth_error V k).
Proof.
  unfold vnodes, find_node. assert (H : forall s, s <= k -> find (fun n : node => n_addr n =? k) (map (fun kv => vnode (fst kv) (snd kv)) (combine (seq s (List.length V)) V)) = option_map (vnode k) (nth_error V (k - s))).
  { induction V as [|v V IH]; intros s L; cbn [List.length seq combine map find]; [now destruct (k - s)|]. cbn [fst snd vnode n_addr].
    destruct (Nat.eqb_spec s k) as [->|N]; [now rewrite Nat.sub_diag|]. rewrite IH by lia. replace (k - s) with (S (k - S s)) by lia. reflexivity. }
  rewrite H by lia. now rewrite Nat.sub_0_r.
Qed.
Lemma vnodes_find_id V i : In i (map fst V) -> exists k v, find_id (vnodes V) i = Some (vnode k v) /\ nth_error V k = Some v /\ fst v = i.
Proof.
  unfold vnodes, find_id. assert (H : forall s, In i (map fst V) -> exists k v, find (fun n : node => e_id (n_el n) =? i) (map (fun kv => vnode (fst kv) (snd kv)) (combine (seq s (List.length V)) V)) = Some (vnode (s + k) v) /\ nth_error V k = Some v /\ fst v = i).
  { induction V as [|v V IH]; intros s H; [destruct H|]. cbn [List.length seq combine map find]. cbn [fst snd vnode n_el e_id].
    destruct (Nat.eqb_spec (fst v) i) as [E|N].
    - exists 0, v. rewrite Nat.add_0_r. auto.
    - destruct H as [H|H]; [contradiction|]. destruct (IH (S s) H) as (k & w & E & E' & E''). exists (S k), w. rewrite E. split; [f_equal; f_equal; lia|auto]. }
  apply (H 0).
Qed.
Lemma vnodes_find_none V i : ~ In i (map fst V) -> find_id (vnodes V) i = None.
Proof.
  intros N. destruct (find_id (vnodes V) i) as [n|] eqn:E; auto. exfalso. apply N. apply find_some in E as [H E]. apply Nat.eqb_eq in E.
  unfold vnodes in H. apply in_map_iff in H as ([k v] & <- & H). cbn in E. apply in_combine_r in H. apply in_map_iff. eauto.
Qed.

(** The mesh has the vertices [V], and lines which join pairs in [E]. *)
Record drawn (V : list (nat * pt)) (E : nat * nat -> Prop) (m : mesh) : Prop := {
  dw_verts : m_nodes m Vertex = vnodes V;
  dw_lines : forall n, In n (m_nodes m Line) -> exists u v i j, e_verts (n_el n) = [u; v] /\ id_at m Vertex u = Some i /\ id_at m Vertex v = Some j /\
      n_key n = isort [i; j] /\ E (i, j);
  dw_keys : NoDup (map n_key (m_nodes m Line));
  dw_addrs : NoDup (map n_addr (m_nodes m Line));
  dw_next : forall n, In n (m_nodes m Line) -> n_addr n < m_next m Line;
  dw_rest : forall t, t <> Vertex -> t <> Line -> m_nodes m t = []
}.

Lemma drawn_deref V E m a : drawn V E m -> deref m Vertex a = option_map (fun v => mkE (fst v) [] [] (Some (snd v))) (nth_error V a).
Proof. intros D. unfold deref. rewrite (dw_verts _ _ _ D), vnodes_find. now destruct (nth_error V a). Qed.
Lemma drawn_id V E m a : drawn V E m -> id_at m Vertex a = option_map fst (nth_error V a).
Proof. intros D. unfold id_at. rewrite (drawn_deref _ _ _ _ D). now destruct (nth_error V a). Qed.
Lemma drawn_vrange V E m : drawn V E m -> range m Vertex = seq 0 (List.length V).
Proof. intros D. unfold range. rewrite (dw_verts _ _ _ D). apply vnodes_addrs. Qed.
Lemma drawn_same V E m a b i : drawn V E m -> NoDup (map fst V) -> id_at m Vertex a = Some i -> id_at m Vertex b = Some i -> a = b.
Proof.
  intros D N. rewrite !(drawn_id _ _ _ _ D), <- !nth_error_map. intros A B. apply (proj1 (NoDup_nth_error (map fst V)) N).
  - apply nth_error_Some. congruence.
  - congruence.
Qed.

(** Lines keep their vertices. *)
Definition kept (m m' : mesh) : Prop :=
  (forall a, id_at m Vertex a = id_at m' Vertex a) /\ forall a e, deref m Line a = Some e -> deref m' Line a = Some e.
Lemma kept_refl m : kept m m. Proof. split; auto. Qed.
Lemma kept_trans m m1 m2 : kept m m1 -> kept m1 m2 -> kept m m2.
Proof. intros [A B] [A' B']. split; [intros a; now rewrite A|auto]. Qed.
Lemma kept_joins m m' a ij : kept m m' -> joins m a ij -> joins m' a ij.
Proof.
  intros [A B] (u & v & H & J). exists u, v. rewrite <- !A. split; auto. unfold vertices_at in *. destruct (deref m Line a) as [e|] eqn:E; [|discriminate].
  now rewrite (B _ _ E).
Qed.

Lemma find_node_Some_In (l : list (@node pt)) n : NoDup (map n_addr l) -> In n l -> find_node l (n_addr n) = Some n.
Proof.
  unfold find_node. induction l as [|x l IH]; intros N H; [destruct H|]. cbn [find map] in *. apply NoDup_cons_iff in N as [N1 N2].
  destruct (Nat.eqb_spec (n_addr x) (n_addr n)) as [E|E].
  - destruct H as [->|H]; auto. exfalso. apply N1. rewrite E. now apply in_map.
  - destruct H as [->|H]; [congruence|auto].
Qed.

Lemma drawn_line V E m n : drawn V E m -> In n (m_nodes m Line) -> deref m Line (n_addr n) = Some (n_el n).
Proof. intros D H. unfold deref. now rewrite (find_node_Some_In _ _ (dw_addrs _ _ _ D) H). Qed.

Lemma key_joins V E m n ij : drawn V E m -> In n (m_nodes m Line) -> (joins m (n_addr n) ij <-> n_key n = isort [fst ij; snd ij]).
Proof.
  intros D H. destruct (dw_lines _ _ _ D n H) as (u & v & i & j & Ev & Iu & Iv & Ek & _). unfold joins, vertices_at. rewrite (drawn_line _ _ _ _ D H). cbn [option_map]. rewrite Ek, isort_eq_iff. split.
  - intros (u' & v' & X & J). rewrite Ev in X. injection X as <- <-. rewrite Iu, Iv in J. destruct J as [[A B]|[A B]]; injection A as <-; injection B as <-; [reflexivity|apply perm_swap].
  - intros P. exists u, v. rewrite Ev, Iu, Iv. split; auto. apply Permutation_length_2_inv in P. destruct P as [P|P]; injection P as -> ->; auto.
Qed.
Lemma joins_unique V E m a b ij : drawn V E m -> In a (range m Line) -> In b (range m Line) -> joins m a ij -> joins m b ij -> b = a.
Proof.
  intros D A B. unfold range in *. apply in_map_iff in A as (n & <- & A). apply in_map_iff in B as (n' & <- & B). rewrite !(key_joins _ _ _ _ _ D) by auto. intros J J'.
  assert (X : n' = n); [|now rewrite X]. rewrite <- J' in J. clear J'. pose proof (dw_keys _ _ _ D) as N. revert N A B J. generalize (m_nodes m Line) as l.
  induction l as [|x l IH]; intros N A B J; [destruct A|]. cbn [map] in N. apply NoDup_cons_iff in N as [N1 N2].
  destruct A as [->|A], B as [->|B]; auto.
  - exfalso. apply N1. rewrite J. now apply in_map.
  - exfalso. apply N1. rewrite <- J. now apply in_map.
Qed.

Lemma make_line_spec V E m u v i j : drawn V E m -> id_at m Vertex u = Some i -> id_at m Vertex v = Some j -> E (i, j) ->
  exists m' a, make_line m u v = Some (m', a) /\ drawn V E m' /\ kept m m' /\ In a (range m' Line) /\ joins m' a (i, j).
Proof.
  intros D Iu Iv Eij. unfold make_line, make_element. cbn [List.length nverts Nat.eqb].
  assert (Ek : key_of m [u; v] = Some (isort [i; j])).
  { unfold key_of. cbn [omap]. unfold id_at in *. rewrite Iu, Iv. reflexivity. }
  cbn [dim insert]. unfold push. replace (keyed plc_cfg Line) with true by reflexivity. cbn [e_verts]. rewrite Ek. cbn [obind].
  destruct (find_key (m_nodes m Line) (isort [i; j])) as [n|] eqn:Fk.
  - apply find_key_Some in Fk as [H Hk]. cbn [option_map fst snd obind]. eexists _, _. split; [reflexivity|].
    assert (D' : forall g c l, drawn V E (mkM (m_nodes m) (m_next m) g c l)) by (intros; destruct D; constructor; auto).
    split; [apply D'|]. split; [split; auto|]. split; [unfold range; now apply in_map|].
    refine (proj2 (key_joins _ _ _ n (i, j) (D' _ _ _) _) _); [exact H|exact Hk].
  - pose proof (find_key_None _ _ Fk) as Fn. cbn [obind]. replace (btab plc_cfg Line) with (@nil (tag * list nat)) by reflexivity. cbn [ofold obind option_map fst snd gen_id].
    eexists _, _. split; [reflexivity|].
    set (nd := mkN (m_next m Line) (isort [i; j]) _). match goal with |- drawn _ _ ?x /\ _ => set (m' := x) end.
    assert (P : Permutation (nd :: m_nodes m Line) (m_nodes m' Line)) by (cbn; apply insert_keyed_perm).
    assert (Iin : forall x, In x (m_nodes m' Line) <-> x = nd \/ In x (m_nodes m Line)).
    { intros x. split; intros Hx; [apply (Permutation_in x (Permutation_sym P)) in Hx; destruct Hx as [<-|Hx]; auto|apply (Permutation_in x P); destruct Hx as [->|Hx]; [left|right]; auto]. }
    assert (Iid : forall a, id_at m' Vertex a = id_at m Vertex a) by reflexivity.
    assert (D' : drawn V E m').
    { constructor.
      - exact (dw_verts _ _ _ D).
      - intros n Hn. apply Iin in Hn as [->|Hn].
        + exists u, v, i, j. repeat split; auto.
        + exact (dw_lines _ _ _ D n Hn).
      - apply (Permutation_NoDup (Permutation_map n_key P)). cbn. constructor; [|exact (dw_keys _ _ _ D)].
        intros H. apply in_map_iff in H as (x & Hx & H). exact (Fn x H Hx).
      - apply (Permutation_NoDup (Permutation_map n_addr P)). cbn. constructor; [|exact (dw_addrs _ _ _ D)].
        intros H. apply in_map_iff in H as (x & Hx & H). apply (dw_next _ _ _ D) in H. lia.
      - intros n Hn. replace (m_next m' Line) with (m_next m Line + 1) by reflexivity. apply Iin in Hn as [->|Hn]; [cbn; lia|]. apply (dw_next _ _ _ D) in Hn. lia.
      - intros t T T'. cbn. unfold upd. destruct (tag_eqb Line t) eqn:Q; [destruct t; try discriminate Q; congruence|]. now apply (dw_rest _ _ _ D). }
    split; [exact D'|]. assert (Hn : In nd (m_nodes m' Line)) by (apply Iin; auto). split; [split; [reflexivity|]|split].
    + intros a e H. unfold deref in H. destruct (find_node (m_nodes m Line) a) as [n|] eqn:Fa; [|discriminate]. injection H as <-.
      apply find_some in Fa as [Ha Fa]. apply Nat.eqb_eq in Fa as <-. apply (drawn_line V E); auto. apply Iin. auto.
    + apply in_map_iff. exists nd. auto.
    + apply (proj2 (key_joins _ _ _ nd (i, j) D' Hn)). reflexivity.
Qed.

Lemma kept_range V E m m' a : drawn V E m -> kept m m' -> In a (range m Line) -> In a (range m' Line).
Proof.
  intros D [_ K'] H. unfold range in *. apply in_map_iff in H as (n & <- & H). pose proof (K' _ _ (drawn_line _ _ _ _ D H)) as X. unfold deref in X.
  destruct (find_node (m_nodes m' Line) (n_addr n)) as [x|] eqn:Fx; [|discriminate]. apply find_some in Fx as [Fx Q]. apply Nat.eqb_eq in Q. rewrite <- Q. now apply in_map.
Qed.

(** A list of lines for a list of sides. *)
Definition lines_for (m : mesh) (ijs : list (nat * nat)) (ls : list addr) : Prop :=
  Forall2 (fun ij a => In a (range m Line) /\ joins m a ij) ijs ls.
Lemma lines_for_kept V E m m' ijs ls : drawn V E m -> kept m m' -> lines_for m ijs ls -> lines_for m' ijs ls.
Proof. intros D Kp H. induction H as [|ij a ijs ls [H1 H2] H IH]; constructor; auto. split; [eapply kept_range; eauto|eapply kept_joins; eauto]. Qed.

Lemma chain_spec V E p vs : forall m, drawn V E m -> Forall2 (fun i v => id_at m Vertex v = Some i) p vs -> (forall ij, In ij (combine p (tl p)) -> E ij) ->
  exists m' ls, chain m vs = Some (m', ls) /\ drawn V E m' /\ kept m m' /\ lines_for m' (combine p (tl p)) ls.
Proof.
  intros m D H. revert m D H. revert vs. induction p as [|i p IH]; intros vs m D H HE.
  - inversion H; subst. exists m, []. split; [reflexivity|]. split; [exact D|]. split; [apply kept_refl|constructor].
  - inversion H as [|? v ? vs' Hv H']; subst. destruct H' as [|j w p vs Hw H'].
    + exists m, []. split; [reflexivity|]. split; [exact D|]. split; [apply kept_refl|constructor].
    + cbn [tl combine] in HE. destruct (make_line_spec V E m v w i j D Hv Hw (HE _ (or_introl eq_refl))) as (m1 & a & E1 & D1 & K1 & R1 & J1).
      destruct (IH (w :: vs) m1 D1) as (m2 & ls & E2 & D2 & K2 & L2).
      { constructor; [now rewrite <- (proj1 K1)|]. clear - H' K1. induction H'; constructor; auto. now rewrite <- (proj1 K1). }
      { intros ij Hij. apply HE. right. exact Hij. }
      exists m2, (a :: ls). cbn [chain] in *. rewrite E1. cbn [obind fst snd]. rewrite E2. cbn [obind fst snd]. split; [reflexivity|]. split; auto. split; [eapply kept_trans; eauto|].
      cbn [tl combine]. constructor; [split; [exact (kept_range V E m1 m2 a D1 K2 R1)|exact (kept_joins m1 m2 a (i, j) K2 J1)]|exact L2].
Qed.

(** What the polygons have given: the lines of their sides, the single vertices. *)
Definition drew V E (ps : list (list nat)) (d : drawing K) : Prop :=
  drawn V E (dr_mesh d) /\ lines_for (dr_mesh d) (flat_map sides ps) (dr_lines d) /\
  (forall v, In v (dr_loose d) <-> exists i, In [i] ps /\ id_at (dr_mesh d) Vertex v = Some i).

Lemma Forall2_last {A B} (R : A -> B -> Prop) l l' d d' : Forall2 R l l' -> l <> [] -> R (last l d) (last l' d').
Proof.
  intros H. induction H as [|x y l l' Hxy H IH]; [congruence|]. intros _. destruct H as [|x' y' l l' Hx H]; [exact Hxy|]. apply IH. discriminate.
Qed.

Lemma last_dd {A} (l : list A) d d' : l <> [] -> last l d = last l d'.
Proof. induction l as [|x [|y l] IH]; intros N; [congruence|reflexivity|]. cbn [last] in *. apply IH. discriminate. Qed.

Lemma draw_spec V E ps p vs d : NoDup (map fst V) -> drew V E ps d -> p <> [] -> Forall2 (fun i v => id_at (dr_mesh d) Vertex v = Some i) p vs -> (forall ij, In ij (sides p) -> E ij) ->
  exists d', draw d vs = Some d' /\ drew V E (ps ++ [p]) d' /\ kept (dr_mesh d) (dr_mesh d').
Proof.
  intros N (D & L & S) P H HE. destruct H as [|i v p vs Hv H]; [congruence|]. destruct H as [|j w p vs Hw H].
  - eexists. split; [reflexivity|]. split; [|apply kept_refl]. split; [exact D|]. split.
    + rewrite flat_map_app. cbn. rewrite app_nil_r. exact L.
    + cbn. intros x. rewrite in_app_iff, S. cbn. split.
      * intros [(k & Hk & Ik)|[<-|[]]]; [exists k|exists i]; rewrite in_app_iff; cbn; auto.
      * intros (k & Hk & Ik). apply in_app_iff in Hk as [Hk|[Hk|[]]]; [left; eauto|]. injection Hk as <-. right. left. eapply drawn_same; eauto.
  - assert (loose : forall m' q, q <> [] -> (forall k, q <> [k]) -> kept (dr_mesh d) m' -> forall x, In x (dr_loose d) <-> exists k, In [k] (ps ++ [q]) /\ id_at m' Vertex x = Some k).
    { intros m' q Q1 Q2 Kp x. rewrite S. split; intros (k & Hk & Ik).
      - exists k. rewrite <- (proj1 Kp), in_app_iff. auto.
      - apply in_app_iff in Hk as [Hk|[Hk|[]]]; [|now apply Q2 in Hk]. exists k. rewrite (proj1 Kp). auto. }
    destruct H as [|k x p vs Hx H].
    + destruct (make_line_spec V E (dr_mesh d) v w i j D Hv Hw) as (m1 & a & E1 & D1 & K1 & R1 & J1); [apply HE; left; reflexivity|].
      cbn [draw]. rewrite E1. cbn [obind fst snd]. eexists. split; [reflexivity|]. split; [|exact K1]. split; [exact D1|]. cbn [dr_mesh dr_lines dr_loose]. split.
      * rewrite flat_map_app. apply Forall2_app; [exact (lines_for_kept V E _ _ _ _ D K1 L)|]. cbn. constructor; [split; assumption|constructor].
      * apply loose; auto; discriminate.
    + set (q := i :: j :: k :: p) in *. assert (Hq : Forall2 (fun i v => id_at (dr_mesh d) Vertex v = Some i) q (v :: w :: x :: vs)) by (unfold q; auto).
      destruct (chain_spec V E q (v :: w :: x :: vs) (dr_mesh d) D Hq) as (m1 & ls & E1 & D1 & K1 & L1).
      { intros ij Hij. apply HE. unfold sides. apply in_app_iff. auto. }
      assert (Hl : id_at m1 Vertex (last (v :: w :: x :: vs) v) = Some (last q 0)).
      { rewrite <- (proj1 K1). apply (Forall2_last (fun i v => id_at (dr_mesh d) Vertex v = Some i)); [exact Hq|discriminate]. }
      destruct (make_line_spec V E m1 (last (v :: w :: x :: vs) v) v (last q 0) i D1 Hl) as (m2 & a & E2 & D2 & K2 & R2 & J2).
      { now rewrite <- (proj1 K1). }
      { apply HE. unfold sides. apply in_app_iff. right. left. reflexivity. }
      pose proof (kept_trans _ _ _ K1 K2) as K12.
      assert (Ed : draw d (v :: w :: x :: vs) = Some (mkDr m2 (dr_lines d ++ ls ++ [a]) (dr_loose d))).
      { unfold draw. rewrite E1. cbn [obind fst snd]. rewrite E2. reflexivity. }
      eexists. split; [exact Ed|]. split; [|exact K12]. split; [exact D2|]. cbn [dr_mesh dr_lines dr_loose]. split.
      * rewrite flat_map_app. apply Forall2_app; [exact (lines_for_kept V E _ _ _ _ D K12 L)|]. cbn [flat_map]. rewrite app_nil_r. unfold sides. apply Forall2_app; [exact (lines_for_kept V E _ _ _ _ D1 K2 L1)|].
        replace (2 <? List.length q) with true by reflexivity. constructor; [split; assumption|constructor].
      * apply loose; auto; discriminate.
Qed.

End Build.
