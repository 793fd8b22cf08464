From Coq Require Import Reals List Arith Bool Lia Lra.
From Verif Require Import ModelTopo ModelMesh ModelErase ModelGeom ModelLongest SpecMesh SpecErase SpecLongest
  MeshBase MeshInv MeshReach MeshWf MeshErase MeshSimple CopyBase MeshDemo.
Import ListNotations.

Section Abstract.
(** Cells with their edges and the edge to be marked. *)
Variable C : Type.
Variable ed : C -> list addr.
Variable U : list addr.
Definition marks (L : C -> option addr) (s : flags * bool) (c : C) : option (flags * bool) :=
  if existsb (fst s) (ed c) then obind (L c) (fun a => if fst s a then Some s else Some (set_flag (fst s) a, true)) else Some s.

Definition unmarked (f : flags) : nat := length (filter (fun a => negb (f a)) U).
Lemma set_flag_true f a x : set_flag f a x = true <-> f x = true \/ x = a.
Proof. unfold set_flag. destruct (Nat.eqb_spec x a); intuition. Qed.
Lemma unmarked_set f a : f a = false -> In a U -> unmarked (set_flag f a) < unmarked f.
Proof.
  intros Fa Ia. unfold unmarked. revert Ia. clear - Fa.
  assert (M : forall l, length (filter (fun x => negb (set_flag f a x)) l) <= length (filter (fun x => negb (f x)) l)).
  { induction l as [|y l IH]; cbn [filter]; auto. unfold set_flag at 1. destruct (Nat.eqb_spec y a) as [->|].
    - rewrite Fa. cbn. lia.
    - destruct (f y); cbn; lia. }
  induction U as [|y l IH]; intros []; cbn [filter].
  - subst. rewrite Fa. unfold set_flag at 1. rewrite Nat.eqb_refl. cbn. specialize (M l). lia.
  - specialize (IH H). unfold set_flag at 1. destruct (Nat.eqb_spec y a) as [->|]; [rewrite Fa; cbn; specialize (M l); lia|].
    destruct (f y); cbn; lia.
Qed.

Variable L : C -> option addr.
Lemma marks_pass cs : (forall c a, In c cs -> L c = Some a -> In a U) -> forall f b f' b', ofold (marks L) cs (f, b) = Some (f', b') ->
  no_flag_lost f f' /\ unmarked f' <= unmarked f /\
  (b' = b /\ f' = f /\ (forall c, In c cs -> existsb f (ed c) = true -> exists a, L c = Some a /\ f a = true)
    \/ b' = true /\ unmarked f' < unmarked f) /\
  (forall F, no_flag_lost f F -> (forall c a x, In c cs -> In x (ed c) -> F x = true -> L c = Some a -> F a = true) -> no_flag_lost f' F).
Proof.
  induction cs as [|c cs IH]; intros IN f b f' b' H; cbn [ofold] in H.
  - inversion H; subst. split; [intros x Hx; exact Hx|]. split; auto. split; auto. left. split; auto. split; auto. intros c [].
  - unfold marks at 1 in H. cbn [fst] in H. destruct (existsb f (ed c)) eqn:E.
    + destruct (L c) as [a|] eqn:La; [|discriminate]. cbn [obind] in H. destruct (f a) eqn:Fa.
      * cbn [obind] in H. destruct (IH ltac:(intros; eapply IN; simpl; eauto) _ _ _ _ H) as (A & B & D & F). split; auto. split; auto. split.
        -- destruct D as [(-> & -> & D)|D]; auto. left. split; auto. split; auto. intros c' [<-|Hc] X; eauto.
        -- intros F' H1 H2. apply F; auto. intros; eapply H2; simpl; eauto.
      * cbn [obind] in H. destruct (IH ltac:(intros; eapply IN; simpl; eauto) _ _ _ _ H) as (A & B & D & F).
        assert (X := unmarked_set f a Fa (IN c a (or_introl eq_refl) La)). split; [intros x Hx; apply A, set_flag_true; auto|]. split; [lia|]. split.
        -- right. split; [|lia]. destruct D as [(-> & _)|(-> & _)]; auto.
        -- intros F' H1 H2. apply F.
           ++ intros x Hx. apply set_flag_true in Hx as [Hx| ->]; auto. apply existsb_exists in E as (y & Hy & Fy). eapply H2; simpl; eauto.
           ++ intros; eapply H2; simpl; eauto.
    + cbn [obind] in H. destruct (IH ltac:(intros; eapply IN; simpl; eauto) _ _ _ _ H) as (A & B & D & F). split; auto. split; auto. split.
      * destruct D as [(-> & -> & D)|D]; auto. left. split; auto. split; auto. intros c' [<-|Hc] X; [congruence|eauto].
      * intros F' H1 H2. apply F; auto. intros; eapply H2; simpl; eauto.
Qed.

Lemma marks_pass_total cs : (forall c, In c cs -> ed c <> [] -> L c <> None) -> forall s, exists s', ofold (marks L) cs s = Some s'.
Proof.
  induction cs as [|c cs IH]; intros T s; cbn [ofold]; [eauto|].
  assert (T' : forall c, In c cs -> ed c <> [] -> L c <> None) by (intros; apply T; simpl; auto).
  unfold marks at 1. destruct (existsb (fst s) (ed c)) eqn:E; [|cbn [obind]; auto].
  destruct (L c) as [a|] eqn:La; cbn [obind]; [destruct (fst s a); cbn [obind]; auto|].
  exfalso. apply (T c); auto; [now left|]. intros X. rewrite X in E. discriminate.
Qed.

Lemma marks_pass_undef cs c : In c cs -> L c = None -> forall f b x, In x (ed c) -> f x = true ->
  ofold (marks L) cs (f, b) = None.
Proof.
  induction cs as [|c0 cs IH]; intros Hc Lc f b x Hx Fx; [easy|]. cbn [ofold]. unfold marks at 1. cbn [fst].
  destruct Hc as [->|Hc].
  - assert (E : existsb f (ed c) = true) by (apply existsb_exists; eauto). now rewrite E, Lc.
  - destruct (existsb f (ed c0)); [|cbn [obind]; eauto]. destruct (L c0) as [a|]; cbn [obind]; auto.
    destruct (f a) eqn:Fa; cbn [obind]; [eauto|]. eapply IH; eauto. apply set_flag_true. auto.
Qed.
End Abstract.

Section Mesh.
Variable d : nat.
Notation mesh := (@mesh point).
Variable m : mesh.
Variable cfg : config.
Hypothesis W : wf cfg m.
Hypothesis P : pointed m.
Let t := cfg_cell cfg.

Lemma edge_live n a : In n (m_nodes m t) -> In a (boundary_of (n_el n) Line) -> In a (range m Line).
Proof.
  intros Hn Ha. cbn [boundary_of] in Ha. apply in_map_iff in Ha as (b & <- & Hb). apply filter_In in Hb as [Hb T].
  apply tag_eqb_eq in T. destruct W as (_ & _ & [_ _ _ B]). rewrite <- T. eapply B; eauto.
Qed.

Lemma edge_length_iff a l : edge_length d m a = Some l <-> has_length d m a l.
Proof.
  unfold edge_length, has_length. split.
  - intros H. destruct (deref m Line a) as [e|] eqn:D; [|discriminate]. cbn [obind] in H.
    assert (Len : length (e_verts e) = 2). { apply deref_In in D as (n & Hn & _ & <-). destruct W as (_ & _ & [_ Le _ _]). apply (Le Line n); auto; discriminate. }
    destruct (e_verts e) as [|v [|w [|]]] eqn:E; try discriminate.
    destruct (deref m Vertex v) as [ev|] eqn:Dv; [|discriminate]. cbn [obind] in H. destruct (e_pt ev) as [p|] eqn:Pv; [|discriminate].
    destruct (deref m Vertex w) as [ew|] eqn:Dw; [|discriminate]. cbn [obind] in H. destruct (e_pt ew) as [q|] eqn:Pw; [|discriminate].
    cbn [obind] in H. inversion H; subst. exists e, v, w, ev, ew, p, q. auto 10.
  - intros (e & v & w & ev & ew & p & q & -> & E & Dv & Pv & Dw & Pw & ->). cbn [obind]. rewrite E, Dv, Dw. cbn [obind]. now rewrite Pv, Pw.
Qed.

Lemma edge_length_total a : In a (range m Line) -> exists l, edge_length d m a = Some l.
Proof.
  intros Ha. unfold edge_length. assert (D : exists e, deref m Line a = Some e) by (apply live_is_live; exact Ha). destruct D as (e & D). rewrite D. cbn [obind].
  apply deref_In in D as (n & Hn & _ & <-). destruct W as (_ & _ & [_ Le V _]).
  assert (Len := Le Line n ltac:(discriminate) Hn). cbn [nverts] in Len.
  assert (PT : forall v, In v (e_verts (n_el n)) -> exists p, obind (deref m Vertex v) e_pt = Some p).
  { intros v Hv. assert (Lv := V Line n v Hn Hv). apply live_is_live in Lv as (ev & Dv). rewrite Dv. cbn.
    apply deref_In in Dv as (nv & Hv' & _ & <-). specialize (P nv Hv'). destruct (e_pt (n_el nv)); [eauto|congruence]. }
  destruct (e_verts (n_el n)) as [|v [|w [|]]]; try discriminate.
  destruct (PT v) as (p & ->); [simpl; auto|]. destruct (PT w) as (q & ->); [simpl; auto|]. cbn. eauto.
Qed.

(** What the loop over the edges finds. *)
Definition len_of (a : addr) : R := match edge_length d m a with Some l => l | None => 0%R end.
Definition best_of (es : list addr) (k : nat) (a : addr) : Prop :=
  nth_error es k = Some a /\ (0 < len_of a)%R /\
  forall k' a', nth_error es k' = Some a' -> (len_of a' <= len_of a)%R /\ (k' < k -> (len_of a' < len_of a)%R).

Lemma longest_loop_spec es : Forall (fun a => In a (range m Line)) es -> forall (pre : list addr) best len,
  (best = None /\ len = 0%R /\ Forall (fun a => (len_of a <= 0)%R) pre \/ exists k a, best = Some a /\ len = len_of a /\ best_of pre k a) ->
  exists best', longest_loop d m es best len = Some best' /\
    (best' = None /\ Forall (fun a => (len_of a <= 0)%R) (pre ++ es) \/ exists k a, best' = Some a /\ best_of (pre ++ es) k a).
Proof.
  induction es as [|a es IH]; intros FE pre best len H; cbn [longest_loop].
  - exists best. split; auto. rewrite app_nil_r. destruct H as [(-> & _ & H)|(k & a & -> & _ & H)]; [left|right]; eauto.
  - inversion FE as [|? ? Ha FE']; subst. destruct (edge_length_total a Ha) as (l & E). rewrite E. cbn [obind].
    assert (El : len_of a = l) by (unfold len_of; now rewrite E).
    assert (LEN : (0 <= len)%R) by (destruct H as [(_ & -> & _)|(k & a0 & _ & -> & _ & X & _)]; lra).
    assert (ALL : forall x, In x pre -> (len_of x <= len)%R).
    { intros x Hx. destruct H as [(_ & -> & H)|(k & a0 & _ & -> & _ & _ & H)].
      - rewrite Forall_forall in H. auto.
      - apply In_nth_error in Hx as (k' & Hx). apply H in Hx. apply Hx. }
    replace (pre ++ a :: es) with ((pre ++ [a]) ++ es) by (now rewrite <- app_assoc).
    destruct (Rgt_dec l len) as [G|G].
    + apply IH; auto. right. exists (length pre), a. split; auto. split; auto. split; [|split; [lra|]].
      * rewrite nth_error_app2, Nat.sub_diag by lia. reflexivity.
      * intros k' a' Hk. destruct (Nat.lt_ge_cases k' (length pre)) as [Lt|Ge].
        -- rewrite nth_error_app1 in Hk by lia. apply nth_error_In in Hk. apply ALL in Hk. lra.
        -- rewrite nth_error_app2 in Hk by lia. destruct (k' - length pre) as [|z] eqn:Z; cbn in Hk; [|destruct z; discriminate].
           inversion Hk; subst. split; [lra|lia].
    + apply IH; auto. destruct H as [(-> & -> & H)|(k & a0 & -> & -> & X1 & X2 & X3)].
      * left. split; auto. split; auto. apply Forall_app. split; auto. constructor; auto. lra.
      * right. exists k, a0. split; auto. split; auto. assert (Kl : k < length pre) by (apply nth_error_Some; congruence).
        split; [rewrite nth_error_app1; auto|]. split; auto. intros k' a' Hk. destruct (Nat.lt_ge_cases k' (length pre)) as [Lt|Ge].
        -- rewrite nth_error_app1 in Hk by lia. auto.
        -- rewrite nth_error_app2 in Hk by lia. destruct (k' - length pre) as [|z] eqn:Z; cbn in Hk; [|destruct z; discriminate].
           inversion Hk; subst. split; [lra|lia].
Qed.

Definition pick (n : @node point) : option addr := obind (longest_loop d m (boundary_of (n_el n) Line) None 0%R) (fun o => o).
Lemma close_cell_marks s n : close_cell d m s n = marks _ (fun n => boundary_of (n_el n) Line) pick s n.
Proof.
  unfold close_cell, marks, pick. destruct (existsb _ _); auto. destruct (longest_loop _ _ _ _ _) as [[a|]|]; reflexivity.
Qed.
Lemma ofold_ext {A S} (f g : S -> A -> option S) l : (forall s a, f s a = g s a) -> forall s, ofold f l s = ofold g l s.
Proof. intros E. induction l as [|a l IH]; intros s; cbn [ofold]; auto. rewrite E. destruct (g s a); cbn [obind]; auto. Qed.

Lemma pick_spec n : In n (m_nodes m t) -> 
  (pick n = None /\ Forall (fun a => (len_of a <= 0)%R) (boundary_of (n_el n) Line)) \/
  (exists a k, pick n = Some a /\ best_of (boundary_of (n_el n) Line) k a).
Proof.
  intros Hn. unfold pick. destruct (longest_loop_spec (boundary_of (n_el n) Line)) with (pre := @nil addr) (best := @None addr) (len := 0%R) as (b & -> & H).
  - apply Forall_forall. intros a. now apply edge_live.
  - left. auto.
  - cbn [app obind] in *. destruct H as [(-> & H)|(k & a & -> & H)]; [left; auto|right; eauto].
Qed.

Lemma node_of c e : deref m t c = Some e -> exists n, In n (m_nodes m t) /\ n_addr n = c /\ n_el n = e.
Proof. intros D. apply deref_In in D. destruct D as (n & ? & ? & ?). eauto. Qed.
Lemma node_deref n : In n (m_nodes m t) -> deref m t (n_addr n) = Some (n_el n).
Proof. intros Hn. now apply (wf_In_deref cfg). Qed.

Lemma len_has a l : In a (range m Line) -> (has_length d m a l <-> l = len_of a).
Proof.
  intros Ha. rewrite <- edge_length_iff. unfold len_of. destruct (edge_length_total a Ha) as (l' & ->). split; congruence.
Qed.

Lemma pick_longest n a : In n (m_nodes m t) -> pick n = Some a -> longest_edge_of d m t (n_addr n) a.
Proof.
  intros Hn Pn. destruct (pick_spec n Hn) as [(X & _)|(a' & k & X & B1 & B2 & B3)]; [congruence|]. assert (a' = a) by congruence. subst a'.
  pose proof (edge_live n a Hn (nth_error_In _ _ B1)) as La. exists k, (len_of a). split; [exists (n_el n); split; auto; now apply node_deref|].
  split; [apply len_has; auto|]. intros k' a' l' (e & D & Hk) HL. rewrite (node_deref n Hn) in D. inversion D; subst e.
  apply len_has in HL; [|eapply edge_live; eauto; eapply nth_error_In; eauto]. subst. auto.
Qed.

Lemma longest_unique c a b : longest_edge_of d m t c a -> longest_edge_of d m t c b -> a = b.
Proof.
  intros (k & l & (e & D & E) & H & M) (k' & l' & (e' & D' & E') & H' & M'). assert (e' = e) by congruence. subst e'.
  assert (X := M k' b l' (ex_intro _ e (conj D E')) H'). assert (Y := M' k a l (ex_intro _ e (conj D E)) H).
  assert (k = k'). { destruct (Nat.lt_trichotomy k k') as [Z|[Z|Z]]; auto; exfalso; [apply (proj2 Y) in Z|apply (proj2 X) in Z]; lra. }
  subst. congruence.
Qed.

Notation pass := (fun f => ofold (marks _ (fun n => boundary_of (n_el n) Line) pick) (m_nodes m t) (f, false)).
Lemma close_pass_marks f : close_pass d m t f = pass f.
Proof. unfold close_pass. apply ofold_ext. apply close_cell_marks. Qed.

Lemma pick_in : forall c a, In c (m_nodes m t) -> pick c = Some a -> In a (range m Line).
Proof.
  intros n a Hn E. destruct (pick_longest n a Hn E) as (k & l & (e & D & X) & _). rewrite (node_deref n Hn) in D. inversion D; subst.
  eapply edge_live; eauto. eapply nth_error_In; eauto.
Qed.

(** A marked cell has an edge to be marked. *)
Hypothesis POS : forall c b, edge_of m t c b -> exists a l, edge_of m t c a /\ has_length d m a l /\ (0 < l)%R.
Lemma pick_total n : In n (m_nodes m t) -> boundary_of (n_el n) Line <> [] -> pick n <> None.
Proof.
  intros Hn NE X. destruct (pick_spec n Hn) as [(_ & F)|(a & k & Y & _)]; [|congruence].
  destruct (boundary_of (n_el n) Line) as [|b r] eqn:E; [congruence|].
  destruct (POS (n_addr n) b) as (a & l & (k & e & D & K) & HL & Pl).
  { exists 0, (n_el n). rewrite E. split; auto. now apply node_deref. }
  rewrite (node_deref n Hn) in D. inversion D; subst e. rewrite E in K. apply nth_error_In in K.
  assert (La : In a (range m Line)) by (apply (edge_live n a Hn); now rewrite E).
  apply len_has in HL; auto. rewrite Forall_forall in F. specialize (F a K). lra.
Qed.

Lemma loop_done fuel : forall f, unmarked (range m Line) f < fuel -> exists f',
  (forall fuel', fuel <= fuel' -> ensure_longest d m t fuel' f = LDone f') /\ no_flag_lost f f' /\ closed_flags d m t f' /\
  (forall F, no_flag_lost f F -> closed_flags d m t F -> no_flag_lost f' F).
Proof.
  induction fuel as [|fuel IH]; intros f M; [lia|].
  destruct (marks_pass_total _ (fun n => boundary_of (n_el n) Line) pick (m_nodes m t) pick_total (f, false)) as ((f1 & b1) & E).
  destruct (marks_pass _ _ (range m Line) _ _ pick_in _ _ _ _ E) as (A & B & D & LE).
  assert (LE' : forall F, no_flag_lost f F -> closed_flags d m t F -> no_flag_lost f1 F).
  { intros F H1 H2. apply LE; auto. intros n a x Hn Hx Fx Pa. apply In_nth_error in Hx as (k & Hx).
    apply (H2 (n_addr n) x a); auto; [exists k, (n_el n); split; auto; now apply node_deref|now apply pick_longest]. }
  destruct D as [(-> & -> & CL)|(-> & LT)].
  - exists f. split; [|split; [intros x; auto|split; auto]].
    + intros [|fuel'] Hf; [lia|]. cbn [ensure_longest]. rewrite close_pass_marks, E. reflexivity.
    + intros c b a (k & e & De & Hb) Fb La. destruct (node_of c e De) as (n & Hn & <- & <-).
      destruct (CL n Hn) as (a' & Pa & Fa). { apply existsb_exists. exists b. split; auto. eapply nth_error_In; eauto. }
      rewrite (longest_unique (n_addr n) a a'); auto. now apply pick_longest.
  - destruct (IH f1) as (f2 & E2 & A2 & C2 & L2); [lia|]. exists f2. split; [|split; [intros x Hx; auto|split; auto]].
    + intros [|fuel'] Hf; [lia|]. cbn [ensure_longest]. rewrite close_pass_marks, E. apply E2. lia.
Qed.
End Mesh.

Lemma unmarked_le U f : unmarked U f <= length U.
Proof. unfold unmarked. induction U as [|a l IH]; cbn [filter length]; auto. destruct (negb (f a)); cbn; lia. Qed.

Lemma C38_longest_edge_closure_partial_pf : forall d cfg (m : @mesh point) (f : addr -> bool),
  ereach cfg m ->
  let t := cfg_cell cfg in
  (forall c b, edge_of m t c b -> exists a l, edge_of m t c a /\ has_length d m a l /\ (0 < l)%R) ->
  exists f', (forall passes, length (range m Line) < passes -> ensure_longest d m t passes f = LDone f') /\
    no_flag_lost f f' /\ closed_flags d m t f' /\
    (forall g, no_flag_lost f g -> closed_flags d m t g -> no_flag_lost f' g).
Proof.
  intros d cfg m f R t POS. pose proof (ereach_wf cfg m R) as W. pose proof (ereach_pointed cfg m R) as P.
  destruct (loop_done d m cfg W P POS (S (length (range m Line))) f) as (f' & E & H).
  - pose proof (unmarked_le (range m Line) f). lia.
  - exists f'. split; auto.
Qed.

Lemma C38_zero_length_refuted_pf : forall d cfg (m : @mesh point) (f : addr -> bool) c b passes,
  ereach cfg m ->
  let t := cfg_cell cfg in
  edge_of m t c b -> f b = true -> (forall a l, edge_of m t c a -> has_length d m a l -> l = 0%R) -> 0 < passes ->
  ensure_longest d m t passes f = LUndefined.
Proof.
  intros d cfg m f c b passes R t (k & e & De & Hb) Fb Z Hp. pose proof (ereach_wf cfg m R) as W. pose proof (ereach_pointed cfg m R) as P.
  destruct passes as [|fuel]; [lia|]. cbn [ensure_longest].
  destruct (node_of m cfg c e De) as (n & Hn & <- & <-).
  assert (X : pick d m n = None).
  { destruct (pick_spec d m cfg W P n Hn) as [(X & _)|(a & k' & _ & B1 & B2 & _)]; auto. exfalso.
    assert (La : In a (range m Line)) by (apply (edge_live m cfg W n a Hn); eapply nth_error_In; eauto).
    rewrite (Z a (len_of d m a)) in B2; [lra| |].
    - exists k', (n_el n). auto.
    - apply (len_has d m cfg W P); auto. }
  unfold t. rewrite close_pass_marks. rewrite (marks_pass_undef _ _ (pick d m) _ n Hn X f false b); auto. eapply nth_error_In; eauto.
Qed.

Lemma C38_marking_cells_pf : forall cfg (m : @mesh point) (marked : addr -> bool) (f : addr -> bool) a,
  ereach cfg m ->
  let t := cfg_cell cfg in
  (cells_to_edges m t marked f a = true <-> f a = true \/ exists c, marked c = true /\ edge_of m t c a) /\
  (mark_all m f a = true <-> f a = true \/ In a (range m Line)).
Proof.
  intros cfg m marked f a R t. pose proof (ereach_wf cfg m R) as W.
  assert (S1 : forall l g, fold_left set_flag l g a = true <-> g a = true \/ In a l).
  { induction l as [|x l IH]; intros g; cbn [fold_left]; [simpl; intuition|]. rewrite IH, set_flag_true. simpl. intuition. }
  split; [|apply S1]. unfold cells_to_edges.
  assert (G : forall (l : list (@node point)) (g : flags), fold_left (fun (fl : flags) (n : @node point) => if marked (n_addr n) then fold_left set_flag (boundary_of (n_el n) Line) fl else fl) l g a = true
     <-> g a = true \/ exists n, In n l /\ marked (n_addr n) = true /\ In a (boundary_of (n_el n) Line)).
  { induction l as [|x l IH]; intros g; cbn [fold_left]; [split; auto; intros [H|(n & [] & _)]; auto|]. rewrite IH.
    destruct (marked (n_addr x)) eqn:M; [rewrite S1|]; split.
    - intros [[H|H]|(n & ? & ?)]; auto; right; [exists x|exists n]; simpl; auto.
    - intros [H|(n & [<-|Hn] & ?)]; auto; [intuition|]. right. eauto.
    - intros [H|(n & ? & ?)]; auto. right; exists n; simpl; auto.
    - intros [H|(n & [<-|Hn] & ? & ?)]; auto; [congruence|]. right. eauto. }
  rewrite G. split; (intros [H|H]; [auto|right]).
  - destruct H as (n & Hn & Mn & Ha). apply In_nth_error in Ha as (k & Ha). exists (n_addr n). split; auto. exists k, (n_el n). split; auto. now apply (wf_In_deref cfg).
  - destruct H as (c & Mc & k & e & De & Ha). destruct (node_of m cfg c e De) as (n & Hn & <- & <-). exists n. split; auto. split; auto. eapply nth_error_In; eauto.
Qed.
