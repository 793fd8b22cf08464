(** The Comsol writer: the triangles, their sides and the numbers of the vertices. *)
From Coq Require Import Reals List Arith ZArith Bool Lia Lra Relations Permutation Sorted.
From Verif Require Import ModelTopo ModelMesh ModelErase ModelGeom ModelVolume ModelQuery ModelView ModelSegmentation ModelSegment ModelMphtxt
  SpecMesh SpecErase SpecQuery SpecView SpecSegmentation SpecSegment SpecInterface SpecCopy SpecGeom SpecMphtxt
  MeshBase MeshInv MeshIds MeshReach MeshProofs MeshWf MeshErase CopyBase SegmentInv SegmentProofs InterfaceBase VolumeProofs CenterProofs MphtxtBase MphtxtLoop.
Import ModelSegmentation ListNotations.
Open Scope nat_scope.

(** ** The map of the triangles *)
Definition keys (l : list (nat * tri_info)) : list nat := map fst l.
Lemma put_keys i v l k : In k (keys (info_put i v l)) <-> k = i \/ In k (keys l).
Proof.
  induction l as [|[j w] l IH]; cbn [info_put].
  - cbn. intuition congruence.
  - destruct (Nat.ltb_spec i j); [cbn; intuition congruence|]. destruct (Nat.eqb_spec i j) as [->|N]; cbn in *; intuition congruence.
Qed.
Lemma put_sorted i v l : StronglySorted lt (keys l) -> StronglySorted lt (keys (info_put i v l)).
Proof.
  induction l as [|[j w] l IH]; intros H; cbn [info_put].
  - repeat constructor.
  - inversion H; subst. destruct (Nat.ltb_spec i j).
    + constructor; auto. constructor; auto. eapply Forall_impl; [|exact H3]. cbn. intros; lia.
    + destruct (Nat.eqb_spec i j) as [->|N]; [constructor; auto|]. cbn [keys map fst]. constructor; [now apply IH|].
      apply Forall_forall. intros k Hk. apply put_keys in Hk as [->|Hk]; [cbn in *; lia|]. now apply (proj1 (Forall_forall _ _) H3).
Qed.
Lemma put_in i v l j w : StronglySorted lt (keys l) -> (In (j, w) (info_put i v l) <-> (j = i /\ w = v) \/ (j <> i /\ In (j, w) l)).
Proof.
  induction l as [|[j' w'] l IH]; intros H; cbn [info_put].
  - cbn. split; [intros [E|[]]; injection E as <- <-; auto|]. intros [[-> ->]|[_ []]]; auto.
  - inversion H; subst. cbn [keys map fst] in *. assert (G : forall k x, In (k, x) l -> j' < k).
    { intros k x Hk. apply (proj1 (Forall_forall _ _) H3). apply (in_map fst) in Hk. exact Hk. }
    destruct (Nat.ltb_spec i j').
    + cbn [In]. split.
      * intros [E|[E|E]]; [injection E as <- <-; auto|injection E as <- <-; right; split; [lia|auto]|right; split; [apply G in E; lia|auto]].
      * intros [[-> ->]|[N E]]; auto.
    + destruct (Nat.eqb_spec i j') as [->|N]; cbn [In].
      * split.
        -- intros [E|E]; [injection E as <- <-; auto|right; split; [apply G in E; lia|auto]].
        -- intros [[-> ->]|[N [E|E]]]; auto. injection E as <- <-. congruence.
      * rewrite (IH H2). split.
        -- intros [E|[[-> ->]|[N' E]]]; auto. injection E as <- <-. right. auto.
        -- intros [[-> ->]|[N' [E|E]]]; auto.
Qed.
Lemma get_in i l w : StronglySorted lt (keys l) -> (info_get i l = Some w <-> In (i, w) l).
Proof.
  induction l as [|[j v] l IH]; intros H; cbn [info_get].
  - split; [discriminate|intros []].
  - inversion H; subst. cbn [keys map fst] in *. destruct (Nat.eqb_spec i j) as [->|N].
    + split; [intros E; injection E as ->; now left|]. intros [E|E]; [congruence|]. exfalso.
      apply (in_map fst) in E. pose proof (proj1 (Forall_forall _ _) H3 _ E). cbn in *. lia.
    + rewrite (IH H2). split; [now right|]. intros [E|E]; auto. congruence.
Qed.

(** ** Corners of a face *)
Lemma face_corners cfg (m : @mesh point) c x cs ps : reach cfg m -> cfg_keep cfg Triangle = true -> bounded_by m Tet c Triangle x ->
  has_corners m Tet c cs -> has_corners m Triangle x ps -> exists q, Permutation cs (q :: ps).
Proof.
  intros HR CK (e & D & B) (vs & Ev & Mv) (ws & Ew & Mw). unfold vertices_at in Ev, Ew. rewrite D in Ev. injection Ev as <-.
  destruct (C03_boundary_complete_pf point cfg m HR Tet c e D Triangle) as (L & X); auto; [discriminate|discriminate|].
  apply In_nth_error in B as (k & Hk).
  assert (Lk : k < 4). { change 4 with (length (ref_facets Tet Triangle)). rewrite <- L. apply nth_error_Some. congruence. }
  destruct (nth_error (ref_facets Tet Triangle) k) as [idx|] eqn:Ei; [|apply nth_error_None in Ei; cbn in Ei; lia].
  destruct (X k idx Ei) as (h & f & us & Eh & Df & Sel & Same). rewrite Hk in Eh. injection Eh as <-. rewrite Df in Ew. injection Ew as <-.
  destruct (C03_vertices_stored_pf point cfg m HR Tet c e) as (L4 & _); auto; [discriminate|].
  assert (PV : exists v, Permutation (e_verts e) (v :: e_verts f)).
  { unfold same_vertices in Same. revert L4 Sel Same. clear - Ei Lk. destruct (e_verts e) as [|v0 [|v1 [|v2 [|v3 [|? ?]]]]]; try discriminate. intros _ Sel Same.
    assert (Q : exists v, Permutation [v0; v1; v2; v3] (v :: us)).
    { unfold selects in Sel. destruct k as [|[|[|[|k]]]]; try lia; cbn in Ei; injection Ei as <-;
        inversion Sel as [|? ? ? ? E0 S1]; subst; inversion S1 as [|? ? ? ? E1 S2]; subst; inversion S2 as [|? ? ? ? E2 S3]; subst; inversion S3; subst;
        cbn in E0, E1, E2; injection E0 as <-; injection E1 as <-; injection E2 as <-.
      - exists v3. symmetry. apply (Permutation_cons_append [v0; v1; v2] v3).
      - exists v2. symmetry. apply (Permutation_middle [v0; v1] [v3] v2).
      - exists v1. apply perm_swap.
      - exists v0. reflexivity. }
    destruct Q as (v & Q). exists v. eapply perm_trans; [exact Q|]. apply perm_skip. symmetry. exact Same. }
  destruct PV as (v & P). apply (Permutation_map (point_at m)) in P. rewrite Mv in P. cbn [map] in P. rewrite Mw in P.
  assert (Iq : In (point_at m v) (map Some cs)) by (apply (Permutation_in _ (Permutation_sym P)); now left).
  apply in_map_iff in Iq as (q & Eq & _). exists q. rewrite <- Eq in P. change (Some q :: map Some ps) with (map Some (q :: ps)) in P.
  assert (PI : forall l r : list point, Permutation (map Some l) (map Some r) -> Permutation l r).
  { intros l r Pr. apply (Permutation_map (fun o => match o with Some x => x | None => pzero end)) in Pr.
    rewrite !map_map, !map_id in Pr. exact Pr. }
  now apply PI.
Qed.

(** The test of the writer asks for the side of the opposite corner. *)
Lemma centre_side ps cs q n : normal_of ps n -> Permutation cs (q :: ps) ->
  forall p, In p ps -> dot 3 (psub (centroid ps) (centroid cs)) n = (- dot 3 n (fun i => (q i - p i)%R) / 4)%R.
Proof.
  intros (a & b & c & -> & N0 & N1 & N2) P p Hp.
  assert (CC : forall i, centroid cs i = ((q i + a i + b i + c i) / 4)%R).
  { intros i. rewrite centroid_coord. rewrite (Permutation_length P). rewrite (Rsum_perm _ (map (fun p => p i) [q; a; b; c])); [|now apply Permutation_map].
    cbn [map length]. rewrite !Rsum_cons, Rsum_nil. replace (INR 4) with 4%R by (simpl; lra). field. }
  assert (CT : forall i, centroid [a; b; c] i = ((a i + b i + c i) / 3)%R).
  { intros i. rewrite centroid_coord. cbn [map length]. rewrite !Rsum_cons, Rsum_nil. replace (INR 3) with 3%R by (simpl; lra). field. }
  unfold dot, psub. cbn [seq map]. rewrite !Rsum_cons, !Rsum_nil, !CC, !CT. rewrite N0, N1, N2.
  destruct Hp as [<-|[<-|[<-|[]]]]; field.
Qed.

(** ** Vertex numbers *)
Lemma index_of_spec i ids : In i ids -> exists k, index_of i ids = Some k /\ nth_error ids k = Some i.
Proof.
  induction ids as [|j ids IH]; intros H; [destruct H|]. cbn [index_of]. destruct (Nat.eqb_spec i j) as [->|N]; [exists 0; auto|].
  destruct H as [->|H]; [congruence|]. destruct (IH H) as (k & E & Q). exists (S k). rewrite E. auto.
Qed.

Lemma vertex_index_spec cfg (m : @mesh point) v : wf cfg m -> is_live m Vertex v ->
  exists k, vertex_index m v = Some k /\ nth_error (range m Vertex) k = Some v.
Proof.
  intros W (e & D). unfold vertex_index. rewrite D. cbn [option_map].
  destruct (index_of_spec (e_id e) (vertex_ids m)) as (k & E & Q).
  { apply deref_In in D as (n & Hn & _ & <-). unfold vertex_ids. apply in_map_iff. eauto. }
  rewrite E. exists k. split; auto. unfold vertex_ids in Q. rewrite nth_error_map in Q.
  destruct (nth_error (m_nodes m Vertex) k) as [n|] eqn:En; [|discriminate]. injection Q as Q.
  unfold range. rewrite nth_error_map, En. cbn [option_map]. f_equal.
  apply (id_at_inj cfg m Vertex (n_addr n) v (e_id e) W).
  - unfold id_at. rewrite (wf_In_deref cfg m Vertex n W (nth_error_In _ _ En)). cbn. now rewrite Q.
  - unfold id_at. now rewrite D.
Qed.

Lemma corner_indices_spec cfg (m : @mesh point) t x : reach cfg m -> t <> Vertex -> is_live m t x ->
  exists ix, corner_indices m t x = Some ix /\ at_positions m t x ix.
Proof.
  intros HR NV (e & D). unfold corner_indices, at_positions, vertices_at. rewrite D. cbn [obind option_map].
  destruct (C03_vertices_stored_pf point cfg m HR t x e NV D) as (_ & _ & F).
  assert (X : forall vs, Forall (is_live m Vertex) vs -> exists ix, omap (vertex_index m) vs = Some ix /\ map (nth_error (range m Vertex)) ix = map Some vs).
  { induction 1 as [|v vs Lv _ IH]; [exists []; auto|]. destruct IH as (ix & E & M). destruct (vertex_index_spec cfg m v (RefineMeshLoop.reach_wf cfg m HR) Lv) as (k & Ek & Nk).
    exists (k :: ix). cbn [omap map]. rewrite Ek, E. cbn [obind]. split; auto. now rewrite Nk, M. }
  destruct (X _ F) as (ix & E & M). exists ix. split; auto. eauto.
Qed.

Lemma omap_forall2 {A B} (f : A -> option B) (R : A -> B -> Prop) l : (forall x, In x l -> exists y, f x = Some y /\ R x y) ->
  exists ys, omap f l = Some ys /\ Forall2 R l ys.
Proof.
  induction l as [|x l IH]; intros H; [exists []; split; [reflexivity|constructor]|].
  destruct (H x (or_introl eq_refl)) as (y & E & Q). destruct IH as (ys & E2 & F); [intros; apply H; now right|].
  exists (y :: ys). cbn [omap]. rewrite E, E2. cbn [obind]. split; auto.
Qed.

(** ** The triangles and their sides *)
Section Sides.
Variable cfg : config.
Hypothesis TC : cfg_cell cfg = Tet.
Hypothesis CK : cfg_keep cfg Triangle = true.
Variable s0 : sstate point.
Hypothesis T0 : forall a, is_segment s0 a -> two_cells cfg s0 a.
Hypothesis R0 : sreach cfg s0.
Notation keeps := (keeps cfg s0).
Notation m0 := (st_mesh s0).

(** The numbers so far: [D b x] if the triangle [x] has been visited in [b]. *)
Definition side_ok (P : nat -> Prop) (v : Z) : Prop :=
  (v = 0%Z /\ forall b, is_segment s0 b -> ~ P b) \/ exists b z, segment_has_id s0 b z /\ P b /\ v = (z + 1)%Z.
Record listed (D : nat -> addr -> Prop) (u : list (nat * tri_info)) : Prop := mkLi {
  li_sorted : StronglySorted lt (keys u);
  li_entry : forall i w, In (i, w) u -> id_at m0 Triangle (ti_handle w) = Some i /\
    (exists b, is_segment s0 b /\ D b (ti_handle w) /\ on_hull cfg s0 b (ti_handle w)) /\
    side_ok (fun b => D b (ti_handle w) /\ segment_side true cfg s0 (ti_handle w) b) (ti_up w) /\
    side_ok (fun b => D b (ti_handle w) /\ segment_side false cfg s0 (ti_handle w) b) (ti_down w);
  li_all : forall b x, is_segment s0 b -> D b x -> on_hull cfg s0 b x -> exists w, In w u /\ ti_handle (snd w) = x
}.

Lemma side_exclusive x a : segment_side true cfg s0 x a -> segment_side false cfg s0 x a -> False.
Proof.
  intros ((Hx & (c0 & Hc0)) & c & cs & ps & q & n & I1 & B1 & C1 & P1 & Pm1 & N1 & A1) (_ & c' & cs' & ps' & q' & n' & I2 & B2 & C2 & P2 & Pm2 & N2 & A2).
  rewrite TC in Hc0. assert (c = c0) by (apply Hc0; auto). assert (c' = c0) by (apply Hc0; auto). subst c' c.
  rewrite (corners_fun _ _ _ _ _ C2 C1) in Pm2. rewrite (corners_fun _ _ _ _ _ P2 P1) in *.
  pose proof N1 as (p0 & p1 & p2 & Ep & _).
  assert (Ip : In p0 ps) by (rewrite Ep; now left).
  pose proof (centre_side ps cs q n N1 Pm1 p0 Ip) as E1. pose proof (centre_side ps cs q' n' N2 Pm2 p0 Ip) as E2.
  specialize (A1 p0 Ip). specialize (A2 p0 Ip). cbv beta iota in A1, A2.
  assert (E : dot 3 (psub (centroid ps) (centroid cs)) n = dot 3 (psub (centroid ps) (centroid cs)) n').
  { destruct N1 as (u & v & w & -> & X0 & X1 & X2), N2 as (u' & v' & w' & E & Y0 & Y1 & Y2). injection E as <- <- <-.
    unfold dot. cbn [seq map]. rewrite X0, X1, X2, Y0, Y1, Y2. reflexivity. }
  lra.
Qed.

Lemma side_step_spec D a z s u x : is_segment s0 a -> segment_has_id s0 a z -> keeps s -> listed D u -> in_segment s0 a Triangle x ->
  exists s' u', side_step cfg a z (s, u) x = Some (s', u') /\ keeps s' /\ listed (fun b y => D b y \/ (b = a /\ y = x)) u'.
Proof.
  intros Ha Hz KS LI Hx. unfold side_step. destruct (keeps_bnd cfg TC s0 T0 s a x KS Ha Hx) as (kb & r & Eb & KB & Xr). rewrite Eb. cbn [obind fst snd].
  assert (EM : forall s, keeps s -> st_mesh s = m0) by (intros ? (_ & A & _); apply (al_mesh _ _ A)).
  set (D' := fun b y => D b y \/ (b = a /\ y = x)).
  destruct r.
  2: { exists (set_con s a kb), u. split; auto. split; auto. destruct LI as [S E A]. constructor; auto.
       - assert (NH : ~ on_hull cfg s0 a x) by (intros H; apply Xr in H; discriminate).
         assert (SO : forall bh v h, side_ok (fun b => D b h /\ segment_side bh cfg s0 h b) v -> side_ok (fun b => D' b h /\ segment_side bh cfg s0 h b) v).
         { intros bh v h [[-> N]|(b & y & Hb & [Db Pb] & Ev)].
           - left. split; auto. intros b Hb [[Db|[-> ->]] Pb]; [apply (N b Hb); auto|]. apply NH. apply Pb.
           - right. exists b, y. split; auto. split; auto. split; auto. left; auto. }
         intros i w Hw. destruct (E i w Hw) as (E1 & (b & Hb & Db & Ob) & E3 & E4). split; auto. split; [exists b; split; auto; split; auto; left; auto|]. split; apply SO; auto.
       - intros b y Hb [Db|[-> ->]] Hy; [eauto|]. apply Xr in Hy. discriminate. }
  pose proof (proj1 Xr eq_refl) as Hull. set (s1 := set_con s a kb) in *. rewrite (EM s1 KB).
  pose proof (member_live cfg TC s0 R0 a Triangle x Ha Hx) as Lx. destruct Lx as (e & De). rewrite De. cbn [obind].
  assert (Lx : is_live m0 Triangle x) by (exists e; auto).
  destruct (live_normal cfg m0 x (reach0 cfg TC s0 R0) Lx) as (n & ps & En & Hps & Hn & Ecp).
  rewrite En. cbn [obind]. rewrite Ecp. cbn [obind].
  destruct (keeps_cob cfg TC s0 s1 a x KB Ha Hx) as (kc & l & Ec & KC & [ND XL]). rewrite (EM s1 KB) in Ec. rewrite Ec. cbn [obind snd fst].
  destruct l as [|c l].
  { exfalso. destruct Hull as (_ & c0 & Hc0). rewrite TC in Hc0. apply (XL c0). apply Hc0. reflexivity. }
  cbn [nth_error obind]. destruct (proj1 (XL c) (or_introl eq_refl)) as [Ic Bc].
  destruct (live_corners cfg m0 Tet c (reach0 cfg TC s0 R0)) as (cs & Ecs & Hcs & _); [discriminate|apply (member_live cfg TC s0 R0 a Tet c Ha Ic)|].
  rewrite Ecs. cbn [obind].
  destruct (face_corners cfg m0 c x cs ps (reach0 cfg TC s0 R0) CK Bc Hcs Hps) as (q & Pm).
  assert (SD : forall bh : bool, (if bh then inner_prod 3 (psub (centroid ps) (centroid cs)) n > 0 else ~ inner_prod 3 (psub (centroid ps) (centroid cs)) n > 0)%R ->
      segment_side bh cfg s0 x a).
  { intros bh H. split; auto. exists c, cs, ps, q, n. repeat (split; [assumption|]). intros p Hp. pose proof (centre_side ps cs q n Hn Pm p Hp) as E.
    rewrite inner_dot in H. destruct bh; lra. }
  set (info := match info_get (e_id e) u with Some i => i | None => mkTI x 0 0 end).
  assert (Hi : id_at m0 Triangle x = Some (e_id e)) by (unfold id_at; now rewrite De).
  pose proof (RefineMeshLoop.reach_wf cfg m0 (reach0 cfg TC s0 R0)) as W.
  assert (IH : ti_handle info = x /\ side_ok (fun b => D b x /\ segment_side true cfg s0 x b) (ti_up info) /\
                                     side_ok (fun b => D b x /\ segment_side false cfg s0 x b) (ti_down info)).
  { unfold info. destruct (info_get (e_id e) u) as [w|] eqn:G.
    - apply (get_in _ _ _ (li_sorted _ _ LI)) in G. destruct (li_entry _ _ LI _ _ G) as (E1 & _ & E3 & E4).
      assert (ti_handle w = x) by (eapply id_at_inj; eauto). rewrite <- H. auto.
    - cbn. assert (NO : forall b, is_segment s0 b -> D b x -> on_hull cfg s0 b x -> False).
      { intros b Hb Db Ob. destruct (li_all _ _ LI b x Hb Db Ob) as ((j & w) & Hw & Ew). cbn in Ew. destruct (li_entry _ _ LI _ _ Hw) as (E1 & _).
        rewrite Ew, Hi in E1. injection E1 as <-. apply (get_in _ _ _ (li_sorted _ _ LI)) in Hw. congruence. }
      split; auto. split; left; split; auto; intros b Hb [Db (Ob & _)]; eauto. }
  destruct IH as (IH1 & IH2 & IH3).
  set (up := if Rgt_dec (inner_prod 3 (psub (centroid ps) (centroid cs)) n) 0 then mkTI (ti_handle info) (z + 1) (ti_down info) else mkTI (ti_handle info) (ti_up info) (z + 1)).
  assert (UP : ti_handle up = x /\ side_ok (fun b => D' b x /\ segment_side true cfg s0 x b) (ti_up up) /\
                                   side_ok (fun b => D' b x /\ segment_side false cfg s0 x b) (ti_down up)).
  { assert (NEW : forall bh, segment_side bh cfg s0 x a -> side_ok (fun b => D' b x /\ segment_side bh cfg s0 x b) (z + 1)).
    { intros bh H. right. exists a, z. split; auto. split; auto. split; auto. right; auto. }
    assert (OLD : forall bh v, segment_side (negb bh) cfg s0 x a -> side_ok (fun b => D b x /\ segment_side bh cfg s0 x b) v -> side_ok (fun b => D' b x /\ segment_side bh cfg s0 x b) v).
    { intros bh v H [[-> N]|(b & y & Hb & [Db Pb] & Ev)].
      - left. split; auto. intros b Hb [[Db|[-> _]] Pb]; [apply (N b Hb); auto|]. destruct bh; eapply side_exclusive; eauto.
      - right. exists b, y. split; auto. split; auto. split; auto. left; auto. }
    unfold up. destruct (Rgt_dec _ _) as [G|G]; cbn [ti_handle ti_up ti_down]; (split; [exact IH1|split]).
    - apply NEW, (SD true), G.
    - apply (OLD false); [apply (SD true), G|exact IH3].
    - apply (OLD true); [apply (SD false), G|exact IH2].
    - apply NEW, (SD false), G. }
  exists (set_con s1 a kc), (info_put (e_id e) up u). split; auto. split; auto. destruct UP as (U1 & U2 & U3).
  destruct LI as [S E A]. constructor.
  - now apply put_sorted.
  - intros i w Hw. apply put_in in Hw as [[-> ->]|[N Hw]]; auto.
    + rewrite U1. split; auto. split; [exists a; split; auto; split; auto; right; auto|]. auto.
    + destruct (E i w Hw) as (E1 & (b & Hb & Db & Ob) & E3 & E4). assert (Nx : ti_handle w <> x) by (intros Ew; rewrite Ew, Hi in E1; congruence).
      assert (SO : forall bh v, side_ok (fun b => D b (ti_handle w) /\ segment_side bh cfg s0 (ti_handle w) b) v -> side_ok (fun b => D' b (ti_handle w) /\ segment_side bh cfg s0 (ti_handle w) b) v).
      { intros bh v [[-> N']|(b' & y & Hb' & [Db' Pb'] & Ev)].
        - left. split; auto. intros b' Hb' [[Db'|[_ Ex]] Pb']; [apply (N' b' Hb'); auto|congruence].
        - right. exists b', y. split; auto. split; auto. split; auto. left; auto. }
      split; auto. split; [exists b; split; auto; split; auto; left; auto|]. split; apply SO; auto.
  - intros b y Hb [Db|[-> ->]] Hy.
    + destruct (Nat.eq_dec y x) as [->|N].
      * exists (e_id e, up). split; auto. apply put_in; auto.
      * destruct (A b y Hb Db Hy) as ((j & w) & Hw & Ew). cbn in Ew. exists (j, w). split; auto. apply put_in; auto. right. split; auto.
        intros ->. destruct (E _ _ Hw) as (E1 & _). rewrite Ew in E1. apply N. eapply id_at_inj; eauto.
    + exists (e_id e, up). split; auto. apply put_in; auto.
Qed.

Lemma listed_iff D D' u : (forall b x, is_segment s0 b -> in_segment s0 b Triangle x -> (D b x <-> D' b x)) -> listed D u -> listed D' u.
Proof.
  intros H [S E A]. constructor; auto.
  - intros i w Hw. destruct (E i w Hw) as (E1 & (b & Hb & Db & Ob) & E3 & E4). split; auto. split; [exists b; split; auto; split; auto; apply H; auto; apply Ob|].
    assert (SO : forall bh v, side_ok (fun b => D b (ti_handle w) /\ segment_side bh cfg s0 (ti_handle w) b) v -> side_ok (fun b => D' b (ti_handle w) /\ segment_side bh cfg s0 (ti_handle w) b) v).
    { intros bh v [[-> N']|(b' & y & Hb' & [Db' Pb'] & Ev)].
      - left. split; auto. intros b' Hb' [Db' Pb']. apply (N' b' Hb'). split; auto. apply H; auto. apply Pb'.
      - right. exists b', y. split; auto. split; auto. split; auto. apply H; auto; [apply Hb'|apply Pb']. }
    split; apply SO; auto.
  - intros b x Hb Db Ob. apply (A b x Hb); auto. apply H; auto. apply Ob.
Qed.

Lemma used_triangles_spec s : keeps s -> exists s' u, used_triangles cfg s = Some (s', u) /\ keeps s' /\ listed (fun _ _ => True) u.
Proof.
  intros KS. unfold used_triangles. assert (ES : st_segs s = st_segs s0) by (destruct KS as (_ & A & _); apply (al_segs _ _ A)). rewrite ES.
  assert (Loop : forall post pre s u, segment_range (st_segs s0) = pre ++ post -> keeps s -> listed (fun b _ => In b pre) u ->
    exists s' u', ofold (side_segment cfg) post (s, u) = Some (s', u') /\ keeps s' /\ listed (fun b _ => In b (pre ++ post)) u').
  { clear s KS ES. induction post as [|a post IH]; intros pre s u SR KS LI; cbn [ofold].
    - exists s, u. rewrite app_nil_r. auto.
    - assert (Ha : is_segment s0 a) by (unfold is_segment; rewrite SR; apply in_elt).
      destruct (has_some_id cfg TC s0 R0 a Ha) as (z & Hz).
      assert (Seg : forall l pr s u, (forall x, In x l -> in_segment s0 a Triangle x) -> keeps s -> listed (fun b x => In b pre \/ (b = a /\ In x pr)) u ->
        exists s' u', ofold (side_step cfg a z) l (s, u) = Some (s', u') /\ keeps s' /\ listed (fun b x => In b pre \/ (b = a /\ In x (pr ++ l))) u').
      { clear s u KS LI. induction l as [|x l IHl]; intros pr s u HL KS LI; cbn [ofold].
        - exists s, u. rewrite app_nil_r. auto.
        - destruct (side_step_spec _ a z s u x Ha Hz KS LI (HL x (or_introl eq_refl))) as (s1 & u1 & E1 & K1 & L1). rewrite E1. cbn [obind].
          destruct (IHl (pr ++ [x]) s1 u1) as (s2 & u2 & E2 & K2 & L2); auto.
          { intros; apply HL; now right. }
          { eapply listed_iff; [|exact L1]. intros b y _ _. cbn. rewrite in_app_iff. simpl. intuition. }
          rewrite <- app_assoc in L2. eauto 8. }
      assert (EV : k_view (st_con s a) Triangle = k_view (st_con s0 a) Triangle) by (destruct KS as (_ & A & _); now rewrite (al_view _ _ A)).
      assert (EI : id_of_seg (st_segs s) a = Some z) by (destruct KS as (_ & A & _); rewrite (al_segs _ _ A); apply Hz).
      destruct (Seg (k_view (st_con s0 a) Triangle) [] s u) as (s1 & u1 & E1 & K1 & L1); auto.
      { eapply listed_iff; [|exact LI]. intros b y _ _. cbn. intuition. }
      unfold side_segment at 1. cbn [fst]. rewrite EI. cbn [obind]. rewrite EV, E1. cbn [obind].
      destruct (IH (pre ++ [a]) s1 u1) as (s2 & u2 & E2 & K2 & L2); auto.
      { now rewrite <- app_assoc. }
      { eapply listed_iff; [|exact L1]. intros b y Hb Hy. cbn. rewrite in_app_iff. simpl. split; [intuition|].
        intros [H|[<-|[]]]; auto. }
      rewrite <- app_assoc in L2. eauto 8. }
  destruct (Loop (segment_range (st_segs s0)) [] s []) as (s' & u & E & K & L); auto.
  { constructor; [constructor|intros i w []|intros b x _ []]. }
  exists s', u. split; auto. split; auto. eapply listed_iff; [|exact L]. intros b x Hb _. cbn. unfold is_segment in Hb. tauto.
Qed.

End Sides.
