(** The Comsol writer: which triangles one contact covers. *)
From Coq Require Import Reals List Arith ZArith Bool Lia Lra Relations.
From Verif Require Import ModelTopo ModelMesh ModelErase ModelGeom ModelVolume ModelQuery ModelView ModelSegmentation ModelSegment ModelMphtxt
  SpecMesh SpecErase SpecQuery SpecView SpecSegmentation SpecSegment SpecInterface SpecCopy SpecGeom SpecMphtxt
  SegmentProofs InterfaceBase MphtxtBase.
Import ModelSegmentation ListNotations.
Open Scope nat_scope.

Lemma zupd_same f x k : zupd f x k x = k.
Proof. unfold zupd. now rewrite Nat.eqb_refl. Qed.
Lemma zupd_other f x k y : y <> x -> zupd f x k y = f y.
Proof. unfold zupd. intros N. apply Nat.eqb_neq in N. now rewrite N. Qed.

(** The unmarked triangles in a list. *)
Definition unmarked (f : contacts) (l : list addr) : nat := length (filter (fun y => (f y =? -1)%Z) l).
Lemma unmarked_le f g l : (forall y, f y <> (-1)%Z -> g y <> (-1)%Z) -> unmarked g l <= unmarked f l.
Proof.
  intros H. unfold unmarked. induction l as [|y l IH]; cbn [filter]; auto.
  destruct (Z.eqb_spec (g y) (-1)) as [E|E], (Z.eqb_spec (f y) (-1)) as [E'|E']; cbn [length]; try lia. exfalso. now apply (H y E').
Qed.
Lemma unmarked_lt f x k l : In x l -> f x = (-1)%Z -> k <> (-1)%Z -> unmarked (zupd f x k) l < unmarked f l.
Proof.
  intros Hx Fx Nk. induction l as [|y l IH]; [destruct Hx|]. unfold unmarked in *. cbn [filter].
  destruct (Nat.eq_dec y x) as [->|N].
  - rewrite zupd_same, Fx. rewrite (proj2 (Z.eqb_neq k (-1)) Nk). cbn [Z.eqb Pos.eqb length].
    apply Nat.lt_succ_r. apply unmarked_le. intros y H. destruct (Nat.eq_dec y x) as [->|N]; [now rewrite zupd_same|now rewrite zupd_other].
  - rewrite (zupd_other f x k y N). destruct Hx as [->|Hx]; [congruence|]. specialize (IH Hx). destruct (f y =? -1)%Z; cbn [length]; lia.
Qed.

Section Loop.
Variable cfg : config.
Hypothesis TC : cfg_cell cfg = Tet.
Variable s0 : sstate point.
Hypothesis T0 : forall a, is_segment s0 a -> two_cells cfg s0 a.
Hypothesis R0 : sreach cfg s0.
Notation keeps := (keeps cfg s0).

Section Flood.
Variables (a : nat) (k : Z) (sids : list Z).
Hypothesis Ha : is_segment s0 a.
Hypothesis K0 : (0 <= k)%Z.

(** From [x] the marking goes on to [y]. *)
Definition goes (x y : addr) : Prop :=
  on_hull cfg s0 a y /\ share (st_mesh s0) Triangle Vertex x y /\
  (exists ids, segment_ids s0 Triangle y = Some ids /\ ids_equal sids ids = true) /\ coplanar (st_mesh s0) x y.

Definition step_from (f : contacts) (x y : addr) : Prop := goes x y /\ f y = (-1)%Z.

(** What marking from [x], or from some of its neighbours, does. *)
Record flooded (x : addr) (f f' : contacts) : Prop := mkFl {
  fl_keep : forall y, f y <> (-1)%Z -> f' y = f y;
  fl_new : forall y, f y = (-1)%Z -> f' y <> (-1)%Z -> f' y = k /\ clos_refl_trans _ (step_from f) x y /\ y <> x;
  fl_closed : forall z y, f z = (-1)%Z -> f' z <> (-1)%Z -> goes z y -> f' y <> (-1)%Z
}.

Lemma flooded_refl x f : flooded x f f.
Proof. constructor; intros; congruence. Qed.
Lemma step_mono f f' x y : (forall z, f z <> (-1)%Z -> f' z = f z) -> clos_refl_trans _ (step_from f') x y -> clos_refl_trans _ (step_from f) x y.
Proof.
  intros M. induction 1 as [u v [G U]| |]; [apply rt_step; split; auto|apply rt_refl|eapply rt_trans; eauto].
  destruct (Z.eq_dec (f v) (-1)) as [E|E]; auto. rewrite (M v E) in U. congruence.
Qed.
Lemma flooded_trans x f f1 f2 : flooded x f f1 -> flooded x f1 f2 -> flooded x f f2.
Proof.
  intros [A B C] [A' B' C']. constructor.
  - intros y H. rewrite (A' y); auto. now rewrite (A y H).
  - intros y H H2. destruct (Z.eq_dec (f1 y) (-1)) as [E|E].
    + destruct (B' y E H2) as (-> & P & N). split; auto. split; auto. eapply step_mono; eauto.
    + rewrite (A' y E). now apply B.
  - intros z y H H2 G. destruct (Z.eq_dec (f1 z) (-1)) as [E|E].
    + now apply (C' z y).
    + pose proof (C z y H E G) as Q. now rewrite (A' y Q).
Qed.

Lemma mark_planar_spec : forall fuel x s f, keeps s -> in_segment s0 a Triangle x -> f x <> (-1)%Z ->
  unmarked f (k_view (st_con s0 a) Triangle) < fuel ->
  exists s' f', mark_planar cfg a k sids fuel x (s, f) = Some (s', f') /\ keeps s' /\ flooded x f f' /\
    forall y, goes x y -> f' y <> (-1)%Z.
Proof.
  induction fuel as [|n IHn]; intros x s f KS Hx Fx ME; [lia|]. cbn [mark_planar fst snd].
  pose proof (member_live cfg TC s0 R0 a Triangle x Ha Hx) as Lx.
  destruct (live_normal cfg (st_mesh s0) x (reach0 cfg TC s0 R0) Lx) as (nx & ps & En & Hps & Hn & _).
  assert (EM : forall s, keeps s -> st_mesh s = st_mesh s0) by (intros ? (_ & A & _); apply (al_mesh _ _ A)).
  rewrite (EM s KS), En. cbn [obind].
  destruct (keeps_nb cfg TC s0 s a x KS Ha Hx) as (q & l & Eq & KQ & XL). rewrite (EM s KS) in Eq. rewrite Eq. cbn [obind fst snd].
  match goal with |- context [ofold ?F l _] => set (FF := F) end.
  assert (Loop : forall l s f, keeps s -> f x <> (-1)%Z -> (forall y, In y l -> in_segment s0 a Triangle y /\ share (st_mesh s0) Triangle Vertex x y) ->
    unmarked f (k_view (st_con s0 a) Triangle) < S n ->
    exists s' f', ofold FF l (s, f) = Some (s', f') /\ keeps s' /\ flooded x f f' /\ forall y, In y l -> goes x y -> f' y <> (-1)%Z).
  { clear l q Eq KQ XL s f KS Fx ME. induction l as [|y l IHl]; intros s f KS Fx HL ME; cbn [ofold].
    - exists s, f. split; auto. split; auto. split; [apply flooded_refl|]. intros y [].
    - assert (Step : exists s1 f1, FF (s, f) y = Some (s1, f1) /\ keeps s1 /\ flooded x f f1 /\ (goes x y -> f1 y <> (-1)%Z)).
      { unfold FF. destruct (HL y (or_introl eq_refl)) as [Hy Sy].
        destruct (Z.eqb_spec (f y) (-1)) as [Fy|Fy]; [|exists s, f; split; auto; split; auto; split; [apply flooded_refl|auto]].
        destruct (keeps_bnd cfg TC s0 T0 s a y KS Ha Hy) as (kb & r & Eb & KB & Xr). rewrite Eb. cbn [obind fst snd].
        destruct r.
        2: { exists (set_con s a kb), f. split; auto. split; auto. split; [apply flooded_refl|].
             intros (Hh & _). apply Xr in Hh. discriminate. }
        pose proof (proj1 Xr eq_refl) as Hull.
        destruct (keeps_ids cfg TC s0 R0 _ a Triangle y KB Ha Hy) as (ids & Ei & Ei0 & _). rewrite Ei. cbn [obind].
        destruct (ids_equal sids ids) eqn:IE.
        2: { exists (set_con s a kb), f. split; auto. split; auto. split; [apply flooded_refl|].
             intros (_ & _ & (ids' & E' & IE') & _). congruence. }
        destruct (live_normal cfg (st_mesh s0) y (reach0 cfg TC s0 R0) (member_live cfg TC s0 R0 a Triangle y Ha Hy)) as (ny & qs & Eny & Hqs & Hny & _).
        rewrite (EM _ KB), Eny. cbn [obind].
        pose proof (planar_iff (st_mesh s0) x y ps qs nx ny Hps Hn Hqs Hny) as PI.
        destruct (planar nx ny) eqn:PL.
        2: { exists (set_con s a kb), f. split; auto. split; auto. split; [apply flooded_refl|].
             intros (_ & _ & _ & Cp). apply PI in Cp. discriminate. }
        assert (G : goes x y). { split; auto. split; auto. split; [eauto|]. now apply PI. }
        assert (Nk : k <> (-1)%Z) by lia.
        destruct (IHn y (set_con s a kb) (zupd f y k) KB Hy) as (s1 & f1 & E1 & K1 & F1 & C1).
        { now rewrite zupd_same. }
        { assert (unmarked (zupd f y k) (k_view (st_con s0 a) Triangle) < unmarked f (k_view (st_con s0 a) Triangle)); [|lia].
          apply unmarked_lt; auto. }
        exists s1, f1. split; auto. split; auto.
        assert (M1 : f1 y = k) by (rewrite (fl_keep _ _ _ F1 y); rewrite zupd_same; auto).
        split; [|intros _; congruence].
        assert (ZU : forall z, f z <> (-1)%Z -> zupd f y k z = f z) by (intros z Hz; apply zupd_other; congruence).
        constructor.
        - intros z Hz. rewrite (fl_keep _ _ _ F1 z); rewrite ZU; auto.
        - intros z Hz Hz1. destruct (Nat.eq_dec z y) as [->|Nz].
          + split; auto. split; [apply rt_step; split; auto|]. intros ->. congruence.
          + destruct (fl_new _ _ _ F1 z) as (E & P & _); [now rewrite zupd_other|auto|]. split; auto. split.
            * eapply rt_trans; [apply rt_step; split; [exact G|exact Fy]|]. eapply step_mono; eauto.
            * intros ->. congruence.
        - intros z w Hz Hz1 Gw. destruct (Nat.eq_dec z y) as [->|Nz]; [now apply C1|].
          apply (fl_closed _ _ _ F1 z w); auto. now rewrite zupd_other. }
      destruct Step as (s1 & f1 & E1 & K1 & F1 & C1). rewrite E1. cbn [obind].
      destruct (IHl s1 f1 K1) as (s2 & f2 & E2 & K2 & F2 & C2).
      { now rewrite (fl_keep _ _ _ F1 x Fx). }
      { intros; apply HL; now right. }
      { eapply Nat.le_lt_trans; [|exact ME]. apply unmarked_le. intros z Hz. now rewrite (fl_keep _ _ _ F1 z Hz). }
      exists s2, f2. split; auto. split; auto. split; [eapply flooded_trans; eauto|].
      intros z [<-|Hz] G; [|now apply C2]. pose proof (C1 G) as Q. now rewrite (fl_keep _ _ _ F2 y Q). }
  destruct (Loop l (set_con s a q) f KQ Fx) as (s' & f' & E' & K' & F' & C'); auto.
  { intros y Hy. now apply XL. }
  exists s', f'. split; auto. split; auto. split; auto.
  intros y G. apply C'; auto. apply XL. split; [apply G|apply G].
Qed.

End Flood.

(** ** All contacts *)
(** [pre] are the segments done, [a] the current one, [l] its triangles done. *)
Record marked (pre : list nat) (a : nat) (l : list addr) (f : contacts) (k : Z) : Prop := mkMk {
  mk_pos : (0 <= k)%Z;
  mk_range : forall x, f x = (-1)%Z \/ (0 <= f x < k)%Z;
  mk_hull : forall x, f x <> (-1)%Z -> exists b, (In b pre \/ b = a) /\ first_hull cfg s0 b x;
  mk_done : forall b x, In b pre -> on_hull cfg s0 b x -> f x <> (-1)%Z;
  mk_here : forall x, In x l -> on_hull cfg s0 a x -> f x <> (-1)%Z;
  mk_patch : forall x y, f x <> (-1)%Z -> f x = f y -> patch cfg s0 x y;
  mk_adj : forall x y, f x <> (-1)%Z -> adjoining cfg s0 x y -> f y = f x;
  mk_used : forall j, (0 <= j < k)%Z -> exists x, f x = j
}.

Lemma hull_step_spec pre a post l x s f k : segment_range (st_segs s0) = pre ++ a :: post -> keeps s -> marked pre a l f k ->
  in_segment s0 a Triangle x ->
  exists s' f' k', hull_step cfg a (s, f, k) x = Some (s', f', k') /\ keeps s' /\ marked pre a (l ++ [x]) f' k'.
Proof.
  intros SR KS MK Hx. assert (Ha : is_segment s0 a) by (unfold is_segment; rewrite SR; apply in_elt).
  unfold hull_step. destruct (keeps_bnd cfg TC s0 T0 s a x KS Ha Hx) as (kb & r & Eb & KB & Xr). rewrite Eb. cbn [obind fst snd].
  assert (FH : forall y, on_hull cfg s0 a y -> f y = (-1)%Z -> first_hull cfg s0 a y).
  { intros y Hy Fy. exists pre, post. split; auto. split; auto. intros b Hb Hb'. now apply (mk_done _ _ _ _ _ MK b y Hb Hb'). }
  destruct r; cbn [andb].
  2: { exists (set_con s a kb), f, k. split; auto. split; auto. destruct MK. constructor; auto.
       intros y Hy Hh. apply in_app_or in Hy as [Hy|[<-|[]]]; auto. apply Xr in Hh. discriminate. }
  pose proof (proj1 Xr eq_refl) as Hull.
  destruct (Z.eqb_spec (f x) (-1)) as [Fx|Fx].
  2: { exists (set_con s a kb), f, k. split; auto. split; auto. destruct MK. constructor; auto.
       intros y Hy Hh. apply in_app_or in Hy as [Hy|[<-|[]]]; auto. }
  destruct (keeps_ids cfg TC s0 R0 _ a Triangle x KB Ha Hx) as (sids & Es & Es0 & _). rewrite Es. cbn [obind].
  pose proof (mk_pos _ _ _ _ _ MK) as PK. assert (Nk : k <> (-1)%Z) by lia.
  destruct (mark_planar_spec a k sids Ha PK (S (length (k_view (st_con s0 a) Triangle))) x (set_con s a kb) (zupd f x k) KB Hx) as (s' & f' & E' & K' & F' & C').
  { now rewrite zupd_same. }
  { unfold unmarked. apply Nat.lt_succ_r. generalize (k_view (st_con s0 a) Triangle). intros v. induction v as [|y v IH]; cbn [filter length]; auto. destruct (_ =? _)%Z; cbn [length]; lia. }
  assert (EV : k_view (st_con (set_con s a kb) a) Triangle = k_view (st_con s0 a) Triangle).
  { destruct KB as (_ & A & _). now rewrite (al_view _ _ A). }
  rewrite EV, E'. cbn [option_map]. exists s', f', (k + 1)%Z. split; auto. split; auto.
  assert (ZU : forall z, f z <> (-1)%Z -> zupd f x k z = f z) by (intros z Hz; apply zupd_other; congruence).
  assert (KP : forall z, f z <> (-1)%Z -> f' z = f z) by (intros z Hz; rewrite (fl_keep _ _ _ _ _ _ F' z); rewrite ZU; auto).
  assert (FX : f' x = k) by (rewrite (fl_keep _ _ _ _ _ _ F' x); rewrite zupd_same; auto).
  assert (AD : forall y, patch cfg s0 x y /\ on_hull cfg s0 a y /\ segment_ids s0 Triangle y <> None /\
             (forall b, is_segment s0 b -> (in_segment s0 b Triangle x <-> in_segment s0 b Triangle y)) /\ f y = (-1)%Z ->
           forall z, goes a sids y z -> f z = (-1)%Z -> 
             patch cfg s0 x z /\ on_hull cfg s0 a z /\ segment_ids s0 Triangle z <> None /\
             (forall b, is_segment s0 b -> (in_segment s0 b Triangle x <-> in_segment s0 b Triangle z)) /\ f z = (-1)%Z).
  { intros y (Py & Hy & _ & Sy & Fy) z (Hz & Sh & (ids & Ei & IE) & Cp) Fz.
    assert (Sz : forall b, is_segment s0 b -> (in_segment s0 b Triangle x <-> in_segment s0 b Triangle z)).
    { apply (same_segments cfg TC s0 R0 a Triangle x z sids ids); auto. apply Hz. }
    split; [|split; auto; split; [congruence|auto]]. eapply rt_trans; [exact Py|]. apply rt_step. split; [exists a; split; apply FH; auto|].
    split; auto. split; auto. intros b Hb. rewrite <- (Sy b Hb). apply Sz, Hb. }
  assert (NW : forall y, f y = (-1)%Z -> f' y <> (-1)%Z -> f' y = k /\ patch cfg s0 x y /\ on_hull cfg s0 a y /\
             (forall b, is_segment s0 b -> (in_segment s0 b Triangle x <-> in_segment s0 b Triangle y))).
  { intros y Fy Fy'. destruct (Nat.eq_dec y x) as [->|N].
    - split; auto. split; [apply rt_refl|]. split; auto. tauto.
    - destruct (fl_new _ _ _ _ _ _ F' y) as (E & P & _); [now rewrite zupd_other|auto|]. split; auto.
      assert (Q : patch cfg s0 x y /\ on_hull cfg s0 a y /\ segment_ids s0 Triangle y <> None /\
             (forall b, is_segment s0 b -> (in_segment s0 b Triangle x <-> in_segment s0 b Triangle y)) /\ f y = (-1)%Z).
      { apply clos_rt_rtn1 in P. clear E N Fy Fy'. induction P as [|y z [G U] P IH].
        - split; [apply rt_refl|]. split; auto. split; [congruence|]. split; [tauto|auto].
        - apply (AD y IH z G). destruct (Nat.eq_dec z x) as [->|N]; auto. now rewrite zupd_other in U. }
      destruct Q as (Q1 & Q2 & _ & Q3 & _). auto. }
  assert (CL : forall z y, f z = (-1)%Z -> f' z <> (-1)%Z -> adjoining cfg s0 z y -> f' y = k).
  { intros z y Fz Fz' AJ. destruct (NW z Fz Fz') as (Ez & Pz & Hz & Sz). pose proof AJ as ((b & Hb1 & Hb2) & Sh & Sm & Cp).
    assert (b = a) by (eapply first_hull_unique; [exact Hb1|now apply FH]). subst b.
    assert (Hy : on_hull cfg s0 a y) by (destruct Hb2 as (? & ? & _ & H & _); exact H).
    assert (Fy : f y = (-1)%Z).
    { destruct (Z.eq_dec (f y) (-1)) as [E|E]; auto. pose proof (mk_adj _ _ _ _ _ MK y z E (adjoining_sym _ _ _ _ AJ)). congruence. }
    assert (G : goes a sids z y).
    { split; auto. split; auto. split; auto.
      destruct (keeps_ids cfg TC s0 R0 _ a Triangle y KB Ha) as (ids & _ & Ei & _); [apply Hy|]. exists ids. split; auto.
      apply (same_segments cfg TC s0 R0 a Triangle x y sids ids); auto; [apply Hy|]. intros b Hb. rewrite (Sz b Hb). now apply Sm. }
    assert (F2 : f' y <> (-1)%Z).
    { destruct (Nat.eq_dec z x) as [->|N]; [now apply C'|]. apply (fl_closed _ _ _ _ _ _ F' z y); auto. now rewrite zupd_other. }
    now apply NW. }
  constructor.
  - lia.
  - intros y. destruct (Z.eq_dec (f' y) (-1)) as [E|E]; auto. right. destruct (Z.eq_dec (f y) (-1)) as [E2|E2].
    + destruct (NW y E2 E) as (-> & _). lia.
    + rewrite (KP y E2). destruct (mk_range _ _ _ _ _ MK y); [congruence|lia].
  - intros y E. destruct (Z.eq_dec (f y) (-1)) as [E2|E2].
    + exists a. split; auto. apply FH; auto. now apply NW.
    + now apply (mk_hull _ _ _ _ _ MK).
  - intros b y Hb Hy. pose proof (mk_done _ _ _ _ _ MK b y Hb Hy) as Q. now rewrite (KP y Q).
  - intros y Hy Hh. apply in_app_or in Hy as [Hy|[<-|[]]]; [|congruence].
    pose proof (mk_here _ _ _ _ _ MK y Hy Hh) as Q. now rewrite (KP y Q).
  - assert (OLD : forall y, f y <> (-1)%Z -> f' y <> k).
    { intros y E. rewrite (KP y E). destruct (mk_range _ _ _ _ _ MK y); [congruence|lia]. }
    intros y z Ey E. destruct (Z.eq_dec (f y) (-1)) as [E1|E1].
    + destruct (NW y E1 Ey) as (Ek & Py & _). destruct (Z.eq_dec (f z) (-1)) as [E2|E2].
      * destruct (NW z E2) as (_ & Pz & _); [congruence|]. eapply rt_trans; [apply clos_sym, Py|exact Pz].
      * exfalso. apply (OLD z E2). congruence.
    + destruct (Z.eq_dec (f z) (-1)) as [E2|E2].
      * exfalso. apply (OLD y E1). destruct (NW z E2); congruence.
      * apply (mk_patch _ _ _ _ _ MK); auto. rewrite <- (KP y E1), <- (KP z E2). exact E.
  - intros y z Ey AJ. destruct (Z.eq_dec (f y) (-1)) as [E1|E1].
    + destruct (NW y E1 Ey) as (-> & _). now apply (CL y z).
    + pose proof (mk_adj _ _ _ _ _ MK y z E1 AJ) as Q. rewrite (KP y E1), (KP z); congruence.
  - intros j Hj. destruct (Z.eq_dec j k) as [->|N]; [eauto|]. destruct (mk_used _ _ _ _ _ MK j) as (y & Ey); [lia|].
    exists y. rewrite KP; [auto|]. lia.
Qed.

Lemma hull_contacts_spec pre a post s f k : segment_range (st_segs s0) = pre ++ a :: post -> keeps s -> marked pre a [] f k ->
  exists s' f' k', hull_contacts cfg a (s, f, k) = Some (s', f', k') /\ keeps s' /\ marked pre a (k_view (st_con s0 a) Triangle) f' k'.
Proof.
  intros SR KS MK. unfold hull_contacts. cbn [fst]. assert (EV : k_view (st_con s a) Triangle = k_view (st_con s0 a) Triangle).
  { destruct KS as (_ & A & _). now rewrite (al_view _ _ A). }
  rewrite EV. assert (Loop : forall l pr s f k, (forall x, In x l -> in_segment s0 a Triangle x) -> keeps s -> marked pre a pr f k ->
    exists s' f' k', ofold (hull_step cfg a) l (s, f, k) = Some (s', f', k') /\ keeps s' /\ marked pre a (pr ++ l) f' k').
  { clear s f k KS MK EV. induction l as [|x l IH]; intros pr s f k HL KS MK; cbn [ofold].
    - exists s, f, k. rewrite app_nil_r. auto.
    - destruct (hull_step_spec pre a post pr x s f k SR KS MK (HL x (or_introl eq_refl))) as (s1 & f1 & k1 & E1 & K1 & M1).
      rewrite E1. cbn [obind]. destruct (IH (pr ++ [x]) s1 f1 k1) as (s2 & f2 & k2 & E2 & K2 & M2); auto.
      { intros; apply HL; now right. }
      rewrite <- app_assoc in M2. eauto 8. }
  destruct (Loop (k_view (st_con s0 a) Triangle) [] s f k) as (s' & f' & k' & E & K' & M'); auto. eauto 8.
Qed.

(** What holds when the segments [pre] are done. *)
Record passed (pre : list nat) (f : contacts) (k : Z) : Prop := mkPa {
  pa_pos : (0 <= k)%Z;
  pa_range : forall x, f x = (-1)%Z \/ (0 <= f x < k)%Z;
  pa_hull : forall x, f x <> (-1)%Z -> exists b, In b pre /\ first_hull cfg s0 b x;
  pa_done : forall b x, In b pre -> on_hull cfg s0 b x -> f x <> (-1)%Z;
  pa_patch : forall x y, f x <> (-1)%Z -> f x = f y -> patch cfg s0 x y;
  pa_adj : forall x y, f x <> (-1)%Z -> adjoining cfg s0 x y -> f y = f x;
  pa_used : forall j, (0 <= j < k)%Z -> exists x, f x = j
}.

Lemma mark_contacts_spec s : keeps s -> exists s' f n, mark_contacts cfg s = Some (s', f, n) /\ keeps s' /\ passed (segment_range (st_segs s0)) f n.
Proof.
  intros KS. unfold mark_contacts. assert (ES : st_segs s = st_segs s0) by (destruct KS as (_ & A & _); apply (al_segs _ _ A)). rewrite ES.
  assert (Loop : forall post pre s f k, segment_range (st_segs s0) = pre ++ post -> keeps s -> passed pre f k ->
    exists s' f' k', ofold (fun st a => hull_contacts cfg a st) post (s, f, k) = Some (s', f', k') /\ keeps s' /\ passed (pre ++ post) f' k').
  { clear s KS ES. induction post as [|a post IH]; intros pre s f k SR KS PA; cbn [ofold].
    - exists s, f, k. rewrite app_nil_r. auto.
    - destruct (hull_contacts_spec pre a post s f k SR KS) as (s1 & f1 & k1 & E1 & K1 & M1).
      { destruct PA. constructor; auto. intros x E. destruct (pa_hull0 x E) as (b & Hb & Fb). eauto. }
      rewrite E1. cbn [obind]. destruct (IH (pre ++ [a]) s1 f1 k1) as (s2 & f2 & k2 & E2 & K2 & M2); auto.
      { now rewrite <- app_assoc. }
      { destruct M1. constructor; auto.
        - intros x E. destruct (mk_hull0 x E) as (b & Hb & Fb). exists b. split; auto. apply in_or_app. simpl. destruct Hb as [Hb| ->]; auto.
        - intros b x Hb Hx. apply in_app_or in Hb as [Hb|[<-|[]]]; eauto. apply mk_here0; auto. apply Hx. }
      rewrite <- app_assoc in M2. eauto 8. }
  destruct (Loop (segment_range (st_segs s0)) [] s (fun _ => (-1)%Z) 0%Z) as (s' & f' & k' & E & K' & M'); auto.
  { constructor; auto; try lia; try congruence. }
  eauto 8.
Qed.

End Loop.
