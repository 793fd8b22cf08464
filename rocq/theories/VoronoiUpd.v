(** What lists of updates do to the stored values. *)
From Coq Require Import Reals List Arith Bool Lia Lra.
From Verif Require Import ModelTopo ModelMesh ModelGeom ModelVolume ModelVoronoi SpecRefine SpecGeom VolumeProofs VoronoiGeom.
From Verif Require RefineGeom.
Import ListNotations.
Local Open Scope R_scope.

Definition hit (q : vquantity) (a : addr) (u : update) : bool := andb (vquantity_eqb q (u_q u)) (Nat.eqb a (u_el u)).
Definition delta (us : list update) (q : vquantity) (a : addr) : R := Rsum (map (fun u => if hit q a u then u_val u else 0) us).
(** The part that is entered for some cell. *)
Definition entered (us : list update) (q : vquantity) (a : addr) : R :=
  Rsum (map (fun u => if hit q a u then match u_cell u with Some _ => u_val u | None => 0 end else 0) us).
Definition con_sum (l : list (addr * R)) : R := Rsum (map snd l).

Lemma delta_app us us' q a : delta (us ++ us') q a = delta us q a + delta us' q a.
Proof. unfold delta. now rewrite map_app, Rsum_app. Qed.
Lemma entered_app us us' q a : entered (us ++ us') q a = entered us q a + entered us' q a.
Proof. unfold entered. now rewrite map_app, Rsum_app. Qed.
Lemma vquantity_eqb_eq p q : vquantity_eqb p q = true <-> p = q.
Proof. destruct p, q; cbn; split; congruence. Qed.

Lemma apply_val uniq us : Forall (fun u => u_set u = false) us -> forall s q a, vo_val (apply_updates uniq us s) q a = vo_val s q a + delta us q a.
Proof.
  induction 1 as [|u us E F IH]; intros s q a; [cbn; rewrite Rplus_0_r; reflexivity|].
  cbn [apply_updates fold_left] in *. unfold apply_updates in IH. rewrite IH. unfold delta. cbn [map]. rewrite Rsum_cons. cbn [apply_update vo_val]. fold (hit q a u).
  rewrite E. destruct (hit q a u); lra.
Qed.
Lemma con_sum_unique c x l : con_sum (unique_update c x l) = con_sum l + x.
Proof.
  unfold con_sum. induction l as [|(k, y) r IH]; cbn [unique_update map snd]; [rewrite !Rsum_cons, !Rsum_nil; lra|].
  destruct (Nat.eqb k c); cbn [map snd]; rewrite !Rsum_cons; [lra|]. rewrite IH. lra.
Qed.
Lemma con_sum_app l l' : con_sum (l ++ l') = con_sum l + con_sum l'.
Proof. unfold con_sum. now rewrite map_app, Rsum_app. Qed.
Lemma apply_con uniq us : forall s q a, con_sum (vo_con (apply_updates uniq us s) q a) = con_sum (vo_con s q a) + entered us q a.
Proof.
  induction us as [|u us IH]; intros s q a; [cbn; rewrite Rplus_0_r; reflexivity|].
  cbn [apply_updates fold_left] in *. unfold apply_updates in IH. rewrite IH. unfold entered. cbn [map]. rewrite Rsum_cons. cbn [apply_update vo_con]. fold (hit q a u).
  destruct (u_cell u) as [c|]; [|destruct (hit q a u); lra]. cbn beta. fold (hit q a u). destruct (hit q a u); [|lra].
  destruct uniq; [rewrite con_sum_unique; lra|]. rewrite con_sum_app. unfold con_sum at 2. cbn [map snd]. rewrite Rsum_cons, Rsum_nil. lra.
Qed.
Lemma unique_update_keys c x l k : In k (map fst (unique_update c x l)) <-> k = c \/ In k (map fst l).
Proof.
  induction l as [|(k', y) r IH]; cbn [unique_update map fst]; [cbn; intuition congruence|].
  destruct (Nat.eqb_spec k' c) as [->|N]; cbn [map fst In]; [intuition congruence|]. rewrite IH. intuition congruence.
Qed.
Lemma unique_update_NoDup c x l : NoDup (map fst l) -> NoDup (map fst (unique_update c x l)).
Proof.
  induction l as [|(k', y) r IH]; cbn [unique_update map fst]; intros N; [constructor; auto; constructor|].
  inversion N; subst. destruct (Nat.eqb_spec k' c) as [->|NE]; cbn [map fst]; auto. constructor; auto.
  change (~ In k' (map fst (unique_update c x r))). rewrite unique_update_keys. intuition congruence.
Qed.
Lemma apply_NoDup us : forall s, (forall q a, NoDup (map fst (vo_con s q a))) -> forall q a, NoDup (map fst (vo_con (apply_updates true us s) q a)).
Proof.
  induction us as [|u us IH]; intros s H q a; [apply H|]. cbn [apply_updates fold_left] in *. unfold apply_updates in IH. apply IH.
  intros q' a'. cbn [apply_update vo_con]. destruct (u_cell u) as [c|]; auto. destruct (andb _ _); auto. apply unique_update_NoDup, H.
Qed.
(** Every cell entered is one of the updates', or was there. *)
Lemma apply_keys uniq us : forall s q a k, In k (map fst (vo_con (apply_updates uniq us s) q a)) ->
  In k (map fst (vo_con s q a)) \/ exists u, In u us /\ u_cell u = Some k.
Proof.
  induction us as [|u us IH]; intros s q a k H; [now left|]. cbn [apply_updates fold_left] in *. unfold apply_updates in IH.
  destruct (IH _ _ _ _ H) as [H1|(u' & I & E)]; [|right; exists u'; split; auto; now right]. clear H IH.
  cbn [apply_update vo_con] in H1. destruct (u_cell u) as [c|] eqn:EC; [|now left]. destruct (andb _ _); [|now left].
  assert (HH : k = c \/ In k (map fst (vo_con s q a))).
  { destruct uniq; [now apply unique_update_keys in H1|]. rewrite map_app, in_app_iff in H1. cbn in H1. intuition. }
  destruct HH as [->|]; [|now left]. right. exists u. split; [now left|auto].
Qed.

(** ** The updates of one edge of one cell *)
Record share_rec := mkShare { r_h : addr; r_u : addr; r_w : addr; r_i : R; r_xu : R; r_xw : R }.
Definition part (q : vquantity) (r : share_rec) (x : addr) : R :=
  match q with
  | InterfaceArea => if Nat.eqb x (r_h r) then r_i r else 0
  | EdgeBox => if Nat.eqb x (r_h r) then r_xu r + r_xw r else 0
  | VertexBox => (if Nat.eqb x (r_u r) then r_xu r else 0) + (if Nat.eqb x (r_w r) then r_xw r else 0)
  end.
Record edge_result (ok : addr -> Prop) (closed : Prop) (us : list update) (r : share_rec) : Prop := mkER {
  er_set : Forall (fun u => u_set u = false) us;
  er_delta : forall q x, delta us q x = part q r x;
  er_con : forall q x, q <> InterfaceArea \/ closed -> entered us q x = delta us q x;
  er_cells : Forall (fun u => match u_cell u with Some k => ok k | None => True end) us
}.
Definition parts (q : vquantity) (rs : list share_rec) (x : addr) : R := Rsum (map (fun r => part q r x) rs).
Lemma concat_set ok closed uss rs : Forall2 (edge_result ok closed) uss rs -> Forall (fun u => u_set u = false) (List.concat uss).
Proof. induction 1 as [|us r uss rs E F IH]; cbn; [constructor|]. apply Forall_app. split; auto. apply E. Qed.
Lemma concat_delta ok closed uss rs : Forall2 (edge_result ok closed) uss rs -> forall q x, delta (List.concat uss) q x = parts q rs x.
Proof.
  induction 1 as [|us r uss rs E F IH]; intros q x; cbn [List.concat]; [reflexivity|]. rewrite delta_app, (er_delta _ _ _ _ E), IH. unfold parts. cbn [map]. now rewrite Rsum_cons.
Qed.
Lemma concat_entered ok closed uss rs : Forall2 (edge_result ok closed) uss rs -> forall q x, q <> InterfaceArea \/ closed -> entered (List.concat uss) q x = delta (List.concat uss) q x.
Proof.
  induction 1 as [|us r uss rs E F IH]; intros q x H; cbn [List.concat]; [reflexivity|]. rewrite delta_app, entered_app, IH by auto. now rewrite (er_con _ _ _ _ E) by auto.
Qed.
Lemma concat_cells ok closed uss rs : Forall2 (edge_result ok closed) uss rs -> Forall (fun u => match u_cell u with Some k => ok k | None => True end) (List.concat uss).
Proof. induction 1 as [|us r uss rs E F IH]; cbn; [constructor|]. apply Forall_app. split; auto. apply E. Qed.

(** The sums over all elements. *)
Lemma Rsum_if_one (l : list addr) h x : NoDup l -> In h l -> Rsum (map (fun a => if Nat.eqb a h then x else 0) l) = x.
Proof.
  induction 1 as [|a l N ND IH]; [intros []|]. intros [->|I]; cbn [map]; rewrite Rsum_cons.
  - rewrite Nat.eqb_refl. enough (Rsum (map (fun a => if Nat.eqb a h then x else 0) l) = 0) by lra.
    clear - N. induction l as [|b l IH]; cbn [map]; [reflexivity|]. rewrite Rsum_cons, IH by (intros ?; apply N; now right).
    destruct (Nat.eqb_spec b h) as [->|]; [exfalso; apply N; now left|lra].
  - rewrite IH by auto. destruct (Nat.eqb_spec a h) as [->|]; [contradiction|lra].
Qed.
Definition both (r : share_rec) : R := r_xu r + r_xw r.
Lemma part_sum_vertices r l : NoDup l -> In (r_u r) l -> In (r_w r) l -> Rsum (map (part VertexBox r) l) = both r.
Proof. intros N H1 H2. unfold part. rewrite Rsum_plus, !Rsum_if_one by auto. reflexivity. Qed.
Lemma part_sum_edges r l : NoDup l -> In (r_h r) l -> Rsum (map (part EdgeBox r) l) = both r.
Proof. intros N H1. unfold part. now rewrite !Rsum_if_one by auto. Qed.
Lemma parts_sum q rs l : (forall r, In r rs -> Rsum (map (part q r) l) = both r) -> Rsum (map (parts q rs) l) = Rsum (map both rs).
Proof.
  intros H. unfold parts. rewrite (RefineGeom.Rsum_swap (fun x r => part q r x)). f_equal. apply map_ext_in. intros r I. now apply H.
Qed.

(** ** The edges of cells with a centre *)
Lemma edge_updates_result d c base h u pu w pw us : edge_updates d c base (h, [(u, pu); (w, pw)]) = Some us ->
  exists i xu xw, spanned_volume d (base ++ [circumcenter_line pu pw]) = Some i /\
    spanned_volume d (base ++ [circumcenter_line pu pw; pu]) = Some xu /\ spanned_volume d (base ++ [circumcenter_line pu pw; pw]) = Some xw /\
    edge_result (eq c) True us (mkShare h u w i xu xw).
Proof.
  unfold edge_updates. cbn [fst snd midpoint obind]. destruct (spanned_volume d (base ++ [circumcenter_line pu pw])) as [i|]; [|cbn; discriminate]. cbn [obind omap fst snd].
  destruct (spanned_volume d (base ++ [circumcenter_line pu pw; pu])) as [xu|]; [|cbn; discriminate]. cbn [option_map obind].
  destruct (spanned_volume d (base ++ [circumcenter_line pu pw; pw])) as [xw|]; [|cbn; discriminate]. cbn [option_map obind].
  intros [= <-]. exists i, xu, xw. split; [auto|]. split; [auto|]. split; [auto|]. cbn [map app fst snd fold_left]. constructor.
  - repeat (constructor; [reflexivity|]); constructor.
  - intros q x. unfold delta, part. cbn [map app fst snd fold_left]. rewrite !Rsum_cons, Rsum_nil. unfold hit. destruct q; cbn [u_q u_el u_val vquantity_eqb andb r_h r_u r_w r_i r_xu r_xw].
    + destruct (Nat.eqb x h); lra.
    + destruct (Nat.eqb x u), (Nat.eqb x w); lra.
    + destruct (Nat.eqb x h); lra.
  - intros q x _. reflexivity.
  - repeat (constructor; [reflexivity|]); constructor.
Qed.
