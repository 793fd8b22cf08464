(** Boundary flags, and the invariant of all caches over every history. *)
From Coq Require Import List Arith Bool Lia Permutation.
From Verif Require Import ModelTopo ModelMesh ModelErase ModelAccessor ModelQuery SpecMesh SpecErase SpecQuery
  MeshBase MeshInv MeshIds MeshWf MeshErase MeshSimple AccessorProofs QueryBase.
Import ListNotations.

Section QueryBnd.
Context {Pt : Type}.
Notation mesh := (@mesh Pt).
Notation element := (@element Pt).
Notation node := (@node Pt).
Variable cfg : config.

Lemma reset_flags_spec (m : mesh) t d n : In n (m_nodes m t) -> map_find (reset_flags m t d) (e_id (n_el n)) = Some false.
Proof.
  unfold reset_flags. revert d. induction (m_nodes m t) as [|x l IH]; intros d; [easy|]. simpl. intros [->|H]; [|auto].
  assert (K : forall d, map_find d (e_id (n_el n)) = Some false ->
    map_find (fold_left (fun d n => map_set d (e_id (n_el n)) false) l d) (e_id (n_el n)) = Some false).
  { clear. induction l as [|y l IHl]; intros d H; simpl; auto. apply IHl. rewrite map_find_set.
    destruct (_ =? _); auto. }
  apply K. rewrite map_find_set, Nat.eqb_refl. auto.
Qed.

Lemma toggle_spec d i v : map_find d i = Some v -> forall j,
  map_find (toggle_flag d i) j = if j =? i then Some (negb v) else map_find d j.
Proof.
  intros H j. unfold toggle_flag, map_index. rewrite H. rewrite map_find_set. reflexivity.
Qed.

Lemma detect_inner (m : mesh) ft bs : wf cfg m -> NoDup bs -> (forall b, In b bs -> live m ft b) -> forall d,
  (forall n, In n (m_nodes m ft) -> exists v, map_find d (e_id (n_el n)) = Some v) ->
  exists d', ofold (fun d b => option_map (fun e => toggle_flag d (e_id e)) (deref m ft b)) bs d = Some d' /\
    forall n v, In n (m_nodes m ft) -> map_find d (e_id (n_el n)) = Some v ->
      map_find d' (e_id (n_el n)) = Some (xorb v (memb (n_addr n) bs)).
Proof.
  intros W ND. induction ND as [|b bs Hb ND IH]; intros HL d HD; cbn [ofold].
  - exists d. split; auto. intros n v _ E. simpl. now rewrite xorb_false_r.
  - destruct (live_node m ft b) as (nb & Inb & <-); [apply HL; left; auto|].
    rewrite (wf_In_deref cfg m ft nb W Inb). cbn [obind option_map].
    destruct (HD nb Inb) as (vb & Eb). pose proof (toggle_spec d _ _ Eb) as T.
    destruct (IH (fun x Hx => HL x (or_intror Hx)) (toggle_flag d (e_id (n_el nb)))) as (d2 & E2 & N2).
    { intros n Hn. destruct (HD n Hn) as (v & E). rewrite T. destruct (_ =? _); eauto. }
    exists d2. split; auto. intros n v Hn E. cbn [memb existsb].
    destruct (Nat.eqb_spec (n_addr n) (n_addr nb)) as [Q|Q].
    + apply (node_addr_inj cfg m ft) in Q; auto. subst nb. simpl.
      rewrite (N2 n (negb v)); auto.
      * assert (Z : memb (n_addr n) bs = false) by now apply memb_notIn. rewrite Z. now destruct v.
      * rewrite T, Nat.eqb_refl. congruence.
    + simpl. apply N2; auto. rewrite T. destruct (Nat.eqb_spec (e_id (n_el n)) (e_id (n_el nb))) as [Z|Z]; auto.
      exfalso. apply Q. f_equal. apply (nodup_id_eq m ft); auto. apply W.
Qed.

Lemma odd_cons {A} (x : A) l : Nat.odd (length (x :: l)) = negb (Nat.odd (length l)).
Proof. cbn [length]. rewrite Nat.odd_succ. rewrite <- Nat.negb_odd. auto. Qed.

Lemma detect_facets_spec (m : mesh) d : wf cfg m -> simple m ->
  let ft := facet_tag (cfg_cell cfg) in
  exists d', detect_facets m (cfg_cell cfg) ft m d = Some d' /\
    forall n, In n (m_nodes m ft) -> map_find d' (e_id (n_el n)) = Some (coflag cfg m (n_addr n)).
Proof.
  intros W S ft. unfold detect_facets, coflag, cobs. fold ft. set (ct := cfg_cell cfg).
  assert (G : forall (l : list node) d0, (forall n, In n l -> In n (m_nodes m ct)) ->
    (forall n, In n (m_nodes m ft) -> exists v, map_find d0 (e_id (n_el n)) = Some v) ->
    exists d', ofold (fun d n => ofold (fun d b => option_map (fun e => toggle_flag d (e_id e)) (deref m ft b)) (boundary_of (n_el n) ft) d) l d0 = Some d' /\
      forall n v, In n (m_nodes m ft) -> map_find d0 (e_id (n_el n)) = Some v ->
        map_find d' (e_id (n_el n)) = Some (xorb v (Nat.odd (length (map n_addr (filter (fun x => memb (n_addr n) (boundary_of (n_el x) ft)) l)))))).
  { induction l as [|c l IH]; intros d0 HB HD; cbn [ofold].
    - exists d0. split; auto. intros n v _ E. simpl. change (Nat.odd 0) with false. now rewrite xorb_false_r.
    - pose proof (HB c (or_introl eq_refl)) as Hc.
      destruct (detect_inner m ft (boundary_of (n_el c) ft) W (simple_boundary m ct c ft S Hc)
        (fun b Hb => boundary_live cfg m ct c ft b W Hc Hb) d0 HD) as (d1 & E1 & N1). rewrite E1. cbn [obind].
      destruct (IH d1) as (d2 & E2 & N2); [intros; apply HB; right; auto| |].
      { intros n Hn. destruct (HD n Hn) as (v & E). eauto. }
      exists d2. split; auto. intros n v Hn E. rewrite (N2 n _ Hn (N1 n v Hn E)). cbn [filter].
      destruct (memb (n_addr n) (boundary_of (n_el c) ft)).
      + cbn [map]. rewrite odd_cons. f_equal. destruct v, (Nat.odd _); reflexivity.
      + now rewrite xorb_false_r. }
  destruct (G (m_nodes m ct) (reset_flags m ft d)) as (d' & E & N); auto.
  - intros n Hn. exists false. now apply reset_flags_spec.
  - exists d'. split; auto. intros n Hn. rewrite (N n false Hn); [|now apply reset_flags_spec]. now rewrite xorb_false_l.
Qed.

Lemma set_inner (m : mesh) t bs : wf cfg m -> (forall b, In b bs -> live m t b) -> forall d,
  exists d', ofold (fun d b => option_map (fun e => map_set d (e_id e) true) (deref m t b)) bs d = Some d' /\
    forall n v, In n (m_nodes m t) -> map_find d (e_id (n_el n)) = Some v ->
      map_find d' (e_id (n_el n)) = Some (v || memb (n_addr n) bs).
Proof.
  intros W. induction bs as [|b bs IH]; intros HL d; cbn [ofold].
  - exists d. split; auto. intros n v _ E. simpl. now rewrite orb_false_r.
  - destruct (live_node m t b) as (nb & Inb & <-); [apply HL; left; auto|].
    rewrite (wf_In_deref cfg m t nb W Inb). cbn [obind option_map].
    destruct (IH (fun x Hx => HL x (or_intror Hx)) (map_set d (e_id (n_el nb)) true)) as (d2 & E2 & N2).
    exists d2. split; auto. intros n v Hn E. cbn [memb existsb].
    destruct (Nat.eqb_spec (n_addr n) (n_addr nb)) as [Q|Q].
    + apply (node_addr_inj cfg m t) in Q; auto. subst nb. simpl.
      rewrite (N2 n true); auto; [now rewrite orb_true_r|]. now rewrite map_find_set, Nat.eqb_refl.
    + simpl. apply N2; auto. rewrite map_find_set. destruct (Nat.eqb_spec (e_id (n_el n)) (e_id (n_el nb))) as [Z|Z]; auto.
      exfalso. apply Q. f_equal. apply (nodup_id_eq m t); auto. apply W.
Qed.

Lemma transfer_flags_spec (m : mesh) t src d : wf cfg m ->
  let ft := facet_tag (cfg_cell cfg) in
  exists d', transfer_flags m ft t m src d = Some d' /\
    forall n, In n (m_nodes m t) -> map_find d' (e_id (n_el n)) =
      Some (existsb (fun f => read_flag src (e_id (n_el f)) && memb (n_addr n) (boundary_of (n_el f) t)) (m_nodes m ft)).
Proof.
  intros W ft. unfold transfer_flags.
  assert (G : forall (l : list node) d0, (forall n, In n l -> In n (m_nodes m ft)) ->
    exists d', ofold (fun d n => if read_flag src (e_id (n_el n)) then
      ofold (fun d b => option_map (fun e => map_set d (e_id e) true) (deref m t b)) (boundary_of (n_el n) t) d else Some d) l d0 = Some d' /\
      forall n v, In n (m_nodes m t) -> map_find d0 (e_id (n_el n)) = Some v ->
        map_find d' (e_id (n_el n)) = Some (v || existsb (fun f => read_flag src (e_id (n_el f)) && memb (n_addr n) (boundary_of (n_el f) t)) l)).
  { induction l as [|c l IH]; intros d0 HB; cbn [ofold].
    - exists d0. split; auto. intros n v _ E. simpl. now rewrite orb_false_r.
    - pose proof (HB c (or_introl eq_refl)) as Hc.
      cbn [existsb]. destruct (read_flag src (e_id (n_el c))) eqn:RF.
      + destruct (set_inner m t (boundary_of (n_el c) t) W
          (fun b Hb => boundary_live cfg m ft c t b W Hc Hb) d0) as (d1 & E1 & N1). rewrite E1. cbn [obind].
        destruct (IH d1) as (d2 & E2 & N2); [intros; apply HB; right; auto|].
        exists d2. split; auto. intros n v Hn E. rewrite (N2 n _ Hn (N1 n v Hn E)). cbn [andb]. now rewrite orb_assoc.
      + cbn [obind andb orb]. apply IH. intros; apply HB; right; auto. }
  destruct (G (m_nodes m ft) (reset_flags m t d)) as (d' & E & N); auto.
  exists d'. split; auto. intros n Hn. rewrite (N n false Hn); auto. now apply reset_flags_spec.
Qed.

Lemma ft_not_lower : ~ In (facet_tag (cfg_cell cfg)) (bnd_types cfg).
Proof. unfold bnd_types. intros H. apply filter_In in H as [_ H]. apply andb_true_iff in H as [H _]. apply Nat.ltb_lt in H. lia. Qed.

Lemma existsb_ext_in {A} (f g : A -> bool) l : (forall x, In x l -> f x = g x) -> existsb f l = existsb g l.
Proof. induction l as [|x l IH]; intros H; simpl; auto. rewrite H by (left; auto). f_equal. apply IH. intros; apply H; right; auto. Qed.

Lemma detect_boundary_spec (s : qstate Pt) : wf cfg (q_mesh s) -> simple (q_mesh s) -> qinv cfg s ->
  exists s', detect_boundary cfg (q_mesh s) s = Some s' /\ q_mesh s' = q_mesh s /\ qinv cfg s' /\
    forall t, bnd_tag cfg t -> c_count (q_bnd s' t) = m_cc (q_mesh s).
Proof.
  intros W S I. unfold detect_boundary. set (ft := facet_tag (cfg_cell cfg)). set (m := q_mesh s).
  destruct (detect_facets_spec m (c_data (q_bnd s ft)) W S) as (src & E & FS). fold ft in E, FS. rewrite E. cbn [obind].
  assert (FSR : forall n, In n (m_nodes m ft) -> read_flag src (e_id (n_el n)) = coflag cfg m (n_addr n)).
  { intros n Hn. unfold read_flag. now rewrite FS. }
  set (P := fun (done : list tag) (x : qstate Pt) => q_mesh x = m /\ q_cob x = q_cob s /\ q_nb x = q_nb s /\ c_data (q_bnd x ft) = src /\
     (forall t, In t done -> c_count (q_bnd x t) = m_cc m /\ bnd_ok cfg m t (c_data (q_bnd x t)))).
  assert (G : forall l x done, (forall t, In t l -> t <> ft) -> (forall t, In t done -> t <> ft) -> P done x -> exists x', ofold (fun (s : qstate Pt) t =>
      option_map (fun d => mkQ (q_mesh s) (q_cob s) (q_nb s) (upd (q_bnd s) t (mkCache (m_cc (q_mesh s)) d)))
        (transfer_flags m ft t (q_mesh s) (c_data (q_bnd s ft)) (c_data (q_bnd s t)))) l x = Some x' /\ P (l ++ done) x').
  { induction l as [|t l IH]; intros x done HL HDn HP; cbn [ofold]; [exists x; auto|].
    destruct HP as (P1 & P2 & P3 & P4 & P5). rewrite P1, P4.
    destruct (transfer_flags_spec m t src (c_data (q_bnd x t)) W) as (d & Ed & TS). fold ft in Ed, TS. rewrite Ed. cbn [option_map obind].
    assert (TF : t <> ft) by (apply HL; left; auto).
    destruct (IH (mkQ m (q_cob x) (q_nb x) (upd (q_bnd x) t (mkCache (m_cc m) d))) (t :: done)) as (x' & E' & P').
    - intros; apply HL; right; auto.
    - intros t' [<-|H]; auto.
    - split; [auto|]. split; [auto|]. split; [auto|]. cbn [q_bnd]. split; [rewrite upd_other; auto|].
      intros t' Ht'. rewrite upd_spec. destruct (tag_eq_dec t t') as [<-|N]; simpl.
      + split; auto. intros n Hn. unfold read_flag. rewrite TS; auto. unfold flag. fold ft.
        destruct (tag_eqb t ft) eqn:Z; [apply tag_eqb_eq in Z; congruence|].
        apply existsb_ext_in. intros f Hf. now rewrite FSR.
      + destruct Ht' as [->|H]; [congruence|auto].
    - exists x'. split; auto. destruct P' as (R1 & R2 & R3 & R4 & R5). repeat (split; auto).
      + apply R5. apply in_app_iff in H. apply in_app_iff. simpl in *. tauto.
      + apply R5. apply in_app_iff in H. apply in_app_iff. simpl in *. tauto. }
  destruct (G (bnd_types cfg) (mkQ m (q_cob s) (q_nb s) (upd (q_bnd s) ft (mkCache (c_count (q_bnd s ft)) src))) [])
    as (s1 & E1 & P1).
  - intros t Ht ->. now apply ft_not_lower in Ht.
  - easy.
  - repeat split; auto; try easy. cbn [q_bnd]. now rewrite upd_same.
  - rewrite E1. cbn [obind]. destruct P1 as (M1 & C1 & N1 & D1 & B1). rewrite app_nil_r in B1.
    eexists. split; [reflexivity|]. cbn [q_mesh q_bnd]. split; auto.
    assert (BT : forall t, bnd_tag cfg t -> let c := upd (q_bnd s1) ft (mkCache (m_cc (q_mesh s1)) (c_data (q_bnd s1 ft))) t in
       c_count c = m_cc m /\ bnd_ok cfg m t (c_data c)).
    { intros t Ht c. unfold c. rewrite upd_spec. destruct (tag_eq_dec ft t) as [<-|N].
      - cbn [c_count c_data]. rewrite M1, D1. split; auto. intros n Hn. rewrite FSR; auto. unfold flag. fold ft. now rewrite tag_eqb_refl.
      - destruct Ht as [->|Ht]; [easy|auto]. }
    split.
    + constructor; cbn [q_mesh q_cob q_nb q_bnd]; rewrite M1.
      * rewrite C1. apply I.
      * rewrite N1. apply I.
      * intros t Ht. destruct (BT t Ht) as [X1 X2]. rewrite M1 in X1, X2. rewrite X1. auto.
    + intros t Ht. apply BT; auto.
Qed.

Lemma query_bnd_spec (s : qstate Pt) t a : wf cfg (q_mesh s) -> simple (q_mesh s) -> qinv cfg s -> bnd_tag cfg t -> live (q_mesh s) t a ->
  exists s', query_bnd cfg t s a = Some (s', flag cfg (q_mesh s) t a) /\ qinv cfg s' /\ q_mesh s' = q_mesh s.
Proof.
  intros W S I BT L. unfold query_bnd, query_bnd_in. apply live_node in L as (n & Hn & <-).
  destruct (Nat.eqb_spec (c_count (q_bnd s t)) (m_cc (q_mesh s))) as [E|E]; cbn [obind].
  - rewrite (wf_In_deref cfg _ t n W Hn). cbn [option_map]. exists s. split; auto. do 2 f_equal.
    apply (qi_bnd cfg s I t BT); auto.
  - destruct (detect_boundary_spec s W S I) as (s1 & -> & M1 & I1 & C1). cbn [obind]. rewrite ?M1.
    rewrite (wf_In_deref cfg _ t n W Hn). cbn [option_map]. exists s1. split; auto. do 2 f_equal.
    rewrite <- M1. apply (qi_bnd cfg s1 I1 t BT); rewrite M1; auto.
Qed.

Lemma flag_true (m : mesh) t a : wf cfg m -> flag cfg m t a = true -> t <> facet_tag (cfg_cell cfg) ->
  exists f, coflag cfg m f = true /\ bounded_by m (facet_tag (cfg_cell cfg)) f t a.
Proof.
  intros W H N. unfold flag in H. destruct (tag_eqb _ _) eqn:Z; [apply tag_eqb_eq in Z; congruence|].
  apply existsb_exists in H as (n & Hn & Q). apply andb_true_iff in Q as [Q1 Q2]. exists (n_addr n). split; auto.
  exists (n_el n). split; [now apply (wf_In_deref cfg)|]. now apply memb_In.
Qed.
Lemma flag_true' (m : mesh) t a f : wf cfg m -> t <> facet_tag (cfg_cell cfg) -> coflag cfg m f = true ->
  bounded_by m (facet_tag (cfg_cell cfg)) f t a -> flag cfg m t a = true.
Proof.
  intros W N C (e & D & Hb). unfold flag. destruct (tag_eqb _ _) eqn:Z; [apply tag_eqb_eq in Z; congruence|].
  apply deref_In in D as (n & Hn & <- & <-). apply existsb_exists. exists n. split; auto. rewrite C. now apply memb_In.
Qed.

(** ** Every history *)
Lemma qinv_fresh (m : mesh) : (forall t, m_nodes m t = []) -> qinv cfg (fresh_caches m).
Proof.
  intros H. constructor; intros; simpl; split; try lia; intros _ n Hn; rewrite H in Hn; easy.
Qed.

Lemma qreach_inv (s : qstate Pt) : qreach cfg s -> ereach cfg (q_mesh s) /\ qinv cfg s.
Proof.
  intros HR. induction HR as [|s o s' HR [IH1 IH2] HV HS].
  - split; [constructor|now apply qinv_fresh].
  - pose proof (ereach_wf cfg _ IH1) as W. pose proof (ereach_simple cfg _ IH1) as S.
    destruct o as [o|c bt ct b|c t k a|t a]; cbn [qstep valid_qop] in HS, HV.
    + unfold mesh_op in HS. destruct (step cfg (q_mesh s) o) as [m'|] eqn:E; [|easy]. cbn [option_map] in HS. inversion HS; subst s'; clear HS.
      assert (R' : ereach cfg m') by (eapply ereach_step; eauto).
      assert (EC : o = OClear \/ o <> OClear) by (destruct o; auto; right; discriminate).
      destruct EC as [->|NC].
      * cbn. cbn [step] in E. inversion E; subst m'. split; auto. now apply qinv_fresh.
      * assert (CC : m_cc (q_mesh s) < m_cc m') by (eapply step_cc; eauto).
        assert (Q : qinv cfg (mkQ m' (q_cob s) (q_nb s) (q_bnd s))).
        { constructor; cbn [q_mesh q_cob q_nb q_bnd].
          - intros x y. destruct (qi_cob cfg s IH2 x y) as [X _]. split; [lia|intros; lia].
          - intros x y. destruct (qi_nb cfg s IH2 x y) as [X _]. split; [lia|intros; lia].
          - intros x Hx. destruct (qi_bnd cfg s IH2 x Hx) as [X _]. split; [lia|intros; lia]. }
        destruct o; (split; [exact R'|]); try exact Q. easy.
    + apply live_is_live in HV.
      destruct (query_cob_spec cfg c s bt ct b W S IH2 HV) as (s1 & E & I1 & M1 & _). rewrite E in HS. inversion HS; subst; simpl in *.
      rewrite M1. auto.
    + apply live_is_live in HV.
      destruct (query_nb_spec cfg c s t k a W S IH2 HV) as (s1 & l & E & _ & I1 & M1). rewrite E in HS. inversion HS; subst; simpl in *.
      rewrite M1. auto.
    + destruct HV as [HB HV]. apply live_is_live in HV.
      destruct (query_bnd_spec s t a W S IH2 HB HV) as (s1 & E & I1 & M1). rewrite E in HS. inversion HS; subst; simpl in *.
      rewrite M1. auto.
Qed.

End QueryBnd.
