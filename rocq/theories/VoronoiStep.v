(** One step of the loop over the triangles. *)
From Coq Require Import Reals List Arith Bool Lia Lra Permutation.
From Verif Require Import ModelTopo ModelMesh ModelErase ModelQuery ModelGeom ModelVolume ModelDistance ModelSurface ModelVoronoi
  SpecMesh SpecErase SpecQuery SpecCopy SpecRefine SpecGeom SpecDistance.
From Verif Require Import MeshBase MeshInv MeshWf MeshErase MeshSimple MeshProofs CopyBase QueryBase QueryProofs VolumeProofs CenterProofs DistanceProofs.
From Verif Require Import RefineMeshLoop VoronoiGeom VoronoiUpd VoronoiTri VoronoiMesh.
Import ListNotations.
Local Open Scope R_scope.

Lemma dist_sq_sq a b : dist_sq 2 a b = sq a b.
Proof. unfold dist_sq, sq. cbn [seq map]. rewrite !Rsum_cons, Rsum_nil. ring. Qed.
Lemma circumcenter_centered p0 p1 p2 : cr p0 p1 p2 <> 0 -> exists C, circumcenter_tri2 p0 p1 p2 = Some C /\ centered C p0 p1 p2.
Proof.
  intros N. unfold circumcenter_tri2.
  assert (E : forall a b c : point, 2 * (a 0%nat * (b 1%nat - c 1%nat) + b 0%nat * (c 1%nat - a 1%nat) + c 0%nat * (a 1%nat - b 1%nat)) = 2 * cr a b c) by (intros; unfold cr; ring).
  rewrite E. destruct (Req_EM_T (2 * cr p0 p1 p2) 0) as [F|F]; [lra|]. eexists. split; [reflexivity|]. split; [exact N|].
  unfold sq. unfold cr in N. unfold cr. split; field; exact N.
Qed.
Lemma local_gamma p0 p1 p2 C : cr p0 p1 p2 <> 0 -> local_coordinates C p0 p1 p2 = Some (gamma p0 p2 p1 C, gamma p0 p1 p2 C).
Proof.
  intros N. unfold local_coordinates, psub. destruct (Req_EM_T _ 0) as [E|_]; [exfalso; apply N; unfold cr; lra|]. f_equal. f_equal; unfold gamma.
  - replace (cr p0 p2 C) with (- ((p2 1%nat - p0 1%nat) * (C 0%nat - p0 0%nat) - (p2 0%nat - p0 0%nat) * (C 1%nat - p0 1%nat))) by (unfold cr; ring).
    replace (cr p0 p2 p1) with (- cr p0 p1 p2) by (unfold cr; ring). change ((p1 0%nat - p0 0%nat) * (p2 1%nat - p0 1%nat) - (p1 1%nat - p0 1%nat) * (p2 0%nat - p0 0%nat)) with (cr p0 p1 p2). field. exact N.
Qed.

(** The interface that the edge from [u] to [w] gets, and the third point is [z]. *)
Definition iface (C u w z : point) : R := gamma u w z C * Rabs (cr u w z) / sqrt (sq u w).
Lemma iface_swap C u w z : cr u w z <> 0 -> iface C u w z = iface C w u z.
Proof. intros N. unfold iface. now rewrite (gamma_sym u w z C N), (abs_cr_swap u w z), (sq_sym u w). Qed.

Section Step.
Variable cfg : config.
Variable m : @mesh point.
Hypothesis R : reach cfg m.
Hypothesis K : cfg_keep cfg Line = true.

Definition lonely (h c : addr) : Prop := forall x, bounded_by m Triangle x Line h -> x = c.
Lemma other_cell_spec q c e h q' l : qreach cfg q -> q_mesh q = m -> deref m Triangle c = Some e -> In h (boundary_of e Line) ->
  query_cob true Line Triangle q h = Some (q', l) ->
  exists other, other_cell m e l = Some other /\
    match other with Some o => o <> c /\ is_live m Triangle o /\ ~ lonely h c | None => lonely h c end.
Proof.
  intros Q M D I E. pose proof (reach_wf cfg m R) as W.
  assert (L : is_live m Line h).
  { apply deref_In in D as (n & Hn & _ & <-). apply live_is_live. eapply boundary_live; eauto. }
  rewrite <- M in L. destruct (C14_coboundary_exact_pf point cfg q true Line Triangle h Q L) as (q1 & l1 & E1 & _ & (_ & X)). rewrite E in E1. injection E1 as <- <-. rewrite M in X.
  assert (Y : exists xs, omap (fun x => option_map (fun f => (x, e_id f)) (deref m Triangle x)) l = Some xs /\ Forall2 (fun x y => fst y = x /\ id_at m Triangle x = Some (snd y)) l xs).
  { assert (LL : forall x, In x l -> is_live m Triangle x) by (intros x HI; apply X in HI as (f & Df & _); now exists f).
    clear - LL. induction l as [|x l IH]; [exists []; split; [reflexivity|constructor]|]. destruct IH as (xs & E1 & E2); [intros; apply LL; now right|].
    destruct (LL x (or_introl eq_refl)) as (f & Df). exists ((x, e_id f) :: xs). cbn [omap]. rewrite Df. cbn [option_map obind]. rewrite E1. split; [reflexivity|].
    constructor; auto. cbn. split; auto. unfold id_at. now rewrite Df. }
  destruct Y as (xs & EO & F). unfold other_cell. rewrite EO. cbn [option_map]. eexists. split; [reflexivity|].
  assert (IC : id_at m Triangle c = Some (e_id e)) by (unfold id_at; now rewrite D).
  destruct (find (fun x => negb (Nat.eqb (snd x) (e_id e))) xs) as [[o i]|] eqn:FD; cbn [option_map fst].
  - apply find_some in FD as [FI FE]. apply negb_true_iff, Nat.eqb_neq in FE. cbn [snd] in FE.
    assert (IN : exists x, In x l /\ fst (o, i) = x /\ id_at m Triangle x = Some i).
    { clear - F FI. induction F as [|x y l xs H F IH]; [destruct FI|]. destruct FI as [->|FI]; [exists x; destruct H; split; [now left|auto]|].
      destruct (IH FI) as (z & Z1 & Z2). exists z. split; [now right|auto]. }
    destruct IN as (x & HI & HX & HID). cbn in HX. subst x.
    assert (NE : o <> c) by (intros ->; congruence). apply X in HI. split; auto. split.
    + destruct HI as (f & Df & _). now exists f.
    + intros LO. apply NE, LO, HI.
  - intros x HX. apply X in HX. assert (IX : exists y, In y xs /\ fst y = x /\ id_at m Triangle x = Some (snd y)).
    { clear - F HX. induction F as [|z y l xs H F IH]; [destruct HX|]. destruct HX as [->|HX]; [exists y; destruct H; split; [now left|auto]|].
      destruct (IH HX) as (z' & Z1 & Z2). exists z'. split; [now right|auto]. }
    destruct IX as (y & HY & _ & HID). pose proof (find_none _ _ FD y HY) as FN. apply negb_false_iff, Nat.eqb_eq in FN. rewrite FN in HID.
    eapply id_at_inj; eauto.
Qed.

(** The records of one triangle. *)
Definition edge_i (c : addr) (C : point) (r : share_rec) (h : addr) (pu pw z : point) : Prop :=
  (gamma pu pw z C < 0 /\ lonely h c /\ r_i r = 0) \/ (~ (gamma pu pw z C < 0 /\ lonely h c) /\ r_i r = iface C pu pw z).
Definition is_open (c : addr) (C : point) (h : addr) (pu pw z : point) : Prop := gamma pu pw z C < 0 /\ lonely h c.
Record tri_rs (c : addr) (e : @element point) (rs : list share_rec) (closed : Prop) : Prop := mkTri {
  tr_ex : exists v0 v1 v2 p0 p1 p2 h0 h1 h2 C r0 r1 r2,
    e_verts e = [v0; v1; v2] /\ cell_points m e = Some [p0; p1; p2] /\ boundary_of e Line = [h0; h1; h2] /\ centered C p0 p1 p2 /\
    rs = [r0; r1; r2] /\ r_h r0 = h0 /\ r_h r1 = h1 /\ r_h r2 = h2 /\
    Forall (fun r => In (r_u r) (e_verts e) /\ In (r_w r) (e_verts e)) rs /\
    Rsum (map both rs) = Rabs (cr p0 p1 p2) / 2 /\
    edge_i c C r0 h0 p0 p1 p2 /\ edge_i c C r1 h1 p0 p2 p1 /\ edge_i c C r2 h2 p1 p2 p0 /\
    (closed <-> ~ is_open c C h0 p0 p1 p2 /\ ~ is_open c C h1 p0 p2 p1 /\ ~ is_open c C h2 p1 p2 p0) /\
    (closed -> r0 = full_share h0 v0 v1 p0 p1 p2 C /\ r1 = full_share h1 v0 v2 p0 p2 p1 C /\ r2 = full_share h2 v1 v2 p1 p2 p0 C)
}.

Lemma not_open_pos c C h pu pw z : 0 <= gamma pu pw z C -> ~ is_open c C h pu pw z.
Proof. intros H [H1 _]. lra. Qed.
Lemma edge_i_full c C h u w pu pw z : ~ is_open c C h pu pw z -> edge_i c C (full_share h u w pu pw z C) h pu pw z.
Proof. intros H. right. split; [exact H|]. unfold full_share, iface. reflexivity. Qed.
Lemma edge_i_open c C h p a P A B : cr P A B <> 0 -> 0 < gamma P A B C -> edge_i c C (open_share C h p a P A B) h P A B.
Proof. intros N H. right. split; [intros [H1 _]; lra|]. reflexivity. Qed.
Lemma edge_i_swap c C r h pu pw z : cr pu pw z <> 0 -> edge_i c C r h pu pw z -> edge_i c C r h pw pu z.
Proof. intros N. unfold edge_i. rewrite (gamma_sym pu pw z C N), (iface_swap C pu pw z N). auto. Qed.
(** A triangle with the circumcenter behind the edge from [A] to [B]. *)
Lemma cut_case q1 c e C p a b hPA hPB hAB P A B lPA lPB lAB : qreach cfg q1 -> q_mesh q1 = m -> deref m Triangle c = Some e ->
  In hAB (boundary_of e Line) -> centered C P A B -> alpha P A B C < 0 -> a <> p -> b <> p -> hPA <> hAB -> hPB <> hAB ->
  ends lPA (p, P) (a, A) -> ends lPB (p, P) (b, B) -> ends lAB (a, A) (b, B) ->
  exists q2 l other a' b' pa pb across uPA uPB uAB,
    query_cob true Line Triangle q1 hAB = Some (q2, l) /\ other_cell m e l = Some other /\ qreach cfg q2 /\ q_mesh q2 = m /\
    lAB = [(a', pa); (b', pb)] /\ line_intersection P C pa pb = Some across /\
    cut_edge_updates c other C hAB pa pb across p (hPA, lPA) = Some uPA /\
    cut_edge_updates c other C hAB pa pb across p (hPB, lPB) = Some uPB /\
    cut_edge_updates c other C hAB pa pb across p (hAB, lAB) = Some uAB /\
    0 < gamma P A B C /\ 0 < gamma P B A C /\
    ((~ lonely hAB c /\ edge_result (is_live m Triangle) True uPA (full_share hPA p a P A B C) /\
      edge_result (is_live m Triangle) True uPB (full_share hPB p b P B A C) /\ edge_result (is_live m Triangle) True uAB (full_share hAB a b A B P C)) \/
     (lonely hAB c /\ edge_result (is_live m Triangle) False uPA (open_share C hPA p a P A B) /\
      edge_result (is_live m Triangle) False uPB (open_share C hPB p b P B A) /\ edge_result (is_live m Triangle) False uAB (mkShare hAB a b 0 0 0) /\
      both (open_share C hPA p a P A B) + both (open_share C hPB p b P B A) + 0 = Rabs (cr P A B) / 2)).
Proof.
  intros Q M D HI CC OUT NA NB HA HB EA EB EAB.
  assert (LC : is_live m Triangle c) by now exists e.
  assert (L : is_live (q_mesh q1) Line hAB). { rewrite M. pose proof D as D'. apply deref_In in D' as (n & Hn & _ & <-). apply live_is_live. eapply boundary_live; eauto. now apply (RefineMeshLoop.reach_wf cfg). }
  destruct (C14_coboundary_exact_pf point cfg q1 true Line Triangle hAB Q L) as (q2 & l & EQ & MQ & _).
  destruct (other_cell_spec q1 c e hAB q2 l Q M D HI EQ) as (other & EO & OS).
  assert (Q2 : qreach cfg q2) by (apply (qreach_step cfg q1 (QCob true Line Triangle hAB)); [exact Q|exact L|cbn [qstep]; rewrite EQ; reflexivity]).
  destruct (cut_parts c other C p a b hPA hPB hAB P A B lPA lPB lAB CC OUT NA NB HA HB EA EB EAB) as (a' & b' & pa & pb & across & EL & EX & u1 & u2 & u0 & F1 & R1 & F2 & R2 & F0 & R0).
  pose proof (cut_area other C p a b hPA hPB hAB P A B CC OUT) as AR.
  destruct CC as (N & Q1 & Q2'). destruct (obtuse P A B C N Q1 Q2' OUT) as [PB PA].
  assert (GB : gamma P B A C = beta P A B C). { unfold gamma, beta. replace (cr P B C) with (- cr P C B) by (unfold cr; ring). replace (cr P B A) with (- cr P A B) by (unfold cr; ring). field. exact N. }
  exists q2, l, other, a', b', pa, pb, across, u1, u2, u0. do 9 (split; [first [assumption|congruence]|]). split; [exact PA|]. split; [rewrite GB; exact PB|].
  unfold sh_PA, sh_PB, sh_AB in *. destruct other as [o|].
  - left. destruct OS as (NO & LO & NL). split; [exact NL|].
    assert (MO : forall k, okc c (Some o) k -> is_live m Triangle k) by (unfold okc; intros k [->|E]; [auto|congruence]).
    assert (MM : True -> Some o <> None) by discriminate.
    split; [|split]; (eapply er_mono; [exact MO|exact MM|assumption]).
  - right. split; [exact OS|]. assert (MO : forall k, okc c None k -> is_live m Triangle k) by (unfold okc; intros k [->|E]; [auto|congruence]).
    assert (MM : False -> @None addr <> None) by contradiction. repeat (split; [eapply er_mono; [exact MO|exact MM|assumption]|]).
    unfold both at 3 in AR. cbn [r_xu r_xw] in AR. rewrite <- AR. lra.
Qed.

Lemma triangle_result q1 s1 c e : qreach cfg q1 -> q_mesh q1 = m -> deref m Triangle c = Some e ->
  (forall p0 p1 p2, cell_points m e = Some [p0; p1; p2] -> cr p0 p1 p2 <> 0) ->
  exists q2 uss rs closed, triangle_step (q1, s1) c = Some (q2, apply_updates true (List.concat uss) s1) /\ qreach cfg q2 /\ q_mesh q2 = m /\
    Forall2 (edge_result (is_live m Triangle) closed) uss rs /\ tri_rs c e rs closed.
Proof.
  intros Q M D ND.
  destruct (tri_data cfg m R K c e D) as (v0 & v1 & v2 & p0 & p1 & p2 & h0 & h1 & h2 & l0 & l1 & l2 & EV & EBD & CP & CO & ED & NV & NH & N0 & N1 & N2 & _).
  specialize (ND p0 p1 p2 CP). destruct (circumcenter_centered p0 p1 p2 ND) as (C & EC & CC).
  assert (LC : is_live m Triangle c) by now exists e.
  assert (V01 : v0 <> v1 /\ v0 <> v2 /\ v1 <> v2) by (inversion NV as [|? ? I1 NV1]; subst; inversion NV1 as [|? ? I2 _]; subst; cbn in *; repeat split; intros ->; tauto).
  assert (H01 : h0 <> h1 /\ h0 <> h2 /\ h1 <> h2) by (inversion NH as [|? ? I1 NV1]; subst; inversion NV1 as [|? ? I2 _]; subst; cbn in *; repeat split; intros ->; tauto).
  destruct V01 as (V01 & V02 & V12), H01 as (H01 & H02 & H12).
  pose proof (bary_sum p0 p1 p2 C ND) as BS. rewrite alpha_gamma in BS.
  assert (GB : beta p0 p1 p2 C = gamma p0 p2 p1 C). { unfold gamma, beta. replace (cr p0 p2 C) with (- cr p0 C p2) by (unfold cr; ring). replace (cr p0 p2 p1) with (- cr p0 p1 p2) by (unfold cr; ring). field. exact ND. }
  rewrite GB in BS. clear GB.
  assert (C021 : centered C p0 p2 p1) by (destruct CC as (? & ? & ?); split; [intros E; apply ND; unfold cr in *; lra|split; congruence]).
  assert (C120 : centered C p1 p2 p0) by (apply centered_rot; exact CC).
  assert (C201 : centered C p2 p0 p1) by (apply centered_rot; exact C120).
  assert (C102 : centered C p1 p0 p2) by (apply centered_swap; exact CC).
  assert (D210 : cr p2 p1 p0 <> 0) by (intros E; apply ND; unfold cr in *; lra).
  pose proof (proj1 C021) as D021. pose proof (proj1 C120) as D120. pose proof (proj1 C201) as D201. pose proof (proj1 C102) as D102.
  assert (A021 : Rabs (cr p0 p2 p1) = Rabs (cr p0 p1 p2)) by (replace (cr p0 p2 p1) with (- cr p0 p1 p2) by (unfold cr; ring); apply Rabs_Ropp).
  assert (A120 : Rabs (cr p1 p2 p0) = Rabs (cr p0 p1 p2)) by (f_equal; unfold cr; ring).
  assert (A201 : Rabs (cr p2 p0 p1) = Rabs (cr p0 p1 p2)) by (f_equal; unfold cr; ring).
  assert (A102 : Rabs (cr p1 p0 p2) = Rabs (cr p0 p1 p2)) by (symmetry; apply abs_cr_swap).
  assert (FA : Rsum (map both [full_share h0 v0 v1 p0 p1 p2 C; full_share h1 v0 v2 p0 p2 p1 C; full_share h2 v1 v2 p1 p2 p0 C]) = Rabs (cr p0 p1 p2) / 2).
  { cbn [map]. rewrite !Rsum_cons, Rsum_nil. unfold both, full_share. cbn [r_xu r_xw]. rewrite A021, A120. replace (gamma p1 p2 p0 C) with (1 - gamma p0 p2 p1 C - gamma p0 p1 p2 C) by lra. field. }
  unfold triangle_step. cbn [fst snd]. rewrite M, D. cbn [obind]. rewrite CO, ED. cbn [obind fst snd]. rewrite EC. cbn [obind]. rewrite (local_gamma p0 p1 p2 C ND). cbn [obind fst snd].
  unfold cut_edge.
  (* the records if everything is counted *)
  assert (FULL : forall uss (closed : Prop), closed -> Forall2 (edge_result (is_live m Triangle) closed) uss [full_share h0 v0 v1 p0 p1 p2 C; full_share h1 v0 v2 p0 p2 p1 C; full_share h2 v1 v2 p1 p2 p0 C] ->
     ~ is_open c C h0 p0 p1 p2 /\ ~ is_open c C h1 p0 p2 p1 /\ ~ is_open c C h2 p1 p2 p0 ->
     tri_rs c e [full_share h0 v0 v1 p0 p1 p2 C; full_share h1 v0 v2 p0 p2 p1 C; full_share h2 v1 v2 p1 p2 p0 C] closed).
  { intros uss closed HC _ (O0 & O1 & O2). constructor. exists v0, v1, v2, p0, p1, p2, h0, h1, h2, C. do 3 eexists.
    split; [exact EV|]. split; [exact CP|]. split; [exact EBD|]. split; [exact CC|]. split; [reflexivity|]. split; [reflexivity|]. split; [reflexivity|]. split; [reflexivity|].
    split. { rewrite EV. unfold full_share. repeat (constructor; [cbn [r_u r_w In]; tauto|]). constructor. }
    split; [exact FA|]. split; [now apply edge_i_full|]. split; [now apply edge_i_full|]. split; [now apply edge_i_full|]. split; [tauto|]. auto. }
  (* the records of a triangle whose cut edge is at the boundary *)
  assert (OPEN : forall uss r0 r1 r2 hc a b z, Forall2 (edge_result (is_live m Triangle) False) uss [r0; r1; r2] -> 
     (hc, a, b, z) = (h0, p0, p1, p2) \/ (hc, a, b, z) = (h1, p0, p2, p1) \/ (hc, a, b, z) = (h2, p1, p2, p0) -> is_open c C hc a b z ->
     r_h r0 = h0 -> r_h r1 = h1 -> r_h r2 = h2 -> Forall (fun r => In (r_u r) [v0; v1; v2] /\ In (r_w r) [v0; v1; v2]) [r0; r1; r2] ->
     Rsum (map both [r0; r1; r2]) = Rabs (cr p0 p1 p2) / 2 -> edge_i c C r0 h0 p0 p1 p2 -> edge_i c C r1 h1 p0 p2 p1 -> edge_i c C r2 h2 p1 p2 p0 ->
     tri_rs c e [r0; r1; r2] False).
  { intros uss r0 r1 r2 hc a b z _ HC HO E0 E1 E2 FI FS I0 I1 I2. constructor. exists v0, v1, v2, p0, p1, p2, h0, h1, h2, C, r0, r1, r2. rewrite <- EV in FI.
    split; [exact EV|]. split; [exact CP|]. split; [exact EBD|]. split; [exact CC|]. split; [reflexivity|]. repeat (split; [assumption|]). split; [|tauto].
    split; [tauto|]. intros (O0 & O1 & O2). destruct HC as [HC|[HC|HC]]; injection HC as -> -> -> ->; auto. }
  destruct (Rlt_dec (gamma p0 p1 p2 C) 0) as [G2|G2]; [|destruct (Rlt_dec (gamma p0 p2 p1 C) 0) as [G1|G1]; [|destruct (Rlt_dec 1 (gamma p0 p2 p1 C + gamma p0 p1 p2 C)) as [G0|G0]]].
  - (* edge 0 *)
    cbn [nth_error obind Nat.sub fst snd]. assert (HI : In h0 (boundary_of e Line)) by (rewrite EBD; cbn; auto).
    assert (OUT : alpha p2 p0 p1 C < 0) by (rewrite alpha_gamma; exact G2).
    destruct (cut_case q1 c e C v2 v0 v1 h1 h2 h0 p2 p0 p1 l1 l2 l0) as (q2 & l & other & a' & b' & pa & pb & across & u1 & u2 & u0 & EQ & EO & Q2 & MQ & EL & EX & F1 & F2 & F0 & PA & PB & HH); auto using ends_sym.
    rewrite EQ. cbn [obind snd fst]. rewrite EO. cbn [obind].
    unfold cut_updates. cbn [snd fst]. rewrite EL. rewrite EL in F0. cbn beta iota. rewrite EX. cbn [obind omap]. rewrite F0. cbn [obind]. rewrite F1. cbn [obind]. rewrite F2. cbn [obind option_map].
    rewrite (gamma_sym p2 p0 p1 C D201) in PA. rewrite (gamma_sym p2 p1 p0 C D210) in PB.
    destruct HH as [(NL & R1 & R2 & R0)|(LO & R1 & R2 & R0 & AR)].
    + exists q2, [u0; u1; u2], [full_share h0 v0 v1 p0 p1 p2 C; full_share h1 v0 v2 p0 p2 p1 C; full_share h2 v1 v2 p1 p2 p0 C], True.
      split; [reflexivity|]. split; [exact Q2|]. split; [exact MQ|].
      assert (FF : Forall2 (edge_result (is_live m Triangle) True) [u0; u1; u2] [full_share h0 v0 v1 p0 p1 p2 C; full_share h1 v0 v2 p0 p2 p1 C; full_share h2 v1 v2 p1 p2 p0 C]).
      { constructor; [exact R0|]. constructor; [eapply er_ext; [|exact R1]; intros q x; now apply full_share_swap|]. constructor; [eapply er_ext; [|exact R2]; intros q x; now apply full_share_swap|constructor]. }
      split; [exact FF|]. apply (FULL _ True Logic.I FF). split; [intros [_ ?]; auto|]. split; apply not_open_pos; lra.
    + exists q2, [u0; u1; u2], [mkShare h0 v0 v1 0 0 0; open_share C h1 v2 v0 p2 p0 p1; open_share C h2 v2 v1 p2 p1 p0], False.
      split; [reflexivity|]. split; [exact Q2|]. split; [exact MQ|].
      assert (FF : Forall2 (edge_result (is_live m Triangle) False) [u0; u1; u2] [mkShare h0 v0 v1 0 0 0; open_share C h1 v2 v0 p2 p0 p1; open_share C h2 v2 v1 p2 p1 p0]) by (constructor; [exact R0|constructor; [exact R1|constructor; [exact R2|constructor]]]).
      split; [exact FF|]. apply (OPEN _ _ _ _ h0 p0 p1 p2 FF); [left; reflexivity| |reflexivity|reflexivity|reflexivity| | | | |].
      * split; auto.
      * repeat (constructor; [cbn [r_u r_w open_share In]; tauto|]). constructor.
      * cbn [map]. rewrite !Rsum_cons, Rsum_nil. unfold both at 1. cbn [r_xu r_xw]. rewrite <- A201, <- AR. lra.
      * left. split; [exact G2|]. split; [exact LO|reflexivity].
      * apply edge_i_swap; [exact D201|]. apply edge_i_open; [exact D201|]. rewrite gamma_sym by exact D201. exact PA.
      * apply edge_i_swap; [exact D210|]. apply edge_i_open; [exact D210|]. rewrite gamma_sym by exact D210. exact PB.
  - (* edge 1 *)
    cbn [nth_error obind Nat.sub fst snd]. assert (HI : In h1 (boundary_of e Line)) by (rewrite EBD; cbn; auto).
    assert (OUT : alpha p1 p0 p2 C < 0) by (rewrite alpha_gamma; exact G1).
    destruct (cut_case q1 c e C v1 v0 v2 h0 h2 h1 p1 p0 p2 l0 l2 l1) as (q2 & l & other & a' & b' & pa & pb & across & u0 & u2 & u1 & EQ & EO & Q2 & MQ & EL & EX & F0 & F2 & F1 & PA & PB & HH); auto using ends_sym.
    rewrite EQ. cbn [obind snd fst]. rewrite EO. cbn [obind].
    unfold cut_updates. cbn [snd fst]. rewrite EL. rewrite EL in F1. cbn beta iota. rewrite EX. cbn [obind omap]. rewrite F0. cbn [obind]. rewrite F1. cbn [obind]. rewrite F2. cbn [obind option_map].
    rewrite (gamma_sym p1 p0 p2 C D102) in PA.
    destruct HH as [(NL & R0 & R2 & R1)|(LO & R0 & R2 & R1 & AR)].
    + exists q2, [u0; u1; u2], [full_share h0 v0 v1 p0 p1 p2 C; full_share h1 v0 v2 p0 p2 p1 C; full_share h2 v1 v2 p1 p2 p0 C], True.
      split; [reflexivity|]. split; [exact Q2|]. split; [exact MQ|].
      assert (FF : Forall2 (edge_result (is_live m Triangle) True) [u0; u1; u2] [full_share h0 v0 v1 p0 p1 p2 C; full_share h1 v0 v2 p0 p2 p1 C; full_share h2 v1 v2 p1 p2 p0 C]).
      { constructor; [eapply er_ext; [|exact R0]; intros q x; now apply full_share_swap|]. constructor; [exact R1|]. constructor; [exact R2|constructor]. }
      split; [exact FF|]. apply (FULL _ True Logic.I FF). split; [apply not_open_pos; lra|]. split; [intros [_ ?]; auto|]. apply not_open_pos; lra.
    + exists q2, [u0; u1; u2], [open_share C h0 v1 v0 p1 p0 p2; mkShare h1 v0 v2 0 0 0; open_share C h2 v1 v2 p1 p2 p0], False.
      split; [reflexivity|]. split; [exact Q2|]. split; [exact MQ|].
      assert (FF : Forall2 (edge_result (is_live m Triangle) False) [u0; u1; u2] [open_share C h0 v1 v0 p1 p0 p2; mkShare h1 v0 v2 0 0 0; open_share C h2 v1 v2 p1 p2 p0]) by (constructor; [exact R0|constructor; [exact R1|constructor; [exact R2|constructor]]]).
      split; [exact FF|]. apply (OPEN _ _ _ _ h1 p0 p2 p1 FF); [right; left; reflexivity| |reflexivity|reflexivity|reflexivity| | | | |].
      * split; auto.
      * repeat (constructor; [cbn [r_u r_w open_share In]; tauto|]). constructor.
      * cbn [map]. rewrite !Rsum_cons, Rsum_nil. unfold both at 2. cbn [r_xu r_xw]. rewrite <- A102, <- AR. lra.
      * apply edge_i_swap; [exact D102|]. apply edge_i_open; [exact D102|]. rewrite gamma_sym by exact D102. exact PA.
      * left. split; [exact G1|]. split; [exact LO|reflexivity].
      * apply edge_i_open; [exact D120|]. exact PB.
  - (* edge 2 *)
    cbn [nth_error obind Nat.sub fst snd]. assert (HI : In h2 (boundary_of e Line)) by (rewrite EBD; cbn; auto).
    assert (OUT : alpha p0 p1 p2 C < 0) by (rewrite alpha_gamma; lra).
    destruct (cut_case q1 c e C v0 v1 v2 h0 h1 h2 p0 p1 p2 l0 l1 l2) as (q2 & l & other & a' & b' & pa & pb & across & u0 & u1 & u2 & EQ & EO & Q2 & MQ & EL & EX & F0 & F1 & F2 & PA & PB & HH); auto using ends_sym.
    rewrite EQ. cbn [obind snd fst]. rewrite EO. cbn [obind].
    unfold cut_updates. cbn [snd fst]. rewrite EL. rewrite EL in F2. cbn beta iota. rewrite EX. cbn [obind omap]. rewrite F0. cbn [obind]. rewrite F1. cbn [obind]. rewrite F2. cbn [obind option_map].
    destruct HH as [(NL & R0 & R1 & R2)|(LO & R0 & R1 & R2 & AR)].
    + exists q2, [u0; u1; u2], [full_share h0 v0 v1 p0 p1 p2 C; full_share h1 v0 v2 p0 p2 p1 C; full_share h2 v1 v2 p1 p2 p0 C], True.
      split; [reflexivity|]. split; [exact Q2|]. split; [exact MQ|].
      assert (FF : Forall2 (edge_result (is_live m Triangle) True) [u0; u1; u2] [full_share h0 v0 v1 p0 p1 p2 C; full_share h1 v0 v2 p0 p2 p1 C; full_share h2 v1 v2 p1 p2 p0 C]).
      { constructor; [exact R0|]. constructor; [exact R1|]. constructor; [exact R2|constructor]. }
      split; [exact FF|]. apply (FULL _ True Logic.I FF). split; [apply not_open_pos; lra|]. split; [apply not_open_pos; lra|]. intros [_ ?]; auto.
    + exists q2, [u0; u1; u2], [open_share C h0 v0 v1 p0 p1 p2; open_share C h1 v0 v2 p0 p2 p1; mkShare h2 v1 v2 0 0 0], False.
      split; [reflexivity|]. split; [exact Q2|]. split; [exact MQ|].
      assert (FF : Forall2 (edge_result (is_live m Triangle) False) [u0; u1; u2] [open_share C h0 v0 v1 p0 p1 p2; open_share C h1 v0 v2 p0 p2 p1; mkShare h2 v1 v2 0 0 0]) by (constructor; [exact R0|constructor; [exact R1|constructor; [exact R2|constructor]]]).
      split; [exact FF|]. apply (OPEN _ _ _ _ h2 p1 p2 p0 FF); [right; right; reflexivity| |reflexivity|reflexivity|reflexivity| | | | |].
      * split; [lra|auto].
      * repeat (constructor; [cbn [r_u r_w open_share In]; tauto|]). constructor.
      * cbn [map]. rewrite !Rsum_cons, Rsum_nil. unfold both at 3. cbn [r_xu r_xw]. rewrite <- AR. lra.
      * apply edge_i_open; [exact ND|]. exact PA.
      * apply edge_i_open; [exact D021|]. exact PB.
      * left. split; [lra|]. split; [exact LO|reflexivity].
  - (* inside *)
    destruct (inside_any c C h0 l0 v0 p0 v1 p1 p2 CC) as (u0 & F0 & R0); auto; [lra|].
    destruct (inside_any c C h1 l1 v0 p0 v2 p2 p1 C021) as (u1 & F1 & R1); auto; [lra|].
    destruct (inside_any c C h2 l2 v1 p1 v2 p2 p0 C120) as (u2 & F2 & R2); auto; [lra|].
    unfold center_updates. cbn [omap]. rewrite F0. cbn [obind]. rewrite F1. cbn [obind]. rewrite F2. cbn [obind option_map].
    exists q1, [u0; u1; u2], [full_share h0 v0 v1 p0 p1 p2 C; full_share h1 v0 v2 p0 p2 p1 C; full_share h2 v1 v2 p1 p2 p0 C], True.
    split; [reflexivity|]. split; [exact Q|]. split; [exact M|].
    assert (MO : forall k, c = k -> is_live m Triangle k) by (intros k <-; exact LC).
    assert (FF : Forall2 (edge_result (is_live m Triangle) True) [u0; u1; u2] [full_share h0 v0 v1 p0 p1 p2 C; full_share h1 v0 v2 p0 p2 p1 C; full_share h2 v1 v2 p1 p2 p0 C]).
    { repeat (constructor; [eapply er_mono; [exact MO|intros X; exact X|assumption]|]). constructor. }
    split; [exact FF|]. apply (FULL _ True Logic.I FF). split; [|split]; apply not_open_pos; lra.
Qed.
End Step.
