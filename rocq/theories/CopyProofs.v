(** Proofs of C23 and C41. *)
From Coq Require Import List Arith Bool Lia.
From Verif Require Import ModelTopo ModelMesh ModelErase ModelQuery ModelCopy SpecMesh SpecErase SpecQuery SpecCopy
  MeshBase MeshInv MeshIds MeshReach MeshWf MeshErase MeshSimple QueryBase QueryBnd QueryProofs CopyBase.
Import ListNotations.

Section Steps.
Context {Pt : Type}.
Lemma ereach_vstep cfg (d d' : @mesh Pt) o : ereach cfg d -> valid_op cfg d o -> step cfg d o = Some d' -> ereach cfg d'.
Proof.
  intros R V E. eapply ereach_step; eauto. destruct o; cbn in *; auto. contradiction.
Qed.

Variable cfg : config.
Variable src : @mesh Pt.
Hypothesis Wsrc : exists cfgs, wf cfgs src.
Hypothesis Psrc : pointed src.
Hypothesis Ssrc : simple src.
Variable Q : @mesh Pt -> Prop.
Hypothesis Qstep : forall d o d', Q d -> valid_op cfg d o -> step cfg d o = Some d' -> Q d'.
Let Qstep' : forall d o d', Q d -> valid_op cfg d o -> o <> OClear -> step cfg d o = Some d' -> Q d' := fun d o d' H V _ => Qstep d o d' H V.
Hypothesis Tv : cfg_cell cfg <> Vertex.

Lemma copy_gen dst P : Q dst -> exists dst' phi, copy cfg src dst P = Some dst' /\ Q dst' /\
  is_copy src dst' (cfg_cell cfg) (filter P (range src (cfg_cell cfg))) phi.
Proof.
  intros HQ. pose proof (cinv_clear cfg src Q (cfg_cell cfg) dst (Qstep dst OClear _ HQ I eq_refl)) as C0. unfold copy.
  assert (G : forall l d vm cs, incl l (range src (cfg_cell cfg)) -> cinv cfg src Q (cfg_cell cfg) d vm cs ->
    exists d' vm', ofold (fun st c => if P c then option_map fst (copy_element cfg src (cfg_cell cfg) st c) else Some st) l (d, vm) = Some (d', vm')
      /\ cinv cfg src Q (cfg_cell cfg) d' vm' (cs ++ filter P l)).
  { induction l as [|c l IH]; intros d vm cs HI C; cbn [ofold filter].
    - exists d, vm. rewrite app_nil_r. auto.
    - destruct (P c) eqn:E; cbn [obind].
      + assert (L : is_live src (cfg_cell cfg) c).
        { destruct Wsrc as (c' & W). assert (In c (range src (cfg_cell cfg))) as H by (apply HI; left; auto). unfold range in H.
          apply in_map_iff in H as (n & <- & Hn). exists (n_el n). now apply (wf_In_deref c'). }
        destruct (copy_element_spec cfg src Wsrc Psrc Ssrc Q Qstep' _ eq_refl Tv d vm cs c C L) as (d1 & vm1 & a & -> & C1 & _).
        cbn [option_map obind fst]. destruct (IH d1 vm1 (cs ++ [c])) as (d2 & vm2 & E2 & C2); auto.
        { intros x Hx. apply HI. right. auto. }
        exists d2, vm2. split; auto. rewrite <- app_assoc in C2. exact C2.
      + apply IH; auto. intros x Hx. apply HI. right. auto. }
  destruct (G _ _ _ _ (incl_refl _) C0) as (d' & vm' & E & C).
  destruct (cinv_copy cfg src Q (cfg_cell cfg) eq_refl Tv d' vm' _ C) as (phi & IC). exists d', phi. split; [exact (f_equal (option_map fst) E)|]. split; auto.
  destruct C as [[] _ _]. auto.
Qed.
End Steps.

Lemma C23_copy_pf : forall Pt cfgs cfgd (src dst : @mesh Pt) (accept : addr -> bool),
  cfg_cell cfgs = cfg_cell cfgd -> cfg_cell cfgd <> Vertex -> ereach cfgs src -> ereach cfgd dst ->
  exists dst' phi, copy cfgd src dst accept = Some dst' /\ ereach cfgd dst' /\
    is_copy src dst' (cfg_cell cfgs) (filter accept (range src (cfg_cell cfgs))) phi.
Proof.
  intros Pt cfgs cfgd src dst P EC TV RS RD. rewrite EC.
  apply (copy_gen cfgd src); auto.
  - exists cfgs. now apply ereach_wf.
  - now apply (ereach_pointed cfgs).
  - now apply (ereach_simple cfgs).
  - intros d o d'. apply ereach_vstep.
Qed.

Lemma C23_copy_reach_pf : forall Pt cfgs cfgd (src dst : @mesh Pt) (accept : addr -> bool),
  cfg_cell cfgs = cfg_cell cfgd -> cfg_cell cfgd <> Vertex -> ereach cfgs src -> reach cfgd dst ->
  exists dst', copy cfgd src dst accept = Some dst' /\ reach cfgd dst'.
Proof.
  intros Pt cfgs cfgd src dst P EC TV RS RD.
  destruct (copy_gen cfgd src) with (Q := fun m : @mesh Pt => reach cfgd m) (dst := dst) (P := P) as (d' & phi & E & R & _); eauto.
  - exists cfgs. now apply ereach_wf.
  - now apply (ereach_pointed cfgs).
  - now apply (ereach_simple cfgs).
  - intros d o d' R V E. econstructor; eauto.
Qed.

Lemma range_live {Pt} (m : @mesh Pt) t c : In c (range m t) -> live m t c.
Proof. auto. Qed.

Lemma extract_gen Pt cfgv cfgh (q : qstate Pt) (hull : @mesh Pt) : let t := cfg_cell cfgh in
  t = facet_tag (cfg_cell cfgv) \/ In t (bnd_types cfgv) -> t <> Vertex -> qreach cfgv q -> ereach cfgh hull ->
  exists q' hull' phi, extract_boundary cfgv cfgh q hull = Some (q', hull') /\ q_mesh q' = q_mesh q /\ ereach cfgh hull' /\
    is_copy (q_mesh q) hull' t (filter (flag cfgv (q_mesh q) t) (range (q_mesh q) t)) phi.
Proof.
  intros t HT TV HR RH. destruct (qreach_inv cfgv q HR) as [ER I0].
  pose proof (ereach_wf cfgv _ ER) as W. pose proof (ereach_simple cfgv _ ER) as S.
  set (m := q_mesh q) in *.
  assert (QS : forall (d : @mesh Pt) o d', ereach cfgh d -> valid_op cfgh d o -> o <> OClear -> step cfgh d o = Some d' -> ereach cfgh d')
    by (intros d o d' X1 X2 _; now apply ereach_vstep).
  assert (WX : exists c, wf c m) by eauto.
  pose proof (ereach_pointed cfgv m ER) as PS.
  pose proof (cinv_clear cfgh m (ereach cfgh) t hull (ereach_vstep cfgh hull _ OClear RH I eq_refl)) as C0.
  assert (LV : forall c, In c (range m t) -> live m t c).
  { intros c. apply range_live. }
  assert (G : forall l q1 d vm cs, incl l (range m t) -> qinv cfgv q1 -> q_mesh q1 = m -> cinv cfgh m (ereach cfgh) t d vm cs ->
    exists q2 d' vm', ofold (fun (r : qstate Pt * (@mesh Pt * vmap)) f =>
        obind (query_bnd cfgv t (fst r) f) (fun qb =>
        if snd qb
        then option_map (fun p => (fst qb, fst p)) (copy_element cfgh (q_mesh (fst qb)) t (snd r) f)
        else Some (fst qb, snd r))) l (q1, (d, vm)) = Some (q2, (d', vm'))
      /\ q_mesh q2 = m /\ cinv cfgh m (ereach cfgh) t d' vm' (cs ++ filter (flag cfgv m t) l)).
  { induction l as [|c l IH]; intros q1 d vm cs HI I1 M1 C; cbn [ofold filter].
    - exists q1, d, vm. rewrite app_nil_r. auto.
    - cbn [fst snd]. assert (Lc : live m t c) by (apply LV, HI; left; auto).
      destruct (query_bnd_spec cfgv q1 t c) as (q2 & EQ & I2 & M2); try rewrite M1; auto.
      rewrite EQ, M1. cbn [obind fst snd].
      assert (HI' : incl l (range m t)) by (intros x Hx; apply HI; right; auto).
      rewrite M1 in M2. destruct (flag cfgv m t c) eqn:FL.
      + apply live_is_live in Lc. rewrite M2.
        destruct (copy_element_spec cfgh m WX PS S (ereach cfgh) QS t eq_refl TV d vm cs c C Lc) as (d1 & vm1 & a & -> & C1 & _).
        cbn [option_map obind fst]. destruct (IH q2 d1 vm1 (cs ++ [c])) as (q3 & d2 & vm2 & E2 & M3 & C2); auto.
        exists q3, d2, vm2. split; auto. split; auto. rewrite <- app_assoc in C2. exact C2.
      + cbn [obind]. apply IH; auto. }
  destruct (G _ _ _ _ _ (incl_refl _) I0 eq_refl C0) as (q2 & d' & vm' & E & M & C).
  destruct (cinv_copy cfgh m (ereach cfgh) t eq_refl TV d' vm' _ C) as (phi & IC).
  exists q2, d', phi. split; [exact (f_equal (option_map (fun r => (fst r, fst (snd r)))) E)|]. split; auto. split; [destruct C as [[] _ _]; auto|exact IC].
Qed.

Lemma C41_extract_boundary_pf : forall Pt cfgv cfgh (q : qstate Pt) (hull : @mesh Pt), let t := cfg_cell cfgh in
  t = facet_tag (cfg_cell cfgv) \/ In t (bnd_types cfgv) -> t <> Vertex ->
  qreach cfgv q -> at_most_two cfgv (q_mesh q) -> ereach cfgh hull ->
  exists q' hull' fs phi, extract_boundary cfgv cfgh q hull = Some (q', hull') /\
    q_mesh q' = q_mesh q /\ ereach cfgh hull' /\
    (exists onb, fs = filter onb (range (q_mesh q) t)) /\
    (forall f, In f fs <-> In f (range (q_mesh q) t) /\ on_boundary cfgv (q_mesh q) t f) /\
    is_copy (q_mesh q) hull' t fs phi.
Proof.
  intros Pt cfgv cfgh q hull t HT TV HR H2 RH. destruct (qreach_inv cfgv q HR) as [ER I0].
  pose proof (ereach_wf cfgv _ ER) as W. pose proof (ereach_simple cfgv _ ER) as S.
  destruct (extract_gen Pt cfgv cfgh q hull HT TV HR RH) as (q2 & d' & phi & E & M & RD & IC). fold t in IC.
  exists q2, d', (filter (flag cfgv (q_mesh q) t) (range (q_mesh q) t)), phi.
  split; auto. split; auto. split; auto. split; [eauto|]. split; [|exact IC].
  intros f. rewrite filter_In. split; intros [Hf X]; split; auto.
  - assert (Lf : live (q_mesh q) t f) by (apply range_live; auto). assert (Lf' := Lf). apply live_is_live in Lf'.
    destruct (C16_boundary_exact_pf Pt cfgv q t f HR HT Lf' H2) as (q3 & r & E3 & _ & B). apply B.
    destruct (query_bnd_spec cfgv q t f W S I0 HT Lf) as (q4 & E4 & _). congruence.
  - assert (Lf : live (q_mesh q) t f) by (apply range_live; auto). assert (Lf' := Lf). apply live_is_live in Lf'.
    destruct (C16_boundary_exact_pf Pt cfgv q t f HR HT Lf' H2) as (q3 & r & E3 & _ & B). apply B in X.
    destruct (query_bnd_spec cfgv q t f W S I0 HT Lf) as (q4 & E4 & _). congruence.
Qed.

Lemma C41_extract_facets_parity_pf : forall Pt cfgv cfgh (q : qstate Pt) (hull : @mesh Pt), let t := cfg_cell cfgh in
  t = facet_tag (cfg_cell cfgv) -> t <> Vertex -> qreach cfgv q -> ereach cfgh hull ->
  exists q' hull' fs phi, extract_boundary cfgv cfgh q hull = Some (q', hull') /\
    (exists onb, fs = filter onb (range (q_mesh q) t)) /\
    (forall f n, In f (range (q_mesh q) t) -> cell_count cfgv (q_mesh q) f n -> (In f fs <-> Nat.odd n = true)) /\
    is_copy (q_mesh q) hull' t fs phi.
Proof.
  intros Pt cfgv cfgh q hull t HT TV HR RH. destruct (qreach_inv cfgv q HR) as [ER I0].
  pose proof (ereach_wf cfgv _ ER) as W. pose proof (ereach_simple cfgv _ ER) as S.
  destruct (extract_gen Pt cfgv cfgh q hull (or_introl HT) TV HR RH) as (q2 & d' & phi & E & M & RD & IC). fold t in IC.
  exists q2, d', (filter (flag cfgv (q_mesh q) t) (range (q_mesh q) t)), phi.
  split; auto. split; [eauto|]. split; [|exact IC]. intros f n Hf CC. rewrite filter_In.
  assert (Lf : live (q_mesh q) t f) by (apply range_live; auto). assert (Lf' := Lf). apply live_is_live in Lf'.
  destruct (query_bnd_spec cfgv q t f W S I0 (or_introl HT) Lf) as (q4 & E4 & _).
  rewrite HT in Lf'. destruct (C16_facet_parity_pf Pt cfgv q f n HR Lf' CC) as (q3 & E3). rewrite <- HT in E3.
  rewrite E3 in E4. inversion E4. tauto.
Qed.
