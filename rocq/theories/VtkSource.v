(** Lemmas for C62 and C63: what the writer takes from the mesh. *)
From Coq Require Import List Arith ZArith Bool Lia Sorted.
From Verif Require Import ModelTopo ModelMesh ModelErase ModelQuery ModelView ModelSegmentation ModelSegment ModelCopy ModelCopySeg ModelXml ModelVtk
  SpecMesh SpecErase SpecQuery SpecSegmentation SpecSegment SpecCopy SpecCopySeg SpecVtk MeshBase MeshInv MeshReach MeshWf MeshErase MeshSimple QueryBase SegmentationBase
  CopyBase CopySegBase ExtractProofs VtkSim.
Import ModelSegmentation ListNotations.
Open Scope nat_scope.

Section Source.
Context {K : Type}.
Variable cfg : config.
Notation pt := (list K).
Notation mesh := (@mesh pt).
Variable m : mesh.
Hypothesis R : reach cfg m.
Variable t : tag.
Hypothesis TV : t <> Vertex.

Let W : wf cfg m := ereach_wf cfg m (reach_ereach cfg m R).

(** ** Maps from ids to handles *)
Definition plt (p q : nat * addr) : Prop := fst p < fst q.
Definition minv (T : tag) (l : list (nat * addr)) : Prop := StronglySorted plt l /\ forall i a, In (i, a) l -> id_at m T a = Some i.

Lemma map_add_spec T i a l : minv T l -> id_at m T a = Some i -> minv T (map_add i a l) /\ forall p, In p (map_add i a l) <-> In p l \/ p = (i, a).
Proof.
  intros [S D] E. assert (G : StronglySorted plt (map_add i a l) /\ forall p, In p (map_add i a l) <-> In p l \/ p = (i, a)).
  { induction S as [|[j b] l S IH F]; cbn [map_add].
    - split; [repeat constructor|]. intros p. cbn. intuition.
    - destruct IH as [IS II]; [intros; apply D; now right|]. destruct (Nat.ltb_spec i j) as [L|L].
      + split; [|cbn; intuition]. constructor; [now constructor|]. constructor; [exact L|]. eapply Forall_impl; [|exact F]. unfold plt. cbn. intros [x y]. cbn. lia.
      + destruct (Nat.ltb_spec j i) as [L'|L'].
        * split. { constructor; auto. apply Forall_forall. intros p Hp. apply II in Hp as [Hp| ->]; [rewrite Forall_forall in F; auto|exact L']. }
          intros p. cbn [In]. rewrite II. tauto.
        * assert (i = j) by lia. subst j. split; [now constructor|]. intros p. split; auto. intros [Hp| ->]; auto. left. f_equal.
          apply (id_at_inj cfg m T b a i W); auto. apply D. now left. }
  destruct G as [G1 G2]. split; auto. split; auto. intros j b H. apply G2 in H as [H|H]; auto. inversion H; subst; auto.
Qed.
Lemma map_put_spec T i a l : minv T l -> id_at m T a = Some i -> minv T (map_put i a l) /\ forall p, In p (map_put i a l) <-> In p l \/ p = (i, a).
Proof.
  intros [S D] E. assert (G : StronglySorted plt (map_put i a l) /\ forall p, In p (map_put i a l) <-> In p l \/ p = (i, a)).
  { induction S as [|[j b] l S IH F]; cbn [map_put].
    - split; [repeat constructor|]. intros p. cbn. intuition.
    - destruct IH as [IS II]; [intros; apply D; now right|]. destruct (Nat.ltb_spec i j) as [L|L].
      + split; [|cbn; intuition]. constructor; [now constructor|]. constructor; [exact L|]. eapply Forall_impl; [|exact F]. unfold plt. cbn. intros [x y]. cbn. lia.
      + destruct (Nat.ltb_spec j i) as [L'|L'].
        * split. { constructor; auto. apply Forall_forall. intros p Hp. apply II in Hp as [Hp| ->]; [rewrite Forall_forall in F; auto|exact L']. }
          intros p. cbn [In]. rewrite II. tauto.
        * assert (i = j) by lia. subst j. assert (b = a) by (apply (id_at_inj cfg m T b a i W); auto; apply D; now left). subst b.
          split; [now constructor|]. intros p. cbn. intuition. }
  destruct G as [G1 G2]. split; auto. split; auto. intros j b H. apply G2 in H as [H|H]; auto. inversion H; subst; auto.
Qed.
Lemma minv_nil T : minv T []. Proof. split; [constructor|intros i a []]. Qed.
Lemma minv_nodup T l : minv T l -> NoDup (map snd l).
Proof.
  intros [S D]. induction S as [|[i a] l S IH F]; cbn; constructor.
  - intros H. apply in_map_iff in H as ((j & b) & E & H). cbn in E. subst b. rewrite Forall_forall in F. specialize (F _ H). unfold plt in F. cbn in F.
    assert (Some i = Some j) by (rewrite <- (D i a), <- (D j a); cbn; auto). injection H0. lia.
  - apply IH. intros j b H. apply D. now right.
Qed.

Lemma cell_verts c e : deref m t c = Some e -> length (e_verts e) = nverts t /\ NoDup (e_verts e) /\ Forall (is_live m Vertex) (e_verts e).
Proof.
  intros D. apply deref_In in D as (n & Hn & _ & <-). destruct (i_verts cfg m [] (reach_inv cfg m R) t n TV Hn) as (A & B & C). split; auto. split; auto.
  apply Forall_forall. intros v Hv. specialize (C v Hv). apply range_deref in C as (e & C). now exists e.
Qed.
Lemma vertex_has_point v : is_live m Vertex v -> exists p, point_at m v = Some p.
Proof.
  intros (e & D). unfold point_at. rewrite D. cbn [obind]. apply deref_In in D as (n & Hn & _ & <-).
  pose proof (ereach_pointed cfg m (reach_ereach cfg m R) n Hn). destruct (e_pt (n_el n)); eauto; congruence.
Qed.

Lemma used_vertices_spec cells : Forall (is_live m t) cells ->
  exists us, used_vertices m t cells = Some us /\ NoDup us /\ forall v, In v us <-> In v (corners m t cells).
Proof.
  intros L. unfold used_vertices.
  set (f := fun u c => obind (deref m t c) (fun e => ofold (fun u v => option_map (fun ev => map_add (e_id ev) v u) (deref m Vertex v)) (e_verts e) u)).
  assert (V : forall vs u, Forall (is_live m Vertex) vs -> minv Vertex u -> exists u', ofold (fun u v => option_map (fun ev => map_add (e_id ev) v u) (deref m Vertex v)) vs u = Some u' /\
    minv Vertex u' /\ forall v, In v (map snd u') <-> In v (map snd u) \/ In v vs).
  { induction vs as [|v vs IH]; intros u Lv M; cbn [ofold]; [exists u; split; auto; split; auto; intros; cbn; tauto|].
    inversion Lv as [|? ? (e & D) Lv']; subst. rewrite D. cbn [option_map obind].
    assert (I : id_at m Vertex v = Some (e_id e)) by (unfold id_at; now rewrite D).
    destruct (map_add_spec Vertex _ _ u M I) as [M1 I1]. destruct (IH _ Lv' M1) as (u' & E & M' & I'). exists u'. split; auto. split; auto.
    intros x. rewrite I'. cbn [In]. rewrite !in_map_iff. split.
    - intros [((j & b) & <- & H)|H]; auto. apply I1 in H as [H|H]; [left; eexists; split; eauto; reflexivity|]. inversion H; subst. cbn. auto.
    - intros [((j & b) & <- & H)|[<-|H]]; auto; left; [exists (j, b)|exists (e_id e, v)]; (split; [reflexivity|apply I1; auto]). }
  assert (G : forall cs u, Forall (is_live m t) cs -> minv Vertex u -> exists u', ofold f cs u = Some u' /\ minv Vertex u' /\
    forall v, In v (map snd u') <-> In v (map snd u) \/ In v (corners m t cs)).
  { induction cs as [|c cs IH]; intros u Lc M; cbn [ofold]; [exists u; split; auto; split; auto; intros; cbn; tauto|].
    inversion Lc as [|? ? (e & D) Lc']; subst. destruct (cell_verts c e D) as (_ & _ & LV). destruct (V _ u LV M) as (u1 & E1 & M1 & I1).
    unfold f at 1. rewrite D. cbn [obind]. rewrite E1. cbn [obind]. destruct (IH u1 Lc' M1) as (u2 & E2 & M2 & I2). exists u2. split; auto. split; auto.
    intros v. rewrite I2, I1. unfold corners. cbn [flat_map]. unfold vertices_at at 2. rewrite D. cbn [option_map]. rewrite in_app_iff. tauto. }
  destruct (G cells [] L (minv_nil Vertex)) as (u & E & M & I). rewrite E. cbn [option_map]. exists (map snd u). split; auto. split; [now apply (minv_nodup Vertex)|].
  intros v. rewrite I. cbn. tauto.
Qed.

Lemma used_cells_spec cells : Forall (is_live m t) cells -> exists cs, used_cells m t cells = Some cs /\ NoDup cs /\ forall c, In c cs <-> In c cells.
Proof.
  intros L. unfold used_cells.
  assert (V : forall vs u, Forall (is_live m t) vs -> minv t u -> exists u', ofold (fun u c => option_map (fun e => map_put (e_id e) c u) (deref m t c)) vs u = Some u' /\
    minv t u' /\ forall v, In v (map snd u') <-> In v (map snd u) \/ In v vs).
  { induction vs as [|v vs IH]; intros u Lv M; cbn [ofold]; [exists u; split; auto; split; auto; intros; cbn; tauto|].
    inversion Lv as [|? ? (e & D) Lv']; subst. rewrite D. cbn [option_map obind].
    assert (I : id_at m t v = Some (e_id e)) by (unfold id_at; now rewrite D).
    destruct (map_put_spec t _ _ u M I) as [M1 I1]. destruct (IH _ Lv' M1) as (u' & E & M' & I'). exists u'. split; auto. split; auto.
    intros x. rewrite I'. cbn [In]. rewrite !in_map_iff. split.
    - intros [((j & b) & <- & H)|H]; auto. apply I1 in H as [H|H]; [left; eexists; split; eauto; reflexivity|]. inversion H; subst. cbn. auto.
    - intros [((j & b) & <- & H)|[<-|H]]; auto; left; [exists (j, b)|exists (e_id e, v)]; (split; [reflexivity|apply I1; auto]). }
  destruct (V cells [] L (minv_nil t)) as (u & E & M & I). rewrite E. cbn [option_map]. exists (map snd u). split; auto. split; [now apply (minv_nodup t)|].
  intros v. rewrite I. cbn. tauto.
Qed.

(** What goes to one file. *)
Record source_piece (cells us cs : list addr) (vq cq : list quantity) (p : @piece K) : Prop := {
  sp_us : forall v, In v us <-> In v (corners m t cells);
  sp_us_nodup : NoDup us;
  sp_cs : forall c, In c cs <-> In c cells;
  sp_cs_nodup : NoDup cs;
  sp_points : Forall2 (fun v q => point_at m v = Some q) us (pc_points p);
  sp_cells : Forall2 (fun c k => exists e, deref m t c = Some e /\ Forall2 (fun v i => nth_error us i = Some v) (e_verts e) k) cs (pc_cells p);
  sp_num : pc_num p = length cs;
  sp_pdata : pc_pdata p = map (array_of us) vq;
  sp_cdata : pc_cdata p = map (array_of cs) cq
}.

Lemma omap_total {A B} (f : A -> option B) (P : A -> B -> Prop) l : (forall x, In x l -> exists y, f x = Some y /\ P x y) -> exists ys, omap f l = Some ys /\ Forall2 P l ys.
Proof.
  induction l as [|x l IH]; intros H; cbn [omap]; [exists []; split; auto|]. destruct (H x (or_introl eq_refl)) as (y & E & Py). rewrite E. cbn [obind].
  destruct IH as (ys & -> & F); [intros; apply H; now right|]. exists (y :: ys). split; auto.
Qed.

Lemma piece_of_spec cells vq cq : Forall (is_live m t) cells -> NoDup cells -> exists us cs p, piece_of m t cells vq cq = Some p /\ source_piece cells us cs vq cq p.
Proof.
  intros L ND. destruct (used_vertices_spec cells L) as (us & EU & NU & IU). destruct (used_cells_spec cells L) as (cs & EC & NC & IC).
  unfold piece_of. rewrite EU. cbn [obind]. rewrite EC. cbn [obind].
  assert (Lc : forall c, In c cells -> is_live m t c) by (now apply Forall_forall).
  assert (LV : forall v, In v us -> is_live m Vertex v).
  { intros v Hv. apply IU in Hv. unfold corners in Hv. apply in_flat_map in Hv as (c & Hc & Hv). destruct (Lc c Hc) as (e & D). unfold vertices_at in Hv. rewrite D in Hv. cbn in Hv.
    destruct (cell_verts c e D) as (_ & _ & F). rewrite Forall_forall in F. auto. }
  destruct (omap_total (fun v => obind (deref m Vertex v) e_pt) (fun v q => point_at m v = Some q) us) as (ps & EP & FP).
  { intros v Hv. destruct (vertex_has_point v (LV v Hv)) as (q & Q). exists q. split; auto. }
  rewrite EP. cbn [obind].
  destruct (omap_total (fun c => obind (deref m t c) (fun e => omap (fun v => index_of v us) (e_verts e)))
    (fun c k => exists e, deref m t c = Some e /\ Forall2 (fun v i => nth_error us i = Some v) (e_verts e) k) cs) as (vs & EV & FV).
  { intros c Hc. apply IC in Hc. destruct (Lc c Hc) as (e & D). rewrite D. cbn [obind].
    destruct (omap_total (fun v => index_of v us) (fun v i => nth_error us i = Some v) (e_verts e)) as (k & EK & FK).
    { intros v Hv. assert (Hu : In v us) by (apply IU; unfold corners; apply in_flat_map; exists c; split; auto; unfold vertices_at; now rewrite D).
      destruct (index_of_In v us Hu) as (i & Ei). exists i. split; auto. now apply index_of_Some. }
    exists k. split; auto. exists e. auto. }
  rewrite EV. cbn [obind]. exists us, cs. eexists. split; [reflexivity|]. constructor; cbn; auto.
  assert (length cells <= length cs) by (apply NoDup_incl_length; auto; intros x; apply IC).
  assert (length cs <= length cells) by (apply NoDup_incl_length; auto; intros x; apply IC). lia.
Qed.

(** Reordering twice. *)
Lemma reordered_spec (vs : list nat) : length vs = nverts t -> exists ws, reordered t vs = Some ws /\ length ws = nverts t /\ forall j, j < nverts t -> nth_error ws (reorder t j) = nth_error vs j.
Proof.
  clear - TV. intros L. destruct t; [congruence| | | | |]; cbn [nverts] in L; unfold reordered; rewrite L;
  repeat (let v := fresh "v" in destruct vs as [|v vs]; [discriminate L|]); (destruct vs; [|discriminate L]); cbn; eexists; (split; [reflexivity|split; [reflexivity|]]);
  intros j Hj; do 8 (destruct j as [|j]; [reflexivity|try (exfalso; lia)]).
Qed.

End Source.
