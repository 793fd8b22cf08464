(** Lemmas for C62 and C63: the id generator of the vertices has no influence on
    anything but the creation of vertices. *)
From Coq Require Import List Arith ZArith Bool Lia.
From Verif Require Import ModelTopo ModelMesh ModelErase ModelQuery ModelView ModelSegmentation ModelSegment ModelCopy ModelCopySeg ModelXml ModelVtk
  SpecVtk MeshBase.
Import ModelSegmentation ListNotations.
Open Scope nat_scope.

Section Sim.
Context {Pt : Type}.
Variable cfg : config.
Notation mesh := (@mesh Pt).
Notation sim := (@same_but_generator Pt).
Notation simS := (@same_state_but_generator Pt).

Definition osim {A} (o o' : option (mesh * A)) : Prop :=
  match o, o' with Some (m, x), Some (m', x') => sim m m' /\ x = x' | None, None => True | _, _ => False end.

Lemma sim_refl (m : mesh) : sim m m. Proof. repeat split. Qed.
Lemma sim_deref (m m' : mesh) t a : sim m m' -> deref m t a = deref m' t a.
Proof. intros (N & _). unfold deref. now rewrite N. Qed.
Lemma sim_range (m m' : mesh) t : sim m m' -> range m t = range m' t.
Proof. intros (N & _). unfold range. now rewrite N. Qed.
Lemma omap_ext {A B} (f g : A -> option B) l : (forall x, f x = g x) -> omap f l = omap g l.
Proof. intros H. induction l as [|x l IH]; cbn [omap]; auto. now rewrite H, IH. Qed.
Lemma sim_key (m m' : mesh) vs : sim m m' -> key_of m vs = key_of m' vs.
Proof. intros S. unfold key_of. f_equal. apply omap_ext. intros a. now rewrite (sim_deref m m'). Qed.
Lemma upd_pt {A} (f g : tag -> A) t x : (forall t', f t' = g t') -> forall t', upd f t x t' = upd g t x t'.
Proof. intros H t'. unfold upd. destruct (tag_eqb t t'); auto. Qed.
Lemma upd_pt' {A} (f g : tag -> A) t x : (forall t', t' <> Vertex -> f t' = g t') -> forall t', t' <> Vertex -> upd f t x t' = upd g t x t'.
Proof. intros H t' T. unfold upd. destruct (tag_eqb t t'); auto. Qed.

Lemma push_sim t gen (m m' : mesh) e : t <> Vertex -> sim m m' -> osim (push cfg t gen m e) (push cfg t gen m' e).
Proof.
  intros T S. assert (S' := S). destruct S' as (N & X & G & C & L). unfold push. rewrite (sim_key m m' _ S), N, X, (G t T), C, L.
  destruct (keyed cfg t).
  - destruct (key_of m' (e_verts e)) as [k|]; cbn; [|exact Logic.I]. destruct (find_key (m_nodes m' t) k) as [n|].
    + cbn. split; auto. repeat split; cbn; auto. now apply upd_pt'.
    + destruct gen; cbn; (split; [|reflexivity]); repeat split; cbn; auto; first [now apply upd_pt | now apply upd_pt'].
  - destruct gen; cbn; (split; [|reflexivity]); repeat split; cbn; auto; first [now apply upd_pt | now apply upd_pt'].
Qed.

Lemma log_sim (m m' : mesh) t a : sim m m' -> sim (log_insert t a m) (log_insert t a m').
Proof. intros (N & X & G & C & L). repeat split; cbn; auto. now rewrite L. Qed.
Lemma put_sim (m m' : mesh) t a e : sim m m' -> sim (put m t a e) (put m' t a e).
Proof. intros (N & X & G & C & L). repeat split; cbn; auto. intros t'. rewrite (N t). now apply upd_pt. Qed.

Lemma btab_not_vertex t ent : In ent (btab cfg t) -> fst ent <> Vertex.
Proof.
  intros H. apply filter_In in H as [H _]. destruct t; cbn in H; repeat destruct H as [<-|H]; try discriminate; try contradiction.
Qed.

Lemma insert_sim depth : forall gen t (m m' : mesh) e, t <> Vertex -> sim m m' -> osim (insert depth cfg gen t m e) (insert depth cfg gen t m' e).
Proof.
  induction depth as [|d IH]; intros gen t m m' e T S; cbn [insert]; pose proof (push_sim t gen m m' e T S) as P;
    destruct (push cfg t gen m e) as [[m1 [a fr]]|], (push cfg t gen m' e) as [[m1' [a' fr']]|]; cbn in P; try contradiction; cbn [obind]; auto;
    destruct P as [S1 E]; inversion E; subst a' fr'; (destruct fr; [|cbn; split; auto; now apply log_sim]).
  - destruct (btab cfg t); cbn; auto. split; auto. now apply log_sim.
  - assert (B : forall (m m' : mesh) ent, fst ent <> Vertex -> sim m m' ->
      match boundary_step (insert d cfg true) t a m ent, boundary_step (insert d cfg true) t a m' ent with
      | Some x, Some y => sim x y | None, None => True | _, _ => False end).
    { clear m m' m1 m1' S S1 E. intros m m' [bt idx] H S. cbn [fst] in H. unfold boundary_step.
      rewrite (sim_deref m m' t a S). destruct (deref m' t a) as [host|]; cbn [obind]; auto.
      destruct (omap (nth_error (e_verts host)) idx) as [vs|]; cbn [obind]; auto.
      pose proof (IH true bt m m' (mkE 0 vs [] None) H S) as P.
      destruct (insert d cfg true bt m _) as [[m1 [b f]]|], (insert d cfg true bt m' _) as [[m1' [b' f']]|]; cbn in P; try contradiction; cbn [obind]; auto.
      destruct P as [S1 E]. inversion E; subst b' f'. rewrite (sim_deref m1 m1' bt b S1), (sim_deref m1 m1' t a S1).
      destruct (deref m1' bt b) as [st|]; cbn [obind]; auto. destruct (deref m1' t a) as [h1|]; cbn [obind]; auto. now apply put_sim. }
    assert (L : forall l (m m' : mesh), (forall ent, In ent l -> fst ent <> Vertex) -> sim m m' ->
      match ofold (boundary_step (insert d cfg true) t a) l m, ofold (boundary_step (insert d cfg true) t a) l m' with
      | Some x, Some y => sim x y | None, None => True | _, _ => False end).
    { clear m m' m1 m1' S S1 E. induction l as [|ent l IL]; intros m m' H S; cbn [ofold]; auto.
      specialize (B m m' ent (H _ (or_introl eq_refl)) S).
      destruct (boundary_step (insert d cfg true) t a m ent), (boundary_step (insert d cfg true) t a m' ent); try contradiction; cbn [obind]; auto.
      apply IL; auto. intros; apply H; now right. }
    specialize (L (btab cfg t) m1 m1' (btab_not_vertex t) S1).
    destruct (ofold _ _ m1), (ofold _ _ m1'); try contradiction; cbn; auto. split; auto. now apply log_sim.
Qed.

Lemma make_element_sim t (m m' : mesh) vs : t <> Vertex -> sim m m' -> osim (make_element cfg t m vs) (make_element cfg t m' vs).
Proof.
  intros T S. unfold make_element. destruct (length vs =? nverts t); cbn; auto. pose proof (insert_sim (dim t) true t m m' (mkE 0 vs [] None) T S) as P.
  destruct (insert (dim t) cfg true t m _) as [[m1 [a f]]|], (insert (dim t) cfg true t m' _) as [[m1' [a' f']]|]; cbn in *; try contradiction; auto.
  destruct P as [P E]. inversion E. auto.
Qed.

(** Segments. *)
Definition oS (o o' : option (sstate Pt)) : Prop := match o, o' with Some s, Some s' => simS s s' | None, None => True | _, _ => False end.
Definition rS (o o' : result (sstate Pt)) : Prop :=
  match o, o' with Done s, Done s' => simS s s' | Thrown, Thrown => True | Undefined, Undefined => True | _, _ => False end.

Lemma set_insert_sim (m m' : mesh) t h l : sim m m' -> set_insert m t h l = set_insert m' t h l.
Proof.
  intros S. induction l as [|x l IH]; cbn [set_insert]; rewrite ?(sim_deref m m' t _ S), ?IH; auto.
Qed.
Lemma view_insert_sim (m m' : mesh) t v h : sim m m' -> view_insert m t v h = view_insert m' t v h.
Proof. intros S. unfold view_insert. now rewrite (set_insert_sim m m'). Qed.

Lemma simple_add_sim a s s' th : simS s s' -> oS (simple_add a s th) (simple_add a s' th).
Proof.
  destruct th as [t h]. intros (S & G & C & M & A). unfold simple_add. rewrite <- G, <- C, <- M, <- A.
  destruct (find_seg a (g_segs (st_segs s))) as [sg|]; cbn [obind oS]; auto.
  rewrite (sim_deref _ _ t h S). destruct (deref (st_mesh s') t h) as [e|]; cbn [obind oS]; auto.
  rewrite (view_insert_sim _ _ t _ h S). destruct (view_insert _ _ (k_view _) h) as [v|]; cbn [obind oS]; auto.
  rewrite (view_insert_sim _ _ t (st_all s) h S). destruct (view_insert _ _ (st_all s) h) as [all|]; cbn [obind oS]; auto.
  destruct (nth_error _ _) as [info|]; cbn [obind oS]; auto. destruct (info_add _ info) as [info' new]. cbn. repeat split; cbn; auto; apply S.
Qed.
Lemma adds_sim a l : forall s s', simS s s' -> oS (ofold (simple_add a) l s) (ofold (simple_add a) l s').
Proof.
  induction l as [|th l IH]; intros s s' S; cbn [ofold]; auto. pose proof (simple_add_sim a s s' th S) as P.
  destruct (simple_add a s th), (simple_add a s' th); cbn in P; try contradiction; cbn [obind]; auto.
Qed.
Lemma seg_add_sim a t h s s' : simS s s' -> oS (seg_add a t h s) (seg_add a t h s').
Proof.
  intros S. unfold seg_add. pose proof (simple_add_sim a s s' (t, h) S) as P.
  destruct (simple_add a s (t, h)) as [s1|], (simple_add a s' (t, h)) as [s1'|]; cbn in P; try contradiction; cbn [obind]; auto.
  rewrite (sim_deref _ _ t h (proj1 P)). destruct (deref (st_mesh s1') t h); cbn [obind]; [|exact Logic.I]. now apply adds_sim.
Qed.
Lemma handle_inserts_sim (m m' : mesh) l : sim m m' -> forall k, handle_inserts m k l = handle_inserts m' k l.
Proof.
  intros S. unfold handle_inserts. induction l as [|th l IH]; intros k; cbn [ofold]; auto. rewrite (view_insert_sim m m' _ _ _ S).
  destruct (view_insert m' _ _ _); cbn [option_map obind]; auto.
Qed.
Lemma seg_create_sim a t vs s s' : t <> Vertex -> simS s s' -> oS (seg_create cfg a (OElement t vs) s) (seg_create cfg a (OElement t vs) s').
Proof.
  intros T (S & G & C & M & A). unfold seg_create. rewrite <- C. destruct (k_linked (st_con s a)); cbn [oS]; auto.
  pose proof (make_element_sim t _ _ vs T S) as P.
  destruct (make_element cfg t (st_mesh s) vs) as [[m1 h]|], (make_element cfg t (st_mesh s') vs) as [[m1' h']|]; cbn in P; try contradiction; cbn; auto.
  destruct P as [S1 ->]. destruct S as (N & X & Gn & Cc & L). destruct (S1) as (N1 & X1 & Gn1 & Cc1 & L1). rewrite L, L1.
  rewrite (handle_inserts_sim m1 m1' _ S1). destruct (handle_inserts m1' _ _) as [k|]; cbn [obind oS]; auto.
  apply seg_add_sim. repeat split; cbn; auto; apply S1.
Qed.

Lemma with_segs_sim (s s' : sstate Pt) g : simS s s' -> simS (with_segs s g) (with_segs s' g).
Proof. intros (S & G & C & M & A). repeat split; cbn; auto; apply S. Qed.
Lemma of_option_sim o o' : oS o o' -> rS (of_option o) (of_option o').
Proof. destruct o, o'; cbn; auto. Qed.
Lemma add_by_id_sim t h s s' z : simS s s' -> rS (add_by_id t h s z) (add_by_id t h s' z).
Proof.
  intros S. unfold add_by_id. rewrite <- (proj1 (proj2 S)). destruct (get_make_id z (st_segs s)) as [g a| |]; cbn [rS]; auto.
  apply of_option_sim, seg_add_sim, with_segs_sim, S.
Qed.

End Sim.

(** The steps of setup. *)
Section SimSetup.
Context {K : Type}.
Variable cfg : config.
Hypothesis TV : cfg_cell cfg <> Vertex.
Notation pt := (list K).
Notation simS := (@same_state_but_generator pt).

Definition rP {A} (R : A -> A -> Prop) (o o' : result A) : Prop :=
  match o, o' with Done s, Done s' => R s s' | Thrown, Thrown => True | Undefined, Undefined => True | _, _ => False end.
Lemma rfold_sim {A B} (R : A -> A -> Prop) (f : A -> B -> result A) l : (forall x y b, R x y -> rP R (f x b) (f y b)) ->
  forall x y, R x y -> rP R (rfold f l x) (rfold f l y).
Proof.
  intros H. induction l as [|b l IH]; intros x y XY; cbn [rfold]; auto. pose proof (H x y b XY) as P.
  destruct (f x b), (f y b); cbn in P; try contradiction; cbn [rbind]; auto.
Qed.

Definition cvR (p q : sstate pt * (list addr * list nat)) : Prop := simS (fst p) (fst q) /\ snd p = snd q.
Lemma cell_vertices_sim (c : @local K) z off n s s' : simS s s' -> rP cvR (cell_vertices c (cfg_cell cfg) z off n s) (cell_vertices c (cfg_cell cfg) z off n s').
Proof.
  intros S. unfold cell_vertices. destruct (nverts (cfg_cell cfg) <? n); cbn; auto. apply rfold_sim; [|split; auto].
  clear. intros [s [vs ids]] [s' [vs' ids']] j [S E]. cbn [fst snd] in *. inversion E; subst vs' ids'. clear E.
  destruct (nth_error (l_vertices c) _) as [i|]; cbn [obind of_option rbind rP]; auto.
  destruct (nth_error (l_global c) i) as [g|]; cbn [obind of_option rbind rP]; auto.
  rewrite (sim_range _ _ Vertex (proj1 S)). destruct (nth_error (range _ _) g) as [v|]; cbn [obind of_option rbind rP]; auto.
  rewrite (sim_deref _ _ Vertex v (proj1 S)). destruct (deref _ _ v) as [e|]; cbn [option_map obind of_option rbind rP]; auto. cbn [fst snd].
  pose proof (add_by_id_sim Vertex v s s' z S) as P. destruct (add_by_id Vertex v s z), (add_by_id Vertex v s' z); cbn in P; try contradiction; cbn; auto.
  split; auto.
Qed.

Definition buR (b b' : @building K) : Prop := simS (bu_st b) (bu_st b') /\ bu_cells b = bu_cells b' /\ bu_local b = bu_local b'.
Lemma setup_cell_sim (c : @local K) z i b b' : buR b b' -> rP buR (setup_cell cfg c z b i) (setup_cell cfg c z b' i).
Proof.
  intros (S & C & L). unfold setup_cell. match goal with |- context[of_option ?x] => destruct (of_option x) as [[off n]| |] end; cbn [rbind rP]; auto. cbn [fst snd].
  pose proof (cell_vertices_sim c z off n _ _ S) as P.
  destruct (cell_vertices c (cfg_cell cfg) z off n (bu_st b)) as [[s [vs ids]]| |], (cell_vertices c (cfg_cell cfg) z off n (bu_st b')) as [[s' [vs' ids']]| |]; cbn in P; try contradiction; cbn [rbind rP]; auto.
  destruct P as [S1 E]. cbn [fst snd] in *. inversion E; subst vs' ids'. rewrite <- C, <- L. destruct (find_cell ids (bu_cells b)) as [h|].
  - pose proof (add_by_id_sim (cfg_cell cfg) h s s' z S1) as P. destruct (add_by_id (cfg_cell cfg) h s z), (add_by_id (cfg_cell cfg) h s' z); cbn in P; try contradiction; cbn; auto.
    repeat split; cbn; auto; apply P.
  - rewrite <- (proj1 (proj2 S1)). destruct (get_make_id z (st_segs s)) as [g a| |]; cbn [rP]; auto.
    pose proof (make_element_sim cfg (cfg_cell cfg) _ _ vs TV (proj1 S1)) as P.
    destruct (make_element cfg (cfg_cell cfg) (st_mesh s) vs) as [[m1 h]|], (make_element cfg (cfg_cell cfg) (st_mesh s') vs) as [[m1' h']|]; cbn in P; try contradiction; cbn [of_option rbind rP]; auto.
    destruct P as [_ ->]. pose proof (seg_create_sim cfg a (cfg_cell cfg) vs _ _ TV (with_segs_sim s s' g S1)) as P.
    destruct (seg_create cfg a (OElement (cfg_cell cfg) vs) (with_segs s g)), (seg_create cfg a (OElement (cfg_cell cfg) vs) (with_segs s' g)); cbn in P; try contradiction; cbn; auto.
    repeat split; cbn; auto; apply P.
Qed.
Lemma setup_cells_sim (c : @local K) z num b b' : buR b b' -> rP buR (setup_cells cfg c z num b) (setup_cells cfg c z num b').
Proof.
  intros (S & C & L). unfold setup_cells. apply rfold_sim; [|repeat split; cbn; auto; apply S]. intros x y i. apply setup_cell_sim.
Qed.
Lemma setup_data_sim reg (c : @local K) z b b' : buR b b' -> setup_data reg c z b = setup_data reg c z b'.
Proof.
  intros (S & C & L). unfold setup_data. rewrite L. erewrite (omap_ext _ _ (l_global c)); [reflexivity|]. intros g. cbn. now rewrite (sim_range _ _ Vertex (proj1 S)).
Qed.

Definition bdR (x y : @building K * list (@delivery K)) : Prop := buR (fst x) (fst y) /\ snd x = snd y.
Lemma jobs_sim reg (r : @reader K) l x y : bdR x y ->
  rP bdR (rfold (fun bd zn => rbind (setup_cells cfg (r_local r (fst zn)) (fst zn) (snd zn) (fst bd)) (fun b =>
           rbind (of_option (setup_data reg (r_local r (fst zn)) (fst zn) b)) (fun d => Done (b, snd bd ++ d)))) l x)
    (rfold (fun bd zn => rbind (setup_cells cfg (r_local r (fst zn)) (fst zn) (snd zn) (fst bd)) (fun b =>
           rbind (of_option (setup_data reg (r_local r (fst zn)) (fst zn) b)) (fun d => Done (b, snd bd ++ d)))) l y).
Proof.
  apply rfold_sim. intros [b d] [b' d'] [z n] [B E]. cbn [fst snd] in *. subst d'. pose proof (setup_cells_sim (r_local r z) z n b b' B) as P.
  destruct (setup_cells cfg (r_local r z) z n b) as [b1| |], (setup_cells cfg (r_local r z) z n b') as [b1'| |]; cbn in P; try contradiction; cbn [rbind rP]; auto.
  rewrite (setup_data_sim reg (r_local r z) z b1 b1' P). destruct (setup_data reg (r_local r z) z b1') as [d1|]; cbn; auto. split; auto.
Qed.

End SimSetup.
