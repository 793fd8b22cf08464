From Coq Require Import List Arith Bool Lia Sorted.
From Verif Require Import ModelTopo ModelMesh ModelErase ModelQuery ModelMeshCopy SpecMesh SpecErase SpecQuery SpecMeshCopy
  MeshBase MeshInv MeshIds MeshReach MeshWf MeshErase MeshSimple QueryBase QueryBnd QueryProofs SegmentView.
Import ListNotations.

(** ** Renaming of addresses *)
Section Rename.
Context {Pt : Type}.
Notation mesh := (@mesh Pt).
Notation element := (@element Pt).
Notation node := (@node Pt).
Variable f : tag -> addr -> addr.

Definition ren_b (b : bentry) : bentry := mkB (b_tag b) (f (b_tag b) (b_addr b)) (b_orient b).
Definition ren_el (e : element) : element := mkE (e_id e) (map (f Vertex) (e_verts e)) (map ren_b (e_bnd e)) (e_pt e).
Definition ren_node (t : tag) (n : node) : node := mkN (f t (n_addr n)) (n_key n) (ren_el (n_el n)).

Lemma boundary_ren e bt : boundary_of (ren_el e) bt = map (f bt) (boundary_of e bt).
Proof.
  assert (G : forall l, map b_addr (filter (fun b => tag_eqb (b_tag b) bt) (map ren_b l)) = map (f bt) (map b_addr (filter (fun b => tag_eqb (b_tag b) bt) l))).
  { induction l as [|b l IH]; auto. cbn. destruct (tag_eqb (b_tag b) bt) eqn:E; auto. cbn. rewrite IH. apply tag_eqb_eq in E. now rewrite E. }
  unfold boundary_of. destruct bt; cbn; auto.
Qed.

Variable inj : forall t a b, f t a = f t b -> a = b.

Lemma eqb_ren t a b : (f t a =? f t b) = (a =? b).
Proof. destruct (Nat.eqb_spec (f t a) (f t b)) as [E|E], (Nat.eqb_spec a b) as [D|D]; try reflexivity; exfalso; [apply D; eapply inj; eauto|subst; now apply E]. Qed.

Record iso (m m' : mesh) : Prop := mkIso {
  i_nodes : forall t, m_nodes m' t = map (ren_node t) (m_nodes m t);
  i_next : forall t j, f t (m_next m t + j) = m_next m' t + j;
  i_gen : forall t, m_idgen m' t = m_idgen m t
}.

Definition orel {A B} (R : A -> B -> Prop) (x : option A) (y : option B) : Prop :=
  match x, y with Some a, Some b => R a b | None, None => True | _, _ => False end.
Lemma orel_bind {A B C D} (R : A -> B -> Prop) (S : C -> D -> Prop) x y g h :
  orel R x y -> (forall a b, R a b -> orel S (g a) (h b)) -> orel S (obind x g) (obind y h).
Proof. destruct x, y; cbn; intros H G; try contradiction; auto. Qed.
Lemma orel_map {A B C D} (R : A -> B -> Prop) (S : C -> D -> Prop) x y (g : A -> C) (h : B -> D) :
  orel R x y -> (forall a b, R a b -> S (g a) (h b)) -> orel S (option_map g x) (option_map h y).
Proof. destruct x, y; cbn; intros H G; try contradiction; auto. Qed.

Lemma find_node_ren t l a : find_node (map (ren_node t) l) (f t a) = option_map (ren_node t) (find_node l a).
Proof. unfold find_node. induction l as [|n l IH]; auto. cbn. rewrite eqb_ren. destruct (n_addr n =? a); auto. Qed.
Lemma deref_ren m m' t a : iso m m' -> deref m' t (f t a) = option_map ren_el (deref m t a).
Proof. intros I. unfold deref. rewrite (i_nodes _ _ I), find_node_ren. destruct (find_node (m_nodes m t) a); auto. Qed.

Lemma key_of_ren m m' vs : iso m m' -> key_of m' (map (f Vertex) vs) = key_of m vs.
Proof.
  intros I. unfold key_of. f_equal. induction vs as [|v vs IH]; auto. cbn. rewrite (deref_ren m m') by auto. rewrite IH.
  destruct (deref m Vertex v); auto.
Qed.
Lemma find_key_ren t l k : find_key (map (ren_node t) l) k = option_map (ren_node t) (find_key l k).
Proof. unfold find_key. induction l as [|n l IH]; auto. cbn. destruct (key_equiv (n_key n) k); auto. Qed.
Lemma insert_keyed_ren t n l : insert_keyed (ren_node t n) (map (ren_node t) l) = map (ren_node t) (insert_keyed n l).
Proof. induction l as [|x l IH]; auto. cbn. destruct (key_less (n_key n) (n_key x)); auto. cbn. now rewrite IH. Qed.

Definition res (t : tag) (r r' : mesh * (addr * bool)) : Prop :=
  iso (fst r) (fst r') /\ fst (snd r') = f t (fst (snd r)) /\ snd (snd r') = snd (snd r).

Lemma upd_map {A} (g : tag -> A) t x t' : upd g t x t' = if tag_eqb t t' then x else g t'.
Proof. reflexivity. Qed.

Lemma iso_change m m' ns ns' t0 nx nx' g g' c c' l l' : iso m m' ->
  ns' = map (ren_node t0) ns -> (forall j, f t0 (nx + j) = nx' + j) -> g' = g ->
  iso (mkM (upd (m_nodes m) t0 ns) (upd (m_next m) t0 nx) (upd (m_idgen m) t0 g) c l)
      (mkM (upd (m_nodes m') t0 ns') (upd (m_next m') t0 nx') (upd (m_idgen m') t0 g') c' l').
Proof.
  intros I N X G. constructor; intros t; cbn; unfold upd.
  - destruct (tag_eqb t0 t) eqn:E; [apply tag_eqb_eq in E; now subst|apply I].
  - destruct (tag_eqb t0 t) eqn:E; [apply tag_eqb_eq in E; now subst|apply I].
  - destruct (tag_eqb t0 t) eqn:E; [auto|apply I].
Qed.
Lemma iso_gen m m' t0 g c c' l l' : iso m m' ->
  iso (mkM (m_nodes m) (m_next m) (upd (m_idgen m) t0 g) c l) (mkM (m_nodes m') (m_next m') (upd (m_idgen m') t0 g) c' l').
Proof. intros I. constructor; intros t; cbn; unfold upd; try apply I. destruct (tag_eqb t0 t); [auto|apply I]. Qed.
Lemma iso_aux m m' c c' l l' : iso m m' ->
  iso (mkM (m_nodes m) (m_next m) (m_idgen m) c l) (mkM (m_nodes m') (m_next m') (m_idgen m') c' l').
Proof. intros [A B C]. constructor; auto. Qed.

Lemma next0 m m' t : iso m m' -> f t (m_next m t) = m_next m' t.
Proof. intros I. pose proof (i_next _ _ I t 0) as H. now rewrite !Nat.add_0_r in H. Qed.
Lemma next1 m m' t j : iso m m' -> f t (m_next m t + 1 + j) = m_next m' t + 1 + j.
Proof. intros I. rewrite <- !Nat.add_assoc. apply I. Qed.

Lemma push_ren cfg t gen m m' e : iso m m' -> orel (res t) (push cfg t gen m e) (push cfg t gen m' (ren_el e)).
Proof.
  intros I. unfold push. cbn [e_verts e_id ren_el]. rewrite (key_of_ren m m') by auto. rewrite (i_gen _ _ I t), (i_nodes _ _ I t).
  destruct (keyed cfg t).
  - destruct (key_of m (e_verts e)) as [k|]; cbn [obind]; [|exact Logic.I]. rewrite find_key_ren.
    destruct (find_key (m_nodes m t) k) as [n|]; cbn [option_map].
    + split; [|split; auto]. now apply iso_gen.
    + destruct gen; cbn [gen_id].
      * split; [|split; auto; cbn; symmetry; now apply next0]. apply iso_change; auto; [|intros j; now apply next1].
        rewrite <- insert_keyed_ren. f_equal. unfold ren_node. cbn. f_equal. symmetry. now apply next0.
      * split; [|split; auto; cbn; symmetry; now apply next0]. apply iso_change; auto; [|intros j; now apply next1].
        rewrite <- insert_keyed_ren. f_equal. unfold ren_node. cbn. f_equal. symmetry. now apply next0.
  - destruct gen; cbn [gen_id].
    + split; [|split; auto; cbn; symmetry; now apply next0]. apply iso_change; auto; [|intros j; now apply next1].
      rewrite map_app. f_equal. unfold ren_node. cbn. f_equal. f_equal. symmetry. now apply next0.
    + split; [|split; auto; cbn; symmetry; now apply next0]. apply iso_change; auto; [|intros j; now apply next1].
      rewrite map_app. f_equal. unfold ren_node. cbn. f_equal. f_equal. symmetry. now apply next0.
Qed.

Lemma index_of_ren t x l : index_of (f t x) (map (f t) l) = index_of x l.
Proof. induction l as [|y l IH]; auto. cbn [index_of map]. rewrite eqb_ren, IH. reflexivity. Qed.
Lemma orient_ren t stored wanted : compute_orient (map (f t) stored) (map (f t) wanted) = compute_orient stored wanted.
Proof.
  unfold compute_orient. rewrite map_length. generalize (repeat (@None nat) (length wanted)) 0.
  induction stored as [|v r IH]; intros o i; auto. cbn [match_orient map]. rewrite index_of_ren. apply IH.
Qed.
Lemma set_el_ren t l a e : set_el (map (ren_node t) l) (f t a) (ren_el e) = map (ren_node t) (set_el l a e).
Proof. unfold set_el. rewrite !map_map. apply map_ext. intros n. cbn. rewrite eqb_ren. destruct (n_addr n =? a); reflexivity. Qed.
Lemma put_ren m m' t a e : iso m m' -> iso (put m t a e) (put m' t (f t a) (ren_el e)).
Proof.
  intros I. constructor; intros t'; cbn; try apply I. unfold upd. destruct (tag_eqb t t') eqn:E; [|apply I].
  apply tag_eqb_eq in E. subst. rewrite (i_nodes _ _ I), set_el_ren. reflexivity.
Qed.
Lemma nths_ren t l idx : omap (nth_error (map (f t) l)) idx = option_map (map (f t)) (omap (nth_error l) idx).
Proof.
  induction idx as [|i idx IH]; auto. cbn. rewrite nth_error_map. destruct (nth_error l i); cbn; auto. rewrite IH.
  destruct (omap (nth_error l) idx); auto.
Qed.

Lemma boundary_step_ren ins ins' t a m m' ent :
  (forall bt m m' e, iso m m' -> orel (res bt) (ins bt m e) (ins' bt m' (ren_el e))) -> iso m m' ->
  orel iso (boundary_step ins t a m ent) (boundary_step ins' t (f t a) m' ent).
Proof.
  intros HI I. unfold boundary_step. destruct ent as [bt idx]. rewrite (deref_ren m m') by auto.
  destruct (deref m t a) as [host|]; cbn [obind option_map]; [|exact Logic.I]. cbn [e_verts ren_el]. rewrite nths_ren.
  destruct (omap (nth_error (e_verts host)) idx) as [vs|]; cbn [obind option_map]; [|exact Logic.I].
  specialize (HI bt m m' (mkE 0 vs [] None) I). cbn [ren_el e_id e_verts e_bnd e_pt map] in HI.
  eapply orel_bind; [exact HI|]. intros [m1 [h fr]] [m1' [h' fr']] (I1 & E1 & E2). cbn [fst snd] in *. subst h' fr'.
  rewrite (deref_ren m1 m1') by auto. destruct (deref m1 bt h) as [stored|]; cbn [obind option_map]; [|exact Logic.I].
  rewrite (deref_ren m1 m1') by auto. destruct (deref m1 t a) as [host1|]; cbn [obind option_map]; [|exact Logic.I]. cbn [orel].
  cbn [e_verts e_id e_bnd e_pt ren_el]. rewrite map_length, orient_ren.
  match goal with |- iso (put _ _ _ ?x) (put _ _ _ ?y) => replace y with (ren_el x) end; [now apply put_ren|].
  unfold ren_el. cbn. rewrite map_app. reflexivity.
Qed.

Lemma log_ren m m' t a t' a' : iso m m' -> iso (log_insert t a m) (log_insert t' a' m').
Proof. apply iso_aux. Qed.
Lemma ofold_rel {A S S'} (R : S -> S' -> Prop) (g : S -> A -> option S) (g' : S' -> A -> option S') l :
  (forall s s' x, R s s' -> orel R (g s x) (g' s' x)) -> forall s s', R s s' -> orel R (ofold g l s) (ofold g' l s').
Proof. intros H. induction l as [|x l IH]; intros s s' HR; cbn [ofold]; [exact HR|]. eapply orel_bind; eauto. Qed.

Lemma insert_ren cfg depth : forall gen t m m' e, iso m m' -> orel (res t) (insert depth cfg gen t m e) (insert depth cfg gen t m' (ren_el e)).
Proof.
  induction depth as [|d IH]; intros gen t m m' e I; cbn [insert].
  - eapply orel_bind; [now apply push_ren|]. intros [m1 [a fr]] [m1' [a' fr']] (I1 & E1 & E2). cbn [fst snd] in *. subst a' fr'.
    destruct fr; [destruct (btab cfg t)|]; cbn; auto; (split; [now apply log_ren|auto]).
  - eapply orel_bind; [now apply push_ren|]. intros [m1 [a fr]] [m1' [a' fr']] (I1 & E1 & E2). cbn [fst snd] in *. subst a' fr'.
    destruct fr; [|cbn; split; [now apply log_ren|auto]].
    eapply orel_bind; [eapply ofold_rel with (R := iso); [|exact I1]|].
    + intros s s' x HS. apply boundary_step_ren; auto.
    + intros m2 m2' I2. cbn. split; [now apply log_ren|auto].
Qed.

(** Deletion. *)
Lemma find_id_ren t l i : find_id (map (ren_node t) l) i = option_map (ren_node t) (find_id l i).
Proof. unfold find_id. induction l as [|n l IH]; auto. cbn. destruct (e_id (n_el n) =? i); auto. Qed.
Lemma last_ren t (l : list node) n : last (map (ren_node t) l) (ren_node t n) = ren_node t (last l n).
Proof. induction l as [|x l IH]; auto. destruct l; auto. Qed.
Lemma last_node_ren t l : last_node (map (ren_node t) l) = option_map (ren_node t) (last_node l).
Proof. destruct l as [|n l]; auto. cbn. now rewrite last_ren. Qed.
Lemma removelast_ren {A B} (g : A -> B) l : removelast (map g l) = map g (removelast l).
Proof. induction l as [|x l IH]; auto. destruct l; auto. cbn [map removelast] in *. now rewrite IH. Qed.
Lemma rename_ren t o n x : rename (f t o) (f t n) (f t x) = f t (rename o n x).
Proof. unfold rename. rewrite eqb_ren. destruct (x =? o); auto. Qed.
Lemma switch_el_ren t o n e : switch_in_element t (f t o) (f t n) (ren_el e) = ren_el (switch_in_element t o n e).
Proof.
  assert (G : map (fun b => if tag_eqb (b_tag b) t then mkB (b_tag b) (rename (f t o) (f t n) (b_addr b)) (b_orient b) else b) (map ren_b (e_bnd e)) =
    map ren_b (map (fun b => if tag_eqb (b_tag b) t then mkB (b_tag b) (rename o n (b_addr b)) (b_orient b) else b) (e_bnd e))).
  { rewrite !map_map. apply map_ext. intros b. cbn. destruct (tag_eqb (b_tag b) t) eqn:E; auto. unfold ren_b. cbn. f_equal. apply tag_eqb_eq in E. rewrite E. apply rename_ren. }
  unfold switch_in_element. destruct t; unfold ren_el; cbn [e_id e_verts e_bnd e_pt]; f_equal; try exact G.
  rewrite !map_map. apply map_ext. intros v. apply rename_ren.
Qed.
Lemma switch_ren m m' t o n : iso m m' -> iso (switch_handle t o n m) (switch_handle t (f t o) (f t n) m').
Proof.
  intros I. constructor; intros t'; cbn; try apply I. rewrite (i_nodes _ _ I), !map_map. apply map_ext. intros x. unfold ren_node. cbn. now rewrite switch_el_ren.
Qed.
Lemma set_nodes_ren m m' t l : iso m m' -> iso (set_nodes m t l) (set_nodes m' t (map (ren_node t) l)).
Proof.
  intros I. constructor; intros t'; cbn; try apply I. unfold upd. destruct (tag_eqb t t') eqn:E; [|apply I]. apply tag_eqb_eq in E. now subst.
Qed.
Lemma erase_one_ren t m m' i : iso m m' -> orel iso (erase_one t m i) (erase_one t m' i).
Proof.
  intros I. unfold erase_one. rewrite (i_nodes _ _ I t), find_id_ren. destruct (find_id (m_nodes m t) i) as [te|]; cbn [option_map obind]; [|exact Logic.I].
  rewrite last_node_ren. destruct (last_node (m_nodes m t)) as [back|]; cbn [option_map obind]; [|exact Logic.I]. cbn [orel].
  cbn [n_addr n_el ren_node]. rewrite eqb_ren.
  match goal with |- iso (set_nodes ?a _ _) (set_nodes ?b _ _) => assert (J : iso a b) end.
  { destruct (n_addr back =? n_addr te); auto. apply switch_ren. apply put_ren. now apply put_ren. }
  rewrite (i_nodes _ _ J t), removelast_ren. now apply set_nodes_ren.
Qed.
Lemma erase_type_ren t view m m' : iso m m' -> orel iso (erase_type t view m) (erase_type t (map (f t) view) m').
Proof.
  intros I. unfold erase_type.
  assert (E : omap (fun a => option_map e_id (deref m' t a)) (map (f t) view) = omap (fun a => option_map e_id (deref m t a)) view).
  { induction view as [|a l IH]; auto. cbn. rewrite (deref_ren m m') by auto. rewrite IH. destruct (deref m t a); auto. }
  rewrite E. destruct (omap _ view) as [is|]; cbn [obind]; [|exact Logic.I]. eapply ofold_rel; eauto. intros. now apply erase_one_ren.
Qed.
Lemma erase_ren view m m' : iso m m' -> orel iso (erase_elements m view) (erase_elements m' (fun t => map (f t) (view t))).
Proof.
  intros I. unfold erase_elements. eapply orel_map; [eapply ofold_rel with (R := iso); [|exact I]|].
  - intros s s' t J. now apply erase_type_ren.
  - intros a b J. now apply iso_aux.
Qed.
Lemma clear_ren m m' : iso m m' -> iso (clear_mesh m) (clear_mesh m').
Proof. intros [A B C]. constructor; auto. Qed.

Lemma step_ren cfg m m' o : iso m m' -> orel iso (step cfg m o) (step cfg m' (translated f o)).
Proof.
  intros I. destruct o as [p|i p|t vs|view|]; cbn [step translated].
  - unfold make_vertex. eapply orel_map with (R := fun r r' => iso (fst r) (fst r')); [|auto].
    eapply orel_map; [exact (insert_ren cfg 0 true Vertex m m' (mkE 0 [] [] (Some p)) I)|]. intros r r' (J & _). exact J.
  - unfold make_vertex_with_id. eapply orel_map with (R := fun r r' => iso (fst r) (fst r')); [|auto].
    eapply orel_map; [exact (insert_ren cfg 0 false Vertex m m' (mkE i [] [] (Some p)) I)|]. intros r r' (J & _). exact J.
  - unfold make_element. rewrite map_length. destruct (length vs =? nverts t); [|exact Logic.I].
    eapply orel_map with (R := fun r r' => iso (fst r) (fst r')); [|auto].
    eapply orel_map; [exact (insert_ren cfg (dim t) true t m m' (mkE 0 vs [] None) I)|]. intros r r' (J & _). exact J.
  - now apply erase_ren.
  - cbn. now apply clear_ren.
Qed.
Lemma run_ren cfg ops : forall m m', iso m m' -> orel iso (run cfg ops m) (run cfg (map (translated f) ops) m').
Proof.
  induction ops as [|o ops IH]; intros m m' I; [exact I|]. unfold run. cbn [map ofold]. eapply orel_bind; [now apply step_ren|]. exact IH.
Qed.

(** What is the same. *)
Lemma id_at_ren m m' t a : iso m m' -> id_at m' t (f t a) = id_at m t a.
Proof. intros I. unfold id_at. rewrite (deref_ren m m') by auto. destruct (deref m t a); auto. Qed.
Lemma describe_ren m m' e : iso m m' -> describe m' (ren_el e) = describe m e.
Proof.
  intros I. unfold describe. cbn. f_equal.
  - rewrite map_map. apply map_ext. intros a. now apply id_at_ren.
  - rewrite map_map. apply map_ext. intros b. cbn. now rewrite (id_at_ren m m').
Qed.
Lemma iso_same m m' : iso m m' -> same_elements m m'.
Proof.
  intros I t. unfold elements_of. rewrite (i_nodes _ _ I), !map_map. apply map_ext. intros n. cbn. now apply describe_ren.
Qed.
Lemma iso_range m m' t : iso m m' -> range m' t = map (f t) (range m t).
Proof. intros I. unfold range. rewrite (i_nodes _ _ I), !map_map. reflexivity. Qed.
Lemma range_inv m m' t a : iso m m' -> In a (range m' t) -> exists b, a = f t b /\ In b (range m t).
Proof. intros I H. rewrite (iso_range m m' t I) in H. apply in_map_iff in H as (b & <- & H). eauto. Qed.
Lemma deref_inv m m' t a e : iso m m' -> deref m' t a = Some e -> exists b e0, a = f t b /\ e = ren_el e0 /\ deref m t b = Some e0.
Proof.
  intros I D. assert (H : In a (range m' t)) by (apply range_deref; eauto). destruct (range_inv m m' t a I H) as (b & -> & _).
  rewrite (deref_ren m m') in D by auto. destruct (deref m t b) as [e0|] eqn:E; [|discriminate]. injection D as <-. eauto.
Qed.
Lemma iso_no_dangling m m' : iso m m' -> no_dangling m -> no_dangling m'.
Proof.
  intros I N t a e bt b D H. destruct (deref_inv m m' t a e I D) as (a0 & e0 & -> & -> & D0). unfold has_boundary in H.
  rewrite boundary_ren in H. apply in_map_iff in H as (b0 & <- & H). destruct (N t a0 e0 bt b0 D0 H) as (x & X).
  exists (ren_el x). rewrite (deref_ren m m') by auto. now rewrite X.
Qed.
End Rename.

(** ** The copy is a renaming *)
Section Fix.
Context {Pt : Type}.
Notation mesh := (@mesh Pt).
Notation element := (@element Pt).
Notation node := (@node Pt).
Variable f : tag -> addr -> addr.
Variable src : mesh.
Hypothesis ND : nodup_ids src.
Hypothesis RF : forall t n bt h, In n (m_nodes src t) -> In h (boundary_of (n_el n) bt) -> live src bt h.

Hypothesis NV : forall t n b, In n (m_nodes src t) -> In b (e_bnd (n_el n)) -> b_tag b <> Vertex.

Definition pren_b (S : tag -> bool) (b : bentry) : bentry := if S (b_tag b) then ren_b f b else b.
Definition pren_el (S : tag -> bool) (e : element) : element :=
  mkE (e_id e) (if S Vertex then map (f Vertex) (e_verts e) else e_verts e) (map (pren_b S) (e_bnd e)) (e_pt e).
Definition with_type (S : tag -> bool) (t : tag) (x : tag) : bool := tag_eqb x t || S x.

Definition like (d : mesh) : Prop :=
  forall t, Forall2 (fun n n' => n_addr n' = f t (n_addr n) /\ e_id (n_el n') = e_id (n_el n)) (m_nodes src t) (m_nodes d t).

Lemma find_like d t n : like d -> In n (m_nodes src t) -> option_map n_addr (find_id (m_nodes d t) (e_id (n_el n))) = Some (f t (n_addr n)).
Proof.
  intros L Hn. specialize (L t). assert (N := ND t). unfold ids in N. unfold find_id.
  induction L as [|x x' l l' [A B] L IH]; [easy|]. cbn [find map] in *. rewrite B. inversion N as [|? ? N1 N2]; subst.
  destruct (Nat.eqb_spec (e_id (n_el x)) (e_id (n_el n))) as [E|E].
  - destruct Hn as [<-|Hn]; [cbn; congruence|]. exfalso. apply N1. apply in_map_iff. exists n. auto.
  - destruct Hn as [<-|Hn]; [congruence|]. auto.
Qed.
Lemma lookup_like d bt hs : like d -> (forall h, In h hs -> live src bt h) ->
  omap (fun h => obind (deref src bt h) (fun e => option_map n_addr (find_id (m_nodes d bt) (e_id e)))) hs = Some (map (f bt) hs).
Proof.
  intros L. induction hs as [|h hs IH]; intros H; auto. cbn [omap map].
  assert (Hh : live src bt h) by (apply H; now left). unfold deref at 1. apply in_map_iff in Hh as (n0 & A & Hn0).
  destruct (find_node (m_nodes src bt) h) as [n|] eqn:F.
  - apply find_node_In in F as [F <-]. cbn [option_map obind]. rewrite (find_like d bt n L F). cbn [obind]. rewrite IH; [reflexivity|]. intros. apply H. now right.
  - exfalso. unfold find_node in F. apply (find_none _ _ F) in Hn0. apply Nat.eqb_neq in Hn0. congruence.
Qed.

Lemma write_handles_map g vs : write_handles (map g vs) vs = Some (map g vs).
Proof. induction vs as [|v vs IH]; auto. cbn. now rewrite IH. Qed.
Lemma write_entries_map S bt l : S bt = false ->
  write_entries bt (map (f bt) (map b_addr (filter (fun b => tag_eqb (b_tag b) bt) l))) (map (pren_b S) l) = Some (map (pren_b (with_type S bt)) l).
Proof.
  intros HS. induction l as [|b l IH]; auto. cbn [map filter write_entries].
  assert (T : b_tag (pren_b S b) = b_tag b) by (unfold pren_b; destruct (S (b_tag b)); reflexivity). rewrite T.
  destruct (tag_eqb (b_tag b) bt) eqn:E.
  - cbn [map]. rewrite IH. cbn [option_map]. do 2 f_equal. unfold pren_b, with_type. rewrite E. cbn [orb]. apply tag_eqb_eq in E. rewrite E, HS. unfold ren_b. now rewrite E.
  - rewrite IH. cbn [option_map]. do 2 f_equal. unfold pren_b, with_type. rewrite E. reflexivity.
Qed.

Lemma setter_spec d t n S bt : like d -> In n (m_nodes src t) -> S bt = false ->
  copy_setter src d (n_el n) (pren_el S (n_el n)) bt = Some (pren_el (with_type S bt) (n_el n)).
Proof.
  intros L Hn HS. unfold copy_setter. rewrite lookup_like; auto; [|intros h Hh; eapply RF; eauto]. cbn [obind].
  destruct bt; cbn [pren_el e_id e_verts e_bnd e_pt boundary_of];
    try (rewrite write_entries_map by auto; cbn [option_map]; unfold pren_el, with_type; cbn [tag_eqb orb]; reflexivity).
  rewrite HS, write_handles_map. cbn [option_map]. unfold pren_el, with_type at 1. cbn [tag_eqb orb]. do 2 f_equal.
  apply map_ext_in. intros b Hb. unfold pren_b, with_type. destruct (tag_eqb (b_tag b) Vertex) eqn:E; auto.
  apply tag_eqb_eq in E. exfalso. eapply NV; eauto.
Qed.

Lemma fix_element_spec d t n : like d -> In n (m_nodes src t) -> fix_element src d (n_el n) (n_el n) = Some (ren_el f (n_el n)).
Proof.
  intros L Hn. unfold fix_element. rewrite Nat.eqb_refl.
  assert (E0 : n_el n = pren_el (fun _ => false) (n_el n)).
  { unfold pren_el. destruct (n_el n) as [i vs bs p]. cbn. f_equal. rewrite map_ext with (g := fun b => b); [now rewrite map_id|reflexivity]. }
  transitivity (ofold (copy_setter src d (n_el n)) all_types (pren_el (fun _ => false) (n_el n))); [now rewrite <- E0|].
  unfold all_types. cbn [ofold]. do 6 (rewrite (setter_spec d t) by (auto; reflexivity); cbn [obind]).
  f_equal. unfold pren_el, ren_el, with_type at 1. cbn [tag_eqb orb]. f_equal. apply map_ext. intros b. unfold pren_b, with_type.
  destruct (b_tag b); reflexivity.
Qed.

Definition raw (t : tag) (n : node) : node := mkN (f t (n_addr n)) (n_key n) (n_el n).
Lemma fix_nodes_spec d t l : like d -> incl l (m_nodes src t) -> fix_nodes src d l (map (raw t) l) = Some (map (ren_node f t) l).
Proof.
  intros L. induction l as [|n l IH]; intros HI; auto. cbn [fix_nodes map]. change (n_el (raw t n)) with (n_el n).
  rewrite (fix_element_spec d t) by (auto; apply HI; now left). cbn [obind]. rewrite IH by (intros x Hx; apply HI; now right). reflexivity.
Qed.

Definition state (D : tag -> bool) (d : mesh) : Prop :=
  forall t, m_nodes d t = map (if D t then ren_node f t else raw t) (m_nodes src t).
Lemma state_like D d : state D d -> like d.
Proof.
  intros H t. rewrite (H t). induction (m_nodes src t) as [|n l IH]; constructor; auto. destruct (D t); cbn; auto.
Qed.
Lemma state_step D d t : state D d -> D t = false ->
  option_map (set_nodes d t) (fix_nodes src d (m_nodes src t) (m_nodes d t)) = Some (set_nodes d t (map (ren_node f t) (m_nodes src t))) /\
  state (with_type D t) (set_nodes d t (map (ren_node f t) (m_nodes src t))).
Proof.
  intros H HD. split.
  - rewrite (H t), HD, (fix_nodes_spec d t); auto. + now apply (state_like D). + intros x Hx. auto.
  - intros t'. cbn. unfold upd, with_type. destruct (tag_eqb t t') eqn:E.
    + apply tag_eqb_eq in E. subst. rewrite tag_eqb_refl. reflexivity.
    + assert (E' : tag_eqb t' t = false) by (destruct t, t'; auto; discriminate). rewrite E'. apply H.
Qed.

Lemma fix_spec nx : exists dst, copy_mesh f nx src = Some dst /\ (forall t, m_nodes dst t = map (ren_node f t) (m_nodes src t)) /\
  (forall t, m_next dst t = nx t) /\ (forall t, m_idgen dst t = m_idgen src t) /\ m_cc dst = m_cc src + 1.
Proof.
  unfold copy_mesh, fix_handles, all_types. assert (S0 : state (fun _ => false) (copy_containers f nx src)) by (intros t; reflexivity).
  cbn [ofold].
  repeat (match goal with S : state ?D ?d |- context [option_map (set_nodes ?d ?t) ?x] =>
    let E := fresh "E" in let S' := fresh "S" in destruct (state_step D d t S eq_refl) as [E S']; rewrite E; cbn [obind]; clear E end).
  eexists. split; [reflexivity|]. split; [|repeat (split; auto)].
  intros t. match goal with S : state _ ?d |- context [m_nodes ?d t] => rewrite (S t) end. destruct t; reflexivity.
Qed.
End Fix.

Section Copied.
Context {Pt : Type}.
Variable cfg : config.
Variable src : @mesh Pt.
Variable f : tag -> addr -> addr.
Variable nx : tag -> addr.
Hypothesis HR : ereach cfg src.
Hypothesis HA : allocator src f nx.
Notation F := (counterpart src f nx).

Lemma F_inj t a b : F t a = F t b -> a = b.
Proof.
  destruct (HA t) as [I L]. unfold counterpart. destruct (Nat.ltb_spec a (m_next src t)) as [A|A], (Nat.ltb_spec b (m_next src t)) as [B|B]; intros E.
  - auto.
  - specialize (L a A). lia.
  - specialize (L b B). lia.
  - lia.
Qed.
Lemma F_live t a : live src t a -> F t a = f t a.
Proof.
  intros H. apply in_map_iff in H as (n & <- & H). pose proof (ereach_wf cfg src HR) as [W _]. pose proof (w_next cfg src W t n H) as L.
  unfold counterpart. apply Nat.ltb_lt in L. now rewrite L.
Qed.
Lemma refs_live t n bt h : In n (m_nodes src t) -> In h (boundary_of (n_el n) bt) -> live src bt h.
Proof.
  intros Hn Hh. pose proof (ereach_wf cfg src HR) as W. apply live_is_live. 
  apply (wf_no_dangling cfg src W t (n_addr n) (n_el n) bt h); auto. now apply (wf_In_deref cfg).
Qed.
Lemma copied : exists dst, copy_mesh f nx src = Some dst /\ iso F src dst /\ m_cc dst = m_cc src + 1.
Proof.
  pose proof (ereach_wf cfg src HR) as W. destruct W as (W1 & W2 & W3).
  destruct (fix_spec f src W2 refs_live) with (nx := nx) as (dst & E & N & X & G & C).
  { intros t n b Hn Hb. apply (r_bnd src W3 t n b Hn Hb). }
  exists dst. split; auto. split; auto. constructor; auto.
  - intros t. rewrite N. apply map_ext_in. intros n Hn. unfold ren_node, ren_el. f_equal; [|f_equal].
    + symmetry. apply F_live. now apply in_map.
    + apply map_ext_in. intros v Hv. symmetry. apply F_live. eapply (refs_live t n Vertex); eauto.
    + apply map_ext_in. intros b Hb. unfold ren_b. f_equal. symmetry. apply F_live. apply (r_bnd src W3 t n b Hn Hb).
  - intros t j. rewrite X. unfold counterpart. destruct (Nat.ltb_spec (m_next src t + j) (m_next src t)); lia.
Qed.

Lemma iso_wf (m m' : @mesh Pt) : iso F m m' -> (forall t, m_next src t <= m_next m t) -> wf cfg m -> wf cfg m'.
Proof.
  intros I NX (W & N & R). destruct W as [W1 W2 W3 W4]. destruct R as [R1 R2 R3 R4].
  assert (IDS : forall t, ids m' t = ids m t) by (intros t; unfold ids; rewrite (i_nodes _ _ _ I), map_map; reflexivity).
  assert (IN : forall t n, In n (m_nodes m' t) -> exists n0, n = ren_node F t n0 /\ In n0 (m_nodes m t)).
  { intros t n Hn. rewrite (i_nodes _ _ _ I) in Hn. apply in_map_iff in Hn as (n0 & <- & Hn). eauto. }
  assert (LV : forall t a, live m t a -> live m' t (F t a)).
  { intros t a H. change (In (F t a) (range m' t)). rewrite (iso_range F m m' t I). now apply in_map. }
  split; [|split].
  - constructor.
    + intros t. change (NoDup (range m' t)). rewrite (iso_range F m m' t I). apply FinFun.Injective_map_NoDup; [intros a b; apply F_inj|apply W1].
    + intros t n Hn. apply IN in Hn as (n0 & -> & Hn). cbn. specialize (W2 t n0 Hn).
      pose proof (i_next _ _ _ I t 0) as X0. rewrite !Nat.add_0_r in X0. rewrite <- X0. specialize (NX t).
      unfold counterpart. destruct (Nat.ltb_spec (m_next m t) (m_next src t)); [lia|].
      destruct (Nat.ltb_spec (n_addr n0) (m_next src t)) as [L|L]; [|lia]. pose proof (proj2 (HA t) _ L). lia.
    + intros t i Hi. rewrite IDS in Hi. rewrite (i_gen _ _ _ I). auto.
    + intros t K. rewrite (i_nodes _ _ _ I). specialize (W4 t K). clear - W4. induction W4 as [|n l S IH A]; constructor; auto.
      apply Forall_map. exact A.
  - intros t. rewrite IDS. apply N.
  - constructor.
    + intros n Hn. apply IN in Hn as (n0 & -> & Hn). cbn. destruct (R1 n0 Hn) as [-> ->]. auto.
    + intros t n T Hn. apply IN in Hn as (n0 & -> & Hn). cbn. rewrite map_length. auto.
    + intros t n v Hn Hv. apply IN in Hn as (n0 & -> & Hn). cbn in Hv. apply in_map_iff in Hv as (v0 & <- & Hv). eauto.
    + intros t n b Hn Hb. apply IN in Hn as (n0 & -> & Hn). cbn in Hb. apply in_map_iff in Hb as (b0 & <- & Hb). cbn.
      destruct (R4 t n0 b0 Hn Hb) as (A & B & C). auto.
Qed.
Lemma iso_simple (m m' : @mesh Pt) : iso F m m' -> simple m -> simple m'.
Proof.
  intros I S t n Hn. rewrite (i_nodes _ _ _ I) in Hn. apply in_map_iff in Hn as (n0 & <- & Hn). destruct (S t n0 Hn) as [A B]. cbn. split.
  - apply FinFun.Injective_map_NoDup; auto. intros a b. apply F_inj.
  - rewrite map_map. cbn. rewrite <- (map_map (fun b => (b_tag b, b_addr b)) (fun p => (fst p, F (fst p) (snd p)))).
    apply FinFun.Injective_map_NoDup; auto. intros [t1 a1] [t2 a2] E. cbn in E. injection E as -> E. apply F_inj in E. now subst.
Qed.
End Copied.

Lemma flag_boundary {Pt} cfg (m : @mesh Pt) t a : wf cfg m -> t = facet_tag (cfg_cell cfg) \/ In t (bnd_types cfg) -> live m t a -> at_most_two cfg m ->
  (flag cfg m t a = true <-> on_boundary cfg m t a).
Proof.
  intros W HT HL H2.
  assert (CF : forall f, coflag cfg m f = true <-> on_one_cell cfg m f).
  { intros f. rewrite (one_cobs cfg _ f W). pose proof (H2 f _ (count_cobs cfg _ f W)) as L. unfold coflag.
    set (n := length _) in *. destruct n as [|[|[|n]]]; cbn; try lia; split; try discriminate; auto. }
  unfold on_boundary. destruct (tag_eqb t (facet_tag (cfg_cell cfg))) eqn:Z.
  - unfold flag. rewrite Z. apply CF.
  - assert (Q : t <> facet_tag (cfg_cell cfg)) by (apply tag_eqb_neq; auto). split.
    + intros H. destruct (flag_true cfg _ t a W H Q) as (f & H1 & B). exists f. split; auto. now apply CF.
    + intros (f & H1 & B). apply CF in H1. eapply (flag_true' cfg); eauto.
Qed.

Lemma C22_copy_pf : forall Pt cfg (src : @mesh Pt) f nx, ereach cfg src -> allocator src f nx ->
  exists dst, copy_mesh f nx src = Some dst /\ same_elements src dst /\ (forall t, range dst t = map (f t) (range src t)) /\
    (forall t, id_upper_bound dst t = id_upper_bound src t) /\ no_dangling dst /\
    (apart src f -> forall t a e bt b, deref dst t a = Some e -> has_boundary e bt b -> is_live dst bt b /\ ~ is_live src bt b).
Proof.
  intros Pt cfg src f nx HR HA. destruct (copied cfg src f nx HR) as (dst & E & I & _). exists dst.
  assert (RG : forall t, range dst t = map (f t) (range src t)).
  { intros t. rewrite (iso_range _ src dst t I). apply map_ext_in. intros a Ha. now apply (F_live cfg). }
  assert (DG : no_dangling dst).
  { eapply iso_no_dangling; [apply (F_inj src f nx HA)|exact I|]. apply (wf_no_dangling cfg). now apply ereach_wf. }
  do 2 (split; [auto; try (eapply iso_same; [apply (F_inj src f nx HA)|exact I])|]). split; auto. split; [apply I|]. split; auto.
  intros AP t a e bt b D H. pose proof (DG t a e bt b D H) as L. split; auto. intros L'. apply range_deref in L, L'. change (In b (range dst bt)) in L. change (In b (range src bt)) in L'. rewrite RG in L.
  apply in_map_iff in L as (b0 & Eb & L). apply (AP bt b0 b L L' Eb).
Qed.

Lemma C22_behaves_alike_pf : forall Pt cfg (src dst : @mesh Pt) f nx ops, ereach cfg src -> allocator src f nx -> copy_mesh f nx src = Some dst ->
  match run cfg ops src, run cfg (map (translated (counterpart src f nx)) ops) dst with
  | Some m, Some m' => same_elements m m' /\ forall t, range m' t = map (counterpart src f nx t) (range m t)
  | None, None => True
  | _, _ => False
  end.
Proof.
  intros Pt cfg src dst f nx ops HR HA E. destruct (copied cfg src f nx HR) as (dst' & E' & I & _). rewrite E in E'. injection E' as <-.
  pose proof (run_ren (counterpart src f nx) (F_inj src f nx HA) cfg ops src dst I) as O. destruct (run cfg ops src), (run cfg _ dst); cbn in O; auto.
  split; [eapply iso_same; [apply (F_inj src f nx HA)|exact O]|]. intros t. now apply iso_range.
Qed.

Lemma C22_queries_pf : forall Pt cfg (s : qstate Pt) f nx, qreach cfg s -> allocator (q_mesh s) f nx ->
  exists s', copy_state f nx s = Some s' /\ copy_mesh f nx (q_mesh s) = Some (q_mesh s') /\
    (forall const bt ct b, is_live (q_mesh s') bt b -> exists s1 l, query_cob const bt ct s' b = Some (s1, l) /\ q_mesh s1 = q_mesh s' /\
       lists_exactly l (fun a => bounded_by (q_mesh s') ct a bt b)) /\
    (forall const t c a, is_live (q_mesh s') t a -> exists s1 l, query_nb const t c s' a = Some (s1, l) /\ q_mesh s1 = q_mesh s' /\
       lists_exactly l (share (q_mesh s') t c a)) /\
    (forall t a, t = facet_tag (cfg_cell cfg) \/ In t (bnd_types cfg) -> is_live (q_mesh s') t a -> at_most_two cfg (q_mesh s') ->
       exists s1 r, query_bnd cfg t s' a = Some (s1, r) /\ q_mesh s1 = q_mesh s' /\ (r = true <-> on_boundary cfg (q_mesh s') t a)).
Proof.
  intros Pt cfg s f nx HQ HA. destruct (qreach_inv cfg s HQ) as [HR QI]. destruct (copied cfg (q_mesh s) f nx HR) as (dst & E & I & C).
  pose proof (iso_wf cfg (q_mesh s) f nx HA (q_mesh s) dst I (fun t => le_n _) (ereach_wf cfg _ HR)) as W.
  pose proof (iso_simple (q_mesh s) f nx HA (q_mesh s) dst I (ereach_simple cfg _ HR)) as SI.
  unfold copy_state. rewrite E. cbn [option_map]. eexists. split; [reflexivity|]. split; [reflexivity|]. cbn [q_mesh].
  assert (Q : qinv cfg (mkQ dst (q_cob s) (q_nb s) (q_bnd s))) by (apply qinv_bump; auto; lia).
  set (s' := mkQ dst (q_cob s) (q_nb s) (q_bnd s)) in *. split; [|split].
  - intros const bt ct b L. apply live_is_live in L. destruct (query_cob_spec cfg const s' bt ct b W SI Q L) as (s1 & E1 & _ & M & _).
    exists s1, (cobs dst bt ct b). split; auto. split; auto. now apply (cobs_exact cfg).
  - intros const t c a L. apply live_is_live in L. destruct (query_nb_spec cfg const s' t c a W SI Q L) as (s1 & l & E1 & X & _ & M). exists s1, l. auto.
  - intros t a BT L A2. apply live_is_live in L. destruct (query_bnd_spec cfg s' t a W SI Q BT L) as (s1 & E1 & _ & M). exists s1, (flag cfg dst t a). split; auto. split; auto.
    apply flag_boundary; auto.
Qed.
