(** Proofs of C32. *)
From Coq Require Import Reals List Arith Lia Lra Psatz FunctionalExtensionality.
From Verif Require Import ModelTopo ModelMesh ModelGeom ModelVolume SpecMesh SpecRefine SpecGeom MeshBase MeshDemo VectorProofs SpannedProofs VolumeProofs CenterProofs.
Import ListNotations.
Local Open Scope R_scope.

Lemma find_node_map (g : @node point -> @node point) l a : (forall n, n_addr (g n) = n_addr n) ->
  find_node (map g l) a = option_map g (find_node l a).
Proof.
  intros G. unfold find_node. induction l as [|n l IH]; cbn; auto. rewrite G. destruct (Nat.eqb _ _); cbn; auto.
Qed.
Definition tnode (f : point -> point) (n : @node point) := mkN (n_addr n) (n_key n) (transform_element f (n_el n)).
Lemma deref_transform f m t a : deref (geometric_transform f m) t a =
  (if tag_eqb t Vertex then option_map (transform_element f) (deref m t a) else deref m t a).
Proof.
  unfold deref, geometric_transform. cbn [m_nodes]. destruct t; try reflexivity. cbn [tag_eqb upd].
  rewrite (find_node_map (tnode f)) by reflexivity. destruct (find_node _ _); reflexivity.
Qed.

Lemma C32_only_points_move_pf : forall f (m : @mesh point),
  (forall a e, deref m Vertex a = Some e ->
     exists e', deref (geometric_transform f m) Vertex a = Some e' /\ e_id e' = e_id e /\
       e_verts e' = e_verts e /\ e_bnd e' = e_bnd e /\ e_pt e' = option_map f (e_pt e)) /\
  (forall a, deref m Vertex a = None -> deref (geometric_transform f m) Vertex a = None) /\
  (forall t a, t <> Vertex -> deref (geometric_transform f m) t a = deref m t a) /\
  (forall t, range (geometric_transform f m) t = range m t) /\
  (forall t, id_upper_bound (geometric_transform f m) t = id_upper_bound m t).
Proof.
  intros f m. repeat split.
  - intros a e H. rewrite deref_transform, H. cbn. eexists. split; [reflexivity|]. auto.
  - intros a H. now rewrite deref_transform, H.
  - intros t a N. rewrite deref_transform. now destruct t.
  - intros t. unfold range, geometric_transform. cbn [m_nodes]. destruct t; try reflexivity. cbn [upd tag_eqb]. rewrite map_map. reflexivity.
Qed.

Lemma omap_map_some {A B C} (g : A -> option B) (h : B -> C) l : omap (fun a => option_map h (g a)) l = option_map (map h) (omap g l).
Proof.
  induction l as [|a l IH]; cbn; auto. rewrite IH. destruct (g a); cbn; auto. now destruct (omap g l).
Qed.
Lemma omap_ext {A B} (g h : A -> option B) l : (forall x, g x = h x) -> omap g l = omap h l.
Proof. intros H. induction l as [|a l IH]; cbn; auto. now rewrite H, IH. Qed.
Lemma omap_map_in {A A' B} (g : A' -> option B) (h : A -> A') l : omap g (map h l) = omap (fun a => g (h a)) l.
Proof. induction l as [|a l IH]; cbn; auto. now rewrite IH. Qed.

Lemma C32_cells_pf : forall f (m : @mesh point) t,
  mesh_cells (geometric_transform f m) t = option_map (map (map f)) (mesh_cells m t).
Proof.
  intros f m t. unfold mesh_cells.
  assert (G : forall e : @element point, cell_points (geometric_transform f m) e = option_map (map f) (cell_points m e)).
  { intros e. unfold cell_points. rewrite <- omap_map_some. apply omap_ext. intros a. rewrite deref_transform. cbn [tag_eqb].
    destruct (deref m Vertex a) as [x|]; reflexivity. }
  rewrite <- omap_map_some. destruct t; cbn [m_nodes geometric_transform upd tag_eqb]; try (apply omap_ext; intros n; apply G).
  rewrite omap_map_in. apply omap_ext. intros n. rewrite <- G. reflexivity.
Qed.

Lemma Rsum_upto d (f : nat -> R) : Rsum (map f (seq 0 d)) = sum_upto d f.
Proof. induction d; [reflexivity|]. rewrite seq_S, map_app, Rsum_app, IHd. cbn. lra. Qed.

Lemma C32_maps_pf : forall d factor center M translation,
  is_affine d (fun i j => if Nat.eqb i j then factor else 0%R) (fun i => ((1 - factor) * center i)%R) (scale_functor factor center) /\
  is_affine d (fun i j => M (i * d + j)%nat) translation (affine_functor d M translation).
Proof.
  intros d factor center M translation. split.
  - intros p i Hi. unfold scale_functor, padd, pscale, psub.
    rewrite (Rsum_ext _ (fun j => if Nat.eqb i j then factor * p i else 0)).
    2:{ intros j _. destruct (Nat.eqb_spec i j); [now subst|ring]. }
    replace (Rsum _) with (factor * p i); [ring|]. symmetry. generalize (factor * p i). intros x. revert Hi. 
    assert (G : forall a n, (a <= i)%nat -> Rsum (map (fun j => if Nat.eqb i j then x else 0) (seq a n)) = if Nat.ltb i (a + n) then x else 0).
    { intros a n. revert a. induction n as [|n IH]; intros a Ha; cbn [seq map].
      - rewrite Rsum_nil, Nat.add_0_r. destruct (Nat.ltb_spec i a); auto; lia.
      - rewrite Rsum_cons. destruct (Nat.eqb_spec i a).
        + subst a. replace (Rsum _) with 0.
          * destruct (Nat.ltb_spec i (i + S n)); [lra|lia].
          * symmetry. rewrite (map_ext_in _ (fun _ => 0)). { clear. induction (seq (S i) n); cbn [map]; rewrite ?Rsum_nil, ?Rsum_cons; [auto|rewrite IHl; lra]. }
            intros j Hj. apply in_seq in Hj. destruct (Nat.eqb_spec i j); auto; lia.
        + rewrite IH by lia. replace (S a + n)%nat with (a + S n)%nat by lia. lra. }
    intros Hi. rewrite G by lia. destruct (Nat.ltb_spec i (0 + d)); auto; lia.
  - intros p i Hi. unfold affine_functor. destruct (Nat.ltb_spec i d); [|lia]. f_equal. rewrite Rsum_upto. apply sum_ext. intros; ring.
Qed.

Ltac aff F := repeat match goal with |- context [?f ?p ?i] => 
  match type of F with is_affine ?d ?A ?t f => rewrite (F p i) by lia end end.

Lemma signed_affine d A t f ps : is_affine d A t f -> length ps = (d + 1)%nat ->
  signed_spanned_volume d (map f ps) = option_map (Rmult (det (matrix_rows d A))) (signed_spanned_volume d ps).
Proof.
  intros F L. destruct d as [|[|[|[|d]]]], ps as [|p [|q [|r [|s [|u ps]]]]]; cbn [length] in L; try lia; cbn [map signed_spanned_volume option_map]; auto; f_equal.
  - aff F. unfold det, matrix_rows. cbn [det_n map seq length remove_nth nth Rsum fold_right pow]. ring.
  - aff F. unfold det, matrix_rows. cbn [det_n map seq length remove_nth nth Rsum fold_right pow]. field.
  - unfold inner_prod, cross_prod, psub. cbn [sum_upto]. aff F. unfold det, matrix_rows. cbn [det_n map seq length remove_nth nth Rsum fold_right pow]. field.
Qed.

Lemma omap_mul_none k o : option_map (Rmult k) o = None <-> o = None.
Proof. destruct o; cbn; split; congruence. Qed.
Lemma spanned_of_signed d f k ps : (0 <= k \/ True) ->
  signed_spanned_volume d (map f ps) = option_map (Rmult k) (signed_spanned_volume d ps) ->
  spanned_volume d (map f ps) = option_map (Rmult (Rabs k)) (spanned_volume d ps).
Proof. intros _ H. unfold spanned_volume. rewrite H. destruct (signed_spanned_volume d ps); cbn; auto. now rewrite Rabs_mult. Qed.
Lemma osum_scale k l : osum (map (option_map (Rmult k)) l) = option_map (Rmult k) (osum l).
Proof.
  induction l as [|o l IH]; cbn; [now rewrite Rmult_0_r|]. rewrite IH. destruct o; cbn; auto. destruct (osum l); cbn; auto. f_equal. ring.
Qed.
Lemma pairs_map {A B} (f : A -> B) l : pairs (map f l) = map (fun e => (f (fst e), f (snd e))) (pairs l).
Proof. induction l as [|x [|y l] IH]; cbn in *; auto. now rewrite IH. Qed.
Lemma last_map {A B} (f : A -> B) l d : last (map f l) (f d) = f (last l d).
Proof. induction l as [|x [|y l] IH]; auto. Qed.

(** The volume of a cell, given how the simplices it consists of change. *)
Lemma volume_cell_scales d s f k ps :
  (forall qs, length qs = S (shape_dim s) -> (1 <= shape_dim s)%nat -> spanned_volume d (map f qs) = option_map (Rmult (Rabs k)) (spanned_volume d qs)) ->
  (s = ShPolygon -> forall p q r, signed_spanned_volume d [f p; f q; f r] = option_map (Rmult k) (signed_spanned_volume d [p; q; r])) ->
  (s = ShLine -> forall p q, norm_2 d (psub (f p) (f q)) = Rabs k * norm_2 d (psub p q)) ->
  (s = ShVertex -> Rabs k = 1) ->
  volume_cell d s (map f ps) = option_map (Rmult (Rabs k)) (volume_cell d s ps).
Proof.
  intros H1 H2 H3 H4. destruct s.
  - destruct ps as [|p [|]]; cbn; auto. rewrite (H4 eq_refl). f_equal. ring.
  - destruct ps as [|p [|q [|]]]; cbn [volume_cell map]; auto. cbn [option_map]. f_equal. apply H3; auto.
  - destruct ps as [|p [|q [|r [|]]]]; cbn [volume_cell map]; auto. apply (H1 [p; q; r]); cbn; auto.
  - destruct ps as [|p [|q [|r [|u [|]]]]]; cbn [volume_cell map]; auto.
    rewrite <- osum_scale. cbn [map]. f_equal. f_equal; [apply (H1 [p; q; u]); cbn; auto|]. f_equal. apply (H1 [q; r; u]); cbn; auto.
  - cbn [volume_cell]. destruct ps as [|p ps]; cbn [map]; [cbn; f_equal; ring|]. unfold polygon_volume.
    change (f p :: map f ps) with (map f (p :: ps)). rewrite map_length. destruct (Nat.ltb _ 3); [cbn; f_equal; ring|].
    rewrite pairs_map, last_map. change [(f (last (p :: ps) p), f p)] with (map (fun e => (f (fst e), f (snd e))) [(last (p :: ps) p, p)]).
    rewrite <- map_app, map_map. cbn [fst snd].
    rewrite (osum_ext _ (fun x => option_map (Rmult k) (signed_spanned_volume d [p; fst x; snd x]))) by (intros; apply H2; auto).
    rewrite <- (map_map (fun x => signed_spanned_volume d [p; fst x; snd x]) (option_map (Rmult k))), osum_scale.
    destruct (osum _); cbn; auto. now rewrite Rabs_mult.
  - destruct ps as [|p [|q [|r [|u [|]]]]]; cbn [volume_cell map]; auto. apply (H1 [p; q; r; u]); cbn; auto.
  - destruct ps as [|p0 [|p1 [|p2 [|p3 [|p4 [|p5 [|p6 [|p7 [|]]]]]]]]]; cbn [volume_cell map]; auto.
    rewrite <- osum_scale. cbn [map].
    pose proof (fun a b c e => H1 [a; b; c; e] eq_refl ltac:(cbn; lia)) as G. cbn [map] in G. rewrite !G. reflexivity.
Qed.

Lemma C32_affine_volume_pf : forall d s A t f ps, is_affine d A t f -> shape_dim s = d ->
  volume_cell d s (map f ps) = option_map (Rmult (Rabs (det (matrix_rows d A)))) (volume_cell d s ps).
Proof.
  intros d s A t f ps F E. apply volume_cell_scales.
  - intros qs L P. apply spanned_of_signed; auto. apply (signed_affine d A t f qs F). lia.
  - intros -> p q r. cbn in E. subst d. apply (signed_affine 2 A t f [p; q; r] F). reflexivity.
  - intros -> p q. cbn in E. subst d. unfold norm_2, psub. cbn [sum_upto]. aff F. unfold det, matrix_rows. cbn [det_n map seq length remove_nth nth Rsum fold_right pow].
    assert (G : forall x, sqrt (0 + x * x) = Rabs x) by (intros x; rewrite Rplus_0_l; apply sqrt_Rsqr_abs).
    unfold inner_prod. cbn [sum_upto]. rewrite !G, <- Rabs_mult. f_equal. ring.
  - intros ->. cbn in E. subst d. unfold det, matrix_rows. cbn. apply Rabs_R1.
Qed.

Lemma scale_signed3 c o d p q r : signed_spanned_volume d [scale_functor c o p; scale_functor c o q; scale_functor c o r] =
  option_map (Rmult (c ^ 2)) (signed_spanned_volume d [p; q; r]).
Proof.
  destruct d as [|[|[|[|d]]]]; cbn [signed_spanned_volume option_map]; auto; f_equal.
  - unfold scale_functor, padd, pscale, psub. field.
  - replace (norm_2 3 (cross_prod (psub (scale_functor c o q) (scale_functor c o p)) (psub (scale_functor c o r) (scale_functor c o p)))) with (norm_2 3 (fun i => (c * c) * cross_prod (psub q p) (psub r p) i)).
    2:{ unfold norm_2. f_equal. unfold scale_functor. pt. ring. }
    rewrite (proj1 (proj2 (proj2 (proj1 (proj2 (C27_norms_pf 3)))))). rewrite Rabs_pos_eq by nra. field.
Qed.

Lemma C32_scale_volume_pf : forall d s factor center ps,
  volume_cell d s (map (scale_functor factor center) ps) = option_map (Rmult (Rabs factor ^ shape_dim s)) (volume_cell d s ps).
Proof.
  intros d s c o ps. rewrite RPow_abs. apply volume_cell_scales.
  - intros qs L P. rewrite <- RPow_abs.
    assert (E : map (scale_functor c o) qs = map (padd (fun i => (1 - c) * o i)) (map (pscale c) qs)).
    { rewrite map_map. apply map_ext. intros p. apply functional_extensionality. intros i. unfold scale_functor, padd, pscale, psub. ring. }
    rewrite E, C26_translation_pf. destruct (spanned_volume d qs) as [v|] eqn:V.
    + rewrite (C26_scaling_pf d c qs v V). cbn. do 2 f_equal. f_equal. lia.
    + cbn. destruct (spanned_volume d (map (pscale c) qs)) eqn:W; auto. exfalso.
      assert (X : spanned_volume d (map (pscale c) qs) <> None) by congruence. apply C26_defined_for_pf in X. rewrite map_length in X. now apply C26_defined_for_pf in X.
  - intros -> p q r. apply scale_signed3.
  - intros -> p q. cbn [shape_dim]. rewrite pow_1. rewrite <- (proj1 (proj2 (proj2 (proj1 (proj2 (C27_norms_pf d)))))).
    unfold norm_2. f_equal. apply inner_ext; intros i Hi; unfold scale_functor, padd, pscale, psub; ring.
  - intros ->. cbn. apply Rabs_R1.
Qed.

Lemma volumes_scale d s f k cells vs :
  (forall ps, volume_cell d s (map f ps) = option_map (Rmult k) (volume_cell d s ps)) ->
  volumes_are (volume_cell d s) cells vs -> volumes_are (volume_cell d s) (map (map f) cells) (map (Rmult k) vs).
Proof. intros H. unfold volumes_are. induction 1; cbn; constructor; auto. rewrite H, H0. reflexivity. Qed.

Lemma C32_mesh_volume_pf : forall (m : @mesh point) t d s cells v,
  mesh_cells m t = Some cells -> volume_mesh d s cells = Some v ->
  (forall A tr f, is_affine d A tr f -> shape_dim s = d ->
     exists cells', mesh_cells (geometric_transform f m) t = Some cells' /\
       volume_mesh d s cells' = Some (Rabs (det (matrix_rows d A)) * v)%R) /\
  (forall factor center,
     exists cells', mesh_cells (scale_mesh factor center m) t = Some cells' /\
       volume_mesh d s cells' = Some (Rabs factor ^ shape_dim s * v)%R).
Proof.
  intros m t d s cells v C V. apply C28_mesh_volume_pf in V as (vs & V & ->). split.
  - intros A tr f F E. exists (map (map f) cells). split; [now rewrite C32_cells_pf, C|]. apply C28_mesh_volume_pf. eexists. split.
    + apply volumes_scale; [|exact V]. intros ps. now apply (C32_affine_volume_pf d s A tr f ps).
    + rewrite Rsum_scal. now rewrite map_id.
  - intros c o. exists (map (map (scale_functor c o)) cells). split; [unfold scale_mesh; now rewrite C32_cells_pf, C|]. apply C28_mesh_volume_pf. eexists. split.
    + apply volumes_scale; [|exact V]. intros ps. apply C32_scale_volume_pf.
    + rewrite Rsum_scal. now rewrite map_id.
Qed.

Lemma C32_mesh_centroid_pf : forall d s A t f cells c, is_affine d A t f -> shape_dim s = d ->
  det (matrix_rows d A) <> 0%R -> Forall (fun ps => ps <> []) cells ->
  centroid_mesh d s cells = Some c ->
  exists c', centroid_mesh d s (map (map f) cells) = Some c' /\ same_point d c' (f c).
Proof.
  intros d s A t f cells c F E N NE H. apply C31_mesh_centroid_pf in H as (vs & V & S & W).
  set (k := Rabs (det (matrix_rows d A))). assert (Nk : k <> 0) by (apply Rabs_no_R0; auto).
  assert (V' : volumes_are (volume_cell d s) (map (map f) cells) (map (Rmult k) vs)).
  { apply volumes_scale; auto. intros ps. now apply (C32_affine_volume_pf d s A t f ps). }
  assert (S' : Rsum (map (Rmult k) vs) = k * Rsum vs) by (rewrite Rsum_scal, map_id; auto).
  destruct (C31_mesh_centroid_exists_pf d s _ _ V') as (c' & C'); [rewrite S'; apply Rmult_integral_contrapositive; auto|].
  exists c'. split; auto. apply C31_mesh_centroid_pf in C' as (vs' & V2 & S2 & W2).
  assert (vs' = map (Rmult k) vs).
  { clear - V' V2. revert vs' V2. induction V'; intros vs' V2; inversion V2; subst; auto. f_equal; [congruence|auto]. }
  subst vs'. intros i Hi. specialize (W2 i Hi). rewrite S' in W2. apply (Rmult_eq_reg_r (k * Rsum vs)); [|apply Rmult_integral_contrapositive; auto].
  rewrite W2, (F c i Hi). clear W2 S2 V2.
  transitivity (k * (t i * Rsum vs + Rsum (map (fun j => A i j * (c j * Rsum vs)) (seq 0 d)))).
  2:{ rewrite (Rsum_ext (fun j => A i j * (c j * Rsum vs)) (fun j => Rsum vs * (A i j * c j))) by (intros; ring). rewrite Rsum_scal. ring. }
  rewrite (map_ext_in (fun j => A i j * (c j * Rsum vs)) (fun j => A i j * Rsum (map (fun wp => fst wp * snd wp j) (combine vs (map centroid cells))))) by (intros j Hj; apply in_seq in Hj; now rewrite W by lia).
  clear - F Hi NE V. unfold volumes_are in V. induction V as [|x v cells vs E V IH]; cbn [map combine].
  - rewrite (Rsum_ext _ (fun j : nat => 0 * 0)) by (intros; rewrite Rsum_nil; ring). rewrite Rsum_scal, !Rsum_nil. ring.
  - inversion NE; subst. rewrite !Rsum_cons, IH by auto. cbn [fst snd].
    rewrite (proj2 (proj2 (proj2 (C31_centroid_pf d x ltac:(auto)))) A t f F i Hi), (F _ i Hi).
    rewrite (Rsum_ext (fun j => A i j * Rsum (v * centroid x j :: map (fun wp => fst wp * snd wp j) (combine vs (map centroid cells))))
      (fun j => v * (A i j * centroid x j) + A i j * Rsum (map (fun wp => fst wp * snd wp j) (combine vs (map centroid cells))))) by (intros; rewrite Rsum_cons; ring).
    rewrite Rsum_plus, Rsum_scal. unfold point in *. ring.
Qed.
