(** Lemmas for C75 and C76: the faces, the elements and the segments of .bnd files. *)
From Coq Require Import List Arith ZArith Bool Lia Sorted.
From Verif Require Import ModelTopo ModelMesh ModelErase ModelQuery ModelView ModelSegmentation ModelSegment ModelCopy ModelCopySeg ModelBnd
  SpecMesh SpecErase SpecQuery SpecSegmentation SpecSegment SpecCopy SpecCopySeg SpecBnd MeshBase MeshInv MeshReach MeshWf MeshErase MeshSimple QueryBase SegmentationBase ViewBase SegmentView SegmentBase SegmentInv SegmentStep SegmentProofs
  CopyBase CopySegBase ExtractProofs BndBuild.
Import ModelSegmentation ListNotations.
Open Scope nat_scope.

Lemma at_entry {A} (l : list A) i x : at_index l i = Some x <-> entry l i x.
Proof. unfold at_index, entry. destruct (Z.ltb_spec i 0); [split; [discriminate|intros []; lia]|]. split; [auto|now intros []]. Qed.
Lemma at_refers {A} (l : list A) i x : at_index l (map_index i) = Some x <-> refers l i x.
Proof.
  rewrite at_entry. unfold refers, map_index. destruct (Z.leb_spec 0 i).
  - split; [auto|]. intros [X|[X _]]; auto. lia.
  - replace (- i - 1)%Z with (-1 - i)%Z by lia. split; [auto|]. intros [[X _]|[_ X]]; auto. lia.
Qed.
Lemma refers_fun {A} (l : list A) i x y : refers l i x -> refers l i y -> x = y.
Proof. rewrite <- !at_refers. congruence. Qed.

(** Sorting. *)
Lemma insert_z_In x l y : In y (insert_z x l) <-> y = x \/ In y l.
Proof.
  induction l as [|z l IH]; cbn; [intuition|]. destruct (x <=? z)%Z; cbn; [intuition|]. rewrite IH. intuition.
Qed.
Lemma sort_z_In l y : In y (sort_z l) <-> In y l.
Proof. induction l as [|x l IH]; cbn; [tauto|]. rewrite insert_z_In. unfold sort_z in IH. rewrite IH. intuition. Qed.
Lemma insert_z_length x l : length (insert_z x l) = S (length l).
Proof. induction l as [|z l IH]; cbn; auto. destruct (x <=? z)%Z; cbn; auto. Qed.
Lemma sort_z_length l : length (sort_z l) = length l.
Proof. induction l as [|x l IH]; auto. cbn [sort_z fold_right]. rewrite insert_z_length. cbn. f_equal. exact IH. Qed.
Lemma insert_z_sorted x l : StronglySorted Z.lt l -> ~ In x l -> StronglySorted Z.lt (insert_z x l).
Proof.
  induction l as [|z l IH]; intros S N; cbn; [repeat constructor|]. inversion S as [|? ? S' F]; subst.
  destruct (Z.leb_spec x z).
  - assert (x <> z) by (intros ->; apply N; now left). constructor; auto. constructor; [lia|]. eapply Forall_impl; [|exact F]. cbn. lia.
  - constructor; [apply IH; auto; intros X; apply N; now right|]. apply Forall_forall. intros y Hy. apply insert_z_In in Hy as [->|Hy]; [lia|].
    rewrite Forall_forall in F. auto.
Qed.
Lemma sort_z_sorted l : NoDup l -> StronglySorted Z.lt (sort_z l).
Proof.
  induction l as [|x l IH]; intros N; [constructor|]. inversion N; subst. cbn [sort_z fold_right]. apply insert_z_sorted; [now apply IH|]. now rewrite (sort_z_In l x).
Qed.
Lemma sorted_nodup l : StronglySorted Z.lt l -> NoDup l.
Proof.
  induction l as [|x l IH]; intros S; inversion S as [|? ? S' F]; subst; constructor; auto. intros X. rewrite Forall_forall in F. specialize (F x X). lia.
Qed.
Lemma sorted_unique l : forall l', StronglySorted Z.lt l -> StronglySorted Z.lt l' -> (forall v, In v l <-> In v l') -> l = l'.
Proof.
  induction l as [|x l IH]; intros [|y l'] S S' H; auto.
  - exfalso. apply (H y). now left.
  - exfalso. apply (H x). now left.
  - inversion S as [|? ? S1 F]; inversion S' as [|? ? S1' F']; subst. rewrite Forall_forall in F, F'.
    assert (E : x = y).
    { destruct (proj1 (H x) (or_introl eq_refl)) as [->|X]; auto. destruct (proj2 (H y) (or_introl eq_refl)) as [->|Y]; auto.
      specialize (F y Y). specialize (F' x X). lia. }
    subst y. f_equal. apply IH; auto. intros v. split; intros X.
    + destruct (proj1 (H v) (or_intror X)) as [->|]; auto. specialize (F v X). lia.
    + destruct (proj2 (H v) (or_intror X)) as [->|]; auto. specialize (F' v X). lia.
Qed.

Lemma push_unique_In p v x : In x (push_unique p v) <-> In x p \/ x = v.
Proof.
  unfold push_unique. destruct (existsb (Z.eqb v) p) eqn:E.
  - apply existsb_exists in E as (w & Hw & Q). apply Z.eqb_eq in Q. subst w. split; auto. intros [X| ->]; auto.
  - rewrite in_app_iff. cbn. intuition.
Qed.
Lemma push_unique_NoDup p v : NoDup p -> NoDup (push_unique p v).
Proof.
  intros N. unfold push_unique. destruct (existsb (Z.eqb v) p) eqn:E; auto.
  assert (X : ~ In v p). { intros X. assert (Y : existsb (Z.eqb v) p = true) by (apply existsb_exists; exists v; split; auto; apply Z.eqb_refl). congruence. }
  clear E. induction p as [|y p IH]; cbn; [repeat constructor; auto|]. inversion N; subst. constructor.
  - rewrite in_app_iff. cbn. intros [Y|[Y|[]]]; [contradiction|]. subst. apply X. now left.
  - apply IH; auto. intros Y. apply X. now right.
Qed.

Section Read.
Context {K : Type}.
Variable b : @bnd K.

Lemma push_edges_spec es : forall p, NoDup p -> (forall e, In e es -> exists uw, refers (b_edges b) e uw) ->
  exists p', rfold (push_edge b) es p = Done p' /\ NoDup p' /\ forall v, In v p' <-> In v p \/ exists e, In e es /\ ends_in b e v.
Proof.
  induction es as [|e es IH]; intros p N H.
  - exists p. split; auto. split; auto. intros v. split; auto. intros [X|(e & [] & _)]; auto.
  - cbn [rfold]. destruct (H e (or_introl eq_refl)) as (uw & R). unfold push_edge at 1. rewrite (proj2 (at_refers _ _ _) R). cbn [of_option rbind].
    destruct (if (e <? 0)%Z then (snd uw, fst uw) else uw) as [u w] eqn:E.
    assert (UW : forall v, (v = u \/ v = w) <-> ends_in b e v).
    { intros v. unfold ends_in. destruct (e <? 0)%Z; inversion E; subst; cbn [fst snd].
      - split; [intros X; exists uw; tauto|]. intros (uw' & R' & X). rewrite (refers_fun _ _ _ _ R R'). tauto.
      - split; [intros X; exists (u, w); auto|]. intros (uw' & R' & X). rewrite <- (refers_fun _ _ _ _ R R') in X. auto. }
    cbn [rbind]. destruct (IH (push_unique (push_unique p u) w)) as (p' & Ep & Np & IN).
    { now apply push_unique_NoDup, push_unique_NoDup. } { intros; apply H; now right. }
    exists p'. split; [exact Ep|]. split; auto. intros v. rewrite IN, !push_unique_In. split.
    + intros [[[X|X]|X]|(e' & I & X)].
      * now left.
      * right. exists e. split; [now left|]. apply UW. now left.
      * right. exists e. split; [now left|]. apply UW. now right.
      * right. exists e'. split; [now right|auto].
    + intros [X|(e' & [<-|I] & X)]; auto; [apply UW in X; tauto|]. right. eauto.
Qed.

Lemma face_spec f vs : corners_of b f vs -> exists p, face_polygon b f = Done p /\ sort_z p = vs.
Proof.
  intros (es & R & H & S & C). unfold face_polygon. rewrite (proj2 (at_refers _ _ _) R). cbn [of_option rbind].
  destruct (push_edges_spec es [] (NoDup_nil _) H) as (p & E & N & IN). exists p. split; auto.
  apply sorted_unique; auto; [now apply sort_z_sorted|]. intros v. rewrite sort_z_In, IN, C. cbn. tauto.
Qed.

(** The elements. *)
Lemma push_at_last (d : list (list Z)) : forall done r p, push_at (length done) p (done ++ d :: r) = Some (done ++ (d ++ [p]) :: r).
Proof. induction done as [|x done IH]; intros r p; cbn; auto. rewrite IH. reflexivity. Qed.
Lemma push_polygons_spec (pg : Z -> result (list Z)) fs ps : Forall2 (fun f p => pg f = Done p) fs ps ->
  forall done d r, push_polygons pg (length done) fs (done ++ d :: r) = Done (done ++ (d ++ ps) :: r).
Proof.
  unfold push_polygons. intros F. induction F as [|f p fs ps Hf F IH]; intros done d r; cbn [rfold]; [now rewrite app_nil_r|].
  rewrite Hf. cbn [rbind]. rewrite push_at_last. cbn [of_option rbind]. rewrite IH, <- app_assoc. reflexivity.
Qed.

Definition read_as (e : element) (ps : list (list Z)) : Prop :=
  (exists fs, e = Polyhedron fs /\ Forall2 (fun f p => face_polygon b f = Done p) fs ps) \/
  (exists fs, e = Polygon fs /\ Forall2 (fun f p => edge_polygon b f = Done p) fs ps).
Lemma elements_spec es dom : Forall2 read_as es dom -> forall done rest k,
  read_elements b (length done) (es ++ rest) (done ++ repeat [] (length es + k)) = read_elements b (length done + length es) rest (done ++ dom ++ repeat [] k).
Proof.
  intros F. induction F as [|e ps es dom He F IH]; intros done rest k; cbn [length app].
  - now rewrite Nat.add_0_r.
  - cbn [Nat.add repeat].
    assert (E : forall pg fs, Forall2 (fun f p => pg f = Done p) fs ps ->
      rbind (push_polygons pg (length done) fs (done ++ [] :: repeat [] (length es + k))) (read_elements b (S (length done)) (es ++ rest)) =
      read_elements b (length done + S (length es)) rest (done ++ ps :: dom ++ repeat [] k)).
    { intros pg fs Ff. rewrite (push_polygons_spec pg fs ps Ff). cbn [rbind app].
      specialize (IH (done ++ [ps]) rest k). rewrite app_length in IH. cbn [length] in IH. rewrite Nat.add_1_r in IH.
      rewrite <- !app_assoc in IH. cbn [app] in IH. rewrite IH. f_equal. lia. }
    destruct He as [(fs & -> & Ff)|(fs & -> & Ff)]; cbn [read_elements]; apply E; auto.
Qed.
Lemma contacts_spec k : forall i (dom : list (list (list Z))), read_elements b i (repeat Contact k) (dom ++ repeat [] k) = Done dom.
Proof.
  induction k as [|k IH]; intros i dom; cbn [repeat read_elements]; [now rewrite app_nil_r|].
  replace (dom ++ [] :: repeat [] k) with ((dom ++ repeat [] k) ++ [[]]).
  - rewrite removelast_last. apply IH.
  - rewrite <- app_assoc. f_equal. symmetry. apply repeat_cons.
Qed.
Lemma domain_spec es dom k : b_elements b = es ++ repeat Contact k -> Forall2 read_as es dom -> read_domain b = Done dom.
Proof.
  intros E F. unfold read_domain. rewrite E, app_length, repeat_length.
  change 0 with (length (@nil (list (list Z)))). change (repeat [] (length es + k)) with ([] ++ repeat (@nil (list Z)) (length es + k)).
  rewrite (elements_spec es dom F). cbn [app length]. apply contacts_spec.
Qed.
Lemma domain_other es dom post : b_elements b = es ++ Other :: post -> Forall2 read_as es dom -> read_domain b = Done (dom ++ repeat [] (S (length post))).
Proof.
  intros E F. unfold read_domain. rewrite E, app_length. cbn [length].
  change 0 with (length (@nil (list (list Z)))). change (repeat [] (length es + S (length post))) with ([] ++ repeat (@nil (list Z)) (length es + S (length post))).
  rewrite (elements_spec es dom F). reflexivity.
Qed.

(** A contact before the last polyhedron. *)
Definition is_contact (e : element) : bool := match e with Contact => true | _ => false end.
Lemma face_never f : face_polygon b f <> Thrown.
Proof.
  unfold face_polygon. destruct (at_index _ _) as [es|]; cbn; [|discriminate]. generalize (@nil Z). induction es as [|e es IH]; intros p; cbn [rfold]; [discriminate|].
  unfold push_edge at 1. destruct (at_index _ _) as [uw|]; cbn; [|discriminate]. destruct (if (e <? 0)%Z then _ else _). cbn. apply IH.
Qed.
Lemma edge_never f : edge_polygon b f <> Thrown.
Proof. unfold edge_polygon. destruct (at_index _ _); cbn; discriminate. Qed.
Lemma push_at_length p : forall i dom dom', push_at i p dom = Some dom' -> length dom' = length dom /\ i < length dom.
Proof.
  induction i as [|i IH]; intros [|d dom] dom'; cbn; try discriminate.
  - intros H. inversion H. cbn. lia.
  - destruct (push_at i p dom) as [r|] eqn:E; [|discriminate]. cbn. intros H. inversion H. destruct (IH _ _ E). cbn. lia.
Qed.
Lemma push_polygons_or (pg : Z -> result (list Z)) i fs : (forall f, pg f <> Thrown) -> forall dom,
  push_polygons pg i fs dom = Undefined \/ exists dom', push_polygons pg i fs dom = Done dom' /\ length dom' = length dom.
Proof.
  intros N. unfold push_polygons. induction fs as [|f fs IH]; intros dom; cbn [rfold]; [right; eauto|].
  destruct (pg f) as [p| |] eqn:E; [|destruct (N f E)|now left]. cbn [rbind]. destruct (push_at i p dom) as [d|] eqn:P; [|now left]. cbn [of_option rbind].
  apply push_at_length in P as [P _]. rewrite <- P. apply IH.
Qed.
Lemma contact_before f fs pre : Forall (fun e => e <> Other) pre -> forall i dom, length dom <= i + length pre + length (filter is_contact pre) ->
  read_elements b i (pre ++ [Polyhedron (f :: fs)]) dom = Undefined.
Proof.
  intros F. induction F as [|e pre He F IH]; intros i dom L; cbn [app].
  - cbn in L. cbn [read_elements]. unfold push_polygons. cbn [rfold]. destruct (face_polygon b f) as [p| |] eqn:E; [|destruct (face_never f E)|reflexivity].
    cbn [rbind]. destruct (push_at i p dom) as [d|] eqn:P; [|reflexivity]. apply push_at_length in P. lia.
  - cbn [length] in L.
    destruct e as [gs|gs| |]; [| | |congruence]; cbn [read_elements]; cbn [filter is_contact length] in L.
    + destruct (push_polygons_or (face_polygon b) i gs face_never dom) as [->|(d & -> & Ld)]; [reflexivity|]. cbn [rbind]. apply IH. lia.
    + destruct (push_polygons_or (edge_polygon b) i gs edge_never dom) as [->|(d & -> & Ld)]; [reflexivity|]. cbn [rbind]. apply IH. lia.
    + apply IH. assert (length (removelast dom) = length dom - 1).
      { destruct dom as [|d dom]; auto. rewrite (app_removelast_last d (l := d :: dom)) at 2 by discriminate. rewrite app_length. cbn. lia. }
      lia.
Qed.

(** The segments. *)
Variable cfg : config.
Hypothesis TC : cfg_cell cfg = Triangle.
Definition good (ts p : list Z) : Prop := sort_z p = ts /\ (length ts = 3 -> NoDup ts /\ Forall (known b) ts).

Lemma polygons_loop zs z a T ps : Forall2 good T ps -> Forall (fun ts => length ts = 3) T -> forall r dn, rinv cfg b zs r dn -> In (z, a) (g_ids (st_segs (rd_st r))) ->
  exists r', rfold (read_polygon cfg b a) ps r = Done r' /\ rinv cfg b zs r' (dn ++ map (pair z) T).
Proof.
  intros F. induction F as [|ts p T ps (S & G) F IH]; intros L r dn I ZA; cbn [rfold map].
  - exists r. now rewrite app_nil_r.
  - inversion L as [|? ? L3 L']; subst. destruct (G L3) as [ND KN].
    destruct (read_polygon_spec cfg b TC zs r dn z a _ p I ZA eq_refl L3 ND KN) as (r1 & E1 & I1 & S1). rewrite E1. cbn [rbind].
    destruct (IH L' r1 _ I1) as (r2 & E2 & I2); [now rewrite S1|]. exists r2. split; auto. rewrite <- app_assoc in I2. exact I2.
Qed.
Lemma polygons_bad zs z a T ps : Forall2 good T ps -> Exists (fun ts => length ts <> 3) T -> forall r dn, rinv cfg b zs r dn -> In (z, a) (g_ids (st_segs (rd_st r))) ->
  rfold (read_polygon cfg b a) ps r = Thrown.
Proof.
  intros F. induction F as [|ts p T ps (S & G) F IH]; intros L r dn I ZA; cbn [rfold]; [inversion L|]. subst ts.
  destruct (Nat.eq_dec (length (sort_z p)) 3) as [L3|N3].
  - destruct (G L3) as [ND KN]. destruct (read_polygon_spec cfg b TC zs r dn z a _ p I ZA eq_refl L3 ND KN) as (r1 & E1 & I1 & S1). rewrite E1. cbn [rbind].
    apply (IH) with (dn := dn ++ [(z, sort_z p)]); auto; [|now rewrite S1]. inversion L; subst; [contradiction|auto].
  - unfold read_polygon. destruct (Nat.eqb_spec (length (sort_z p)) (nverts Triangle)); [contradiction|reflexivity].
Qed.

Definition new_ids (k n : nat) : list Z := map Z.of_nat (seq k n).
Lemma start_segment zs r dn k : rinv cfg b zs r dn -> exists g a, get_make_id (Z.of_nat k) (st_segs (rd_st r)) = SRet g a /\
  let r' := mkRd (with_segs (rd_st r) g) (rd_vertices r) (rd_cells r) in rinv cfg b (zs ++ [Z.of_nat k]) r' dn /\ In (Z.of_nat k, a) (g_ids (st_segs (rd_st r'))).
Proof.
  intros [RR RN RI RV RU RC RL RK RD RIN RE].
  destruct (make_id_spec cfg (NHb cfg TC) (rd_st r) (Z.of_nat k) RR RN) as (g & a & EG & RG & NG & IB & ING & HG).
  exists g, a. split; auto. cbn zeta. split; [|exact IB]. constructor; cbn [rd_st rd_vertices rd_cells]; auto.
  - intros z. cbn [with_segs st_segs]. rewrite HG, RI, in_app_iff. cbn. intuition.
  - intros z t x. rewrite ING. apply RIN.
Qed.
Fixpoint tagged (k : nat) (segs : list (list (list Z))) : list (Z * list Z) :=
  match segs with [] => [] | T :: r => map (pair (Z.of_nat k)) T ++ tagged (S k) r end.
Lemma segments_loop segs dom : Forall2 (Forall2 good) segs dom -> Forall (Forall (fun ts => length ts = 3)) segs -> forall k zs r dn, rinv cfg b zs r dn ->
  exists r', rfold (read_segment cfg b) (combine (seq k (length dom)) dom) r = Done r' /\ rinv cfg b (zs ++ new_ids k (length segs)) r' (dn ++ tagged k segs).
Proof.
  intros F. induction F as [|T ps segs dom FT F IH]; intros L k zs r dn I; cbn [length seq combine rfold tagged].
  - exists r. cbn. now rewrite !app_nil_r.
  - inversion L; subst. unfold read_segment at 1. cbn [fst snd].
    destruct (start_segment zs r dn k I) as (g & a & EG & I1 & ZA). rewrite EG.
    destruct (polygons_loop _ (Z.of_nat k) a T ps FT H1 _ dn I1 ZA) as (r2 & E2 & I2). rewrite E2. cbn [rbind].
    destruct (IH H2 (S k) _ r2 _ I2) as (r3 & E3 & I3). exists r3. split; auto. rewrite <- !app_assoc in I3. exact I3.
Qed.
Lemma segments_bad segs dom : Forall2 (Forall2 good) segs dom -> Exists (Exists (fun ts => length ts <> 3)) segs -> forall k zs r dn, rinv cfg b zs r dn ->
  rfold (read_segment cfg b) (combine (seq k (length dom)) dom) r = Thrown.
Proof.
  intros F. induction F as [|T ps segs dom FT F IH]; intros L k zs r dn I; cbn [length seq combine rfold]; [inversion L|].
  unfold read_segment at 1. cbn [fst snd]. destruct (start_segment zs r dn k I) as (g & a & EG & I1 & ZA). rewrite EG.
  destruct (Exists_dec (fun ts : list Z => length ts <> 3) T) as [X|X].
  { intros ts. destruct (Nat.eq_dec (length ts) 3); [right; auto|now left]. }
  - rewrite (polygons_bad _ (Z.of_nat k) a T ps FT X _ dn I1 ZA). reflexivity.
  - assert (A : Forall (fun ts => length ts = 3) T). { apply Forall_forall. intros ts Ht. destruct (Nat.eq_dec (length ts) 3); auto. exfalso. apply X, Exists_exists. eauto. }
    destruct (polygons_loop _ (Z.of_nat k) a T ps FT A _ dn I1 ZA) as (r2 & E2 & I2). rewrite E2. cbn [rbind].
    eapply IH; [|exact I2]. inversion L; subst; [contradiction|auto].
Qed.
Lemma tagged_In k segs z ts : In (z, ts) (tagged k segs) <-> exists j T, z = Z.of_nat (k + j) /\ nth_error segs j = Some T /\ In ts T.
Proof.
  revert k. induction segs as [|T segs IH]; intros k; cbn [tagged].
  - split; [intros []|]. intros (j & T & _ & X & _). destruct j; discriminate X.
  - rewrite in_app_iff, IH, in_map_iff. split.
    + intros [(t' & X & Y)|(j & T' & X & Y & Z)].
      * inversion X; subst. exists 0, T. rewrite Nat.add_0_r. auto.
      * exists (S j), T'. rewrite Nat.add_succ_r. auto.
    + intros (j & T' & X & Y & Z). destruct j as [|j].
      * cbn in Y. inversion Y; subst. rewrite Nat.add_0_r. left. eauto.
      * right. exists j, T'. rewrite Nat.add_succ_r in X. auto.
Qed.
Lemma rinv_start : rinv cfg b [] (mkRd (new_sstate empty_mesh) [] []) [].
Proof.
  constructor; cbn [rd_st rd_vertices rd_cells map new_sstate st_mesh st_segs].
  - apply sr_new. constructor.
  - intros z. cbn. split; auto.
  - intros z. split; [|intros []]. intros X. destruct X as (a & [] & _) || (exfalso; apply has_id_iff in X; destruct X as (a & [])).
  - constructor; cbn; try constructor; try easy. + intros [e D]. cbn in D. discriminate.
  - intros i. split; [intros []|intros (z & p & [] & _)].
  - intros p a [].
  - intros a. split; [intros [e D]; discriminate D|intros []].
  - constructor.
  - intros p. split; [intros []|intros (z & [])].
  - intros z t x. split; [intros (a & [X _] & _); destruct X|intros (p & a & [] & _)].
  - intros t x _ [e D]. discriminate D.
Qed.
Definition name_of (V : list (Z * addr)) (i : Z) : addr := match find_vertex i V with Some v => v | None => 0 end.
Definition cell_of (C : list (list Z * addr)) (p : list Z) : addr := match find_polygon p C with Some v => v | None => 0 end.
Lemma name_spec V i : In i (map fst V) -> In (i, name_of V i) V.
Proof. intros H. unfold name_of. destruct (find_vertex i V) eqn:E; [now apply find_vertex_some|]. now apply find_vertex_none in E. Qed.
Lemma cell_spec C p : In p (map fst C) -> In (p, cell_of C p) C.
Proof. intros H. unfold cell_of. destruct (find_polygon p C) eqn:E; [now apply find_polygon_some|]. now apply find_polygon_none in E. Qed.

Lemma tagged_triangle segs ts : (exists z, In (z, ts) (tagged 0 segs)) <-> triangle_in segs ts.
Proof.
  unfold triangle_in. split.
  - intros (z & X). apply tagged_In in X as (j & T & _ & X & Y). apply nth_error_In in X. eauto.
  - intros (T & X & Y). apply In_nth_error in X as (j & X). exists (Z.of_nat j). apply tagged_In. exists j, T. auto.
Qed.
Lemma surface_spec segs r : rinv cfg b (new_ids 0 (length segs)) r (tagged 0 segs) -> surface_of b cfg (rd_st r) segs (name_of (rd_vertices r)) (cell_of (rd_cells r)).
Proof.
  intros [RR RN RI RV RU RC RL RK RD RIN RE].
  assert (CI : forall i, corner_in segs i <-> In i (map fst (rd_vertices r))).
  { intros i. rewrite RU. unfold corner_in. split.
    - intros (ts & X & Y). apply tagged_triangle in X as (z & X). eauto.
    - intros (z & p & X & Y). exists p. split; auto. apply tagged_triangle. eauto. }
  assert (TI : forall ts, triangle_in segs ts <-> In ts (map fst (rd_cells r))) by (intros ts; rewrite RD; symmetry; apply tagged_triangle).
  assert (PS : forall ts, triangle_in segs ts -> vertices_at (st_mesh (rd_st r)) Triangle (cell_of (rd_cells r) ts) = Some (map (name_of (rd_vertices r)) ts)).
  { intros ts X. apply TI, cell_spec, RC in X as (vs & V & F). rewrite V. f_equal. clear - F RV. induction F; cbn; auto. f_equal; auto.
    apply (fst_unique _ x _ _ (v_fst _ _ _ RV)); auto. apply name_spec. apply (in_map fst) in H. exact H. }
  assert (CU : forall p a, In (p, a) (rd_cells r) -> a = cell_of (rd_cells r) p).
  { intros p a X. apply (fst_unique _ p _ _ RK); auto. apply cell_spec. apply (in_map fst) in X. exact X. }
  constructor; auto.
  - intros v. rewrite (v_live _ _ _ RV). split.
    + intros X. apply in_map_iff in X as ([i v'] & <- & X). cbn. assert (Y := X). apply (in_map fst) in Y. cbn in Y. exists i. split; [now apply CI|].
      apply (fst_unique _ i _ _ (v_fst _ _ _ RV)); auto. now apply name_spec.
    + intros (i & X & ->). apply CI, name_spec in X. apply (in_map snd) in X. exact X.
  - intros i j X Y E. apply CI, name_spec in X. apply CI, name_spec in Y. rewrite E in X. apply (snd_unique _ _ _ _ (v_snd _ _ _ RV) X Y).
  - intros i p X Y. apply CI, name_spec, (v_point _ _ _ RV) in X as (q & Hq & Pq). apply at_entry in Y. congruence.
  - intros a. rewrite RL. split.
    + intros X. apply in_map_iff in X as ([p a'] & <- & X). cbn. exists p. split; [|now apply CU]. apply TI. apply (in_map fst) in X. exact X.
    + intros (ts & X & ->). apply TI, cell_spec in X. apply (in_map snd) in X. exact X.
  - intros t x L. destruct (tag_eq_dec t Vertex) as [->|T].
    + apply (v_live _ _ _ RV) in L. apply in_map_iff in L as ([i v'] & <- & X). assert (Y := X). apply (in_map fst) in Y. cbn in Y. apply CI in Y as (ts & Y & Z).
      exists ts. split; auto. cbn [snd]. specialize (PS ts Y). unfold vertices_at in PS. destruct (deref (st_mesh (rd_st r)) Triangle (cell_of (rd_cells r) ts)) as [e|] eqn:D; [|discriminate].
      cbn in PS. inversion PS as [PE]. right. exists e. split; auto. unfold has_boundary, boundary_of. cbn. rewrite PE. apply in_map_iff. exists i. split; auto.
      apply (fst_unique _ i _ _ (v_fst _ _ _ RV)); auto. apply name_spec. apply (in_map fst) in X. exact X.
    + destruct (RE t x T L) as (p & a & X & Y). exists p. rewrite <- (CU p a X). split; auto. apply TI. apply (in_map fst) in X. exact X.
  - intros z t x. rewrite RIN. split.
    + intros (p & a & X & Y & Z). apply tagged_In in X as (j & T & -> & X1 & X2). exists j, T, p. rewrite <- (CU p a Y). auto.
    + intros (k & T & ts & -> & X & Y & Z). exists ts, (cell_of (rd_cells r) ts). assert (W : In (Z.of_nat k, ts) (tagged 0 segs)) by (apply tagged_In; exists k, T; auto).
      split; auto. split; auto. apply cell_spec, RD. eauto.
  - intros z. assert (H : has_id (st_segs (rd_st r)) z <-> (0 <= z < Z.of_nat (length segs))%Z).
    { rewrite RI. unfold new_ids. rewrite in_map_iff. split; [intros (k & <- & X); apply in_seq in X; lia|]. intros X. exists (Z.to_nat z). rewrite in_seq. split; lia. }
    rewrite <- H. clear H. pose proof (si_g cfg _ (sreach_inv cfg (NHb cfg TC) _ RR)) as G. rewrite (has_id_iff _ _ G). unfold segment_has_id, is_segment. split.
    + intros (a & _ & X). exists a. now apply id_in_ids.
    + intros (a & X). exists a. split; [apply in_range; eauto|now apply id_in_ids].
Qed.
End Read.
