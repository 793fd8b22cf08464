From Coq Require Import Ascii String List Arith ZArith Bool Lia.
From Verif Require Import ModelTopo ModelMesh ModelErase ModelQuery ModelView ModelSegmentation ModelSegment ModelCopy ModelCopySeg ModelXml ModelVtk
  SpecMesh SpecErase SpecQuery SpecSegmentation SpecSegment SpecCopy SpecCopySeg SpecXml SpecVtk MeshBase MeshDemo MeshInv MeshReach MeshWf MeshErase MeshSimple SegmentationBase
  ViewBase CopyBase SegmentDemo SegmentView SegmentInv SegmentStep XmlProofs VtkText VtkPvd VtkSim VtkBuild VtkSource VtkLink VtkTop VtkDemo.
Import ModelSegmentation ListNotations.
Open Scope nat_scope.

Lemma C61_mesh_partial_pf : forall (K : Type) (F : format K) (rnd : K -> K) (cfg : config) (m : @mesh (list K)) (vq cq : list quantity) (name : text),
  sane_format F rnd -> cfg_cell cfg <> Hex -> cfg_cell cfg <> Vertex -> reach cfg m -> Forall quantity_ok vq -> Forall quantity_ok cq ->
  writable F rnd m (cfg_cell cfg) (fun z c => z = 0%Z /\ is_live m (cfg_cell cfg) c) ->
  exists content, write_mesh F cfg m vq cq name = Some [(name ++ txt ".vtu", content)] /\
  forall fs reg, fs (name ++ txt ".vtu") = Some content -> (forall z b n, reg z b true n <> ForSegment) ->
  exists dst ds phi psi, read_vtk F cfg fs reg false (name ++ txt ".vtu") (new_sstate empty_mesh) = Done ((dst, ds), false) /\
    read_back rnd m (cfg_cell cfg) (fun z c => z = 0%Z /\ is_live m (cfg_cell cfg) c) dst phi psi /\
    (forall z, has_id (st_segs dst) z <-> z = 0%Z) /\
    exists T, sreach cfg T /\ same_state_but_generator dst T.
Proof.
  intros K F rnd cfg m vq cq name SF NH TV R Q1 Q2 W. destruct (mesh_top F rnd SF cfg NH TV m vq cq name R Q1 Q2 W) as (content & E & H).
  exists content. split; auto. intros fs reg FS RG. destruct (H fs reg FS RG) as (dst & ds & phi & psi & A & B & _ & C & D). exists dst, ds, phi, psi. auto.
Qed.

Lemma C62_segments_partial_pf : forall (K : Type) (F : format K) (rnd : K -> K) (cfg : config) (s : sstate (list K)) (vq cq : list quantity) (svq scq : Z -> list quantity) (name : text),
  sane_format F rnd -> cfg_cell cfg <> Hex -> cfg_cell cfg <> Vertex -> sreach cfg s -> 1 < segment_count (st_segs s) -> free_of [""""%char; ">"%char] name ->
  (forall z, has_id (st_segs s) z -> Forall quantity_ok (vq ++ svq z) /\ Forall quantity_ok (cq ++ scq z)) ->
  writable F rnd (st_mesh s) (cfg_cell cfg) (fun z c => in_segment_id s z (cfg_cell cfg) c) ->
  exists files, write_segmentation F cfg s vq cq svq scq name = Some files /\ NoDup (map fst files) /\
  forall fs reg, has_files fs files -> (forall z b n, reg z b true n <> ForSegment) ->
  exists dst ds phi psi, read_vtk F cfg fs reg false (name ++ txt "_main.pvd") (new_sstate empty_mesh) = Done ((dst, ds), false) /\
    read_back rnd (st_mesh s) (cfg_cell cfg) (fun z c => in_segment_id s z (cfg_cell cfg) c) dst phi psi /\
    (forall z, has_id (st_segs dst) z <-> has_id (st_segs s) z) /\
    exists T, sreach cfg T /\ same_state_but_generator dst T.
Proof.
  intros K F rnd cfg s vq cq svq scq name SF NH TV R N FN Q W. destruct (segments_top F rnd SF cfg NH TV s vq cq svq scq name R N FN Q W) as (files & E & ND & H).
  exists files. split; auto. split; auto. intros fs reg FS RG. destruct (H fs reg FS RG) as (dst & ds & phi & psi & zs & A & B & _ & _ & C & D). exists dst, ds, phi, psi. auto.
Qed.

Lemma C63_mesh_data_partial_pf : forall (K : Type) (F : format K) (rnd : K -> K) (cfg : config) (m : @mesh (list K)) (vq cq : list quantity) (name : text),
  sane_format F rnd -> cfg_cell cfg <> Hex -> cfg_cell cfg <> Vertex -> reach cfg m -> Forall quantity_ok vq -> Forall quantity_ok cq ->
  writable F rnd m (cfg_cell cfg) (fun z c => z = 0%Z /\ is_live m (cfg_cell cfg) c) ->
  exists content, write_mesh F cfg m vq cq name = Some [(name ++ txt ".vtu", content)] /\
  forall fs reg, fs (name ++ txt ".vtu") = Some content -> (forall z b n, reg z b true n <> ForSegment) ->
  exists dst ds phi psi, read_vtk F cfg fs reg false (name ++ txt ".vtu") (new_sstate empty_mesh) = Done ((dst, ds), false) /\
    read_back rnd m (cfg_cell cfg) (fun z c => z = 0%Z /\ is_live m (cfg_cell cfg) c) dst phi psi /\
    all_delivered rnd m (cfg_cell cfg) (fun z c => z = 0%Z /\ is_live m (cfg_cell cfg) c) [0%Z] (fun _ => vq) (fun _ => cq) phi psi ds.
Proof.
  intros K F rnd cfg m vq cq name SF NH TV R Q1 Q2 W. destruct (mesh_top F rnd SF cfg NH TV m vq cq name R Q1 Q2 W) as (content & E & H).
  exists content. split; auto. intros fs reg FS RG. destruct (H fs reg FS RG) as (dst & ds & phi & psi & A & B & D & _). exists dst, ds, phi, psi. auto.
Qed.

Lemma C63_segment_data_partial_pf : forall (K : Type) (F : format K) (rnd : K -> K) (cfg : config) (s : sstate (list K)) (vq cq : list quantity) (svq scq : Z -> list quantity) (name : text),
  sane_format F rnd -> cfg_cell cfg <> Hex -> cfg_cell cfg <> Vertex -> sreach cfg s -> 1 < segment_count (st_segs s) -> free_of [""""%char; ">"%char] name ->
  (forall z, has_id (st_segs s) z -> Forall quantity_ok (vq ++ svq z) /\ Forall quantity_ok (cq ++ scq z)) ->
  writable F rnd (st_mesh s) (cfg_cell cfg) (fun z c => in_segment_id s z (cfg_cell cfg) c) ->
  exists files, write_segmentation F cfg s vq cq svq scq name = Some files /\
  forall fs reg, has_files fs files -> (forall z b n, reg z b true n <> ForSegment) ->
  exists dst ds phi psi zs, read_vtk F cfg fs reg false (name ++ txt "_main.pvd") (new_sstate empty_mesh) = Done ((dst, ds), false) /\
    read_back rnd (st_mesh s) (cfg_cell cfg) (fun z c => in_segment_id s z (cfg_cell cfg) c) dst phi psi /\
    NoDup zs /\ (forall z, In z zs <-> has_id (st_segs s) z) /\
    all_delivered rnd (st_mesh s) (cfg_cell cfg) (fun z c => in_segment_id s z (cfg_cell cfg) c) zs (fun z => vq ++ svq z) (fun z => cq ++ scq z) phi psi ds.
Proof.
  intros K F rnd cfg s vq cq svq scq name SF NH TV R N FN Q W. destruct (segments_top F rnd SF cfg NH TV s vq cq svq scq name R N FN Q W) as (files & E & ND & H).
  exists files. split; auto. intros fs reg FS RG. destruct (H fs reg FS RG) as (dst & ds & phi & psi & zs & A & B & (C1 & C2) & C & D). exists dst, ds, phi, psi, zs. auto.
Qed.

(** What is lost. *)
Lemma image_shorter {A B} (l : list A) (r : list B) (f : A -> B) x (P : A -> Prop) : (forall a b : A, {a = b} + {a <> b}) -> NoDup r -> In x l -> ~ P x ->
  (forall b, In b r -> exists a, P a /\ In a l /\ b = f a) -> List.length r < List.length l.
Proof.
  intros D N I NP H. apply Nat.le_lt_trans with (List.length (map f (remove D x l))).
  - apply NoDup_incl_length; auto. intros b Hb. destruct (H b Hb) as (a & Pa & Ia & ->). apply in_map. apply in_in_remove; auto. intros ->. auto.
  - rewrite map_length. apply remove_length_lt. exact I.
Qed.
Lemma range_nodup_state {K} cfg (NH : cfg_cell cfg <> Hex) (dst T : sstate (list K)) t : sreach cfg T -> same_state_but_generator dst T -> NoDup (range (st_mesh dst) t).
Proof.
  intros R ((A & _) & _). unfold range. rewrite (A t). fold (range (st_mesh T) t). apply (inv_winv cfg (st_mesh T) [] (reach_inv cfg _ (si_reach cfg T (sreach_inv cfg NH T R)))).
Qed.

Lemma C61_isolated_vertex_refuted_pf : forall (K : Type) (F : format K) (rnd : K -> K) (cfg : config) (m : @mesh (list K)) (name : text) (v : addr),
  sane_format F rnd -> cfg_cell cfg <> Hex -> cfg_cell cfg <> Vertex -> reach cfg m ->
  writable F rnd m (cfg_cell cfg) (fun z c => z = 0%Z /\ is_live m (cfg_cell cfg) c) ->
  is_live m Vertex v -> (forall c vs, vertices_at m (cfg_cell cfg) c = Some vs -> ~ In v vs) ->
  exists content, write_mesh F cfg m [] [] name = Some [(name ++ txt ".vtu", content)] /\
  forall fs reg, fs (name ++ txt ".vtu") = Some content -> (forall z b n, reg z b true n <> ForSegment) ->
  exists dst ds, read_vtk F cfg fs reg false (name ++ txt ".vtu") (new_sstate empty_mesh) = Done ((dst, ds), false) /\
    List.length (range (st_mesh dst) Vertex) < List.length (range m Vertex).
Proof.
  intros K F rnd cfg m name v SF NH TV R W L NU. destruct (mesh_top F rnd SF cfg NH TV m [] [] name R (Forall_nil _) (Forall_nil _) W) as (content & E & H).
  exists content. split; auto. intros fs reg FS RG. destruct (H fs reg FS RG) as (dst & ds & phi & psi & A & B & _ & _ & T & RT & ST). exists dst, ds. split; auto.
  apply (image_shorter (range m Vertex) _ phi v (fun w => exists z, used_by m (cfg_cell cfg) (fun z c => z = 0%Z /\ is_live m (cfg_cell cfg) c) z w) Nat.eq_dec).
  - apply (range_nodup_state cfg NH dst T Vertex RT ST).
  - now apply range_is_live.
  - intros (z & c & vs & _ & V & I). exact (NU c vs V I).
  - intros b Hb. apply range_is_live in Hb. apply (rb_vertices _ _ _ _ _ _ _ B) in Hb as (z & w & U & ->). exists w. split; [eauto|]. split; auto.
    destruct (rb_points _ _ _ _ _ _ _ B z w U) as (p & P & _). apply range_is_live. unfold point_at in P. destruct (deref m Vertex w) as [e|] eqn:D; [exists e; auto|discriminate P].
Qed.

Lemma C62_lost_cell_refuted_pf : forall (K : Type) (F : format K) (rnd : K -> K) (cfg : config) (s : sstate (list K)) (name : text) (c : addr),
  sane_format F rnd -> cfg_cell cfg <> Hex -> cfg_cell cfg <> Vertex -> sreach cfg s -> 1 < segment_count (st_segs s) -> free_of [""""%char; ">"%char] name ->
  writable F rnd (st_mesh s) (cfg_cell cfg) (fun z c => in_segment_id s z (cfg_cell cfg) c) ->
  is_live (st_mesh s) (cfg_cell cfg) c -> (forall z, ~ in_segment_id s z (cfg_cell cfg) c) ->
  exists files, write_segmentation F cfg s [] [] (fun _ => []) (fun _ => []) name = Some files /\
  forall fs reg, has_files fs files -> (forall z b n, reg z b true n <> ForSegment) ->
  exists dst ds, read_vtk F cfg fs reg false (name ++ txt "_main.pvd") (new_sstate empty_mesh) = Done ((dst, ds), false) /\
    List.length (range (st_mesh dst) (cfg_cell cfg)) < List.length (range (st_mesh s) (cfg_cell cfg)).
Proof.
  intros K F rnd cfg s name c SF NH TV R N FN W L NS.
  destruct (segments_top F rnd SF cfg NH TV s [] [] (fun _ => []) (fun _ => []) name R N FN) as (files & E & ND & H); [split; constructor|exact W|].
  exists files. split; auto. intros fs reg FS RG. destruct (H fs reg FS RG) as (dst & ds & phi & psi & zs & A & B & _ & _ & _ & T & RT & ST). exists dst, ds. split; auto.
  apply (image_shorter (range (st_mesh s) (cfg_cell cfg)) _ psi c (fun d => exists z, in_segment_id s z (cfg_cell cfg) d) Nat.eq_dec).
  - apply (range_nodup_state cfg NH dst T _ RT ST).
  - now apply range_is_live.
  - intros (z & I). exact (NS z I).
  - intros b Hb. apply range_is_live in Hb. apply (rb_cells _ _ _ _ _ _ _ B) in Hb as (z & d & I & ->). exists d. split; [eauto|]. split; auto.
    destruct (rb_verts _ _ _ _ _ _ _ B z d I) as (vs & V & _). apply range_is_live. unfold vertices_at in V. destruct (deref (st_mesh s) (cfg_cell cfg) d) as [e|] eqn:D; [exists e; auto|discriminate V].
Qed.

Lemma C62_single_segment_refuted_pf : forall (K : Type) (F : format K) (rnd : K -> K) (cfg : config) (s : sstate (list K)) (svq scq : Z -> list quantity) (name : text),
  sane_format F rnd -> cfg_cell cfg <> Hex -> cfg_cell cfg <> Vertex -> sreach cfg s -> segment_count (st_segs s) <= 1 ->
  writable F rnd (st_mesh s) (cfg_cell cfg) (fun z c => z = 0%Z /\ is_live (st_mesh s) (cfg_cell cfg) c) ->
  exists content, write_segmentation F cfg s [] [] svq scq name = Some [(name ++ txt ".vtu", content)] /\
  forall fs reg, fs (name ++ txt ".vtu") = Some content -> (forall z b n, reg z b true n <> ForSegment) ->
  exists dst, read_vtk F cfg fs reg false (name ++ txt ".vtu") (new_sstate empty_mesh) = Done ((dst, []), false) /\
    (forall z, has_id (st_segs dst) z <-> z = 0%Z) /\
    forall c, is_live (st_mesh dst) (cfg_cell cfg) c -> in_segment_id dst 0 (cfg_cell cfg) c.
Proof.
  intros K F rnd cfg s svq scq name SF NH TV R N W.
  destruct (mesh_top F rnd SF cfg NH TV (st_mesh s) [] [] name (si_reach cfg s (sreach_inv cfg NH s R)) (Forall_nil _) (Forall_nil _) W) as (content & E & H).
  exists content. split; [unfold write_segmentation; apply Nat.leb_le in N; rewrite N; exact E|]. intros fs reg FS RG.
  destruct (H fs reg FS RG) as (dst & ds & phi & psi & A & B & (_ & _ & _ & LD) & C & _).
  assert (ds = []) as -> by (destruct ds; [reflexivity|discriminate LD]). exists dst. split; auto. split; auto.
  intros c Hc. apply (rb_cells _ _ _ _ _ _ _ B) in Hc as (z & d & I & ->). apply (rb_segments _ _ _ _ _ _ _ B z d 0%Z I). destruct I; auto.
Qed.

Lemma C61_missing_file_refuted_pf : forall (K : Type) (F : format K) (cfg : config) fs reg (name : text) (s : sstate (list K)),
  fs (name ++ txt ".vtu") = None -> read_vtk F cfg fs reg false (name ++ txt ".vtu") s = Done ((s, []), false).
Proof.
  intros K F cfg fs reg name s N. unfold read_vtk, read_files. change (txt ".vtu") with ("."%char :: txt "vtu") at 1. rewrite extension_app by (cbn; intuition discriminate).
  rewrite text_eqb_refl. unfold parse_segment, open_file. cbn [r_open pre_clear]. rewrite N. destruct s. reflexivity.
Qed.

Lemma C61_reuse_refuted_pf : forall (K : Type) (F : format K) (cfg : config) fs reg (name : text) (s : sstate (list K)),
  read_vtk F cfg fs reg true (name ++ txt ".vtu") s = Done ((s, []), true).
Proof.
  intros K F cfg fs reg name s. unfold read_vtk, read_files. change (txt ".vtu") with ("."%char :: txt "vtu") at 1. rewrite extension_app by (cbn; intuition discriminate).
  rewrite text_eqb_refl. unfold parse_segment, open_file. cbn [r_open pre_clear]. destruct s. reflexivity.
Qed.

Lemma C63_segment_vectors_refuted_pf : forall (K : Type) (els : list addr) (l : list K),
  List.length l = 3 * List.length els -> els <> [] -> vector_values ForSegment els l = None.
Proof.
  intros K els l E N. unfold vector_values. destruct els as [|e els]; [congruence|].
  destruct (omap _ _) as [o|] eqn:O; [exfalso|reflexivity].
  assert (I : In (List.length l - 1) (seq 0 (List.length l))) by (apply in_seq; cbn in E; lia).
  remember (List.length l - 1) as k. clear N. revert o O I. generalize (seq 0 (List.length l)) as r. induction r as [|i r IH]; intros o O I; [destruct I|].
  cbn [omap] in O. unfold obind in O at 1. destruct I as [->|I].
  - cbn in E. assert (X : nth_error (e :: els) k = None) by (apply nth_error_None; cbn; lia). rewrite X in O. discriminate O.
  - match type of O with match ?x with _ => _ end = _ => destruct x; [|discriminate O] end. destruct (omap _ r) as [o'|]; [|discriminate O]. exact (IH o' eq_refl I).
Qed.

Lemma mesh_from_reach ops : valid_srunb vtk_cfg (map (fun o => SMesh o) ops) (new_sstate empty_mesh) = true -> reach vtk_cfg (mesh_from ops).
Proof. intros H. apply (si_reach vtk_cfg _ (sreach_inv vtk_cfg ltac:(discriminate) _ (sdemo_ok vtk_cfg _ H))). Qed.

Lemma members_live {K} cfg (s : sstate (list K)) z t c : cfg_cell cfg <> Hex -> sreach cfg s -> in_segment_id s z t c -> is_live (st_mesh s) t c.
Proof.
  intros NH R (a & [_ I] & V). apply (id_in_ids _ _ _ (si_g cfg s (sreach_inv cfg NH s R))) in I. destruct (si_con cfg s (sreach_inv cfg NH s R) a z I) as (CO & _). pose proof (increasing_live _ _ _ (co_good _ _ _ CO t)) as L. rewrite Forall_forall in L. exact (L c V).
Qed.

Lemma C61_merged_points_refuted_pf : exists (F : format nat) (rnd : nat -> nat) (cfg : config) (m : @mesh (list nat)) (name content : text),
  sane_format F rnd /\ reach cfg m /\ write_mesh F cfg m [] [] name = Some [(name ++ txt ".vtu", content)] /\
  (forall v, is_live m Vertex v -> exists c vs, vertices_at m (cfg_cell cfg) c = Some vs /\ In v vs) /\
  forall reg, exists res, read_vtk F cfg (fun _ => Some content) reg false (name ++ txt ".vtu") (new_sstate empty_mesh) = Done res /\
    List.length (range (st_mesh (fst (fst res))) Vertex) < List.length (range m Vertex).
Proof.
  set (m := mesh_from close_ops).
  exists (nats true 2), (nats_rnd true), vtk_cfg, m, (txt "a"), (content_of (write_mesh (nats true 2) vtk_cfg m [] [] (txt "a"))).
  split; [apply nats_sane; lia|]. split; [apply mesh_from_reach; vm_compute; reflexivity|]. split; [apply is_one_ok; vm_compute; reflexivity|]. split.
  - intros v L. apply range_is_live in L. assert (E : range m Vertex = [0; 1; 2; 3]) by (vm_compute; reflexivity). rewrite E in L.
    assert (A : vertices_at m Triangle 0 = Some [0; 1; 2]) by (vm_compute; reflexivity). assert (B : vertices_at m Triangle 1 = Some [1; 2; 3]) by (vm_compute; reflexivity).
    destruct L as [<-|[<-|[<-|[<-|[]]]]]; [exists 0, [0; 1; 2]|exists 0, [0; 1; 2]|exists 0, [0; 1; 2]|exists 1, [1; 2; 3]]; split; auto; cbn; auto.
  - intros reg. destruct (read_result (read_vtk (nats true 2) vtk_cfg (fun _ => Some (content_of (write_mesh (nats true 2) vtk_cfg m [] [] (txt "a")))) reg false (txt "a" ++ txt ".vtu") (new_sstate empty_mesh))
      (fun res => List.length (range (st_mesh (fst (fst res))) Vertex)) 3) as (res & E & L); [vm_compute; reflexivity|].
    exists res. split; [exact E|]. rewrite L. assert (N : List.length (range m Vertex) = 4) by (vm_compute; reflexivity). rewrite N. lia.
Qed.

Lemma C61_next_id_refuted_pf : exists (F : format nat) (rnd : nat -> nat) (cfg : config) (m : @mesh (list nat)) (name content : text),
  sane_format F rnd /\ reach cfg m /\ writable F rnd m (cfg_cell cfg) (fun z c => z = 0%Z /\ is_live m (cfg_cell cfg) c) /\
  write_mesh F cfg m [] [] name = Some [(name ++ txt ".vtu", content)] /\
  forall reg p, exists res m' v w, read_vtk F cfg (fun _ => Some content) reg false (name ++ txt ".vtu") (new_sstate empty_mesh) = Done res /\
    make_vertex cfg (st_mesh (fst (fst res))) p = Some (m', v) /\ w <> v /\ is_live (st_mesh (fst (fst res))) Vertex w /\ is_live m' Vertex w /\ is_live m' Vertex v /\
    id_at m' Vertex v = id_at m' Vertex w.
Proof.
  set (m := mesh_from one_ops). set (c := content_of (write_mesh (nats false 2) vtk_cfg m [] [] (txt "a"))).
  exists (nats false 2), (nats_rnd false), vtk_cfg, m, (txt "a"), c.
  split; [apply nats_sane; lia|]. split; [apply mesh_from_reach; vm_compute; reflexivity|]. split; [apply writableb_sound; [intros z x [_ L]; exact L|vm_compute; reflexivity]|].
  split; [apply is_one_ok; vm_compute; reflexivity|].
  intros reg p.
  destruct (read_result (read_vtk (nats false 2) vtk_cfg (fun _ => Some c) reg false (txt "a" ++ txt ".vtu") (new_sstate empty_mesh))
      (fun res => (range (st_mesh (fst (fst res))) Vertex, option_map (fun r => (snd r, range (fst r) Vertex, id_at (fst r) Vertex 3, id_at (fst r) Vertex 2)) (make_vertex vtk_cfg (st_mesh (fst (fst res))) p)))
      ([0; 1; 2], Some (3, [0; 1; 2; 3], Some 2, Some 2))) as (res & E & L); [vm_compute; reflexivity|].
  pose proof (f_equal fst L) as L1. pose proof (f_equal snd L) as L2. cbn [fst snd] in L1, L2.
  destruct (make_vertex vtk_cfg (st_mesh (fst (fst res))) p) as [[m' v]|] eqn:M; [|discriminate L2]. cbn [option_map fst snd] in L2.
  assert (v = 3 /\ range m' Vertex = [0; 1; 2; 3] /\ id_at m' Vertex 3 = Some 2 /\ id_at m' Vertex 2 = Some 2) as (-> & RR & I3 & I2) by (inversion L2; auto).
  exists res, m', 3, 2. split; auto. split; auto. split; [lia|]. rewrite <- !range_is_live, L1, RR. cbn. repeat split; auto. congruence.
Qed.

Lemma C61_truncated_refuted_pf : exists (F : format nat) (rnd : nat -> nat) (cfg : config) (m : @mesh (list nat)) (name content : text) (n : nat),
  sane_format F rnd /\ reach cfg m /\ writable F rnd m (cfg_cell cfg) (fun z c => z = 0%Z /\ is_live m (cfg_cell cfg) c) /\
  write_mesh F cfg m [] [] name = Some [(name ++ txt ".vtu", content)] /\
  forall reg, read_vtk F cfg (fun _ => Some (firstn n content)) reg false (name ++ txt ".vtu") (new_sstate empty_mesh) = Undefined.
Proof.
  set (m := mesh_from one_ops). set (c := content_of (write_mesh (nats false 2) vtk_cfg m [] [] (txt "a"))).
  exists (nats false 2), (nats_rnd false), vtk_cfg, m, (txt "a"), c, 450.
  split; [apply nats_sane; lia|]. split; [apply mesh_from_reach; vm_compute; reflexivity|]. split; [apply writableb_sound; [intros z x [_ L]; exact L|vm_compute; reflexivity]|].
  split; [apply is_one_ok; vm_compute; reflexivity|]. intros reg. vm_compute. reflexivity.
Qed.

Lemma C61_nonempty_refuted_pf : exists (F : format nat) (rnd : nat -> nat) (cfg : config) (m old : @mesh (list nat)) (name content : text) (c : addr) (vs : list addr),
  sane_format F rnd /\ reach cfg m /\ reach cfg old /\ writable F rnd m (cfg_cell cfg) (fun z c => z = 0%Z /\ is_live m (cfg_cell cfg) c) /\
  write_mesh F cfg m [] [] name = Some [(name ++ txt ".vtu", content)] /\ vertices_at m (cfg_cell cfg) c = Some vs /\
  forall reg, exists res, read_vtk F cfg (fun _ => Some content) reg false (name ++ txt ".vtu") (new_sstate old) = Done res /\
    forall d ws, vertices_at (st_mesh (fst (fst res))) (cfg_cell cfg) d = Some ws ->
      map (point_at (st_mesh (fst (fst res)))) ws <> map (fun v => option_map (map rnd) (point_at m v)) vs.
Proof.
  set (m := mesh_from one_ops). set (old := mesh_from other_ops). set (c := content_of (write_mesh (nats false 2) vtk_cfg m [] [] (txt "a"))).
  exists (nats false 2), (nats_rnd false), vtk_cfg, m, old, (txt "a"), c, 0, [0; 1; 2].
  split; [apply nats_sane; lia|]. split; [apply mesh_from_reach; vm_compute; reflexivity|]. split; [apply mesh_from_reach; vm_compute; reflexivity|].
  split; [apply writableb_sound; [intros z x [_ L]; exact L|vm_compute; reflexivity]|].
  split; [apply is_one_ok; vm_compute; reflexivity|]. split; [vm_compute; reflexivity|]. intros reg.
  destruct (read_result (read_vtk (nats false 2) vtk_cfg (fun _ => Some c) reg false (txt "a" ++ txt ".vtu") (new_sstate old))
      (fun res => (range (st_mesh (fst (fst res))) Triangle, vertices_at (st_mesh (fst (fst res))) Triangle 0, map (point_at (st_mesh (fst (fst res)))) [0; 1; 2]))
      ([0], Some [0; 1; 2], [Some [1; 1]; Some [2; 1]; Some [1; 2]])) as (res & E & L); [vm_compute; reflexivity|].
  exists res. split; [exact E|]. intros d ws V. pose proof (f_equal (fun x => fst (fst x)) L) as L1. pose proof (f_equal (fun x => snd (fst x)) L) as L2. pose proof (f_equal snd L) as L3. cbn [fst snd] in L1, L2, L3.
  assert (d = 0) as ->.
  { assert (I : In d [0]); [|destruct I as [<-|[]]; reflexivity]. rewrite <- L1. apply range_is_live. unfold vertices_at in V. change (cfg_cell vtk_cfg) with Triangle in V.
    destruct (deref (st_mesh (fst (fst res))) Triangle d) as [e|] eqn:D; [exists e; auto|discriminate V]. }
  change (cfg_cell vtk_cfg) with Triangle in V. rewrite L2 in V. apply some_inj in V. subst ws. rewrite L3.
  assert (X : map (fun v => option_map (map (nats_rnd false)) (point_at m v)) [0; 1; 2] = [Some [10; 10]; Some [20; 10]; Some [10; 20]]) by (vm_compute; reflexivity). rewrite X. discriminate.
Qed.

Lemma C61_bad_file_refuted_pf : exists (content : text), forall (K : Type) (F : format K) cfg reg (name : text) (s : sstate (list K)),
  read_vtk F cfg (fun _ => Some content) reg false (name ++ txt ".vtu") s = Done ((s, []), true).
Proof.
  exists (txt "<?xml?><foo>"). intros K F cfg reg name s. unfold read_vtk, read_files. change (txt ".vtu") with ("."%char :: txt "vtu") at 1. rewrite extension_app by (cbn; intuition discriminate).
  rewrite text_eqb_refl. destruct s. vm_compute. reflexivity.
Qed.
