(** Small segmented meshes for the examples of C71 and C72. *)
From Coq Require Import Reals List Arith ZArith Bool Lra.
From Verif Require Import ModelTopo ModelMesh ModelErase ModelGeom ModelQuery ModelSegmentation ModelSegment ModelMphtxt
  SpecMesh SpecErase SpecQuery SpecGeom SpecSegmentation SpecSegment SpecInterface SpecCopy SpecMphtxt
  MeshInv MeshDemo SegmentDemo InterfaceDemo MphtxtBase.
Import ModelSegmentation ListNotations.
Open Scope nat_scope.

Definition mp_cfg := full_config Tet.

(** Three tetrahedra with one or two common vertices in one segment. *)
Definition fan_ops (p : nat -> point) : list (sop point) :=
  map (fun i => SMesh (OVertex (p i))) (seq 0 9) ++
  map (fun o => SMesh o) [OElement Tet [0;1;2;3]; OElement Tet [0;4;5;6]; OElement Tet [0;4;7;8]] ++
  [SManage (SgId 7); SAdd 0 Tet 0; SAdd 0 Tet 1; SAdd 0 Tet 2].
Definition fan (p : nat -> point) : sstate point := sstate_of mp_cfg (fan_ops p).

(** Two tetrahedra with a common triangle, each in a segment. *)
Definition pair_ops (p : nat -> point) : list (sop point) :=
  map (fun i => SMesh (OVertex (p i))) (seq 0 5) ++
  map (fun o => SMesh o) [OElement Tet [0;1;2;3]; OElement Tet [1;2;3;4]] ++
  [SManage (SgId 7); SManage (SgId 3); SAdd 0 Tet 0; SAdd 1 Tet 1].
Definition pair_mesh (p : nat -> point) : sstate point := sstate_of mp_cfg (pair_ops p).

(** One tetrahedron in no segment. *)
Definition lone_ops (p : nat -> point) : list (sop point) :=
  map (fun i => SMesh (OVertex (p i))) (seq 0 4) ++ [SMesh (OElement Tet [0;1;2;3]); SManage (SgId 7)].
Definition lone (p : nat -> point) : sstate point := sstate_of mp_cfg (lone_ops p).

Lemma in_segmentb_in (s : sstate point) a t h : in_segmentb s a t h = true -> in_segment s a t h.
Proof. apply existsb_nat. Qed.

Definition facets_of_cellsb (cfg : config) (s : sstate point) (a : nat) : bool :=
  forallb (fun f => match cells_at cfg s a f with [] => false | _ => true end) (k_view (st_con s a) (facet_tag (cfg_cell cfg))).
Lemma facets_of_cellsb_sound cfg s a : facets_of_cellsb cfg s a = true -> facets_of_cells cfg s a.
Proof.
  intros H f Hf. unfold facets_of_cellsb in H. rewrite forallb_forall in H. specialize (H f Hf).
  destruct (cells_at cfg s a f) as [|c l] eqn:E; [discriminate|]. exists c. apply cells_at_spec. rewrite E. now left.
Qed.
(** Separate segments, for two segments with one tetrahedron each. *)
Lemma separate_pair cfg (s : sstate point) : cfg_cell cfg = Tet -> segment_range (st_segs s) = [1; 0] -> range (st_mesh s) Tet = [0; 1] ->
  facets_of_cellsb cfg s 0 = true -> facets_of_cellsb cfg s 1 = true -> in_segmentb s 0 Tet 1 = false -> in_segmentb s 1 Tet 0 = false ->
  in_segmentb s 0 Tet 0 = true -> in_segmentb s 1 Tet 1 = true -> sreach cfg s -> separate_segments cfg s.
Proof.
  intros TC SR TR F0 F1 N01 N10 I0 I1 R. split; [|split].
  - intros a Ha. unfold is_segment in Ha. rewrite SR in Ha. destruct Ha as [<-|[<-|[]]]; apply facets_of_cellsb_sound; assumption.
  - intros a b c Ha Hb Ia Ib. unfold is_segment in Ha, Hb. rewrite SR in Ha, Hb. rewrite TC in Ia, Ib.
    assert (L : In c [0; 1]).
    { rewrite <- TR. apply range_deref. apply (member_live cfg TC s R a); auto. unfold is_segment. now rewrite SR. }
    assert (NI : forall a h, in_segmentb s a Tet h = false -> ~ in_segment s a Tet h).
    { intros a' h E H. unfold in_segmentb in E. assert (existsb (Nat.eqb h) (k_view (st_con s a') Tet) = true); [|congruence].
      apply existsb_exists. exists h. split; [exact H|apply Nat.eqb_refl]. }
    pose proof (NI 0 1 N01). pose proof (NI 1 0 N10).
    destruct Ha as [<-|[<-|[]]], Hb as [<-|[<-|[]]], L as [<-|[<-|[]]]; auto; contradiction.
  - intros f c1 c2 c3 on H1 H2 H3. assert (L : forall c, on c -> In c [0; 1]).
    { intros c (e & D & _). rewrite TC in D. rewrite <- TR. apply range_deref. eauto. }
    pose proof (L _ H1) as L1. pose proof (L _ H2) as L2. pose proof (L _ H3) as L3.
    destruct L1 as [<-|[<-|[]]], L2 as [<-|[<-|[]]], L3 as [<-|[<-|[]]]; auto.
Qed.

Section Facts.
Variable p : nat -> point.
Lemma fan_reach : sreach mp_cfg (fan p).
Proof. unfold fan. apply sdemo_ok. vm_compute. reflexivity. Qed.
Lemma fan_range : segment_range (st_segs (fan p)) = [0].
Proof. vm_compute. reflexivity. Qed.
Lemma fan_two : two_cellsb mp_cfg (fan p) 0 = true.
Proof. vm_compute. reflexivity. Qed.
Lemma fan_hull : forallb (fun x => in_segmentb (fan p) 0 Triangle x && one_cellb mp_cfg (fan p) 0 x) [0; 4; 8] = true.
Proof. vm_compute. reflexivity. Qed.
Lemma fan_verts : map (vertices_at (st_mesh (fan p)) Triangle) [0; 4; 8] = [Some [0;1;2]; Some [0;4;5]; Some [0;4;7]].
Proof. vm_compute. reflexivity. Qed.
Lemma fan_points : map (point_at (st_mesh (fan p))) [0;1;2;4;5;7] = map (fun i => Some (p i)) [0;1;2;4;5;7].
Proof. vm_compute. reflexivity. Qed.

Lemma pair_reach : sreach mp_cfg (pair_mesh p).
Proof. unfold pair_mesh. apply sdemo_ok. vm_compute. reflexivity. Qed.
Lemma pair_range : segment_range (st_segs (pair_mesh p)) = [1; 0].
Proof. vm_compute. reflexivity. Qed.
Lemma pair_two : forallb (two_cellsb mp_cfg (pair_mesh p)) [0; 1] = true.
Proof. vm_compute. reflexivity. Qed.
Lemma pair_tets : range (st_mesh (pair_mesh p)) Tet = [0; 1].
Proof. vm_compute. reflexivity. Qed.
Lemma pair_in0 : in_segmentb (pair_mesh p) 0 Tet 0 = true.
Proof. vm_compute. reflexivity. Qed.
Lemma pair_in1 : in_segmentb (pair_mesh p) 1 Tet 1 = true.
Proof. vm_compute. reflexivity. Qed.
Lemma pair_facets0 : facets_of_cellsb mp_cfg (pair_mesh p) 0 = true.
Proof. vm_compute. reflexivity. Qed.
Lemma pair_facets1 : facets_of_cellsb mp_cfg (pair_mesh p) 1 = true.
Proof. vm_compute. reflexivity. Qed.
Lemma pair_out0 : in_segmentb (pair_mesh p) 0 Tet 1 = false.
Proof. vm_compute. reflexivity. Qed.
Lemma pair_out1 : in_segmentb (pair_mesh p) 1 Tet 0 = false.
Proof. vm_compute. reflexivity. Qed.
Lemma pair_separate : separate_segments mp_cfg (pair_mesh p).
Proof.
  exact (separate_pair mp_cfg (pair_mesh p) eq_refl pair_range pair_tets pair_facets0 pair_facets1 pair_out0 pair_out1 pair_in0 pair_in1 pair_reach).
Qed.
Lemma pair_hull : one_cellb mp_cfg (pair_mesh p) 0 3 = true.
Proof. vm_compute. reflexivity. Qed.
Lemma pair_shared : in_segmentb (pair_mesh p) 1 Triangle 3 = true.
Proof. vm_compute. reflexivity. Qed.

Lemma lone_reach : sreach mp_cfg (lone p).
Proof. unfold lone. apply sdemo_ok. vm_compute. reflexivity. Qed.
Lemma lone_tets : range (st_mesh (lone p)) Tet = [0].
Proof. vm_compute. reflexivity. Qed.
Lemma lone_write : write_mphtxt mp_cfg (lone p) = None.
Proof. vm_compute. reflexivity. Qed.
End Facts.
