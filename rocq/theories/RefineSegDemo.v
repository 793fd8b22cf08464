(** Small segmented meshes for the examples and the counterexample of C40. *)
From Coq Require Import Reals List Arith ZArith Bool String.
From Verif Require Import ModelTopo ModelMesh ModelErase ModelGeom ModelSegmentation ModelSegment SpecMesh SpecGeom SpecSegmentation SpecSegment SpecCopySeg
  CopySegBase SegmentDemo.
Import ModelSegmentation ListNotations.
Open Scope nat_scope.

Definition rs_cfg := full_config Triangle.
Definition rs_mesh : list (sop point) :=
  map (fun o => SMesh o) [OVertex (pt2 0 0); OVertex (pt2 3 0); OVertex (pt2 0 1); OVertex (pt2 5 1); OElement Triangle [0;1;2]; OElement Triangle [1;2;3]].
Definition rs_src : sstate point :=
  sstate_of rs_cfg (rs_mesh ++ [SManage (SgId 7); SManage (SgId 3); SAdd 0 Triangle 1; SAdd 1 Triangle 1]).
Definition rs_bare : sstate point := sstate_of rs_cfg (rs_mesh ++ [SManage (SgId 7); SAdd 0 Triangle 0]).
Definition rs_named : sstate point := sstate_of rs_cfg [SManage (SgName "7")].
Definition rs_fl (a : addr) : bool := a =? 2.

Lemma rs_src_reach : sreach rs_cfg rs_src.
Proof. apply sdemo_ok. cbv -[pt2]. reflexivity. Qed.
Lemma rs_bare_reach : sreach rs_cfg rs_bare.
Proof. apply sdemo_ok. cbv -[pt2]. reflexivity. Qed.
Lemma rs_named_reach : sreach rs_cfg rs_named.
Proof. apply sdemo_ok. cbv -[pt2]. reflexivity. Qed.
Lemma rs_new_reach : sreach rs_cfg (new_sstate empty_mesh : sstate point).
Proof. constructor. constructor. Qed.
Lemma rs_new_numbered : numbered (st_segs (new_sstate empty_mesh : sstate point)).
Proof. apply decnames_new. Qed.
