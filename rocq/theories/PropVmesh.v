(** C80: the contents and the name of a ViennaMesh file. *)
From Coq Require Import List Arith ZArith Bool Ascii String Sorted Lia.
From Verif Require Import ModelTopo ModelMesh ModelErase ModelSegmentation ModelSegment ModelVmesh
  SpecMesh SpecErase SpecQuery SpecSegmentation SpecSegment SpecVmesh SegmentDemo VmeshProofs.
Import ListNotations.
Open Scope list_scope.
(** The file is the document with the name of the input, the dimension, the type of the
    cells, and the right numbers for the mesh and for each of its segments. *)
Theorem C80_contents_partial : forall Pt cfg d input (s : sstate Pt), cfg_cell cfg <> Hex -> sreach cfg s ->
  exists celltype u, celltype_named (cfg_cell cfg) celltype /\ summarises cfg s u /\
    write_vmesh cfg d input s = Some (shown 0 (document input d celltype u)).
Proof. exact C80_contents_partial_pf. Qed.
Print Assumptions C80_contents_partial.

(** The text determines everything that was written, whatever the name of the input is. *)
Theorem C80_determined : forall t t' i i' d d' n n' u u', celltype_named t n -> celltype_named t' n' ->
  shown 0 (document i d n u) = shown 0 (document i' d' n' u') -> i = i' /\ d = d' /\ t = t' /\ u = u'.
Proof. exact C80_determined_pf. Qed.
Print Assumptions C80_determined.

(** Not so: the file contains the names of the segments.  It is the same after a segment has
    got another name. *)
Theorem C80_names_refuted : forall Pt cfg d input (s s' : sstate Pt) z name, cfg_cell cfg <> Hex -> sreach cfg s -> has_id (st_segs s) z ->
  sstep cfg s (SManage (SgRename z name)) = Some s' -> write_vmesh cfg d input s' = write_vmesh cfg d input s.
Proof. exact C80_names_refuted_pf. Qed.
Print Assumptions C80_names_refuted.

(** The file written has the name given, with the extension added if it is not there;
    but the name "vmesh" is left as it is. *)
Theorem C80_file_name_partial : forall out,
  (has_extension out -> vm_file_name out = out) /\
  (~ has_extension out -> out <> word "vmesh" -> vm_file_name out = out ++ word ".vmesh") /\
  (out <> word "vmesh" -> has_extension (vm_file_name out)).
Proof. exact C80_file_name_partial_pf. Qed.
Print Assumptions C80_file_name_partial.

(** Not so: the name of the file always ends with ".vmesh". *)
Theorem C80_file_name_refuted : vm_file_name (word "vmesh") = word "vmesh" /\ ~ has_extension (word "vmesh").
Proof. exact C80_file_name_refuted_pf. Qed.
Print Assumptions C80_file_name_refuted.

(** Two triangles in two segments with the ids 0 and 7; the second is named. *)
Definition vm_cfg : config := full_config Triangle.
Definition vm_ops : list (sop unit) :=
  [SMesh (OVertex tt); SMesh (OVertex tt); SMesh (OVertex tt); SMesh (OVertex tt); SManage SgMake; SManage (SgId 7);
   SCreate 0 (OElement Triangle [0; 1; 2]); SCreate 1 (OElement Triangle [1; 2; 3])].
Definition vm_state : sstate unit := sstate_of vm_cfg vm_ops.
Example C80_demo : sreach vm_cfg vm_state /\ has_id (st_segs vm_state) 7 /\
  sstep vm_cfg vm_state (SManage (SgRename 7 "left")) <> None /\
  write_vmesh vm_cfg 2 (word "in.mesh") vm_state =
    Some (shown 0 (document (word "in.mesh") 2 "2-simplex" (mkSum 4 2 [(0%Z, 3, 1); (7%Z, 3, 1)]))).
Proof.
  split; [apply sdemo_ok; vm_compute; reflexivity|]. split; [exists 1; vm_compute; auto|]. split; [vm_compute; discriminate|].
  vm_compute. reflexivity.
Qed.
(** Names with and without the extension. *)
Example C80_names_demo : has_extension (word "a.b.vmesh") /\ vm_file_name (word "dir.d/mesh") = word "dir.d/mesh.vmesh".
Proof. split; [now exists (word "a.b")|reflexivity]. Qed.
