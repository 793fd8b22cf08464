(** Properties C18 and C19: segment ids and segment names. *)
From Coq Require Import String DecimalString DecimalPos List ZArith Bool Sorted.
From Verif Require Import ModelSegmentation SpecSegmentation SegmentationBase SegmentationProofs.
Import ListNotations.
Open Scope Z_scope.

(** make_segment creates exactly one segment and keeps all others.  Its id is one
    above the upper bound and was not used.  This is so even when an exception is
    thrown. *)
Theorem C18_make : forall g, sgreach g ->
  ~ has_id g (segment_id_upper_bound g + 1) /\
  exists g' a, state_after (make_segment g) = Some g' /\
    (forall g2 x, make_segment g = SRet g2 x -> x = a) /\
    ~ In a (segment_range g) /\ In a (segment_range g') /\
    id_of_seg g' a = Some (segment_id_upper_bound g + 1) /\
    segs_kept g g' /\
    (forall b, In b (segment_range g') -> b = a \/ In b (segment_range g)) /\
    segment_id_upper_bound g' = segment_id_upper_bound g + 1.
Proof. exact C18_make_pf. Qed.
Print Assumptions C18_make.

(** Look-up by id: an existing segment is returned and nothing changes; otherwise
    exactly one segment is created. *)
Theorem C18_get_make : forall g z, sgreach g ->
  (has_id g z -> exists a, get_make_id z g = SRet g a /\ In a (segment_range g) /\ id_of_seg g a = Some z) /\
  (~ has_id g z -> exists g' a, state_after (get_make_id z g) = Some g' /\
     (forall g2 x, get_make_id z g = SRet g2 x -> x = a) /\
     ~ In a (segment_range g) /\ In a (segment_range g') /\ id_of_seg g' a = Some z /\
     segs_kept g g' /\
     (forall b, In b (segment_range g') -> b = a \/ In b (segment_range g))).
Proof. exact C18_get_make_pf. Qed.
Print Assumptions C18_get_make.

(** segment_present, get_segment(id) and at(id) agree with the set of ids. *)
Theorem C18_lookup : forall g z, sgreach g ->
  (segment_present z g = true <-> has_id g z) /\
  (has_id g z -> exists a, get_segment_id z g = SRet g a /\ segment_at z g = SRet g a /\ id_of_seg g a = Some z) /\
  (~ has_id g z -> segment_at z g = SThrow g).
Proof. exact C18_lookup_pf. Qed.
Print Assumptions C18_lookup.

(** Iteration visits every segment once, by increasing id, and size() counts the ids. *)
Theorem C18_iteration : forall g, sgreach g ->
  exists zs, ids_list g = map Some zs /\ StronglySorted Z.lt zs /\ (forall z, In z zs <-> has_id g z) /\
    segment_count g = length zs /\ NoDup (segment_range g) /\
    (forall a, id_of_seg g a <> None -> In a (segment_range g)).
Proof. exact C18_iteration_pf. Qed.
Print Assumptions C18_iteration.

(** id_upper_bound() is the greatest id, or -1. *)
Theorem C18_upper_bound : forall g, sgreach g ->
  (forall z, has_id g z -> z <= segment_id_upper_bound g) /\
  (segment_id_upper_bound g = -1 \/ has_id g (segment_id_upper_bound g)).
Proof. exact C18_upper_bound_pf. Qed.
Print Assumptions C18_upper_bound.

(** A segment keeps its id, and stays, through every call but clear(). *)
Theorem C18_stable : forall g o g' a, sgreach g -> valid_sgop g o -> o <> SgClear ->
  state_after (sgstep o g) = Some g' -> In a (segment_range g) ->
  In a (segment_range g') /\ id_of_seg g' a = id_of_seg g a.
Proof. exact C18_stable_pf. Qed.
Print Assumptions C18_stable.

(** Segments 7, -3, 8 (made without an id), "left" (id 9), then 7 again. *)
Definition segs_demo : list sgop := [SgId 7; SgId (-3); SgMake; SgName "left"; SgId 7; SgRename 8 "right"].
Example C18_demo :
  exists g, sgrun segs_demo new_segmentation = Some g /\
    ids_list g = [Some (-3); Some 7; Some 8; Some 9] /\
    map (name_of_seg g) (segment_range g) = [Some "-3"; Some "7"; Some "right"; Some "left"]%string.
Proof.
  destruct (sgrun segs_demo new_segmentation) as [g|] eqn:E; vm_compute in E; inversion E; subst.
  eexists. split; [reflexivity|]. split; vm_compute; reflexivity.
Qed.
Example C18_demo_reach : forall g, smooth_run segs_demo new_segmentation = Some g -> smooth g /\ sgreach g.
Proof.
  intros g E. pose proof (smooth_run_sound _ _ _ sm_new E) as S. split; [exact S|apply smooth_sgreach, S].
Qed.
Example C18_demo_same : smooth_run segs_demo new_segmentation = sgrun segs_demo new_segmentation.
Proof. vm_compute. reflexivity. Qed.

(** init() forgets the highest id but not the segments: the "new" segment made
    afterwards is an old one. *)
Theorem C18_init_refuted : forall g, sgreach g -> has_id g 0 ->
  exists a, make_segment (init_segs g) = SRet (mkSegs 0 (g_ids g) (g_names g) (g_segs g) (g_next g)) a /\
    In a (segment_range g) /\ id_of_seg g a = Some 0.
Proof. exact C18_init_refuted_pf. Qed.
Print Assumptions C18_init_refuted.

(** A call of set_name either renames this one segment or throws and changes nothing. *)
Theorem C19_set_name : forall g a s, sgreach g -> In a (segment_range g) ->
  set_name a s g = SThrow g \/
  exists g', set_name a s g = SRet g' tt /\
    segment_range g' = segment_range g /\
    (forall b, id_of_seg g' b = id_of_seg g b) /\
    name_of_seg g' a = Some s /\
    (forall b, b <> a -> name_of_seg g' b = name_of_seg g b) /\
    get_segment_name s g' = SRet g' a.
Proof. exact C19_set_name_pf. Qed.
Print Assumptions C19_set_name.

(** Names and look-up by name, in histories without exceptions from creating
    segments and without clear(): names are unique, look-up returns the segment
    carrying the name, get_make_segment(name) returns it and changes nothing, and
    set_name throws exactly when the name is in use. *)
Theorem C19_names_partial : forall g, smooth g ->
  (forall a b s, In a (segment_range g) -> In b (segment_range g) ->
     name_of_seg g a = Some s -> name_of_seg g b = Some s -> a = b) /\
  (forall a s, In a (segment_range g) -> name_of_seg g a = Some s ->
     get_segment_name s g = SRet g a /\ get_make_name s g = SRet g a) /\
  (forall a s, In a (segment_range g) -> (set_name a s g = SThrow g <-> has_name g s)).
Proof. exact C19_names_partial_pf. Qed.
Print Assumptions C19_names_partial.

(** In such histories creating a segment throws exactly when some segment is
    already named like the decimal notation of the new id. *)
Theorem C19_make_throws : forall g, smooth g ->
  ((exists g', make_segment g = SThrow g') <-> has_name g (decimal (segment_id_upper_bound g + 1))) /\
  (forall z, (exists g', get_make_id z g = SThrow g') <-> ~ has_id g z /\ has_name g (decimal z)).
Proof. exact C19_make_throws_pf. Qed.
Print Assumptions C19_make_throws.

(** As long as no name given by the user is a number, and without clear(), a
    segment can always be made (with or without an id or a name), and the name
    properties hold after every history. *)
Theorem C19_plain_names : forall g, plain g ->
  smooth g /\
  (exists g' a, make_segment g = SRet g' a) /\
  (forall z, exists g' a, get_make_id z g = SRet g' a) /\
  (forall s, not_numeral s -> exists g' a, get_make_name s g = SRet g' a /\ name_of_seg g' a = Some s).
Proof. exact C19_plain_names_pf. Qed.
Print Assumptions C19_plain_names.

(** Numbers are not "not a number", and different ids have different default names. *)
Theorem C19_decimal_injective : forall z z', decimal z = decimal z' -> z = z'.
Proof. exact C19_decimal_injective_pf. Qed.
Print Assumptions C19_decimal_injective.

(** A user-given number as name blocks a later creation: after [segmentation("1")]
    (segment 0, named "1") make_segment throws, and leaves behind a second segment named "1". *)
Theorem C19_number_refuted : exists g g', smooth g /\ make_segment g = SThrow g' /\ sgreach g' /\
  exists a b, a <> b /\ In a (segment_range g') /\ In b (segment_range g') /\
    name_of_seg g' a = Some "1"%string /\ name_of_seg g' b = Some "1"%string.
Proof. exact C19_number_refuted_pf. Qed.
Print Assumptions C19_number_refuted.

(** Asking a new segmentation for a segment with a numeric name can throw although
    no segment has that name: the segment made on the way gets it as default. *)
Theorem C19_own_name_refuted : forall g, smooth g ->
  let s := decimal (segment_id_upper_bound g + 1) in ~ has_name g s ->
  exists g', get_make_name s g = SThrow g' /\ exists a, ~ In a (segment_range g) /\ name_of_seg g' a = Some s.
Proof. exact C19_own_name_refuted_pf. Qed.
Print Assumptions C19_own_name_refuted.

(** set_name with the name the segment already has throws. *)
Theorem C19_same_name_refuted : forall g a s, smooth g -> In a (segment_range g) -> name_of_seg g a = Some s ->
  set_name a s g = SThrow g.
Proof. exact C19_same_name_refuted_pf. Qed.
Print Assumptions C19_same_name_refuted.

(** clear() keeps the names: whatever segment is first, making it again throws as
    long as its default name was in use, and looking up any old name uses a
    destroyed segment. *)
Theorem C19_clear_refuted : forall g, smooth g ->
  (has_name g "0" -> exists g', make_segment (clear_segs g) = SThrow g') /\
  (forall s, has_name g s -> get_segment_name s (clear_segs g) = SUndef /\ get_make_name s (clear_segs g) = SUndef).
Proof. exact C19_clear_refuted_pf. Qed.
Print Assumptions C19_clear_refuted.

Example C19_clear_demo : exists g, smooth_run [SgMake] new_segmentation = Some g /\ smooth g /\
  has_name g "0" /\ state_after (make_segment (clear_segs g)) <> None.
Proof.
  destruct (smooth_run [SgMake] new_segmentation) as [g|] eqn:E; [|vm_compute in E; discriminate].
  exists g. split; auto. split; [apply (smooth_run_sound _ _ _ sm_new E)|].
  vm_compute in E. inversion E; subst. split; [|vm_compute; discriminate].
  exists 0%nat. split; [now left|reflexivity].
Qed.
Example C19_left : not_numeral "left".
Proof.
  intros z E. apply (f_equal NilZero.int_of_string) in E. unfold decimal in E.
  rewrite NilZero.isi in E by apply to_int_ne. vm_compute in E. discriminate.
Qed.
Definition plain_demo1 : segs := mkSegs 7 [(7, 0%nat)] [("7"%string, 0%nat)] [(0%nat, mkSeg 7 "7")] 1.
Definition plain_demo2 : segs := mkSegs 8 [(7, 0%nat); (8, 1%nat)] [("left"%string, 1%nat); ("7"%string, 0%nat)]
  [(1%nat, mkSeg 8 "left"); (0%nat, mkSeg 7 "7")] 2.
Example C19_plain_demo : plain plain_demo2.
Proof.
  apply (pl_ret plain_demo1 (SgName "left") plain_demo2 (Some 1%nat)); [|exact I|exact C19_left|vm_compute; reflexivity].
  apply (pl_ret new_segmentation (SgId 7) plain_demo1 (Some 0%nat)); [apply pl_new|exact I|exact I|vm_compute; reflexivity].
Qed.
