(** Property C25: accessors and fields. *)
From Coq Require Import List Arith Bool.
From Verif Require Import ModelAccessor SpecAccessor AccessorProofs.
Import ListNotations.

(** C25. After any history of calls on a dense accessor or field, every way of
    reading an element gives the value last written for it; in particular a
    write for one element is never seen at another, and no read throws. *)
Theorem C25_dense_reads_see_last_write :
  forall T (tv : T) (dflt : option T) h l rs i v o,
  acc_run (dense_step tv dflt) [] h = Some (l, rs) ->
  last_write h i = Some v -> reads i o ->
  exists l', dense_step tv dflt l o = Some (l', RVal v).
Proof. exact C25_dense_reads_see_last_write_pf. Qed.
Print Assumptions C25_dense_reads_see_last_write.

(** C25. The same for an accessor or field over a std::map. *)
Theorem C25_map_reads_see_last_write :
  forall T (tv : T) (dflt : option T) h l rs i v o,
  acc_run (map_step tv dflt) [] h = Some (l, rs) ->
  last_write h i = Some v -> reads i o ->
  exists l', map_step tv dflt l o = Some (l', RVal v).
Proof. exact C25_map_reads_see_last_write_pf. Qed.
Print Assumptions C25_map_reads_see_last_write.

(** C25. An element never written: find() on a dense container gives a null
    pointer and at() throws iff operator() was never called for an element with
    that id or a larger one; otherwise both give T(). *)
Theorem C25_dense_unwritten :
  forall T (tv : T) (dflt : option T) h l rs i,
  acc_run (dense_step tv dflt) [] h = Some (l, rs) -> last_write h i = None ->
  let result missing := if length l <=? i then missing else RVal tv in
  (length l <= i <-> ~ exists j, i <= j /\ Exists (touches j) h) /\
  dense_step tv dflt l (AFind i) = Some (l, result RNull) /\
  dense_step tv dflt l (AAt i) = Some (l, result RThrow) /\
  dense_step tv dflt l (AAtC i) = Some (l, result RThrow).
Proof. exact C25_dense_unwritten_pf. Qed.
Print Assumptions C25_dense_unwritten.

(** C25. An element never written, std::map: find() gives a null pointer and
    the const at() throws iff neither operator() nor the non-const at() was
    called for it. *)
Theorem C25_map_unwritten :
  forall T (tv : T) (dflt : option T) h l rs i,
  acc_run (map_step tv dflt) [] h = Some (l, rs) -> last_write h i = None ->
  (~ Exists (fun o => touches i o \/ o = AAt i) h ->
     map_step tv dflt l (AFind i) = Some (l, RNull) /\ map_step tv dflt l (AAtC i) = Some (l, RThrow)) /\
  (Exists (fun o => touches i o \/ o = AAt i) h ->
     map_step tv dflt l (AFind i) = Some (l, RVal tv) /\ map_step tv dflt l (AAtC i) = Some (l, RVal tv)).
Proof. exact C25_map_unwritten_pf. Qed.
Print Assumptions C25_map_unwritten.

(** C25. A field over a std::map returns its default value, when read through a
    const field, for every element for which it was never accessed otherwise. *)
Theorem C25_map_field_default_partial :
  forall T (tv d : T) h l rs i,
  acc_run (map_step tv (Some d)) [] h = Some (l, rs) ->
  ~ Exists (fun o => touches i o \/ o = AAt i) h ->
  map_step tv (Some d) l (AReadC i) = Some (l, RVal d).
Proof. exact C25_map_field_default_partial_pf. Qed.
Print Assumptions C25_map_field_default_partial.

(** C25. A dense field returns its default value, when read through a const
    field, for an element whose id is larger than every id accessed so far. *)
Theorem C25_dense_field_default_partial :
  forall T (tv d : T) h l rs i,
  acc_run (dense_step tv (Some d)) [] h = Some (l, rs) ->
  ~ (exists j, i <= j /\ Exists (touches j) h) ->
  dense_step tv (Some d) l (AReadC i) = Some (l, RVal d).
Proof. exact C25_dense_field_default_partial_pf. Qed.
Print Assumptions C25_dense_field_default_partial.

(** C25, as stated false: writing for one element of a dense field takes the
    default away from every element with a smaller id; it then reads T(). *)
Theorem C25_dense_field_default_refuted :
  forall T (tv d v : T) i j, i < j -> exists l,
  acc_run (dense_step tv (Some d)) [] [AWrite j v] = Some (l, [RDone]) /\
  dense_step tv (Some d) l (AReadC i) = Some (l, RVal tv).
Proof. exact C25_dense_field_default_refuted_pf. Qed.
Print Assumptions C25_dense_field_default_refuted.

(** C25, as stated false: a dense accessor reports a value for an element that
    was never written as soon as an element with a larger id was. *)
Theorem C25_dense_find_refuted :
  forall T (tv v : T) dflt i j, i < j -> exists l,
  acc_run (dense_step tv dflt) [] [AWrite j v] = Some (l, [RDone]) /\
  dense_step tv dflt l (AFind i) = Some (l, RVal tv) /\ dense_step tv dflt l (AAt i) = Some (l, RVal tv).
Proof. exact C25_dense_find_refuted_pf. Qed.
Print Assumptions C25_dense_find_refuted.

(** C25, as stated false: at() of a non-const accessor over a std::map never
    throws; it creates the missing value, in every state. *)
Theorem C25_map_at_never_throws_refuted :
  forall T (tv : T) dflt l i, map_find l i = None ->
  map_step tv dflt l (AAt i) = Some (map_set l i tv, RVal tv).
Proof. exact C25_map_at_never_throws_refuted_pf. Qed.
Print Assumptions C25_map_at_never_throws_refuted.

Example ex_dense : acc_run (dense_step 0 None) [] [AWrite 3 7; AWrite 1 5; ARead 4; AWrite 3 8; AFind 3; AAtC 1; AFind 9; AAt 9] =
  Some ([0;5;0;8;0], [RDone; RDone; RVal 0; RDone; RVal 8; RVal 5; RNull; RThrow]).
Proof. reflexivity. Qed.
Example ex_dense_last : last_write [AWrite 3 7; AWrite 1 5; ARead 4; AWrite 3 8] 3 = Some 8.
Proof. reflexivity. Qed.
Example ex_map : acc_run (map_step 0 (Some 42)) [] [AWrite 3 7; AReadC 2; AAtC 2; AWrite 3 8; AReadC 3; AFind 2] =
  Some ([(3, 8)], [RDone; RVal 42; RThrow; RDone; RVal 8; RNull]).
Proof. reflexivity. Qed.
