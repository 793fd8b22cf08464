(** Specification vocabulary for the transfer of quantities (C43).
    Nothing here is used by the model. *)
From Coq Require Import List Arith Bool.
From Verif Require Import ModelTopo ModelMesh SpecQuery.
Import ListNotations.

(** [calls], the calls of the setter, are the transfer from the elements [srcs] of
    type [st] to elements of type [dt]: at most one for each element, and one
    exactly for the accepted elements [x] that are in the boundary of some accepted
    element of [srcs]; the value is the average of the values of all of these,
    in their order, each once. *)
Definition transferred {Pt V} (m : @mesh Pt) (value : tag -> addr -> V) (average : list V -> V) (st dt : tag)
    (fsrc fdst : addr -> bool) (srcs : list addr) (calls : list (addr * V)) : Prop :=
  NoDup (map fst calls) /\
  forall x v, In (x, v) calls <->
    fdst x = true /\
    (exists s, In s srcs /\ fsrc s = true /\ bounded_by m st s dt x) /\
    exists adjacent, (forall s, In s srcs -> (adjacent s = true <-> fsrc s = true /\ bounded_by m st s dt x)) /\
      v = average (map (value st) (filter adjacent srcs)).
