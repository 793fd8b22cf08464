(** Specification vocabulary for accessors and fields (C25). Histories are
    lists of calls, the oldest first. *)
From Coq Require Import List Arith Bool.
From Verif Require Import ModelAccessor.
Import ListNotations.

Section Spec.
Context {T : Type}.

(** The value most recently assigned for the element with id [i]. *)
Fixpoint last_write (h : list (aop T)) (i : nat) : option T :=
  match h with
  | [] => None
  | o :: h' =>
      match last_write h' i with
      | Some v => Some v
      | None => match o with AWrite j v => if j =? i then Some v else None | _ => None end
      end
  end.

(** The call reads the value of the element with id [i]. *)
Definition reads (i : nat) (o : aop T) : Prop :=
  match o with ARead j | AReadC j | AAt j | AAtC j | AFind j => j = i | AWrite _ _ => False end.

(** The call is the operator() of a non-const accessor for the element [i]. *)
Definition touches (i : nat) (o : aop T) : Prop :=
  match o with AWrite j _ | ARead j => j = i | _ => False end.
End Spec.
