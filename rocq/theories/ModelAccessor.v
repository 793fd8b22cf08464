(** Model of viennagrid/accessor.hpp: accessors and fields over a dense
    container and over a std::map. Definitions only.

    An element is represented by the number that the accessor unpacks from it,
    its id (accessor.hpp:124-139, id_unpack, base_id_unpack).  [tv] is the
    value-initialised T() that std::vector::resize and std::map::operator[]
    put in.  Simplification: ids are natural numbers (the default id -1 of an
    element that was never inserted is outside the model). *)
From Coq Require Import List Arith Bool.
Import ListNotations.

Section Accessor.
Context {T : Type}.
Variable tv : T.

(** The calls of the public interface. *)
Inductive aop :=
| AWrite (i : nat) (v : T)   (* accessor(e) = v *)
| ARead (i : nat)            (* read accessor(e), accessor not const *)
| AReadC (i : nat)           (* read accessor(e), accessor const *)
| AAt (i : nat)              (* accessor.at(e), accessor not const *)
| AAtC (i : nat)             (* accessor.at(e), accessor const *)
| AFind (i : nat).           (* accessor.find(e) *)

(** What the caller sees: a value, the thrown std::out_of_range, a null
    pointer, or nothing (assignment). *)
Inductive ares := RVal (v : T) | RThrow | RNull | RDone.

(** std::vector::resize to a larger size. *)
Definition resize (l : list T) (n : nat) : list T := l ++ repeat tv (n - length l).

Fixpoint list_set (l : list T) (i : nat) (v : T) : list T :=
  match l, i with
  | [], _ => []
  | _ :: l', 0 => v :: l'
  | x :: l', S i' => x :: list_set l' i' v
  end.

(** accessor.hpp:228-233 and 713-718, operator() of a dense accessor/field on a
    non-const object: grows the container when needed. *)
Definition dense_grow (l : list T) (i : nat) : list T := if length l <=? i then resize l (i + 1) else l.

(** dense_container_accessor (accessor.hpp:197-258) and dense_container_field
    (accessor.hpp:680-751).  [dflt = None] is the accessor, whose const
    operator() asserts (line 238), [dflt = Some d] is the field with default
    value [d] (lines 720-728).  The result [None] is a failed assertion. *)
Definition dense_step (dflt : option T) (l : list T) (o : aop) : option (list T * ares) :=
  match o with
  | AWrite i v => Some (list_set (dense_grow l i) i v, RDone)
  | ARead i =>
      let l' := dense_grow l i in
      match nth_error l' i with Some v => Some (l', RVal v) | None => None end
  | AReadC i =>
      match nth_error l i with
      | Some v => Some (l, RVal v)
      | None => match dflt with Some d => Some (l, RVal d) | None => None end
      end
  | AAt i | AAtC i => Some (l, match nth_error l i with Some v => RVal v | None => RThrow end)
  | AFind i => Some (l, match nth_error l i with Some v => RVal v | None => RNull end)
  end.

(** std::map<id, T> as an association list. *)
Definition map_find (l : list (nat * T)) (i : nat) : option T :=
  option_map snd (find (fun p => fst p =? i) l).
Fixpoint map_set (l : list (nat * T)) (i : nat) (v : T) : list (nat * T) :=
  match l with
  | [] => [(i, v)]
  | p :: l' => if fst p =? i then (i, v) :: l' else p :: map_set l' i v
  end.
(** std::map::operator[]. *)
Definition map_index (l : list (nat * T)) (i : nat) : list (nat * T) * T :=
  match map_find l i with Some v => (l, v) | None => (map_set l i tv, tv) end.

(** std_map_accessor (accessor.hpp:326-383) and std_map_field
    (accessor.hpp:816-880); [dflt] as above. The non-const at() is
    [this->operator()(element)] (lines 367-370, 864-867). *)
Definition map_step (dflt : option T) (l : list (nat * T)) (o : aop) : option (list (nat * T) * ares) :=
  match o with
  | AWrite i v => Some (map_set l i v, RDone)
  | ARead i | AAt i => let (l', v) := map_index l i in Some (l', RVal v)
  | AReadC i =>
      match map_find l i with
      | Some v => Some (l, RVal v)
      | None => match dflt with Some d => Some (l, RVal d) | None => None end
      end
  | AAtC i => Some (l, match map_find l i with Some v => RVal v | None => RThrow end)
  | AFind i => Some (l, match map_find l i with Some v => RVal v | None => RNull end)
  end.

(** A sequence of calls; the answers in order. *)
Fixpoint acc_run {S} (step : S -> aop -> option (S * ares)) (s : S) (ops : list aop) : option (S * list ares) :=
  match ops with
  | [] => Some (s, [])
  | o :: ops' =>
      match step s o with
      | None => None
      | Some (s', r) =>
          match acc_run step s' ops' with
          | None => None
          | Some (s'', rs) => Some (s'', r :: rs)
          end
      end
  end.
End Accessor.
Arguments aop : clear implicits.
Arguments ares : clear implicits.
