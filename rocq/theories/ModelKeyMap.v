(** Model of the container viennagrid/storage/hidden_key_map.hpp in isolation.
    Definitions only. *)
From Coq Require Import List Arith Bool.
From Verif Require Import ModelTopo ModelMesh.
Import ListNotations.

Section KeyMap.
Context {V : Type}.

(** hidden_key_map.hpp:113: a std::map from keys to values, as the list of its
    pairs in iteration order. The key of a value is computed by the caller
    ([key_type(element)], lines 138, 143, 149) and passed here. *)
Definition kmap := list (list nat * V).

(** hidden_key_map.hpp:136-144, find. *)
Definition km_find (k : list nat) (l : kmap) : option V :=
  option_map snd (find (fun p => key_equiv (fst p) k) l).

(** Position of a new pair: before the first larger key. *)
Fixpoint km_place (k : list nat) (v : V) (l : kmap) : kmap :=
  match l with
  | [] => [(k, v)]
  | p :: l' => if key_less k (fst p) then (k, v) :: l else p :: km_place k v l'
  end.

(** hidden_key_map.hpp:147-151, insert: returns the stored value and whether
    the insertion took place. *)
Definition km_insert (k : list nat) (v : V) (l : kmap) : kmap * (V * bool) :=
  match km_find k l with
  | Some v0 => (l, (v0, false))
  | None => (km_place k v l, (v, true))
  end.

(** hidden_key_map.hpp:153-157, erase the pair an iterator obtained by [find]
    points to; nothing to erase when absent. *)
Fixpoint km_erase (k : list nat) (l : kmap) : kmap :=
  match l with
  | [] => []
  | p :: l' => if key_equiv (fst p) k then l' else p :: km_erase k l'
  end.

(** hidden_key_map.hpp:159-162, clear. *)
Definition km_clear (l : kmap) : kmap := [].

(** Operations and their observable results. *)
Inductive kop := KInsert (k : list nat) (v : V) | KFind (k : list nat) | KErase (k : list nat) | KClear | KSize.
Inductive kres := RInsert (v : V) (b : bool) | RFind (o : option V) | RUnit | RSize (n : nat).

Definition km_step (l : kmap) (o : kop) : kmap * kres :=
  match o with
  | KInsert k v => let '(l', (v0, b)) := km_insert k v l in (l', RInsert v0 b)
  | KFind k => (l, RFind (km_find k l))
  | KErase k => (km_erase k l, RUnit)
  | KClear => (km_clear l, RUnit)
  | KSize => (l, RSize (length l))
  end.

Fixpoint km_run (ops : list kop) (l : kmap) : list kres :=
  match ops with
  | [] => []
  | o :: ops' => let '(l', r) := km_step l o in r :: km_run ops' l'
  end.
End KeyMap.
Arguments kop : clear implicits.
Arguments kres : clear implicits.
Arguments kmap : clear implicits.
