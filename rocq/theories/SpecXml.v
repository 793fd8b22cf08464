(** Specification vocabulary for XML tags (C60): how a tag is written.
    Nothing here is used by the model. *)
From Coq Require Import List Ascii String.
Import ListNotations.
Local Open Scope char_scope.

(** No character of [s] is one of [cs]. *)
Definition free_of (cs : list ascii) (s : list ascii) : Prop := forall c, In c s -> ~ In c cs.

(** [ name="value"] *)
Definition written_attr (nv : list ascii * list ascii) : list ascii :=
  " " :: fst nv ++ ["="; """"] ++ snd nv ++ [""""].
(** [<name a="x" b="y">], with [tail] (such as [/] or [?]) before the closing bracket. *)
Definition written_tag (name : list ascii) (attrs : list (list ascii * list ascii)) (tail : list ascii) : list ascii :=
  "<" :: name ++ List.concat (map written_attr attrs) ++ tail ++ [">"].

(** Names and values that can be written without escapes. *)
Definition attr_name_ok (s : list ascii) : Prop := s <> [] /\ free_of [" "; "="; """"; ">"] s.
Definition attr_value_ok (s : list ascii) : Prop := s <> [] /\ free_of [""""; ">"] s.
Definition attr_ok (nv : list ascii * list ascii) : Prop := attr_name_ok (fst nv) /\ attr_value_ok (snd nv).
Definition tag_name_ok (s : list ascii) : Prop := free_of [" "; ">"] s.
(** Without attributes nothing follows the name but blanks. *)
Definition tail_ok (attrs : list (list ascii * list ascii)) (tail : list ascii) : Prop :=
  free_of [""""; ">"] tail /\ (attrs = [] -> tail = [] \/ exists r, tail = " " :: r).

(** The lower case of a letter, by table. *)
Definition uppercase := list_ascii_of_string "ABCDEFGHIJKLMNOPQRSTUVWXYZ".
Definition lowercase := list_ascii_of_string "abcdefghijklmnopqrstuvwxyz".
Definition small (c : ascii) : ascii :=
  match find (fun p => Ascii.eqb (fst p) c) (combine uppercase lowercase) with Some p => snd p | None => c end.
Definition small_letters (s : list ascii) : list ascii := map small s.
