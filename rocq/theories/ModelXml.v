(** Reading XML tags and words from a stream: viennagrid/io/xml_tag.hpp.
    Definitions only; no proofs in this file.

    A stream is the list of the characters that have not been read.  After a
    failed read at the end of the file the variable read into keeps its value
    and good() is false from then on. *)
From Coq Require Import List Arith Bool Ascii String.
From Verif Require Import ModelCopySeg.
Import ListNotations.

Notation text := (list ascii) (only parsing).
(** The characters of a literal. *)
Definition txt (s : string) : text := list_ascii_of_string s.

Definition text_eqb (a b : text) : bool := if list_eq_dec ascii_dec a b then true else false.

(** xml_tag.hpp 241-246, make_lower, and 41-49, char_to_lower. *)
Definition lower (c : ascii) : ascii :=
  let n := nat_of_ascii c in
  if (65 <=? n) && (n <=? 90) then ascii_of_nat (n + 32) else c.
(** xml_tag.hpp 56-63, string_to_lower. *)
Definition lower_all (s : text) : text := map lower s.

Local Open Scope char_scope.

(** xml_tag.hpp 242-252, the members of xml_tag. *)
Record xtag := mkTag { t_name : text; t_attrs : list (text * text) }.

(** std::string::find_first_of and rfind of one character. *)
Fixpoint find_char (c : ascii) (s : text) : option nat :=
  match s with
  | [] => None
  | x :: r => if Ascii.eqb x c then Some 0 else option_map S (find_char c r)
  end.
Fixpoint rfind_char (c : ascii) (s : text) : option nat :=
  match s with
  | [] => None
  | x :: r =>
      match rfind_char c r with
      | Some i => Some (S i)
      | None => if Ascii.eqb x c then Some 0 else None
      end
  end.

(** xml_tag.hpp 82-84, go to the start of the tag; [None]: end of the file. *)
Fixpoint skip_to_tag (s : text) : option text :=
  match s with
  | [] => None
  | x :: r => if Ascii.eqb x "<" then Some r else skip_to_tag r
  end.

(** xml_tag.hpp 87-94, the name of the tag: up to a blank or the closing bracket,
    which is stripped; returned together with the character that ended it
    ([None]: the end of the file). *)
Fixpoint read_name (s : text) : text * option ascii * text :=
  match s with
  | [] => ([], None, [])
  | x :: r =>
      if Ascii.eqb x " " || Ascii.eqb x ">" then ([], Some x, r)
      else let '(n, e, r') := read_name r in (lower x :: n, e, r')
  end.

(** xml_tag.hpp 104-107, the state of the loop over the attributes. *)
Record astate := mkA { a_inside : bool; a_token : text; a_attrs : list (text * text) }.

(** xml_tag.hpp 126-151, a complete attribute: what the token says.  Every branch
    that is not [Done] throws ([substr] beyond the end of the token, too). *)
Definition attribute (token : text) : result (text * text) :=
  match find_char "=" token with
  | None => Thrown
  | Some 0 => Thrown
  | Some pos =>
      if Nat.ltb (List.length token) (pos + 2) then Thrown
      else
        let value := skipn (pos + 2) token in
        match rfind_char """" value with
        | None => Thrown
        | Some 0 => Thrown
        | Some p => Done (firstn pos token, firstn p value)
        end
  end.

(** xml_tag.hpp 110-158, the body of the loop after reading [c]. *)
Definition attr_char (c : ascii) (s : astate) : result astate :=
  let quote := Ascii.eqb c """" in
  let inside := a_inside s || quote in
  let token := if inside then a_token s ++ [c]
               else if Ascii.eqb c " " then a_token s else a_token s ++ [lower c] in
  if a_inside s && quote
  then rbind (attribute token) (fun av => Done (mkA false [] (a_attrs s ++ [av])))
  else Done (mkA inside token (a_attrs s)).

(** xml_tag.hpp 108-159, the loop; [c] is the character read last. *)
Fixpoint read_attrs (c : ascii) (s : text) (st : astate) : result (list (text * text) * text) :=
  if Ascii.eqb c ">" then Done (a_attrs st, s)
  else match s with
       | [] => rbind (attr_char c st) (fun st' => Done (a_attrs st', []))
       | x :: r => rbind (attr_char x st) (read_attrs x r)
       end.

(** xml_tag.hpp 73-163, parse.  At the end of the file the name is empty, and
    shortening it by one character throws (94). *)
Definition parse_tag (s : text) : result (xtag * text) :=
  match skip_to_tag s with
  | None => Thrown
  | Some r =>
      let '(n, e, r') := read_name r in
      match e with
      | None => Done (mkTag n [], [])
      | Some c =>
          if Ascii.eqb c ">" then Done (mkTag n [], r')
          else rbind (read_attrs c r' (mkA false [] [])) (fun ar => Done (mkTag n (fst ar), snd ar))
      end
  end.

(** xml_tag.hpp 166-185, parse_and_check_name. *)
Definition parse_named (expected : text) (s : text) : result (xtag * text) :=
  rbind (parse_tag s) (fun tr => if text_eqb (t_name (fst tr)) (lower_all expected) then Done tr else Thrown).

(** xml_tag.hpp 191-202 and 218-229, has_attribute and get_value ([None]: the
    attribute is missing; get_value then returns the empty string). *)
Definition find_attr (a : text) (t : xtag) : option text :=
  option_map snd (find (fun av => text_eqb (fst av) a) (t_attrs t)).
Definition get_value (a : text) (t : xtag) : text := match find_attr a t with Some v => v | None => [] end.
(** xml_tag.hpp 205-215, check_attribute. *)
Definition check_attr (a : text) (t : xtag) : result unit :=
  match find_attr a t with Some _ => Done tt | None => Thrown end.

(** Blanks, as operator>> skips them. *)
Definition blank (c : ascii) : bool :=
  let n := nat_of_ascii c in Nat.eqb n 32 || (Nat.leb 9 n && Nat.leb n 13).

(** [reader >> token]: the blanks before the word, then the word.  [None]: no word
    is left, the read fails. *)
Fixpoint skip_blanks (s : text) : text :=
  match s with [] => [] | x :: r => if blank x then skip_blanks r else s end.
Fixpoint take_word (s : text) : text * text :=
  match s with
  | [] => ([], [])
  | x :: r => if blank x then ([], s) else let '(w, r') := take_word r in (x :: w, r')
  end.
Definition read_word (s : text) : option (text * text) :=
  match skip_blanks s with [] => None | s' => Some (take_word s') end.
