(** Segments of a segmentation: ids, names, creation, look-up (C18, C19).
    Models mesh/segmentation.hpp 56-148, 518-945; what a segment contains is
    modelled in ModelSegment.v.

    The ids are ints; [Z] leaves out overflow.  [segments] is a std::deque that
    is only pushed to or cleared, and both maps are std::map, so references stay
    valid until clear().  One abstract address stands for a segment struct and
    for the map node with its segment_handle: they are created and destroyed
    together.  Addresses are never reused, so a pointer into a destroyed segment
    is recognised: using it is [SUndef]. *)
From Coq Require Import String DecimalString List ZArith Bool.
Import ListNotations.
Open Scope Z_scope.

(** segmentation.hpp 544-553: the id and the name of struct segment. *)
Record segment := mkSeg { s_id : Z; s_name : string }.

(** segmentation.hpp 929-940: highest_id, segment_id_map (iterated by increasing
    id), segment_name_map (never iterated; pointers into the id map), segments. *)
Record segs := mkSegs {
  g_high : Z;
  g_ids : list (Z * nat);
  g_names : list (string * nat);
  g_segs : list (nat * segment);
  g_next : nat
}.

(** segmentation.hpp 571 (constructor). *)
Definition new_segmentation : segs := mkSegs (-1) [] [] [] 0.

(** Outcome of a call: normal return, exception (with the state left behind), or
    undefined behaviour (a destroyed segment is accessed, an assertion fails). *)
Inductive outcome (A : Type) :=
| SRet (g : segs) (x : A)
| SThrow (g : segs)
| SUndef.
Arguments SRet {A}. Arguments SThrow {A}. Arguments SUndef {A}.

(** Sequencing of calls. *)
Definition sbind {A B} (r : outcome A) (f : segs -> A -> outcome B) : outcome B :=
  match r with SRet g x => f g x | SThrow g => SThrow g | SUndef => SUndef end.

(** std::map::find on the id map. *)
Fixpoint find_id (z : Z) (l : list (Z * nat)) : option nat :=
  match l with
  | [] => None
  | (k, a) :: r => if z =? k then Some a else find_id z r
  end.

(** std::map::insert on the id map (only called when the key is absent). *)
Fixpoint id_insert (z : Z) (a : nat) (l : list (Z * nat)) : list (Z * nat) :=
  match l with
  | [] => [(z, a)]
  | (k, b) :: r => if z <? k then (z, a) :: l else (k, b) :: id_insert z a r
  end.

(** std::map::find on the name map. *)
Fixpoint find_name (s : string) (l : list (string * nat)) : option nat :=
  match l with
  | [] => None
  | (k, a) :: r => if String.eqb s k then Some a else find_name s r
  end.

(** std::map::erase(key) on the name map. *)
Definition name_erase (s : string) (l : list (string * nat)) : list (string * nat) :=
  filter (fun p => negb (String.eqb s (fst p))) l.

(** [map[key] = value] on the name map. *)
Definition name_put (s : string) (a : nat) (l : list (string * nat)) : list (string * nat) :=
  (s, a) :: name_erase s l.

(** Following a pointer to a segment. *)
Fixpoint find_seg (a : nat) (l : list (nat * segment)) : option segment :=
  match l with
  | [] => None
  | (b, s) :: r => if Nat.eqb a b then Some s else find_seg a r
  end.

(** Assignment to the name of the segment at [a]. *)
Definition rename_at (a : nat) (s : string) (l : list (nat * segment)) : list (nat * segment) :=
  map (fun p => if Nat.eqb a (fst p) then (fst p, mkSeg (s_id (snd p)) s) else p) l.

(** segmentation.hpp 688-690: [ss << segment_id]. *)
Definition decimal (z : Z) : string := NilZero.string_of_int (Z.to_int z).

(** segmentation.hpp 612. *)
Definition segment_present (z : Z) (g : segs) : bool :=
  match find_id z (g_ids g) with Some _ => true | None => false end.

(** segmentation.hpp 620-637: get_segment by id, with its assertion. *)
Definition get_segment_id (z : Z) (g : segs) : outcome nat :=
  match find_id z (g_ids g) with Some a => SRet g a | None => SUndef end.

(** segmentation.hpp 644-661: get_segment by name.  The reference obtained from
    the map is only usable when its segment still exists. *)
Definition get_segment_name (s : string) (g : segs) : outcome nat :=
  match find_name s (g_names g) with
  | Some a => match find_seg a (g_segs g) with Some _ => SRet g a | None => SUndef end
  | None => SUndef
  end.

(** segmentation.hpp 755-761: at(id); 798-804, at(name), does not compile when used. *)
Definition segment_at (z : Z) (g : segs) : outcome nat :=
  match find_id z (g_ids g) with Some a => SRet g a | None => SThrow g end.

(** segmentation.hpp 673-696: get_make_segment(id).  The name of the new segment
    is checked after the segment and its id have been inserted. *)
Definition get_make_id (z : Z) (g : segs) : outcome nat :=
  match find_id z (g_ids g) with
  | Some a => SRet g a
  | None =>
      let a := g_next g in
      let nm := decimal z in
      let high := if g_high g <? z then z else g_high g in
      let ids := id_insert z a (g_ids g) in
      let st := (a, mkSeg z nm) :: g_segs g in
      match find_name nm (g_names g) with
      | Some _ => SThrow (mkSegs high ids (g_names g) st (S a))
      | None => SRet (mkSegs high ids ((nm, a) :: g_names g) st (S a)) a
      end
  end.

(** segmentation.hpp 721: make_segment. *)
Definition make_segment (g : segs) : outcome nat :=
  let h := g_high g + 1 in
  get_make_id h (mkSegs h (g_ids g) (g_names g) (g_segs g) (g_next g)).

(** segmentation.hpp 94-103: segment_handle::set_name. *)
Definition set_name (a : nat) (s : string) (g : segs) : outcome unit :=
  match find_seg a (g_segs g) with
  | None => SUndef
  | Some sg =>
      match find_name s (g_names g) with
      | Some _ => SThrow g
      | None =>
          let g1 := mkSegs (g_high g) (g_ids g) (name_erase (s_name sg) (g_names g)) (g_segs g) (g_next g) in
          sbind (get_make_id (s_id sg) g1) (fun g2 b =>
            SRet (mkSegs (g_high g2) (g_ids g2) (name_put s b (g_names g2))
                         (rename_at a s (g_segs g2)) (g_next g2)) tt)
      end
  end.

(** segmentation.hpp 703-713: get_make_segment(name). *)
Definition get_make_name (s : string) (g : segs) : outcome nat :=
  match find_name s (g_names g) with
  | Some a => match find_seg a (g_segs g) with Some _ => SRet g a | None => SUndef end
  | None => sbind (make_segment g) (fun g1 a => sbind (set_name a s g1) (fun g2 _ => SRet g2 a))
  end.

(** segmentation.hpp 915-921: clear.  The name map is not cleared. *)
Definition clear_segs (g : segs) : segs := mkSegs (-1) [] (g_names g) [] (g_next g).

(** segmentation.hpp 577-583: init.  Only highest_id is reset among the fields here. *)
Definition init_segs (g : segs) : segs := mkSegs (-1) (g_ids g) (g_names g) (g_segs g) (g_next g).

(** The calls of a user that create, find and rename segments. *)
Inductive sgop :=
| SgMake                            (* make_segment() *)
| SgId (z : Z)                      (* segmentation(z), get_make_segment(z) *)
| SgName (s : string)               (* segmentation(s), get_make_segment(s) *)
| SgRename (z : Z) (s : string)     (* get_segment(z).set_name(s) *)
| SgClear                           (* clear() *)
| SgInit.                           (* init(mesh) *)

(** One call; the result is the address of the segment returned, if any. *)
Definition sgstep (o : sgop) (g : segs) : outcome (option nat) :=
  match o with
  | SgMake => sbind (make_segment g) (fun g' a => SRet g' (Some a))
  | SgId z => sbind (get_make_id z g) (fun g' a => SRet g' (Some a))
  | SgName s => sbind (get_make_name s g) (fun g' a => SRet g' (Some a))
  | SgRename z s => sbind (get_segment_id z g) (fun _ a => sbind (set_name a s g) (fun g' _ => SRet g' None))
  | SgClear => SRet (clear_segs g) None
  | SgInit => SRet (init_segs g) None
  end.

(** segmentation.hpp 816-893: iteration goes over the id map; size() counts it. *)
Definition segment_range (g : segs) : list nat := map snd (g_ids g).
Definition segment_count (g : segs) : nat := length (g_ids g).

(** segmentation.hpp 813. *)
Definition segment_id_upper_bound (g : segs) : Z := g_high g.

(** segmentation.hpp 81, 87: id() and name() of the handle at [a]. *)
Definition id_of_seg (g : segs) (a : nat) : option Z := option_map s_id (find_seg a (g_segs g)).
Definition name_of_seg (g : segs) (a : nat) : option string := option_map s_name (find_seg a (g_segs g)).
