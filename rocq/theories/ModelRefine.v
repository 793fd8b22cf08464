(** Model of the cell refinement with vertices and points: the decisions of
    refine_tet.hpp and refine_tri.hpp as functions of the mesh. Definitions only. *)
From Coq Require Import Reals List Arith Bool.
From Verif Require Import ModelGeom ModelRefineTet ModelRefineTri.
Import ListNotations.

Local Open Scope nat_scope.
Section Refine.
Context {V : Type}.
Variable d : nat.              (* geometric dimension *)
Variable pos : V -> point.     (* viennagrid::point(mesh, v) *)
Variable vid : V -> nat.       (* v.id() *)

(** norm(point(mesh, a) - point(mesh, b)) *)
Definition line_length (a b : V) : R := norm_2 d (psub (pos a) (pos b)).

(** refine_tet.hpp:37-82, stable_line_is_longer. *)
Definition stable_line_is_longer (v1_1 v1_2 v2_1 v2_2 : V) : bool :=
  let v1_1_ptr := if vid v1_1 <? vid v1_2 then v1_1 else v1_2 in
  let v1_2_ptr := if vid v1_1 <? vid v1_2 then v1_2 else v1_1 in
  let v2_1_ptr := if vid v2_1 <? vid v2_2 then v2_1 else v2_2 in
  let v2_2_ptr := if vid v2_1 <? vid v2_2 then v2_2 else v2_1 in
  let line1 := line_length v1_1 v1_2 in
  let line2 := line_length v2_1 v2_2 in
  if Rgt_dec line1 line2 then true
  else if Rge_dec line1 line2 then
    if vid v2_1_ptr <? vid v1_1_ptr then true
    else if vid v1_1_ptr =? vid v2_1_ptr then
      if vid v2_2_ptr <? vid v1_2_ptr then true else false
    else false
  else false.

(** The array [vertices]: the vertices of the cell, then those on its edges
    ([n] is the number of vertices of the cell). *)
Definition handle_no (n : nat) (vtx mid : nat -> V) (l : nat) : V := if l <? n then vtx l else mid (l - n).

(** refine_tet.hpp: element_refinement<tetrahedron_tag>::apply on the cell with
    vertices [vtx 0..3] and edge vertices [mid 0..5]; the created cells as
    lists of vertices. *)
Definition tet_children (vtx mid : nat -> V) (fl : nat -> bool) : option (list (list V)) :=
  let h := handle_no 4 vtx mid in
  option_map (map (map h))
    (refine_tet (fun a b c e => stable_line_is_longer (h a) (h b) (h c) (h e))
                (fun a b c e => if Rle_dec (line_length (h a) (h b)) (line_length (h c) (h e)) then true else false)
                fl).

(** refine_tri.hpp: element_refinement<triangle_tag>::apply. *)
Definition tri_children (vtx mid : nat -> V) (fl : nat -> bool) : option (list (list V)) :=
  let h := handle_no 3 vtx mid in
  option_map (map (map h))
    (refine_tri (fun a b c e => if Rgt_dec (line_length (h a) (h b)) (line_length (h c) (h e)) then true else false) fl).
End Refine.
