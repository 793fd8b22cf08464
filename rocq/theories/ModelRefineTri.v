(** Model of viennagrid/algorithm/detail/refine_tri.hpp: the subdivision of one
    triangle. Definitions only.

    As in ModelRefineTet.v a vertex handle is represented by its number inside
    the cell: 0-2 are the vertices of the cell in the refined mesh, 3+k is the
    vertex on the k-th edge, the edges being (01) (02) (12).  [fl k] is
    edge_refinement_flag_accessor(e_k).  [gt a b c d] is
    norm(point a - point b) > norm(point c - point d).
    A failing assert is [None]. *)
From Coq Require Import List Arith Bool.
Import ListNotations.

Section RefineTri.
Variable gt : nat -> nat -> nat -> nat -> bool.

(** refine_tri.hpp:55-84, apply0. *)
Definition tri_apply0 : option (list (list nat)) := Some [[0;1;2]].

(** refine_tri.hpp:155-163, the two cells of apply1 for a rotation [o] and the
    edge vertex [v3]. *)
Definition tri_cells1 (o v3 : nat) : list (list nat) :=
  [[(o + 0) mod 3; v3; (o + 2) mod 3]; [v3; (o + 1) mod 3; (o + 2) mod 3]].

(** refine_tri.hpp:100-164, apply1. *)
Definition tri_apply1 (fl : nat -> bool) : option (list (list nat)) :=
  if fl 0 then Some (tri_cells1 0 3)
  else if fl 1 then Some (tri_cells1 2 4)
  else if fl 2 then Some (tri_cells1 1 5)
  else None.

(** refine_tri.hpp:244-272, the cells of apply2 for a rotation [o] and the edge
    vertices [v3], [v4]. *)
Definition tri_cells2 (o v3 v4 : nat) : list (list nat) :=
  [v3; (o + 1) mod 3; v4] ::
  (if gt ((o + 1) mod 3) ((o + 0) mod 3) ((o + 2) mod 3) ((o + 1) mod 3)
   then [[(o + 0) mod 3; v3; (o + 2) mod 3]; [(o + 2) mod 3; v3; v4]]
   else [[(o + 0) mod 3; v3; v4]; [(o + 0) mod 3; v4; (o + 2) mod 3]]).

(** refine_tri.hpp:181-273, apply2. *)
Definition tri_apply2 (fl : nat -> bool) : option (list (list nat)) :=
  if fl 0 && fl 1 then Some (tri_cells2 2 4 3)
  else if fl 0 && fl 2 then Some (tri_cells2 0 3 5)
  else if fl 1 && fl 2 then Some (tri_cells2 1 5 4)
  else None.

(** refine_tri.hpp:283-334, apply3. *)
Definition tri_apply3 : option (list (list nat)) := Some [[0;3;4]; [3;1;5]; [4;5;2]; [4;3;5]].

(** refine_tri.hpp:349-377, apply: counts the flagged edges and dispatches. *)
Definition refine_tri (fl : nat -> bool) : option (list (list nat)) :=
  match length (filter fl (seq 0 3)) with
  | 0 => tri_apply0
  | 1 => tri_apply1 fl
  | 2 => tri_apply2 fl
  | 3 => tri_apply3
  | _ => Some []
  end.
End RefineTri.
