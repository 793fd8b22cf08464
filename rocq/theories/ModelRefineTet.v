(** Model of viennagrid/algorithm/detail/refine_tet.hpp: the subdivision of one
    tetrahedron. Definitions only.

    The entries of the arrays [vertices] / [ordered_vertices] are vertex handles
    in the code. Here a handle is represented by its number inside the cell: 0-3
    are the vertices of the cell in the refined mesh (vertex_copy_map_ of the
    i-th vertex), 4+k is the vertex on the k-th edge
    (edge_to_vertex_handle_accessor(e_k)), the edges being
    (01) (02) (03) (12) (13) (23).  [fl k] is edge_refinement_flag_accessor(e_k).
    [lg a b c d] is stable_line_is_longer(mesh, a, b, c, d) (lines 37-82, model
    in ModelRefine.v), [dle a b c d] is norm(a-b) <= norm(c-d) (apply6).
    The cells are returned in the order in which add_refinement_element
    (lines 94-106) appends them, each as the list of its four vertices.
    A failing assert is [None]. *)
From Coq Require Import List Arith Bool.
Import ListNotations.

Section RefineTet.
Variable lg : nat -> nat -> nat -> nat -> bool.
Variable dle : nat -> nat -> nat -> nat -> bool.

(** refine_tet.hpp:124-147, apply0. *)
Definition apply0 : option (list (list nat)) :=
  Some [[0;1;2;3]].

(** refine_tet.hpp:153-260, apply1. *)
Definition apply1 (fl : nat -> bool) : option (list (list nat)) :=
  if fl 0 then
    Some [[0;4;2;3]; [4;1;2;3]]
  else
    if fl 1 then
      Some [[2;5;1;3]; [5;0;1;3]]
    else
      if fl 2 then
        Some [[0;6;1;2]; [6;3;1;2]]
      else
        if fl 3 then
          Some [[1;7;0;3]; [7;2;0;3]]
        else
          if fl 4 then
            Some [[3;8;0;2]; [8;1;0;2]]
          else
            if fl 5 then
              Some [[3;9;1;0]; [9;2;1;0]]
            else
              None.

(** refine_tet.hpp:284-300, apply2_1. *)
Definition apply2_1 (v0 v1 v2 v3 v4 v5 : nat) : option (list (list nat)) :=
  if lg v0 v1 v2 v1 then
    Some [[v4;v1;v5;v3]; [v0;v4;v2;v3]; [v4;v5;v2;v3]]
  else
    Some [[v4;v1;v5;v3]; [v0;v4;v5;v3]; [v0;v5;v2;v3]].

(** refine_tet.hpp:316-324, apply2_2. *)
Definition apply2_2 (v0 v1 v2 v3 v4 v5 : nat) : option (list (list nat)) :=
  Some [[v4;v1;v2;v5]; [v4;v1;v5;v3]; [v0;v4;v2;v5]; [v0;v4;v5;v3]].

(** refine_tet.hpp:332-577, apply2. *)
Definition apply2 (fl : nat -> bool) : option (list (list nat)) :=
  if fl 0 then
    if fl 1 then
      apply2_1 2 0 1 3 5 4
    else
      if fl 2 then
        apply2_1 1 0 3 2 4 6
      else
        if fl 3 then
          apply2_1 0 1 2 3 4 7
        else
          if fl 4 then
            apply2_1 3 1 0 2 8 4
          else
            if fl 5 then
              apply2_2 0 1 2 3 4 9
            else
              None
  else
    if fl 1 then
      if fl 2 then
        apply2_1 3 0 2 1 6 5
      else
        if fl 3 then
          apply2_1 1 2 0 3 7 5
        else
          if fl 4 then
            apply2_2 2 0 1 3 5 8
          else
            if fl 5 then
              apply2_1 0 2 3 1 5 9
            else
              None
    else
      if fl 2 then
        if fl 3 then
          apply2_2 3 0 2 1 6 7
        else
          if fl 4 then
            apply2_1 0 3 1 2 6 8
          else
            if fl 5 then
              apply2_1 2 3 0 1 9 6
            else
              None
      else
        if fl 3 then
          if fl 4 then
            apply2_1 2 1 3 0 7 8
          else
            if fl 5 then
              apply2_1 3 2 1 0 9 7
            else
              None
        else
          if fl 4 then
            if fl 5 then
              apply2_1 1 3 2 0 8 9
            else
              None
          else
            None.

(** refine_tet.hpp:598-672, apply3_1. *)
Definition apply3_1 (v0 v1 v2 v3 v4 v5 v6 : nat) : option (list (list nat)) :=
  if lg v0 v1 v1 v2 then
    if lg v1 v3 v1 v2 then
      if lg v1 v3 v0 v1 then
        Some [[v4;v1;v5;v6]; [v0;v6;v2;v3]; [v0;v4;v2;v6]; [v4;v5;v2;v6]]
      else
        Some [[v4;v1;v5;v6]; [v0;v4;v2;v3]; [v3;v4;v2;v6]; [v4;v5;v2;v6]]
    else
      if lg v1 v3 v0 v1 then
        None
      else
        Some [[v4;v1;v5;v6]; [v0;v4;v2;v3]; [v4;v5;v2;v3]; [v4;v6;v5;v3]]
  else
    if lg v1 v3 v1 v2 then
      if lg v1 v3 v0 v1 then
        Some [[v4;v1;v5;v6]; [v0;v4;v5;v6]; [v0;v6;v5;v2]; [v0;v6;v2;v3]]
      else
        None
    else
      if lg v1 v3 v0 v1 then
        Some [[v4;v1;v5;v6]; [v0;v4;v5;v6]; [v0;v6;v5;v3]; [v0;v5;v2;v3]]
      else
        Some [[v4;v1;v5;v6]; [v0;v4;v5;v3]; [v4;v5;v3;v6]; [v0;v5;v2;v3]].

(** refine_tet.hpp:690-698, apply3_2. *)
Definition apply3_2 (v0 v1 v2 v3 v4 v5 v6 : nat) : option (list (list nat)) :=
  Some [[v0;v4;v6;v3]; [v4;v5;v6;v3]; [v4;v1;v5;v3]; [v6;v5;v2;v3]].

(** refine_tet.hpp:715-759, apply3_3. *)
Definition apply3_3 (v0 v1 v2 v3 v4 v5 v6 : nat) : option (list (list nat)) :=
  if lg v0 v1 v0 v3 then
    if lg v0 v1 v1 v2 then
      Some [[v4;v1;v5;v3]; [v0;v4;v2;v6]; [v6;v4;v2;v3]; [v4;v5;v2;v3]]
    else
      Some [[v4;v1;v5;v3]; [v0;v4;v5;v6]; [v0;v5;v2;v6]; [v6;v4;v5;v3]; [v6;v5;v2;v3]]
  else
    if lg v0 v1 v1 v2 then
      Some [[v4;v1;v5;v6]; [v6;v1;v5;v3]; [v6;v5;v2;v3]; [v0;v4;v2;v6]; [v6;v4;v5;v2]]
    else
      Some [[v4;v1;v5;v6]; [v6;v1;v5;v3]; [v6;v5;v2;v3]; [v0;v4;v5;v6]; [v0;v5;v2;v6]].

(** refine_tet.hpp:775-821, apply3_4. *)
Definition apply3_4 (v0 v1 v2 v3 v4 v5 v6 : nat) : option (list (list nat)) :=
  if lg v0 v1 v1 v2 then
    if lg v1 v2 v2 v3 then
      Some [[v0;v4;v2;v6]; [v0;v4;v6;v3]; [v4;v5;v2;v6]; [v4;v1;v5;v3]; [v4;v5;v6;v3]]
    else
      Some [[v0;v4;v2;v6]; [v0;v4;v6;v3]; [v4;v5;v2;v6]; [v4;v1;v6;v3]; [v4;v1;v5;v6]]
  else
    if lg v1 v2 v2 v3 then
      Some [[v0;v4;v5;v3]; [v0;v5;v6;v3]; [v0;v5;v2;v6]; [v4;v1;v5;v3]]
    else
      Some [[v0;v4;v5;v6]; [v0;v4;v6;v3]; [v0;v5;v2;v6]; [v4;v1;v5;v6]; [v4;v1;v6;v3]].

(** refine_tet.hpp:829-1154, apply3. *)
Definition apply3 (fl : nat -> bool) : option (list (list nat)) :=
  if fl 0 then
    if fl 1 then
      if fl 2 then
        apply3_1 2 0 1 3 5 4 6
      else
        if fl 3 then
          apply3_2 2 0 1 3 5 4 7
        else
          if fl 4 then
            apply3_4 2 0 1 3 5 4 8
          else
            if fl 5 then
              apply3_3 2 0 1 3 5 4 9
            else
              None
    else
      if fl 2 then
        if fl 3 then
          apply3_3 1 0 3 2 4 6 7
        else
          if fl 4 then
            apply3_2 1 0 3 2 4 6 8
          else
            if fl 5 then
              apply3_4 1 0 3 2 4 6 9
            else
              None
      else
        if fl 3 then
          if fl 4 then
            apply3_1 0 1 2 3 4 7 8
          else
            if fl 5 then
              apply3_4 0 1 2 3 4 7 9
            else
              None
        else
          if fl 4 then
            if fl 5 then
              apply3_3 3 1 0 2 8 4 9
            else
              None
          else
            None
  else
    if fl 1 then
      if fl 2 then
        if fl 3 then
          apply3_4 3 0 2 1 6 5 7
        else
          if fl 4 then
            apply3_3 3 0 2 1 6 5 8
          else
            if fl 5 then
              apply3_2 3 0 2 1 6 5 9
            else
              None
      else
        if fl 3 then
          if fl 4 then
            apply3_3 1 2 0 3 7 5 8
          else
            if fl 5 then
              apply3_1 1 2 0 3 7 5 9
            else
              None
        else
          if fl 4 then
            if fl 5 then
              apply3_4 1 3 2 0 8 9 5
            else
              None
          else
            None
    else
      if fl 2 then
        if fl 3 then
          if fl 4 then
            apply3_4 0 3 1 2 6 8 7
          else
            if fl 5 then
              apply3_3 3 2 1 0 9 7 6
            else
              None
        else
          if fl 4 then
            if fl 5 then
              apply3_1 0 3 1 2 6 8 9
            else
              None
          else
            None
      else
        if fl 3 then
          if fl 4 then
            if fl 5 then
              apply3_2 2 1 3 0 7 8 9
            else
              None
          else
            None
        else
          None.

(** refine_tet.hpp:1175-1225, apply4_1. *)
Definition apply4_1 (v0 v1 v2 v3 v4 v5 v6 v7 : nat) : option (list (list nat)) :=
  if lg v0 v3 v1 v3 then
    if lg v1 v3 v2 v3 then
      Some [[v0;v1;v4;v7]; [v7;v5;v6;v3]; [v7;v1;v4;v5]; [v7;v5;v4;v6]; [v1;v2;v4;v5]; [v4;v5;v2;v6]]
    else
      Some [[v0;v1;v4;v7]; [v7;v5;v6;v3]; [v7;v1;v6;v5]; [v7;v1;v4;v6]; [v1;v2;v4;v6]]
  else
    if lg v1 v3 v2 v3 then
      Some [[v0;v1;v4;v5]; [v0;v5;v4;v7]; [v7;v5;v6;v3]; [v7;v5;v4;v6]; [v1;v2;v4;v5]; [v4;v5;v2;v6]]
    else
      Some [[v0;v1;v4;v5]; [v0;v5;v4;v7]; [v7;v5;v6;v3]; [v7;v5;v4;v6]; [v5;v1;v4;v6]; [v4;v1;v2;v6]].

(** refine_tet.hpp:1242-1455, apply4_2. *)
Definition apply4_2 (v0 v1 v2 v3 v4 v5 v6 v7 : nat) : option (list (list nat)) :=
  if lg v0 v3 v1 v3 then
    if lg v1 v3 v1 v2 then
      if lg v0 v2 v0 v3 then
        if lg v0 v2 v1 v2 then
          Some [[v0;v1;v5;v6]; [v6;v1;v5;v7]; [v1;v4;v5;v7]; [v4;v2;v5;v7]; [v6;v7;v5;v3]; [v7;v2;v5;v3]]
        else
          None
      else
        if lg v0 v2 v1 v2 then
          Some [[v0;v1;v5;v6]; [v1;v4;v5;v6]; [v1;v4;v6;v7]; [v7;v4;v6;v2]; [v4;v2;v5;v6]; [v6;v7;v2;v3]]
        else
          Some [[v0;v1;v4;v6]; [v0;v4;v5;v6]; [v6;v1;v4;v7]; [v6;v7;v4;v2]; [v6;v4;v5;v2]; [v6;v7;v2;v3]]
    else
      if lg v0 v2 v0 v3 then
        if lg v0 v2 v1 v2 then
          Some [[v0;v1;v5;v6]; [v6;v1;v5;v7]; [v1;v4;v5;v7]; [v5;v4;v2;v3]; [v5;v7;v4;v3]; [v6;v7;v5;v3]]
        else
          Some [[v0;v1;v4;v6]; [v6;v1;v4;v7]; [v6;v7;v4;v3]; [v6;v4;v5;v3]; [v0;v4;v5;v6]; [v5;v4;v2;v3]]
      else
        if lg v0 v2 v1 v2 then
          Some [[v0;v1;v5;v6]; [v1;v4;v5;v6]; [v1;v4;v6;v7]; [v7;v4;v6;v3]; [v4;v2;v5;v6]; [v6;v4;v2;v3]]
        else
          Some [[v0;v1;v4;v6]; [v6;v1;v4;v7]; [v6;v7;v4;v3]; [v0;v4;v5;v6]; [v5;v4;v2;v6]; [v6;v4;v2;v3]]
  else
    if lg v1 v3 v1 v2 then
      if lg v0 v2 v0 v3 then
        if lg v0 v2 v1 v2 then
          Some [[v0;v1;v5;v7]; [v0;v7;v5;v6]; [v1;v4;v5;v7]; [v5;v4;v2;v7]; [v5;v7;v2;v3]; [v6;v7;v5;v3]]
        else
          Some [[v0;v1;v4;v7]; [v0;v4;v5;v7]; [v0;v7;v5;v6]; [v6;v7;v5;v3]; [v5;v4;v2;v7]; [v5;v7;v2;v3]]
      else
        if lg v0 v2 v1 v2 then
          Some [[v0;v1;v5;v7]; [v1;v4;v5;v7]; [v0;v7;v5;v6]; [v4;v2;v5;v7]; [v7;v2;v5;v6]; [v7;v2;v6;v3]]
        else
          Some [[v0;v1;v4;v7]; [v0;v7;v4;v6]; [v0;v4;v5;v6]; [v6;v7;v4;v2]; [v6;v4;v5;v2]; [v6;v7;v2;v3]]
    else
      if lg v0 v2 v0 v3 then
        if lg v0 v2 v1 v2 then
          Some [[v0;v1;v5;v7]; [v0;v7;v5;v6]; [v6;v7;v5;v3]; [v1;v4;v5;v7]; [v7;v4;v5;v3]; [v4;v2;v5;v3]]
        else
          Some [[v0;v1;v4;v7]; [v0;v4;v5;v7]; [v0;v7;v5;v6]; [v6;v7;v5;v3]; [v7;v4;v5;v3]; [v4;v2;v5;v3]]
      else
        if lg v0 v2 v1 v2 then
          None
        else
          Some [[v0;v1;v4;v7]; [v0;v7;v4;v6]; [v0;v4;v5;v6]; [v6;v7;v4;v3]; [v6;v4;v2;v3]; [v5;v4;v2;v6]].

(** refine_tet.hpp:1462-1736, apply4. *)
Definition apply4 (fl : nat -> bool) : option (list (list nat)) :=
  if negb (fl 0) then
    if negb (fl 1) then
      apply4_1 2 0 1 3 7 6 8 9
    else
      if negb (fl 2) then
        apply4_1 1 0 3 2 8 5 9 7
      else
        if negb (fl 3) then
          apply4_1 0 1 2 3 5 8 9 6
        else
          if negb (fl 4) then
            apply4_1 3 1 0 2 6 7 5 9
          else
            if negb (fl 5) then
              apply4_2 0 1 2 3 7 5 6 8
            else
              None
  else
    if negb (fl 1) then
      if negb (fl 2) then
        apply4_1 3 0 2 1 9 4 7 8
      else
        if negb (fl 3) then
          apply4_1 1 2 0 3 4 9 6 8
        else
          if negb (fl 4) then
            apply4_2 2 0 1 3 4 7 9 6
          else
            if negb (fl 5) then
              apply4_1 0 2 3 1 6 7 8 4
            else
              None
    else
      if negb (fl 2) then
        if negb (fl 3) then
          apply4_2 3 0 2 1 5 9 8 4
        else
          if negb (fl 4) then
            apply4_1 0 3 1 2 4 9 7 5
          else
            if negb (fl 5) then
              apply4_1 2 3 0 1 5 8 4 7
            else
              None
      else
        if negb (fl 3) then
          if negb (fl 4) then
            apply4_1 2 1 3 0 9 4 6 5
          else
            if negb (fl 5) then
              apply4_1 3 2 1 0 8 5 4 6
            else
              None
        else
          if negb (fl 4) then
            if negb (fl 5) then
              apply4_1 1 3 2 0 7 6 5 4
            else
              None
          else
            None.

(** refine_tet.hpp:1757-1804, apply5_1. *)
Definition apply5_1 (v0 v1 v2 v3 v4 v5 v6 v7 v8 : nat) : option (list (list nat)) :=
  if lg v0 v3 v1 v3 then
    if lg v0 v2 v1 v2 then
      Some [[v6;v7;v8;v3]; [v5;v4;v2;v8]; [v6;v4;v5;v8]; [v6;v7;v4;v8]; [v1;v4;v6;v7]; [v0;v1;v5;v6]; [v1;v4;v5;v6]]
    else
      Some [[v6;v7;v8;v3]; [v5;v4;v2;v8]; [v6;v4;v5;v8]; [v6;v7;v4;v8]; [v1;v4;v6;v7]; [v0;v1;v4;v6]; [v0;v4;v5;v6]]
  else
    if lg v0 v2 v1 v2 then
      Some [[v6;v7;v8;v3]; [v5;v4;v2;v8]; [v0;v1;v5;v7]; [v0;v7;v5;v6]; [v1;v4;v5;v7]; [v7;v4;v5;v8]; [v6;v7;v5;v8]]
    else
      Some [[v6;v7;v8;v3]; [v5;v4;v2;v8]; [v0;v1;v4;v7]; [v0;v7;v4;v6]; [v0;v4;v5;v6]; [v6;v4;v5;v8]; [v6;v7;v4;v8]].

(** refine_tet.hpp:1810-1937, apply5. *)
Definition apply5 (fl : nat -> bool) : option (list (list nat)) :=
  if negb (fl 0) then
    apply5_1 0 1 2 3 7 5 6 8 9
  else
    if negb (fl 1) then
      apply5_1 2 0 1 3 4 7 9 6 8
    else
      if negb (fl 2) then
        apply5_1 0 3 1 2 8 4 5 9 7
      else
        if negb (fl 3) then
          apply5_1 1 2 0 3 5 4 8 9 6
        else
          if negb (fl 4) then
            apply5_1 1 3 2 0 9 7 4 6 5
          else
            if negb (fl 5) then
              apply5_1 3 2 1 0 7 8 6 5 4
            else
              None.

(** refine_tet.hpp:1950-2053, apply6. *)
Definition apply6 : option (list (list nat)) :=
  if dle 5 8 6 7 && dle 5 8 4 9 then
    Some [[0;4;5;6]; [1;7;4;8]; [2;5;7;9]; [3;8;6;9]; [4;8;5;6]; [4;8;7;5]; [7;8;9;5]; [8;6;9;5]]
  else
    if dle 6 7 5 8 && dle 6 7 4 9 then
      Some [[0;4;5;6]; [1;7;4;8]; [2;5;7;9]; [3;8;6;9]; [4;7;6;8]; [4;7;5;6]; [7;9;6;8]; [7;9;5;6]]
    else
      Some [[0;4;5;6]; [1;7;4;8]; [2;5;7;9]; [3;8;6;9]; [4;9;6;8]; [4;9;5;6]; [4;7;9;8]; [4;7;5;9]].

(** refine_tet.hpp:2070-2101, apply: counts the flagged edges and dispatches. *)
Definition edges_to_refine (fl : nat -> bool) : nat := length (filter fl (seq 0 6)).

Definition refine_tet (fl : nat -> bool) : option (list (list nat)) :=
  match edges_to_refine fl with
  | 0 => apply0
  | 1 => apply1 fl
  | 2 => apply2 fl
  | 3 => apply3 fl
  | 4 => apply4 fl
  | 5 => apply5 fl
  | 6 => apply6
  | _ => Some []
  end.
End RefineTet.
