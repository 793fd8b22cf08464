(** Marking of the longest edges: viennagrid/algorithm/refine.hpp 234-370.
    Definitions only. *)
From Coq Require Import Reals List Arith Bool.
From Verif Require Import ModelTopo ModelMesh ModelErase ModelGeom.
Import ListNotations.

(** The refinement flags are read and written through an accessor, one flag for
    each edge.  Simplification: a function of the edge's handle instead of a
    container indexed by its id. *)
Definition flags := addr -> bool.
Definition set_flag (fl : flags) (a : addr) : flags := fun x => if x =? a then true else fl x.

Section Longest.
Variable d : nat.               (* geometric dimension *)
Notation mesh := (@mesh point).
Notation node := (@node point).

(** refine.hpp 289-294: norm(point(v0) - point(v1)) of the first two vertices of
    an edge; [None]: a dangling handle. *)
Definition edge_length (m : mesh) (a : addr) : option R :=
  obind (deref m Line a) (fun e =>
  match e_verts e with
  | v0 :: v1 :: _ =>
      obind (obind (deref m Vertex v0) e_pt) (fun p0 =>
      obind (obind (deref m Vertex v1) e_pt) (fun p1 => Some (norm_2 d (psub p0 p1))))
  | _ => None
  end).

(** refine.hpp 282-300, the loop that finds the longest edge; the last argument
    and [best] are longest_edge_len and longest_edge_ptr. *)
Fixpoint longest_loop (m : mesh) (es : list addr) (best : option addr) (len : R) : option (option addr) :=
  match es with
  | [] => Some best
  | a :: es' =>
      obind (edge_length m a) (fun l =>
      if Rgt_dec l len then longest_loop m es' (Some a) l else longest_loop m es' best len)
  end.

(** refine.hpp 256-312, the body of the loop over the cells; the second component
    is something_changed.  Dereferencing NULL is [None]. *)
Definition close_cell (m : mesh) (s : flags * bool) (n : node) : option (flags * bool) :=
  let es := boundary_of (n_el n) Line in
  if existsb (fst s) es then
    obind (longest_loop m es None 0%R) (fun o =>
    obind o (fun a => if fst s a then Some s else Some (set_flag (fst s) a, true)))
  else Some s.

(** One pass of the while loop. *)
Definition close_pass (m : mesh) (t : tag) (fl : flags) : option (flags * bool) :=
  ofold (close_cell m) (m_nodes m t) (fl, false).

(** refine.hpp 250-318, the while loop, stopped after [fuel] passes. *)
Inductive lresult := LDone (fl : flags) | LUndefined | LRunning (fl : flags).
Fixpoint ensure_longest (m : mesh) (t : tag) (fuel : nat) (fl : flags) : lresult :=
  match fuel with
  | 0 => LRunning fl
  | S fuel' =>
      match close_pass m t fl with
      | None => LUndefined
      | Some (fl', true) => ensure_longest m t fuel' fl'
      | Some (fl', false) => LDone fl'
      end
  end.

(** refine.hpp 322-353, cell_refinement_to_edge_refinement. *)
Definition cells_to_edges (m : mesh) (t : tag) (cellflag : addr -> bool) (fl : flags) : flags :=
  fold_left (fun fl n => if cellflag (n_addr n) then fold_left set_flag (boundary_of (n_el n) Line) fl else fl)
    (m_nodes m t) fl.

(** refine.hpp 356-370, mark_all_edge_refinement. *)
Definition mark_all (m : mesh) (fl : flags) : flags := fold_left set_flag (range m Line) fl.

End Longest.
