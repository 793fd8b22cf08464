(** Transfer of quantities between elements of different dimensions:
    viennagrid/algorithm/quantity_transfer.hpp.  Definitions only. *)
From Coq Require Import List Arith Bool.
From Verif Require Import ModelTopo ModelMesh ModelErase.
Import ListNotations.

Section Transfer.
Context {Pt V : Type}.
Notation mesh := (@mesh Pt).
(** The functors: an accessor, here for elements of any type, and the averager. *)
Variable value : tag -> addr -> V.
Variable average : list V -> V.

(** std::map<DestElementType const *, std::vector<value_type> > [x].push_back(v).
    The map of the code is sorted by machine address, which nothing in a program
    determines; the model keeps the keys in the order of their insertion. *)
Fixpoint push_back (x : addr) (v : V) (vals : list (addr * list V)) : list (addr * list V) :=
  match vals with
  | [] => [(x, [v])]
  | (y, l) :: r => if x =? y then (y, l ++ [v]) :: r else (y, l) :: push_back x v r
  end.

(** quantity_transfer.hpp 78-92, step 1 of the transfer to a lower dimension, for
    one source element: its value is pushed to the elements of its boundary. *)
Definition push_boundary (m : mesh) (st dt : tag) (fsrc fdst : addr -> bool) (vals : list (addr * list V)) (s : addr)
  : option (list (addr * list V)) :=
  if fsrc s then
    option_map (fun e => fold_left (fun vals x => if fdst x then push_back x (value st s) vals else vals) (boundary_of e dt) vals)
      (deref m st s)
  else Some vals.

(** quantity_transfer.hpp 53-103.  [srcs] is the range of the source elements of the
    mesh or segment.  The result is the list of the calls of the setter. *)
Definition transfer_down (m : mesh) (st dt : tag) (fsrc fdst : addr -> bool) (srcs : list addr) : option (list (addr * V)) :=
  option_map (map (fun p => (fst p, average (snd p)))) (ofold (push_boundary m st dt fsrc fdst) srcs []).

(** quantity_transfer.hpp 106-146, the transfer to a higher dimension; [dsts] is
    the range of the destination elements.  Line 139 pushes accessor_src( *dit),
    the value of the destination element. *)
Definition set_from_boundary (m : mesh) (st dt : tag) (fsrc fdst : addr -> bool) (calls : list (addr * V)) (x : addr)
  : option (list (addr * V)) :=
  if fdst x then
    option_map (fun e => calls ++ [(x, average (map (fun _ => value dt x) (filter fsrc (boundary_of e st))))]) (deref m dt x)
  else Some calls.
Definition transfer_up (m : mesh) (st dt : tag) (fsrc fdst : addr -> bool) (dsts : list addr) : option (list (addr * V)) :=
  ofold (set_from_boundary m st dt fsrc fdst) dsts [].

(** quantity_transfer.hpp 34-49 and 152-172, the dispatcher, for a mesh; elements
    of the same dimension are refused by the compiler. *)
Definition quantity_transfer (m : mesh) (st dt : tag) (fsrc fdst : addr -> bool) : option (list (addr * V)) :=
  if dim dt <? dim st then transfer_down m st dt fsrc fdst (range m st)
  else if dim st <? dim dt then transfer_up m st dt fsrc fdst (range m dt)
  else None.

End Transfer.
