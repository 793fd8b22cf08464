(** Model of the OpenDX writer (io/opendx_writer.hpp).  Definitions only. *)
From Coq Require Import Reals List Arith ZArith Bool String.
From Verif Require Import ModelTopo ModelMesh.
Import ListNotations.
Open Scope nat_scope.

(** static_cast<long>(x): towards zero; [None]: the result does not fit into the 64 bits
    of a long, which is undefined behaviour. *)
Definition truncate (x : R) : Z := if Rle_dec 0 x then Int_part x else (- Int_part (- x))%Z.
Definition to_long (x : R) : option Z :=
  let z := truncate x in if (- 2 ^ 63 <=? z)%Z && (z <? 2 ^ 63)%Z then Some z else None.

(** opendx_writer.hpp 43-50, DXfixer, with real numbers in place of floating-point numbers. *)
Definition dx_fixer (v : R) : option R :=
  obind (to_long (v * 10000)) (fun z =>
  Some (if Rlt_dec (Rabs (v * 10000 - IZR z)) 1 then (v + / 100000)%R else v)).

(** opendx_writer.hpp 159-160, fixed notation with five digits after the point: the number
    written is the result times 1/100000.  Halves are rounded up. *)
Definition five_digits (v : R) : Z := Int_part (v * 100000 + / 2).
Definition dx_number (v : R) : option Z := option_map five_digits (dx_fixer v).

(** std::map<std::string, ...>, by increasing name; opendx_writer.hpp 209-219,
    add_to_container: a second quantity of the same name replaces the first. *)
Definition quantity := (string * (addr -> R))%type.
Fixpoint add_quantity (q : quantity) (l : list quantity) : list quantity :=
  match l with
  | [] => [q]
  | r :: l' =>
      match String.compare (fst q) (fst r) with
      | Lt => q :: l
      | Eq => q :: l'
      | Gt => r :: add_quantity q l'
      end
  end.

(** opendx_writer.hpp 302-303, the state of the writer, and 225-249, the registration of data
    on vertices or cells; the warnings are left out. *)
Record writer := mkW { w_vertex : list quantity; w_cell : list quantity }.
Definition no_data : writer := mkW [] [].
Inductive target := OnVertices | OnCells.
Definition register (w : writer) (r : target * quantity) : writer :=
  match fst r with
  | OnVertices => mkW (add_quantity (snd r) (w_vertex w)) (w_cell w)
  | OnCells => mkW (w_vertex w) (add_quantity (snd r) (w_cell w))
  end.

(** opendx_writer.hpp 53-75, DXHelper: there is none for other dimensions. *)
Definition dx_attribute (d : nat) : option string :=
  match d with 1 => Some "line"%string | 2 => Some "triangles"%string | 3 => Some "tetrahedra"%string | _ => None end.

Section Opendx.
Context {Pt : Type}.
Notation mesh := (@mesh Pt).

(** The contents of the file, in the order in which they are written.  The text around
    them is left out, and so are the digits of the coordinates. *)
Record opendx := mkDx {
  dx_dim : nat;                       (* shape of "points" *)
  dx_items : nat;
  dx_points : list Pt;
  dx_shape : nat;                     (* shape of "grid_Line_One" *)
  dx_cell_items : nat;
  dx_cells : list (list nat);
  dx_type : string;                   (* its attribute "element type" *)
  dx_data : option (nat * list Z * target);   (* items of "VisData", its numbers, what they depend on *)
  dx_uses : list string               (* the objects the field refers to *)
}.

(** opendx_writer.hpp 139-152: the ids of the vertices of a cell. *)
Definition cell_ids (m : mesh) (t : tag) (c : addr) : option (list nat) :=
  obind (deref m t c) (fun e => omap (fun v => option_map e_id (deref m Vertex v)) (e_verts e)).

(** opendx_writer.hpp 163-195: the first quantity on vertices, else the first on cells. *)
Definition vis_data (m : mesh) (t : tag) (w : writer) : option (option (nat * list Z * target)) :=
  match w_vertex w, w_cell w with
  | q :: _, _ => option_map (fun l => Some (List.length (range m Vertex), l, OnVertices)) (omap (fun v => dx_number (snd q v)) (range m Vertex))
  | [], q :: _ => option_map (fun l => Some (List.length (range m t), l, OnCells)) (omap (fun c => dx_number (snd q c)) (range m t))
  | [], [] => Some None
  end.

(** opendx_writer.hpp 111-202, opendx_writer::operator() for points with [d] coordinates. *)
Definition write_opendx (cfg : config) (d : nat) (w : writer) (m : mesh) : option opendx :=
  let t := cfg_cell cfg in
  obind (dx_attribute d) (fun a =>
  obind (omap (fun n => e_pt (n_el n)) (m_nodes m Vertex)) (fun pts =>
  obind (omap (cell_ids m t) (range m t)) (fun cells =>
  obind (vis_data m t w) (fun data =>
  Some (mkDx d (List.length (range m Vertex)) pts (d + 1) (List.length (range m t)) cells a data
          ["VisData"; "points"; "grid_Line_One"]%string))))).

(** The objects the file defines. *)
Definition dx_objects (f : opendx) : list string :=
  ["points"; "grid_Line_One"]%string ++ match dx_data f with Some _ => ["VisData"%string] | None => [] end.

End Opendx.
Arguments opendx : clear implicits.
Arguments mkDx {Pt}.
