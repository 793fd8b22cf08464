(** Model of the writer of ViennaMesh files (io/vmesh_writer.hpp).  Definitions only. *)
From Coq Require Import List Arith ZArith Bool Ascii String.
From Verif Require Import ModelTopo ModelMesh ModelSegmentation ModelSegment ModelXml ModelVtk.
Import ListNotations.
Open Scope list_scope.

(** vmesh_writer.hpp 62: outputfile.substr(outputfile.rfind(".") + 1), what follows the last
    dot; everything if there is none, because npos + 1 is 0. *)
Definition is_dot (c : ascii) : bool := Ascii.eqb c ".".
Fixpoint after_dot (s : text) : text :=
  match s with
  | [] => []
  | c :: r => if existsb is_dot r then after_dot r else if is_dot c then r else s
  end.

(** vmesh_writer.hpp 61-66: the name of the file that is written. *)
Definition vm_file_name (out : text) : text :=
  if text_eqb (after_dot out) (txt "vmesh") then out else out ++ txt ".vmesh".

(** The names of the cell types: vertex.hpp 32, line.hpp 32, simplex.hpp 64-69,
    quadrilateral.hpp 33, hexahedron.hpp 34. *)
Definition tag_name (t : tag) : string :=
  match t with
  | Vertex => "vertex" | Line => "Line" | Triangle => "2-simplex" | Tet => "3-simplex"
  | Quad => "quadrilateral" | Hex => "hexahedron"
  end.

(** vmesh_writer.hpp 47-48. *)
Definition vm_empty : text := [].
Definition vm_indent : text := txt "  ".

Section Vmesh.
Context {Pt : Type}.

(** vmesh_writer.hpp 79-84: the lines of one segment. *)
Definition vm_segment (cfg : config) (s : sstate Pt) (a : nat) : option text :=
  obind (id_of_seg (st_segs s) a) (fun z => Some (
    vm_indent ++ vm_indent ++ txt "<segment>" ++ eol ++
    vm_indent ++ vm_indent ++ vm_indent ++ txt "<id>" ++ int_text z ++ txt "</id>" ++ eol ++
    vm_indent ++ vm_indent ++ vm_indent ++ txt "<name>" ++ vm_empty ++ txt "</name>" ++ eol ++
    vm_indent ++ vm_indent ++ vm_indent ++ txt "<vertices>" ++ nat_text (List.length (k_view (st_con s a) Vertex)) ++ txt "</vertices>" ++ eol ++
    vm_indent ++ vm_indent ++ vm_indent ++ txt "<cells>" ++ nat_text (List.length (k_view (st_con s a) (cfg_cell cfg))) ++ txt "</cells>" ++ eol ++
    vm_indent ++ vm_indent ++ txt "</segment>" ++ eol)).

(** vmesh_writer.hpp 69-87: the text of the file, for points with [d] coordinates.  A file
    that cannot be opened is left out. *)
Definition write_vmesh (cfg : config) (d : nat) (input : text) (s : sstate Pt) : option text :=
  obind (omap (vm_segment cfg s) (segment_range (st_segs s))) (fun segs => Some (
    txt "<mesh>" ++ eol ++
    vm_indent ++ txt "<file>" ++ input ++ txt "</file>" ++ eol ++
    vm_indent ++ txt "<geomdim>" ++ nat_text d ++ txt "</geomdim>" ++ eol ++
    vm_indent ++ txt "<celltype>" ++ txt (tag_name (cfg_cell cfg)) ++ txt "</celltype>" ++ eol ++
    vm_indent ++ txt "<vertices>" ++ nat_text (List.length (range (st_mesh s) Vertex)) ++ txt "</vertices>" ++ eol ++
    vm_indent ++ txt "<cells>" ++ nat_text (List.length (range (st_mesh s) (cfg_cell cfg))) ++ txt "</cells>" ++ eol ++
    vm_indent ++ txt "<segments>" ++ nat_text (segment_count (st_segs s)) ++ txt "</segments>" ++ eol ++
    vm_indent ++ txt "<segmentation>" ++ eol ++
    List.concat segs ++
    vm_indent ++ txt "</segmentation>" ++ eol ++
    txt "</mesh>" ++ eol)).

End Vmesh.
