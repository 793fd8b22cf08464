(** Reading TetGen .poly files: viennagrid/io/tetgen_poly_reader.hpp, and make_plc.
    Definitions only.

    A file is a text.  Words that are not numbers of the type that is read, negative
    ids of vertices and overflow are outside the model ([Undefined]). *)
From Coq Require Import Ascii String List Arith ZArith Bool.
From Verif Require Import ModelTopo ModelMesh ModelErase ModelCopySeg ModelXml ModelVtk ModelNetgen.
Import ListNotations.
Open Scope nat_scope.

(** The mesh of config/default_configs.hpp 243-249: vertices, lines in a key map, and
    PLCs.  The PLCs are not elements of the model of meshes; they are kept beside the
    mesh, and a cell type other than lines stands for them. *)
Definition plc_cfg : config := full_config Triangle.

(** std::getline: up to the end of the line or of the file. *)
Fixpoint take_line (s : text) : text * option text :=
  match s with
  | [] => ([], None)
  | c :: r => if Ascii.eqb c "010" then ([], Some r) else let '(l, o) := take_line r in (c :: l, o)
  end.
Definition getline (st : stream) : option text * stream :=
  if sm_good st then
    match sm_text st with
    | [] => (None, mkStream [] false)
    | s => match take_line s with
           | (l, Some r) => (Some l, mkStream r true)
           | (l, None) => (Some l, mkStream [] false)
           end
    end
  else (None, st).

(** tetgen_poly_reader.hpp 47-49: up to the comment. *)
Fixpoint upto (c : ascii) (s : text) : text :=
  match s with [] => [] | x :: r => if Ascii.eqb x c then [] else x :: upto c r end.
(** tetgen_poly_reader.hpp 51-58: the spaces at the beginning (nothing else is
    skipped). *)
Fixpoint skip_spaces (s : text) : text :=
  match s with [] => [] | x :: r => if Ascii.eqb x " " then skip_spaces r else s end.

(** tetgen_poly_reader.hpp 37-60, get_valid_line; [fuel] is more than the number of
    characters that are left, and running out of it is reported as [None]. *)
Fixpoint valid_line (fuel : nat) (st : stream) : option (option text * stream) :=
  match fuel with
  | 0 => None
  | S n =>
      match getline st with
      | (None, st') => Some (None, st')
      | (Some l, st') => match skip_spaces (upto "#" l) with [] => valid_line n st' | s => Some (Some s, st') end
      end
  end.
Definition get_valid_line (st : stream) : result (option text * stream) :=
  of_option (valid_line (S (S (List.length (sm_text st)))) st).
(** With the exception if there is no line.  The line is then the text of
    [current_line]. *)
Definition need_line (st : stream) : result (stream * stream) :=
  rbind (get_valid_line st) (fun r => match fst r with Some l => Done (mkStream l true, snd r) | None => Thrown end).

(** [current_line >> n] where [n] is [d] before, and where it is not initialised (then
    it is used). *)
Definition int_or (d : Z) (st : stream) : result (Z * stream) :=
  rbind (next_int st) (fun r => Done (match fst r with Some z => z | None => d end, snd r)).
Definition need_int (st : stream) : result (Z * stream) :=
  rbind (next_int st) (fun r => rbind (of_option (fst r)) (fun z => Done (z, snd r))).

(** The ids of the model of meshes are natural numbers. *)
Definition as_id (z : Z) : option nat := if (z <? 0)%Z then None else Some (Z.to_nat z).

(** storage/view.hpp 256-262, insert_unique_handle (the handles are in a std::vector,
    config/element_config.hpp 44-47). *)
Definition insert_unique (l : list addr) (h : addr) : list addr := if existsb (Nat.eqb h) l then l else l ++ [h].

Section Poly.
Context {K : Type}.
Variable F : format K.
Notation pt := (list K).
Notation mesh := (@mesh pt).

(** A PLC: its lines, its vertices, and the points in its appendix. *)
Record plc := mkPlc { plc_lines : list addr; plc_verts : list addr; plc_holes : list pt }.

(** mesh/element_creation.hpp 289-315, make_plc; topology/plc.hpp 68-91, the vertices
    of the lines are added when the PLC is inserted. *)
Definition make_plc (m : mesh) (lines loose : list addr) (holes : list pt) : option plc :=
  let ls := fold_left insert_unique lines [] in
  let vs := fold_left insert_unique loose [] in
  obind (omap (fun a => option_map e_verts (deref m Line a)) ls) (fun vss =>
  Some (mkPlc ls (fold_left insert_unique (List.concat vss) vs) holes)).

(** tetgen_poly_reader.hpp 183-196: one vertex. *)
Definition read_poly_vertex (x : stream * mesh) (i : nat) : result (stream * mesh) :=
  rbind (need_line (fst x)) (fun ls =>
  rbind (need_int (fst ls)) (fun r =>
  rbind (read_coords F (f_dim F) (snd r)) (fun c =>
  rbind (of_option (as_id (fst r))) (fun i =>
  rbind (of_option (make_vertex_with_id plc_cfg (snd x) i (fst c))) (fun ma => Done (snd ls, fst ma)))))).

(** tetgen_poly_reader.hpp 257-264: the vertices of a polygon; a vertex that is not
    found is the handle of [end()]. *)
Fixpoint read_ids (m : mesh) (n : nat) (st : stream) : result (list addr) :=
  match n with
  | 0 => Done []
  | S n' =>
      rbind (need_int st) (fun r =>
      rbind (of_option (obind (as_id (fst r)) (fun i => option_map n_addr (find_id (m_nodes m Vertex) i)))) (fun v =>
      rbind (read_ids m n' (snd r)) (fun vs => Done (v :: vs))))
  end.

(** mesh/element_creation.hpp 232-242, make_line. *)
Definition make_line (m : mesh) (u v : addr) : option (mesh * addr) := make_element plc_cfg Line m [u; v].
(** tetgen_poly_reader.hpp 276-279: the lines from each vertex to the next. *)
Fixpoint chain (m : mesh) (vs : list addr) : option (mesh * list addr) :=
  match vs with
  | u :: ((v :: _) as r) =>
      obind (make_line m u v) (fun ma => obind (chain (fst ma) r) (fun x => Some (fst x, snd ma :: snd x)))
  | _ => Some (m, [])
  end.

(** What the polygons of a facet have given so far. *)
Record drawing := mkDr { dr_mesh : mesh; dr_lines : list addr; dr_loose : list addr }.

(** tetgen_poly_reader.hpp 266-281: by the number of vertices.  Without vertices the
    iterator [it2] is past the end. *)
Definition draw (d : drawing) (vs : list addr) : option drawing :=
  match vs with
  | [] => None
  | [v] => Some (mkDr (dr_mesh d) (dr_lines d) (dr_loose d ++ [v]))
  | [u; v] => obind (make_line (dr_mesh d) u v) (fun ma => Some (mkDr (fst ma) (dr_lines d ++ [snd ma]) (dr_loose d)))
  | u :: _ => obind (chain (dr_mesh d) vs) (fun x =>
              obind (make_line (fst x) (last vs u) u) (fun ma => Some (mkDr (fst ma) (dr_lines d ++ snd x ++ [snd ma]) (dr_loose d))))
  end.

(** tetgen_poly_reader.hpp 245-281: one polygon. *)
Definition read_polygon (x : stream * drawing) (j : nat) : result (stream * drawing) :=
  rbind (need_line (fst x)) (fun ls =>
  rbind (need_int (fst ls)) (fun r =>
  if (fst r <? 0)%Z then Thrown else
  rbind (read_ids (dr_mesh (snd x)) (Z.to_nat (fst r)) (snd r)) (fun vs =>
  rbind (of_option (draw (snd x) vs)) (fun d => Done (snd ls, d))))).

(** tetgen_poly_reader.hpp 288-301, 333-345: a point with a number before it that is
    not used. *)
Definition read_hole (x : stream * list pt) (j : nat) : result (stream * list pt) :=
  rbind (need_line (fst x)) (fun ls =>
  rbind (next_int (fst ls)) (fun r =>
  rbind (read_coords F (f_dim F) (snd r)) (fun c => Done (snd ls, snd x ++ [fst c])))).

(** tetgen_poly_reader.hpp 225-311: one facet. *)
Definition read_facet (x : stream * (mesh * list plc)) (i : nat) : result (stream * (mesh * list plc)) :=
  let '(st, (m, ps)) := x in
  rbind (need_line st) (fun ls =>
  rbind (need_int (fst ls)) (fun np =>
  rbind (need_int (snd np)) (fun nh =>
  if (fst np <? 0)%Z then Thrown else
  if (fst nh <? 0)%Z then Thrown else
  rbind (rfold read_polygon (seq 0 (Z.to_nat (fst np))) (snd ls, mkDr m [] [])) (fun d =>
  rbind (rfold read_hole (seq 0 (Z.to_nat (fst nh))) (fst d, [])) (fun h =>
  rbind (of_option (make_plc (dr_mesh (snd d)) (dr_lines (snd d)) (dr_loose (snd d)) (snd h))) (fun p =>
  Done (fst h, (dr_mesh (snd d), ps ++ [p])))))))).

(** tetgen_poly_reader.hpp 367-382: one region. *)
Definition read_region (x : stream * list (pt * Z)) (i : nat) : result (stream * list (pt * Z)) :=
  rbind (need_line (fst x)) (fun ls =>
  rbind (next_int (fst ls)) (fun r =>
  rbind (read_coords F (f_dim F) (snd r)) (fun c =>
  rbind (need_int (snd c)) (fun z => Done (snd ls, snd x ++ [(fst c, fst z)]))))).

(** A number of lines, and the lines; nothing if the file is at its end
    (tetgen_poly_reader.hpp 317-331, 351-365). *)
Definition read_part {A} (one : stream * list A -> nat -> result (stream * list A)) (st : stream) : result (option (stream * list A)) :=
  rbind (get_valid_line st) (fun r =>
  match fst r with
  | None => Done None
  | Some l =>
      rbind (need_int (mkStream l true)) (fun n =>
      if (fst n <? 0)%Z then Thrown else
      rbind (rfold one (seq 0 (Z.to_nat (fst n))) (snd r, [])) (fun x => Done (Some x)))
  end).

(** tetgen_poly_reader.hpp 119-384.  [None]: the file cannot be opened.  The result
    is the mesh, its PLCs (in the order in which they are made, so with the ids 0, 1,
    2, ...), the hole points and the seed points.  The state in which an exception
    leaves the mesh is not modelled. *)
Definition read_poly (file : option text) (m : mesh) : result (mesh * list plc * list pt * list (pt * Z)) :=
  match file with
  | None => Thrown
  | Some txt =>
      rbind (need_line (mkStream txt true)) (fun ls =>
      rbind (int_or 0 (fst ls)) (fun n =>
      rbind (int_or 0 (snd n)) (fun d =>
      rbind (int_or 0 (snd d)) (fun a =>
      rbind (int_or 0 (snd a)) (fun b =>
      if (fst n <? 0)%Z then Thrown else
      if negb (fst d =? Z.of_nat (f_dim F))%Z then Thrown else
      if (fst a <? 0)%Z then Thrown else
      if ((fst b <? 0) || (1 <? fst b))%Z then Thrown else
      rbind (rfold read_poly_vertex (seq 0 (Z.to_nat (fst n))) (snd ls, m)) (fun v =>
      if negb (sm_good (fst v)) then Thrown else
      rbind (need_line (fst v)) (fun ls =>
      rbind (int_or 0 (fst ls)) (fun n =>
      rbind (int_or (fst b) (snd n)) (fun b =>
      if (fst n <? 0)%Z then Thrown else
      if ((fst b <? 0) || (1 <? fst b))%Z then Thrown else
      rbind (rfold read_facet (seq 0 (Z.to_nat (fst n))) (snd ls, (snd v, []))) (fun f =>
      let '(m', ps) := snd f in
      rbind (read_part read_hole (fst f)) (fun h =>
      match h with
      | None => Done (m', ps, [], [])
      | Some (st, hs) =>
          rbind (read_part read_region st) (fun g =>
          match g with
          | None => Done (m', ps, hs, [])
          | Some (_, gs) => Done (m', ps, hs, gs)
          end)
      end)))))))))))
  end.

End Poly.
Arguments plc : clear implicits.
Arguments drawing : clear implicits.
