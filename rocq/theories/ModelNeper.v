(** Reading Neper .tess files: viennagrid/io/neper_tess_reader.hpp.  Definitions only.

    A file is a text.  Words that are not numbers of the type that is read and
    overflow are outside the model ([Undefined]), and so are points with more than
    three coordinates, of which the code reads three (118, 213).  The overload
    without seed points (46-52) returns the value of a void function as an int and
    cannot be instantiated. *)
From Coq Require Import Ascii String List Arith ZArith Bool.
From Verif Require Import ModelTopo ModelMesh ModelErase ModelCopySeg ModelXml ModelVtk ModelNetgen ModelPoly.
Import ListNotations.
Open Scope nat_scope.

(** The string [tmp] and the file. *)
Definition input := (text * stream)%type.
(** [std::getline(reader, tmp)]: at the end of the file [tmp] is empty, and later it
    is not changed.  The flag says whether a line was read. *)
Definition getline_into (x : input) : bool * input :=
  let '(tmp, st) := x in
  if sm_good st then
    match sm_text st with
    | [] => (false, ([], mkStream [] false))
    | s => match take_line s with
           | (l, Some r) => (true, (l, mkStream r true))
           | (l, None) => (true, (l, mkStream [] false))
           end
    end
  else (false, x).
Definition next (x : input) : input := snd (getline_into x).
(** [current_line.str(tmp); current_line.clear();] *)
Definition line_stream (x : input) : stream := mkStream (fst x) true.

(** [tmp.find(pattern) != std::string::npos]. *)
Fixpoint starts (pat s : text) : bool :=
  match pat, s with
  | [], _ => true
  | p :: pat', c :: s' => Ascii.eqb p c && starts pat' s'
  | _ :: _, [] => false
  end.
Fixpoint contains (pat s : text) : bool :=
  starts pat s || match s with [] => false | _ :: r => contains pat r end.

Section Neper.
Context {K : Type}.
Variable F : format K.
Notation pt := (list K).
Notation mesh := (@mesh pt).

(** The mesh with its PLCs, the maps [vertices] and [lines] (92-93), the seed points. *)
Record tstate := mkTs {
  ts_mesh : mesh; ts_plcs : list (plc K); ts_vertices : list (Z * addr); ts_lines : list ((Z * Z) * addr); ts_seeds : list (pt * Z) }.
Definition vertex_of (vs : list (Z * addr)) (i : Z) : option addr := option_map snd (find (fun p => Z.eqb (fst p) i) vs).
Definition line_of (ls : list ((Z * Z) * addr)) (k : Z * Z) : option addr :=
  option_map snd (find (fun p => Z.eqb (fst (fst p)) (fst k) && Z.eqb (snd (fst p)) (snd k)) ls).

(** neper_tess_reader.hpp 106-122: one vertex, from three lines. *)
Definition read_tess_vertex (x : input * tstate) (i : nat) : result (input * tstate) :=
  let s := snd x in
  let x1 := next (fst x) in
  rbind (need_int (line_stream x1)) (fun r =>
  let x3 := next (next x1) in
  rbind (read_coords F (f_dim F) (line_stream x3)) (fun c =>
  rbind (of_option (make_vertex plc_cfg (ts_mesh s) (fst c))) (fun ma =>
  Done (x3, mkTs (fst ma) (ts_plcs s) ((fst r, snd ma) :: ts_vertices s) (ts_lines s) (ts_seeds s))))).

(** neper_tess_reader.hpp 146-149: the ids, in a vector that holds zeros before. *)
Fixpoint read_tess_ids (n : nat) (st : stream) : result (list Z) :=
  match n with
  | 0 => Done []
  | S k => rbind (int_or 0 st) (fun r => rbind (read_tess_ids k (snd r)) (fun l => Done (fst r :: l)))
  end.

(** neper_tess_reader.hpp 154-166, 170-182: one line.  A vertex that is not in the
    map is an uninitialised handle. *)
Definition tess_line (x : tstate * list addr) (ab : Z * Z) : result (tstate * list addr) :=
  let '(s, hs) := x in
  let k := (Z.min (fst ab) (snd ab), Z.max (fst ab) (snd ab)) in
  match line_of (ts_lines s) k with
  | Some h => Done (s, hs ++ [h])
  | None =>
      rbind (of_option (vertex_of (ts_vertices s) (fst k))) (fun u =>
      rbind (of_option (vertex_of (ts_vertices s) (snd k))) (fun v =>
      rbind (of_option (make_line (ts_mesh s) u v)) (fun ma =>
      Done (mkTs (fst ma) (ts_plcs s) (ts_vertices s) ((k, snd ma) :: ts_lines s) (ts_seeds s), hs ++ [snd ma]))))
  end.

(** neper_tess_reader.hpp 135-192: one face, from seven lines.  A negative number of
    vertices makes resize throw; without vertices there is no front. *)
Definition read_tess_face (x : input * tstate) (i : nat) : result (input * tstate) :=
  let x4 := next (next (next (next (fst x)))) in
  rbind (need_int (line_stream x4)) (fun r =>
  if (fst r <? 0)%Z then Thrown else
  rbind (read_tess_ids (Z.to_nat (fst r)) (snd r)) (fun ids =>
  match ids with
  | [] => Undefined
  | a :: _ =>
      rbind (rfold tess_line (combine ids (tl ids) ++ [(a, last ids a)]) (snd x, [])) (fun sl =>
      let s := fst sl in
      rbind (of_option (make_plc (ts_mesh s) (snd sl) [] [])) (fun c =>
      Done (next (next (next x4)), mkTs (ts_mesh s) (ts_plcs s ++ [c]) (ts_vertices s) (ts_lines s) (ts_seeds s))))
  end)).

(** neper_tess_reader.hpp 205-219: one polyhedron, from three lines. *)
Definition read_tess_seed (x : input * tstate) (i : nat) : result (input * tstate) :=
  let s := snd x in
  let x1 := next (fst x) in
  rbind (need_int (line_stream x1)) (fun r =>
  rbind (read_coords F (f_dim F) (snd r)) (fun c =>
  Done (next (next x1), mkTs (ts_mesh s) (ts_plcs s) (ts_vertices s) (ts_lines s) (ts_seeds s ++ [(fst c, fst r)])))).

(** neper_tess_reader.hpp 98-104, 127-133, 197-203: a section, if [tmp] is its head. *)
Definition tess_section (head : string) (one : input * tstate -> nat -> result (input * tstate)) (x : input * tstate) : result (input * tstate) :=
  if contains (txt head) (fst (fst x)) then
    let x1 := next (fst x) in
    rbind (need_int (line_stream x1)) (fun r => rfold one (seq 0 (Z.to_nat (fst r))) (x1, snd x))
  else Done x.

(** neper_tess_reader.hpp 95-222: the lines of the file.  After a section [tmp] is the
    last line of the section.  [fuel] is more than the number of lines. *)
Fixpoint tess_loop (fuel : nat) (x : input) (s : tstate) : result tstate :=
  match fuel with
  | 0 => Undefined
  | S n =>
      match getline_into x with
      | (false, _) => Done s
      | (true, x1) =>
          rbind (tess_section "**vertex" read_tess_vertex (x1, s)) (fun y =>
          rbind (tess_section "**face" read_tess_face y) (fun y =>
          rbind (tess_section "**polyhedron" read_tess_seed y) (fun y => tess_loop n (fst y) (snd y))))
      end
  end.

(** neper_tess_reader.hpp 60-223.  [None]: the file cannot be opened.  The result is
    the mesh, its PLCs in the order in which they are made, and the seed points.  The
    state in which an exception leaves the mesh is not modelled. *)
Definition read_tess (file : option text) (m : mesh) : result (mesh * list (plc K) * list (pt * Z)) :=
  match file with
  | None => Thrown
  | Some t => rbind (tess_loop (S (S (List.length t))) ([], mkStream t true) (mkTs m [] [] [] [])) (fun s => Done (ts_mesh s, ts_plcs s, ts_seeds s))
  end.
End Neper.
Arguments tstate : clear implicits.
