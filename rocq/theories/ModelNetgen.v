(** Reading Netgen files: viennagrid/io/netgen_reader.hpp.  Definitions only.

    A file is a text.  Words that are not numbers of the type that is read are
    outside the model ([Undefined]), and so is overflow. *)
From Coq Require Import Ascii String List Arith ZArith Bool.
From Verif Require Import ModelTopo ModelMesh ModelErase ModelQuery ModelView ModelSegmentation ModelSegment ModelCopy ModelCopySeg ModelXml ModelVtk.
Import ModelSegmentation ListNotations.
Open Scope nat_scope.

(** std::ifstream as the reader uses it: what is left to read, and good(). *)
Record stream := mkStream { sm_text : text; sm_good : bool }.

(** [reader >> x]: the blanks, then a word.  A word up to the end of the file is read
    but the stream is no longer good.  Without a word (or if the stream was not good)
    the read fails, and the variable keeps its value ([None]). *)
Definition next_word (st : stream) : option text * stream :=
  if sm_good st then
    match read_word (sm_text st) with
    | Some (w, r) => (Some w, mkStream r (match r with [] => false | _ => true end))
    | None => (None, mkStream [] false)
    end
  else (None, st).

(** A word as an integer: a sign and digits. *)
Definition int_of (w : text) : option Z :=
  let ds := match w with c :: r => if Ascii.eqb c "-" || Ascii.eqb c "+" then r else w | [] => [] end in
  match ds with
  | [] => None
  | _ => if forallb (fun c => match digit c with Some _ => true | None => false end) ds then Some (atoi w) else None
  end.
Definition next_int (st : stream) : result (option Z * stream) :=
  match next_word st with
  | (None, st') => Done (None, st')
  | (Some w, st') => rbind (of_option (int_of w)) (fun z => Done (Some z, st'))
  end.

Section Netgen.
Context {K : Type}.
Variable F : format K.
Variable cfg : config.
Notation pt := (list K).
Notation mesh := (@mesh pt).

(** mesh/element_creation.hpp 48-66 (called through 103-114), make_element_with_id. *)
Definition make_element_with_id (t : tag) (m : mesh) (vs : list addr) (i : nat) : option (mesh * addr) :=
  if length vs =? nverts t then
    option_map (fun r => (fst r, fst (snd r))) (insert (dim t) cfg false t m (mkE i vs [] None))
  else None.

(** The same on a segment (segmentation.hpp 2172-2192, see [seg_create]). *)
Definition seg_create_with_id (a : nat) (t : tag) (vs : list addr) (i : nat) (s : sstate pt) : option (sstate pt) :=
  let m := st_mesh s in
  if k_linked (st_con s a) then
    obind (make_element_with_id t m vs i) (fun r =>
    let '(m', h) := r in
    obind (handle_inserts m' (st_con s a) (skipn (length (m_log m)) (m_log m'))) (fun k =>
    seg_add a t h (mkS m' (st_segs s) (upd_con (st_con s) a k) (st_map s) (st_all s))))
  else None.

(** netgen_reader.hpp 92-95: the coordinates; the point is 0 before. *)
Fixpoint read_coords (n : nat) (st : stream) : result (list K * stream) :=
  match n with
  | 0 => Done ([], st)
  | S n' =>
      rbind (match next_word st with
             | (None, st') => Done (f_zero F, st')
             | (Some w, st') => rbind (of_option (f_rd F w)) (fun x => Done (x, st'))
             end) (fun xs =>
      rbind (read_coords n' (snd xs)) (fun r => Done (fst xs :: fst r, snd r)))
  end.

(** netgen_reader.hpp 87-98: one vertex. *)
Definition read_vertex (x : stream * mesh) (i : nat) : result (stream * mesh) :=
  if sm_good (fst x) then
    rbind (read_coords (f_dim F) (fst x)) (fun r =>
    rbind (of_option (make_vertex_with_id cfg (snd x) i (fst r))) (fun ma => Done (snd r, fst ma)))
  else Thrown.

(** netgen_reader.hpp 125-132: one vertex of a cell.  [vertex_num] is not
    initialised ([None]) and keeps its value if the read fails; handle_at does not
    check (a number that is not positive is out of range as a std::size_t). *)
Definition read_corner (m : mesh) (x : stream * (option Z * list addr)) (j : nat) : result (stream * (option Z * list addr)) :=
  let '(st, (num, vs)) := x in
  if sm_good st then
    rbind (next_int st) (fun r =>
    let num' := match fst r with Some z => Some z | None => num end in
    rbind (of_option (obind num' (fun z => if (z <=? 0)%Z then None else nth_error (range m Vertex) (Z.to_nat z - 1)))) (fun v =>
    Done (snd r, (num', vs ++ [v]))))
  else Thrown.

(** netgen_reader.hpp 114-135: one cell; segmentation.hpp 736, [segmentation[id]]. *)
Definition read_cell (x : stream * sstate pt) (i : nat) : result (stream * sstate pt) :=
  let '(st, s) := x in
  let t := cfg_cell cfg in
  if sm_good st then
    rbind (next_int st) (fun r =>
    rbind (rfold (read_corner (st_mesh s)) (seq 0 (nverts t)) (snd r, (None, []))) (fun c =>
    rbind (of_option (fst r)) (fun z =>
    match get_make_id z (st_segs s) with
    | SRet g a => rbind (of_option (seg_create_with_id a t (snd (snd c)) i (with_segs s g))) (fun s' => Done (fst c, s'))
    | SThrow _ => Thrown
    | SUndef => Undefined
    end)))
  else Thrown.

(** netgen_reader.hpp 46-137.  [None]: the file cannot be opened.  The assertion
    that there are vertices is [Undefined] when it fails; the state in which an
    exception leaves the mesh is not modelled. *)
Definition read_netgen (file : option text) (s : sstate pt) : result (sstate pt) :=
  match file with
  | None => Thrown
  | Some txt =>
      rbind (next_int (mkStream txt true)) (fun r =>
      let node_num := match fst r with Some z => z | None => 0%Z end in
      if (node_num <=? 0)%Z then Undefined else
      rbind (rfold read_vertex (seq 0 (Z.to_nat node_num)) (snd r, st_mesh s)) (fun x =>
      if sm_good (fst x) then
        rbind (next_int (fst x)) (fun r =>
        let cell_num := match fst r with Some z => z | None => 0%Z end in
        rbind (rfold read_cell (seq 0 (Z.to_nat cell_num)) (snd r, with_mesh s (snd x))) (fun y => Done (snd y)))
      else Thrown))
  end.

(** netgen_reader.hpp 140-150: with a segmentation that is thrown away. *)
Definition read_netgen_mesh (file : option text) (m : mesh) : result mesh :=
  rbind (read_netgen file (new_sstate m)) (fun s => Done (st_mesh s)).

End Netgen.
