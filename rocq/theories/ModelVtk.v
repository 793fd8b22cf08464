(** Writing and reading VTK files: viennagrid/io/vtk_writer.hpp, io/vtk_reader.hpp,
    io/vtk_common.hpp and the PointWriter of io/helper.hpp.  Definitions only.

    Files are texts under names.  What a number looks like is a parameter
    ([format]).  Opening a file for writing always succeeds. *)
From Coq Require Import Ascii String List Arith ZArith Bool.
From Verif Require Import ModelTopo ModelMesh ModelErase ModelQuery ModelView ModelSegmentation ModelSegment ModelCopy ModelCopySeg ModelXml.
Import ModelSegmentation ListNotations.
Open Scope nat_scope.

(** Numbers: how the output stream writes them, how the input stream reads a word,
    the equality by which point_less (point.hpp 1046-1066) tells points apart, the
    coordinate of a default constructed point, and the geometric dimension. *)
Record format (K : Type) := mkFormat {
  f_wr : K -> text;
  f_rd : text -> option K;
  f_eqb : K -> K -> bool;
  f_zero : K;
  f_dim : nat
}.
Arguments f_wr {K}. Arguments f_rd {K}. Arguments f_eqb {K}. Arguments f_zero {K}. Arguments f_dim {K}.

Definition eol : text := ["010"%char].
Definition sp : text := [" "%char].
Definition line (s : string) : text := txt s ++ eol.
(** [writer << n]. *)
Definition int_text (z : Z) : text := txt (decimal z).
Definition nat_text (n : nat) : text := int_text (Z.of_nat n).

(** atoi: blanks, a sign, the digits; 0 if there are none. *)
Definition digit (c : ascii) : option Z :=
  let n := nat_of_ascii c in if (48 <=? n) && (n <=? 57) then Some (Z.of_nat (n - 48)) else None.
Fixpoint digits (acc : Z) (s : text) : Z :=
  match s with
  | [] => acc
  | c :: r => match digit c with Some d => digits (10 * acc + d)%Z r | None => acc end
  end.
Definition atoi (s : text) : Z :=
  match skip_blanks s with
  | c :: r => if Ascii.eqb c "-" then Z.opp (digits 0 r) else if Ascii.eqb c "+" then digits 0 r else digits 0 (c :: r)
  | [] => 0%Z
  end.
(** [static_cast<std::size_t>(atoi(...))]; negative numbers are not modelled. *)
Definition size_of (s : text) : option nat := let z := atoi s in if (z <? 0)%Z then None else Some (Z.to_nat z).

(** vtk_common.hpp 89-157: the order of the vertices of quadrilaterals and
    hexahedra; both directions are the same function. *)
Definition reorder (t : tag) (j : nat) : nat :=
  match t with
  | Quad => match j with 2 => 3 | 3 => 2 | _ => j end
  | Hex => match j with 2 => 3 | 3 => 2 | 6 => 7 | 7 => 6 | _ => j end
  | _ => j
  end.

(** vtk_common.hpp 36-82, ELEMENT_TAG_TO_VTK_TYPE (a vertex is not supported). *)
Definition vtk_type (t : tag) : nat :=
  match t with Hex => 12 | Tet => 10 | Quad => 9 | Triangle => 5 | Line => 3 | Vertex => 0 end.

Section Vtk.
Context {K : Type}.
Variable F : format K.
Notation pt := (list K).
Notation mesh := (@mesh pt).
Notation wr := (f_wr F).

(** ** The text of one .vtu file *)

(** A data array: its name, the number of components, and the values of the points
    or cells in the order of the file. *)
Record array := mkArr { ar_name : text; ar_comps : nat; ar_vals : list (list K) }.

(** What is written to one file: the points, the data on points, the vertex numbers
    of the cells (ViennaGrid's order), the number of cells that elements<CellTag>
    reports, and the data on cells. *)
Record piece := mkPiece {
  pc_points : list pt;
  pc_pdata : list array;
  pc_cells : list (list nat);
  pc_num : nat;
  pc_cdata : list array
}.

(** helper.hpp 37-97, PointWriter; vtk_writer.hpp 36-64, ValueTypeInformation::write. *)
Fixpoint joined (l : list text) : text :=
  match l with [] => [] | [w] => w | w :: r => w ++ sp ++ joined r end.
Definition write_numbers (l : list K) : text := joined (map wr l).

(** vtk_writer.hpp 157-162, writeHeader; 378-382, writeFooter. *)
Definition header : text :=
  line "<?xml version=""1.0""?>" ++
  line "<VTKFile type=""UnstructuredGrid"" version=""0.1"" byte_order=""LittleEndian"">" ++
  line " <UnstructuredGrid>".
Definition footer : text := line " </UnstructuredGrid>" ++ line "</VTKFile>".

(** vtk_writer.hpp 228-252, writePoints. *)
Definition write_point (p : pt) : text :=
  write_numbers p ++ List.concat (repeat (txt " 0") (3 - f_dim F)) ++ eol.
Definition write_points (ps : list pt) : text :=
  line "   <Points>" ++
  line "    <DataArray type=""Float32"" NumberOfComponents=""3"" format=""ascii"">" ++
  List.concat (map write_point ps) ++ eol ++
  line "    </DataArray>" ++
  line "   </Points> ".

(** vtk_writer.hpp 255-320, writeCells.  The reordered positions are positions of
    the cell ([None]: reading past the end). *)
Definition reordered {A} (t : tag) (vs : list A) : option (list A) :=
  omap (fun i => nth_error vs (reorder t i)) (seq 0 (List.length vs)).
Definition write_words (l : list nat) : text := List.concat (map (fun n => nat_text n ++ sp) l).
Definition write_cell (vs : list nat) : text := write_words vs ++ eol.
Definition write_cells (t : tag) (cells : list (list nat)) (num : nat) : option text :=
  option_map (fun cs =>
    line "   <Cells> " ++
    line "    <DataArray type=""Int32"" Name=""connectivity"" format=""ascii"">" ++
    List.concat (map write_cell cs) ++ eol ++
    line "    </DataArray>" ++
    line "    <DataArray type=""Int32"" Name=""offsets"" format=""ascii"">" ++
    write_words (map (fun k => k * nverts t) (seq 1 num)) ++ eol ++
    line "    </DataArray>" ++
    line "    <DataArray type=""UInt8"" Name=""types"" format=""ascii"">" ++
    write_words (map (fun _ => vtk_type t) (seq 1 num)) ++ eol ++
    line "    </DataArray>" ++
    line "   </Cells>") (omap (reordered t) cells).

(** vtk_writer.hpp 330-376, writePointData and writeCellData, and their callers
    (425-433, 437-446, 514-533, 539-556): no section without arrays. *)
Definition write_array (a : array) : text :=
  txt "    <DataArray type=""Float32"" Name=""" ++ ar_name a ++ txt """ NumberOfComponents=""" ++ nat_text (ar_comps a) ++
  line """ format=""ascii"">" ++
  List.concat (map (fun v => write_numbers v ++ sp) (ar_vals a)) ++ eol ++
  line "    </DataArray>".
Definition write_data (name : string) (l : list array) : text :=
  match l with
  | [] => []
  | _ => txt "   <" ++ txt name ++ line ">" ++ List.concat (map write_array l) ++ txt "   </" ++ txt name ++ line ">"
  end.

(** vtk_writer.hpp 406-451 and 490-560: one file. *)
Definition write_piece (t : tag) (p : piece) : option text :=
  option_map (fun cells =>
    header ++
    txt "  <Piece NumberOfPoints=""" ++ nat_text (List.length (pc_points p)) ++
    txt """ NumberOfCells=""" ++ nat_text (pc_num p) ++ line """>" ++
    write_points (pc_points p) ++
    write_data "PointData" (pc_pdata p) ++
    cells ++
    write_data "CellData" (pc_cdata p) ++
    line "  </Piece>" ++
    footer) (write_cells t (pc_cells p) (pc_num p)).

(** ** From the mesh to the files *)

(** std::map from ids to handles: insert() keeps, operator[] replaces an entry. *)
Fixpoint map_add (i : nat) (a : addr) (l : list (nat * addr)) : list (nat * addr) :=
  match l with
  | [] => [(i, a)]
  | (j, b) :: r => if i <? j then (i, a) :: l else if j <? i then (j, b) :: map_add i a r else l
  end.
Fixpoint map_put (i : nat) (a : addr) (l : list (nat * addr)) : list (nat * addr) :=
  match l with
  | [] => [(i, a)]
  | (j, b) :: r => if i <? j then (i, a) :: l else if j <? i then (j, b) :: map_put i a r else (i, a) :: r
  end.

(** vtk_writer.hpp 165-207, preparePoints: the used vertices by increasing id; the
    number of a vertex is its place among them. *)
Definition used_vertices (m : mesh) (t : tag) (cells : list addr) : option (list addr) :=
  option_map (map snd)
    (ofold (fun u c => obind (deref m t c) (fun e =>
       ofold (fun u v => option_map (fun ev => map_add (e_id ev) v u) (deref m Vertex v)) (e_verts e) u)) cells []).
(** vtk_writer.hpp 209-226, prepareCells. *)
Definition used_cells (m : mesh) (t : tag) (cells : list addr) : option (list addr) :=
  option_map (map snd) (ofold (fun u c => option_map (fun e => map_put (e_id e) c u) (deref m t c)) cells []).

(** A registered quantity: its name, 1 or 3 components, and its accessor (583-659;
    the std::maps of them are given in their order). *)
Definition quantity := (text * (nat * (addr -> list K)))%type.
Definition array_of (l : list addr) (q : quantity) : array :=
  mkArr (fst q) (fst (snd q)) (map (snd (snd q)) l).

(** vtk_writer.hpp 406-451, 490-560: what is written for the cells [cells] of the
    mesh or of a segment. *)
Definition piece_of (m : mesh) (t : tag) (cells : list addr) (vq cq : list quantity) : option piece :=
  obind (used_vertices m t cells) (fun us =>
  obind (used_cells m t cells) (fun cs =>
  obind (omap (fun v => obind (deref m Vertex v) e_pt) us) (fun ps =>
  obind (omap (fun c => obind (deref m t c) (fun e => omap (fun v => index_of v us) (e_verts e))) cs) (fun vs =>
  Some (mkPiece ps (map (array_of us) vq) vs (List.length cells) (map (array_of cs) cq)))))).

(** vtk_writer.hpp 395-454, operator() for a mesh. *)
Definition write_mesh (cfg : config) (m : mesh) (vq cq : list quantity) (name : text) : option (list (text * text)) :=
  obind (piece_of m (cfg_cell cfg) (range m (cfg_cell cfg)) vq cq) (fun p =>
  option_map (fun s => [(name ++ txt ".vtu", s)]) (write_piece (cfg_cell cfg) p)).

(** std::string::rfind("/"), and rfind("\\") if there is none (472-477, reader 805-812):
    the part of the name up to and including it. *)
Definition path_length (name : text) : nat :=
  match rfind_char "/" name with
  | Some i => S i
  | None => match rfind_char "\" name with Some i => S i | None => 0 end
  end.

(** vtk_writer.hpp 462-500, the collection of the segments. *)
Definition segment_file (name : text) (z : Z) : text := name ++ txt "_" ++ int_text z ++ txt ".vtu".
Definition write_dataset (short : text) (z : Z) : text :=
  txt "    <DataSet part=""" ++ int_text z ++ txt """ file=""" ++ segment_file short z ++
  txt """ name=""Segment_" ++ int_text z ++ line """/>".
Definition write_collection (short : text) (zs : list Z) : text :=
  line "<?xml version=""1.0""?>" ++
  line "<VTKFile type=""Collection"" version=""0.1"" byte_order=""LittleEndian"" compressor=""vtkZLibDataCompressor"">" ++
  line "<Collection>" ++
  List.concat (map (write_dataset short) zs) ++
  line "  </Collection>" ++
  line "</VTKFile>".

(** vtk_writer.hpp 456-564, operator() for a mesh with a segmentation.  The
    quantities of a segment follow those of the mesh (519-533, 545-556); with at
    most one segment they are not written. *)
Definition write_segmentation (cfg : config) (s : sstate pt) (vq cq : list quantity) (svq scq : Z -> list quantity)
    (name : text) : option (list (text * text)) :=
  let t := cfg_cell cfg in
  if segment_count (st_segs s) <=? 1 then write_mesh cfg (st_mesh s) vq cq name
  else
    option_map (cons (name ++ txt "_main.pvd", write_collection (skipn (path_length name) name) (map fst (g_ids (st_segs s)))))
      (omap (fun za =>
         obind (piece_of (st_mesh s) t (k_view (st_con s (snd za)) t) (vq ++ svq (fst za)) (cq ++ scq (fst za))) (fun p =>
         option_map (fun f => (segment_file name (fst za), f)) (write_piece t p))) (g_ids (st_segs s))).

(** ** Reading the text *)

(** vtk_reader.hpp 97-111, what has been read of one segment. *)
Record local := mkL {
  l_global : list nat;
  l_vertices : list nat;
  l_offsets : list nat;
  l_pscal : list (text * list K);
  l_pvec : list (text * list K);
  l_cscal : list (text * list K);
  l_cvec : list (text * list K)
}.
Definition no_local : local := mkL [] [] [] [] [] [] [].

(** The members of the reader: whether its stream is open, the points by global
    number (global_points and global_points_2), the data of the segments, and
    local_cell_num in the order of the std::map. *)
Record reader := mkR {
  r_open : bool;
  r_points : list pt;
  r_local : Z -> local;
  r_nums : list (Z * nat)
}.
(** vtk_reader.hpp 156-187, pre_clear (the stream stays as it is). *)
Definition pre_clear (open : bool) : reader := mkR open [] (fun _ => no_local) [].

(** How reading ends: normally, by an exception with what has been read so far, or
    in a way that is not modelled: a loop that never ends, undefined behaviour, a
    word that is not a number. *)
Inductive out (A : Type) := Fin (x : A) (r : reader) (s : text) | Exc (r : reader) | Lost.
Arguments Fin {A}. Arguments Exc {A}. Arguments Lost {A}.
Definition M (A : Type) := reader -> text -> out A.
Definition ret {A} (x : A) : M A := fun r s => Fin x r s.
Definition bind {A B} (a : M A) (f : A -> M B) : M B :=
  fun r s => match a r s with Fin x r' s' => f x r' s' | Exc r' => Exc r' | Lost => Lost end.
Definition throw {A} : M A := fun r _ => Exc r.
Definition lost {A} : M A := fun _ _ => Lost.
Definition need {A} (o : option A) : M A := match o with Some x => ret x | None => lost end.
Definition modify (f : reader -> reader) : M unit := fun r s => Fin tt (f r) s.
Definition upd_local (z : Z) (f : local -> local) (r : reader) : reader :=
  mkR (r_open r) (r_points r) (fun y => if Z.eqb y z then f (r_local r z) else r_local r y) (r_nums r).
Notation "x <- a ;; b" := (bind a (fun x => b)) (at level 60, a at next level, right associativity).
Notation "a ;; b" := (bind a (fun _ => b)) (at level 60, right associativity).

(** xml_tag.hpp in this setting. *)
Definition tag_m : M xtag := fun r s =>
  match parse_tag s with Done (t, s') => Fin t r s' | Thrown => Exc r | Undefined => Lost end.
Definition named_m (name : string) : M xtag :=
  t <- tag_m ;; if text_eqb (t_name t) (lower_all (txt name)) then ret t else throw.
Definition attr_m (a : string) (t : xtag) : M text :=
  match find_attr (txt a) t with Some v => ret v | None => throw end.
Definition word_m : M (option text) := fun r s =>
  match read_word s with Some (w, s') => Fin (Some w) r s' | None => Fin None r s end.

(** [while (token != end) { ...; reader >> token }] (vtk_reader.hpp 266-283, 286-309,
    312-338, 341-351): the words before the terminating one.  At the end of the file
    the token stays as it is and the loop goes on forever.  [fuel] is the number of
    characters that are left. *)
Fixpoint words_until (p : text -> bool) (fuel : nat) (s : text) : option (list text * text) :=
  match fuel with
  | 0 => None
  | S n =>
      match read_word s with
      | None => None
      | Some (w, s') => if p w then Some ([], s') else option_map (fun q => (w :: fst q, snd q)) (words_until p n s')
      end
  end.
Definition words_m (p : text -> bool) : M (list text) := fun r s =>
  match words_until p (S (List.length s)) s with Some (ws, s') => Fin ws r s' | None => Lost end.

(** vtk_reader.hpp 231-262, readNodeCoordinates. *)
Fixpoint comps_m (n : nat) : M (list K) :=
  match n with
  | 0 => ret []
  | S n => w <- word_m ;; x <- need (match w with Some w => f_rd F w | None => None end) ;; l <- comps_m n ;; ret (x :: l)
  end.
Fixpoint same_point (p q : pt) : bool :=
  match p, q with
  | [], [] => true
  | x :: p, y :: q => f_eqb F x y && same_point p q
  | _, _ => false
  end.
Fixpoint find_point (p : pt) (l : list pt) : option nat :=
  match l with
  | [] => None
  | q :: r => if same_point q p then Some 0 else option_map S (find_point p r)
  end.
Definition point_of (l : list K) : pt := firstn (f_dim F) (l ++ repeat (f_zero F) (f_dim F)).
Fixpoint nodes_m (n comps : nat) (z : Z) : M unit :=
  match n with
  | 0 => ret tt
  | S n =>
      l <- comps_m comps ;;
      modify (fun r =>
        let p := point_of l in
        let '(i, ps) := match find_point p (r_points r) with
                        | Some i => (i, r_points r)
                        | None => (List.length (r_points r), r_points r ++ [p])
                        end in
        upd_local z (fun c => mkL (l_global c ++ [i]) (l_vertices c) (l_offsets c) (l_pscal c) (l_pvec c) (l_cscal c) (l_cvec c))
          (mkR (r_open r) ps (r_local r) (r_nums r))) ;;
      nodes_m n comps z
  end.

(** vtk_reader.hpp 265-338, readCellIndices, readOffsets, readTypes (its assertions
    are left out). *)
Definition end_array (w : text) : bool := text_eqb w (txt "</DataArray>").
Definition sizes_m : M (list nat) := ws <- words_m end_array ;; need (omap size_of ws).
Definition cells_array_m (z : Z) : M unit :=
  t <- named_m "dataarray" ;;
  name <- attr_m "name" t ;;
  if text_eqb name (txt "connectivity") then
    l <- sizes_m ;;
    modify (upd_local z (fun c => mkL (l_global c) (l_vertices c ++ l) (l_offsets c) (l_pscal c) (l_pvec c) (l_cscal c) (l_cvec c)))
  else if text_eqb name (txt "offsets") then
    l <- sizes_m ;;
    modify (upd_local z (fun c => mkL (l_global c) (l_vertices c) (l_offsets c ++ l) (l_pscal c) (l_pvec c) (l_cscal c) (l_cvec c)))
  else if text_eqb name (txt "types") then words_m end_array ;; ret tt
  else throw.

(** vtk_reader.hpp 341-400, readData and readPointCellData; [cell]: into the data of
    the cells.  The number of components of the previous array holds if the tag
    does not say. *)
Definition end_data (w : text) : bool := text_eqb (lower_all w) (txt "</dataarray>").
Definition add_scalar (cell : bool) (x : text * list K) (c : local) : local :=
  if cell then mkL (l_global c) (l_vertices c) (l_offsets c) (l_pscal c) (l_pvec c) (l_cscal c ++ [x]) (l_cvec c)
  else mkL (l_global c) (l_vertices c) (l_offsets c) (l_pscal c ++ [x]) (l_pvec c) (l_cscal c) (l_cvec c).
Definition add_vector (cell : bool) (x : text * list K) (c : local) : local :=
  if cell then mkL (l_global c) (l_vertices c) (l_offsets c) (l_pscal c) (l_pvec c) (l_cscal c) (l_cvec c ++ [x])
  else mkL (l_global c) (l_vertices c) (l_offsets c) (l_pscal c) (l_pvec c ++ [x]) (l_cscal c) (l_cvec c).
Definition numbers_m : M (list K) := ws <- words_m end_data ;; need (omap (f_rd F) ws).
Fixpoint data_m (fuel : nat) (z : Z) (cell : bool) (comps : nat) (t : xtag) : M unit :=
  match fuel with
  | 0 => lost
  | S n =>
      if text_eqb (t_name t) (txt "dataarray") then
        name <- attr_m "name" t ;;
        k <- need (match find_attr (txt "numberofcomponents") t with Some v => size_of v | None => Some comps end) ;;
        (match k with
         | 1 => l <- numbers_m ;; modify (upd_local z (add_scalar cell (name, l)))
         | 3 => l <- numbers_m ;; modify (upd_local z (add_vector cell (name, l)))
         | _ => throw
         end) ;;
        t' <- tag_m ;; data_m n z cell k t'
      else if text_eqb (t_name t) (txt "/pointdata") || text_eqb (t_name t) (txt "/celldata") then ret tt
      else throw
  end.
(** Every turn of the loop reads a tag, so the characters that are left bound it. *)
Definition point_cell_data_m (z : Z) (cell : bool) : M unit :=
  t <- tag_m ;; fun r s => data_m (S (List.length s)) z cell 1 t r s.

(** vtk_reader.hpp 712-786, the body of parse_vtu_segment. *)
Definition xml_m : M unit :=
  t <- tag_m ;; if text_eqb (t_name t) (txt "?xml") || text_eqb (t_name t) (txt "?xml?") then ret tt else throw.
Fixpoint num_put (z : Z) (n : nat) (l : list (Z * nat)) : list (Z * nat) :=
  match l with
  | [] => [(z, n)]
  | (y, k) :: r => if (z <? y)%Z then (z, n) :: l else if (y <? z)%Z then (y, k) :: num_put z n r else (z, n) :: r
  end.
Definition vtu_m (z : Z) : M unit :=
  xml_m ;;
  named_m "vtkfile" ;;
  named_m "unstructuredgrid" ;;
  t <- named_m "piece" ;;
  np <- attr_m "numberofpoints" t ;; nodes <- need (size_of np) ;;
  nc <- attr_m "numberofcells" t ;; num <- need (size_of nc) ;;
  modify (fun r => mkR (r_open r) (r_points r) (r_local r) (num_put z num (r_nums r))) ;;
  named_m "points" ;;
  t <- named_m "dataarray" ;;
  k <- attr_m "numberofcomponents" t ;; comps <- need (size_of k) ;;
  nodes_m nodes comps z ;;
  named_m "/dataarray" ;;
  named_m "/points" ;;
  t <- tag_m ;;
  t <- (if text_eqb (t_name t) (txt "pointdata") then point_cell_data_m z false ;; tag_m else ret t) ;;
  (if text_eqb (t_name t) (txt "cells") then ret tt else throw) ;;
  cells_array_m z ;; cells_array_m z ;; cells_array_m z ;;
  named_m "/cells" ;;
  t <- tag_m ;;
  t <- (if text_eqb (t_name t) (txt "celldata") then point_cell_data_m z true ;; tag_m else ret t) ;;
  (if text_eqb (t_name t) (txt "/piece") then ret tt else throw) ;;
  named_m "/unstructuredgrid" ;;
  named_m "/vtkfile" ;;
  ret tt.

Notation files := (text -> option text) (only parsing).
Definition set_open (b : bool) (r : reader) : reader := mkR b (r_points r) (r_local r) (r_nums r).

(** vtk_reader.hpp 193-206, openFile: opening a stream that is open fails, too. *)
Definition open_file (fs : files) (name : text) (r : reader) : option text := if r_open r then None else fs name.

(** vtk_reader.hpp 706-793, parse_vtu_segment: exceptions are caught, and the stream
    stays open then.  [None]: not modelled. *)
Definition parse_segment (fs : files) (name : text) (z : Z) (r : reader) : option reader :=
  match open_file fs name r with
  | None => Some r
  | Some s =>
      match vtu_m z (set_open true r) s with
      | Fin _ r' _ => Some (set_open false r')
      | Exc r' => Some r'
      | Lost => None
      end
  end.

(** vtk_reader.hpp 841-857, the data sets of the collection, as the std::map from
    the parts to the names of the files. *)
Fixpoint file_put (z : Z) (n : text) (l : list (Z * text)) : list (Z * text) :=
  match l with
  | [] => [(z, n)]
  | (y, k) :: r => if (z <? y)%Z then (z, n) :: l else if (y <? z)%Z then (y, k) :: file_put z n r else (z, n) :: r
  end.
Fixpoint datasets_m (fuel : nat) (l : list (Z * text)) : M (list (Z * text)) :=
  match fuel with
  | 0 => lost
  | S n =>
      t <- tag_m ;;
      if text_eqb (t_name t) (txt "/collection") then ret l
      else if text_eqb (t_name t) (txt "dataset") then
        f <- attr_m "file" t ;; datasets_m n (file_put (atoi (get_value (txt "part") t)) f l)
      else throw
  end.
Definition pvd_m : M (list (Z * text)) :=
  xml_m ;;
  t <- tag_m ;;
  (if text_eqb (t_name t) (txt "vtkfile") then ret tt else throw) ;;
  ty <- attr_m "type" t ;;
  (if text_eqb (lower_all ty) (txt "collection") then ret tt else throw) ;;
  t <- tag_m ;;
  (if text_eqb (t_name t) (txt "collection") then ret tt else throw) ;;
  l <- (fun r s => datasets_m (S (List.length s)) [] r s) ;;
  t <- tag_m ;;
  (if text_eqb (t_name t) (txt "/vtkfile") then ret tt else throw) ;;
  ret l.

(** vtk_reader.hpp 802-880, process_pvd; its own exceptions are not caught. *)
Definition process_pvd (fs : files) (name : text) (r : reader) : result reader :=
  match open_file fs name r with
  | None => Thrown
  | Some s =>
      match pvd_m (set_open true r) s with
      | Fin l r' _ =>
          of_option (ofold (fun r zf => parse_segment fs (firstn (path_length name) name ++ snd zf) (fst zf) r) l (set_open false r'))
      | Exc _ => Thrown
      | Lost => Undefined
      end
  end.

(** ** Building the mesh *)

(** vtk_reader.hpp 403-408, setupVertices. *)
Definition setup_vertices (cfg : config) (ps : list pt) (m : mesh) : option mesh :=
  ofold (fun m ip => option_map fst (make_vertex_with_id cfg m (fst ip) (snd ip))) (combine (seq 0 (List.length ps)) ps) m.

(** The state of setupCells: mesh and segments, global_cells, and the cells of the
    segment in hand. *)
Record building := mkBu { bu_st : sstate pt; bu_cells : list (list nat * addr); bu_local : list addr }.

(** vtk_reader.hpp 446-459: the vertices of one cell.  More of them than the cell type
    has is undefined. *)
Definition cell_vertices (c : local) (t : tag) (z : Z) (offset n : nat) (s : sstate pt) : result (sstate pt * (list addr * list nat)) :=
  if nverts t <? n then Undefined
  else rfold (fun r j =>
    let '(s, (vs, ids)) := r in
    rbind (of_option (obind (nth_error (l_vertices c) (reorder t j + offset)) (fun i =>
                      obind (nth_error (l_global c) i) (fun g =>
                      obind (nth_error (range (st_mesh s) Vertex) g) (fun v =>
                      option_map (fun e => (v, e_id e)) (deref (st_mesh s) Vertex v)))))) (fun vi =>
    rbind (add_by_id Vertex (fst vi) s z) (fun s' => Done (s', (vs ++ [fst vi], ids ++ [snd vi]))))) (seq 0 n) (s, ([], [])).

(** vtk_reader.hpp 411-476, setupCells: the cell number [i].  The key of the cell is
    made of the ids in the order of the vertices (element_key.hpp 45). *)
Definition find_cell (k : list nat) (l : list (list nat * addr)) : option addr :=
  option_map snd (find (fun p => key_equiv (fst p) k) l).
Definition setup_cell (cfg : config) (c : local) (z : Z) (b : building) (i : nat) : result building :=
  let t := cfg_cell cfg in
  rbind (of_option (match i with
                    | 0 => option_map (pair 0) (nth_error (l_offsets c) 0)
                    | S k => obind (nth_error (l_offsets c) k) (fun o =>
                             obind (nth_error (l_offsets c) (S k)) (fun o' => if o' <? o then None else Some (o, o' - o)))
                    end)) (fun on =>
  rbind (cell_vertices c t z (fst on) (snd on) (bu_st b)) (fun r =>
  let '(s, (vs, ids)) := r in
  match find_cell ids (bu_cells b) with
  | Some h => rbind (add_by_id t h s z) (fun s' => Done (mkBu s' (bu_cells b) (bu_local b ++ [h])))
  | None =>
      match get_make_id z (st_segs s) with
      | SRet g a =>
          rbind (of_option (make_element cfg t (st_mesh s) vs)) (fun made =>
          rbind (of_option (seg_create cfg a (OElement t vs) (with_segs s g))) (fun s' =>
          Done (mkBu s' ((ids, snd made) :: bu_cells b) (bu_local b ++ [snd made]))))
      | SThrow _ => Thrown
      | SUndef => Undefined
      end
  end)).
Definition setup_cells (cfg : config) (c : local) (z : Z) (num : nat) (b : building) : result building :=
  rfold (setup_cell cfg c z) (seq 0 num) (mkBu (bu_st b) (bu_cells b) []).

(** Where a quantity that was read goes to: an accessor registered for the mesh, one
    registered for the segment, or the reader's own container. *)
Inductive target := ForMesh | ForSegment | ForReader.
(** vtk_reader.hpp 479-690, setupDataVertex and setupDataCell: the assignments
    [accessor(element) = value] in order, for the elements [els] of the arrays (the
    vertices of the mesh numbered by local_to_global_map, or local_cell_handle).
    A loop over vectors takes three numbers each; that for the accessors of a
    segment runs over the number of all components (549, 641). *)
Definition scalar_values (els : list addr) (l : list K) : option (list (addr * list K)) :=
  omap (fun ix => option_map (fun e => (e, [snd ix])) (nth_error els (fst ix))) (combine (seq 0 (List.length l)) l).
Definition vector_values (w : target) (els : list addr) (l : list K) : option (list (addr * list K)) :=
  omap (fun i => obind (nth_error els i) (fun e =>
     obind (nth_error l (3 * i)) (fun x => obind (nth_error l (3 * i + 1)) (fun y => obind (nth_error l (3 * i + 2)) (fun u =>
     Some (e, [x; y; u]))))))
    (seq 0 (match w with ForSegment => List.length l | _ => Nat.div (List.length l) 3 end)).

(** One quantity of one segment that has been read: on cells or on vertices, its
    name, and the assignments. *)
Record delivery := mkD { dl_seg : Z; dl_cell : bool; dl_name : text; dl_values : list (addr * list K) }.

(** vtk_reader.hpp 693-717, setupData.  [reg cell vector name] says where a quantity
    goes. *)
Definition setup_data (reg : Z -> bool -> bool -> text -> target) (c : local) (z : Z) (b : building) : option (list delivery) :=
  let m := st_mesh (bu_st b) in
  obind (omap (fun g => nth_error (range m Vertex) g) (l_global c)) (fun vs =>
  obind (omap (fun x => option_map (mkD z false (fst x)) (scalar_values vs (snd x))) (l_pscal c)) (fun a =>
  obind (omap (fun x => option_map (mkD z false (fst x)) (vector_values (reg z false true (fst x)) vs (snd x))) (l_pvec c)) (fun b1 =>
  obind (omap (fun x => option_map (mkD z true (fst x)) (scalar_values (bu_local b) (snd x))) (l_cscal c)) (fun c1 =>
  obind (omap (fun x => option_map (mkD z true (fst x)) (vector_values (reg z true true (fst x)) (bu_local b) (snd x))) (l_cvec c)) (fun d1 =>
  Some (a ++ b1 ++ c1 ++ d1)))))).

(** vtk_reader.hpp 905-948, operator(): the extension, then the mesh.  The result
    also tells whether the stream of the reader has been left open. *)
Definition extension (name : text) : text :=
  match rfind_char "." name with Some i => skipn (S i) name | None => name end.
Definition read_files (fs : files) (open : bool) (name : text) : result reader :=
  if text_eqb (extension name) (txt "vtu") then of_option (parse_segment fs name 0 (pre_clear open))
  else if text_eqb (extension name) (txt "pvd") then process_pvd fs name (pre_clear open)
  else Thrown.
Definition make_segments (s : sstate pt) (l : list (Z * nat)) : result (sstate pt) :=
  rfold (fun s zn => match get_make_id (fst zn) (st_segs s) with
                     | SRet g _ => Done (with_segs s g)
                     | SThrow _ => Thrown
                     | SUndef => Undefined
                     end) l s.
Definition setup (cfg : config) (reg : Z -> bool -> bool -> text -> target) (r : reader) (s : sstate pt)
  : result (sstate pt * list delivery) :=
  rbind (of_option (setup_vertices cfg (r_points r) (st_mesh s))) (fun m =>
  rbind (make_segments (with_mesh s m) (r_nums r)) (fun s1 =>
  rbind (rfold (fun bd zn =>
           rbind (setup_cells cfg (r_local r (fst zn)) (fst zn) (snd zn) (fst bd)) (fun b =>
           rbind (of_option (setup_data reg (r_local r (fst zn)) (fst zn) b)) (fun d =>
           Done (b, snd bd ++ d)))) (r_nums r) (mkBu s1 [] [], [])) (fun bd =>
  Done (bu_st (fst bd), snd bd)))).
Definition read_vtk (cfg : config) (fs : files) (reg : Z -> bool -> bool -> text -> target) (open : bool) (name : text) (s : sstate pt)
  : result (sstate pt * list delivery * bool) :=
  rbind (read_files fs open name) (fun r =>
  rbind (setup cfg reg r s) (fun sd => Done (sd, r_open r))).

End Vtk.
Arguments Fin {K A}. Arguments Exc {K A}. Arguments Lost {K A}.
