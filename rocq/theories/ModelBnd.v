(** Reading .bnd files: viennagrid/io/bnd_reader.hpp.  Definitions only.

    The file is given by its sections, as lists of numbers; how bnd_helper finds the
    sections in the text (251-445) and the names and contacts of the regions
    (570-675), which bnd_reader does not use, are not modelled. *)
From Coq Require Import List Arith ZArith Bool.
From Verif Require Import ModelTopo ModelMesh ModelErase ModelSegmentation ModelSegment ModelCopySeg.
Import ModelSegmentation ListNotations.
Open Scope nat_scope.

(** bnd_reader.hpp 447-563: the elements.  [Polyhedron]: type 10, with faces;
    [Polygon]: type 4, with edges; [Contact]: types 1 and 2; [Other]: the rest. *)
Inductive element := Polyhedron (faces : list Z) | Polygon (edges : list Z) | Contact | Other.

(** bnd_reader.hpp 785-795, bnd_helper: the dimension, the points, the edges, the
    faces (as edges), the elements. *)
Record bnd {K : Type} := mkBnd {
  b_dim : nat; b_points : list (list K); b_edges : list (Z * Z); b_faces : list (list Z); b_elements : list element }.

(** operator[] of a vector; out of range is undefined. *)
Definition at_index {A} (l : list A) (i : Z) : option A := if (i <? 0)%Z then None else nth_error l (Z.to_nat i).

(** bnd_reader.hpp 780-784, map. *)
Definition map_index (i : Z) : Z := if (0 <=? i)%Z then i else (- i - 1)%Z.

(** bnd_reader.hpp 481-490: a vertex is appended unless it has been. *)
Definition push_unique (p : list Z) (v : Z) : list Z := if existsb (Z.eqb v) p then p else p ++ [v].

Section Helper.
Context {K : Type}.
Variable b : @bnd K.

(** bnd_reader.hpp 472-490: one edge of a face. *)
Definition push_edge (p : list Z) (e : Z) : result (list Z) :=
  rbind (of_option (at_index (b_edges b) (map_index e))) (fun uv =>
  let '(u, v) := if (e <? 0)%Z then (snd uv, fst uv) else uv in
  Done (push_unique (push_unique p u) v)).
(** bnd_reader.hpp 461-491: the vertices of a face. *)
Definition face_polygon (f : Z) : result (list Z) :=
  rbind (of_option (at_index (b_faces b) (map_index f))) (fun es => rfold push_edge es []).
(** bnd_reader.hpp 508-512: an edge of a plane segment. *)
Definition edge_polygon (e : Z) : result (list Z) :=
  rbind (of_option (at_index (b_edges b) (map_index e))) (fun uv => Done [fst uv; snd uv]).

(** bnd_reader.hpp 493, 516: [domain[i].push_back(polygon)]. *)
Fixpoint push_at (i : nat) (p : list Z) (dom : list (list (list Z))) : option (list (list (list Z))) :=
  match i, dom with
  | _, [] => None
  | 0, d :: r => Some ((d ++ [p]) :: r)
  | S k, d :: r => option_map (cons d) (push_at k p r)
  end.
Definition push_polygons (polygon : Z -> result (list Z)) (i : nat) (fs : list Z) (dom : list (list (list Z))) : result (list (list (list Z))) :=
  rfold (fun d f => rbind (polygon f) (fun p => of_option (push_at i p d))) fs dom.

(** bnd_reader.hpp 447-563: the elements from the one number [i] on.  The exception
    for an element that is not supported is caught (677) and success is returned. *)
Fixpoint read_elements (i : nat) (es : list element) (dom : list (list (list Z))) : result (list (list (list Z))) :=
  match es with
  | [] => Done dom
  | Polyhedron fs :: r => rbind (push_polygons face_polygon i fs dom) (read_elements (S i) r)
  | Polygon fs :: r => rbind (push_polygons edge_polygon i fs dom) (read_elements (S i) r)
  | Contact :: r => read_elements (S i) r (removelast dom)
  | Other :: _ => Done dom
  end.
Definition read_domain : result (list (list (list Z))) :=
  read_elements 0 (b_elements b) (repeat [] (length (b_elements b))).
End Helper.

(** std::sort. *)
Fixpoint insert_z (x : Z) (l : list Z) : list Z :=
  match l with [] => [x] | y :: r => if (x <=? y)%Z then x :: l else y :: insert_z x r end.
Definition sort_z (l : list Z) : list Z := fold_right insert_z [] l.

Fixpoint same_polygon (p q : list Z) : bool :=
  match p, q with [], [] => true | x :: p', y :: q' => (x =? y)%Z && same_polygon p' q' | _, _ => false end.

Section Reader.
Context {K : Type}.
Variable cfg : config.
Variable dimension : nat.
Variable b : @bnd K.
Notation pt := (list K).

(** bnd_reader.hpp 846-847: the maps [vertices] and [cells]. *)
Record reading := mkRd { rd_st : sstate pt; rd_vertices : list (Z * addr); rd_cells : list (list Z * addr) }.
Definition find_vertex (i : Z) (l : list (Z * addr)) : option addr := option_map snd (find (fun p => Z.eqb (fst p) i) l).
Definition find_polygon (p : list Z) (l : list (list Z * addr)) : option addr := option_map snd (find (fun q => same_polygon (fst q) p) l).

(** bnd_reader.hpp 884-901: one vertex of a new cell. *)
Definition read_corner (x : reading * list addr) (i : Z) : result (reading * list addr) :=
  let '(r, vs) := x in
  match find_vertex i (rd_vertices r) with
  | Some v => Done (r, vs ++ [v])
  | None =>
      rbind (of_option (at_index (b_points b) i)) (fun p =>
      rbind (of_option (make_vertex cfg (st_mesh (rd_st r)) p)) (fun ma =>
      Done (mkRd (with_mesh (rd_st r) (fst ma)) ((i, snd ma) :: rd_vertices r) (rd_cells r), vs ++ [snd ma])))
  end.

(** bnd_reader.hpp 856-905: one polygon for the segment [a]. *)
Definition read_polygon (a : nat) (r : reading) (polygon : list Z) : result reading :=
  let p := sort_z polygon in
  if length p =? nverts Triangle then
    match find_polygon p (rd_cells r) with
    | Some h => rbind (of_option (seg_add a (cfg_cell cfg) h (rd_st r))) (fun s => Done (mkRd s (rd_vertices r) (rd_cells r)))
    | None =>
        rbind (rfold read_corner p (r, [])) (fun x =>
        let '(r1, vs) := x in
        rbind (of_option (make_element cfg (cfg_cell cfg) (st_mesh (rd_st r1)) vs)) (fun made =>
        rbind (of_option (seg_create cfg a (OElement (cfg_cell cfg) vs) (rd_st r1))) (fun s =>
        Done (mkRd s (rd_vertices r1) ((p, snd made) :: rd_cells r1)))))
    end
  else Thrown.

(** bnd_reader.hpp 850-908: one segment. *)
Definition read_segment (r : reading) (zd : nat * list (list Z)) : result reading :=
  match get_make_id (Z.of_nat (fst zd)) (st_segs (rd_st r)) with
  | SRet g a => rfold (read_polygon a) (snd zd) (mkRd (with_segs (rd_st r) g) (rd_vertices r) (rd_cells r))
  | SThrow _ => Thrown
  | SUndef => Undefined
  end.

(** bnd_reader.hpp 818-909.  The state in which an exception leaves the mesh is not
    modelled. *)
Definition read_bnd (s : sstate pt) : result (sstate pt) :=
  rbind (read_domain b) (fun dom =>
  if dimension =? b_dim b then
    rbind (rfold read_segment (combine (seq 0 (length dom)) dom) (mkRd s [] [])) (fun r => Done (rd_st r))
  else Thrown).
End Reader.
