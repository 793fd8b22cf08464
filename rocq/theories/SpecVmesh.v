(** Specification vocabulary for the writer of ViennaMesh files (C80).
    Nothing here is used by the model. *)
From Coq Require Import List Arith ZArith Ascii String Sorted.
From Verif Require Import ModelTopo ModelMesh ModelSegmentation ModelSegment SpecMesh SpecErase SpecQuery SpecSegmentation SpecSegment.
Import ListNotations.
Open Scope list_scope.

(** XML documents and their texts: each element on its own line, indented by two blanks
    for each level. *)
Inductive xml := Field (name : string) (value : list ascii) | Group (name : string) (parts : list xml).
Definition word (s : string) : list ascii := list_ascii_of_string s.
Definition margin (level : nat) : list ascii := repeat " "%char (2 * level).
Definition newline : list ascii := ["010"%char].
Fixpoint shown (level : nat) (x : xml) : list ascii :=
  match x with
  | Field n v => margin level ++ word "<" ++ word n ++ word ">" ++ v ++ word "</" ++ word n ++ word ">" ++ newline
  | Group n l => margin level ++ word "<" ++ word n ++ word ">" ++ newline ++
      List.concat (map (shown (S level)) l) ++ margin level ++ word "</" ++ word n ++ word ">" ++ newline
  end.

(** The number of the things satisfying [P]. *)
Definition counts (P : addr -> Prop) (n : nat) : Prop := exists l, lists_exactly l P /\ List.length l = n.

(** What the file tells about a mesh: numbers of vertices and cells, and for each segment its
    id and its numbers of vertices and cells. *)
Record summary := mkSum { su_vertices : nat; su_cells : nat; su_segments : list (Z * nat * nat) }.
Definition su_id (x : Z * nat * nat) : Z := fst (fst x).

Definition summarises {Pt} (cfg : config) (s : sstate Pt) (u : summary) : Prop :=
  counts (is_live (st_mesh s) Vertex) (su_vertices u) /\
  counts (is_live (st_mesh s) (cfg_cell cfg)) (su_cells u) /\
  StronglySorted Z.lt (map su_id (su_segments u)) /\
  (forall z, In z (map su_id (su_segments u)) <-> has_id (st_segs s) z) /\
  (forall z nv nc, In (z, nv, nc) (su_segments u) -> exists a, segment_has_id s a z /\
     counts (in_segment s a Vertex) nv /\ counts (in_segment s a (cfg_cell cfg)) nc).

(** The document for a summary. *)
Definition number (n : nat) : list ascii := word (decimal (Z.of_nat n)).
Definition segment_part (x : Z * nat * nat) : xml :=
  let '(z, nv, nc) := x in
  Group "segment" [Field "id" (word (decimal z)); Field "name" []; Field "vertices" (number nv); Field "cells" (number nc)].
Definition document (input : list ascii) (d : nat) (celltype : string) (u : summary) : xml :=
  Group "mesh" [Field "file" input; Field "geomdim" (number d); Field "celltype" (word celltype);
    Field "vertices" (number (su_vertices u)); Field "cells" (number (su_cells u));
    Field "segments" (number (List.length (su_segments u))); Group "segmentation" (map segment_part (su_segments u))].

(** The cell types have these names. *)
Definition celltype_named (t : tag) (s : string) : Prop :=
  In (t, s) [(Vertex, "vertex"); (Line, "Line"); (Triangle, "2-simplex"); (Tet, "3-simplex"); (Quad, "quadrilateral"); (Hex, "hexahedron")]%string.

(** A name with the extension. *)
Definition has_extension (s : list ascii) : Prop := exists p, s = p ++ word ".vmesh".
