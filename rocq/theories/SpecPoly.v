(** Specification vocabulary for reading .poly files (C73).  Nothing here is used by
    the model. *)
From Coq Require Import Ascii String List Arith ZArith Bool.
From Verif Require Import ModelTopo ModelMesh ModelCopySeg ModelXml ModelVtk ModelPoly SpecMesh SpecErase SpecCopy SpecNetgen.
Import ListNotations.
Open Scope nat_scope.

(** The lines of a text; what is before the first '#' of a line; the lines that
    count. *)
Fixpoint split_lines (l : list ascii) (s : list ascii) : list (list ascii) :=
  match s with
  | [] => [l]
  | c :: r => if Ascii.eqb c "010" then l :: split_lines [] r else split_lines (l ++ [c]) r
  end.
Fixpoint before_comment (s : list ascii) : list ascii :=
  match s with [] => [] | c :: r => if Ascii.eqb c "#" then [] else c :: before_comment r end.
Definition only_spaces (s : list ascii) : bool := forallb (fun c => Ascii.eqb c " ") s.
Definition lines_of (s : list ascii) : list (list ascii) :=
  filter (fun l => negb (only_spaces l)) (map before_comment (split_lines [] s)).

Section SpecPoly.
Context {K : Type}.
Variable F : format K.
Notation pt := (list K).
Notation mesh := (@mesh pt).

(** What a file describes: the vertices with their ids; the facets, each with its
    polygons, as lists of ids of vertices, and its hole points; the hole points; the
    seed points with the numbers of their regions. *)
Record facet := mkFacet { fa_polygons : list (list nat); fa_holes : list pt }.
Record poly := mkPoly { po_vertices : list (nat * pt); po_facets : list facet; po_holes : list pt; po_seeds : list (pt * Z) }.

(** The line has the words [ws], and perhaps more. *)
Definition begins (ws : list (list ascii)) (l : list ascii) : Prop := exists more, words_of l = ws ++ more.
Definition nums (l : list nat) : list (list ascii) := map (fun n => num (Z.of_nat n)) l.

(** A point with a number before it. *)
Definition point_line (n : Z) (p : pt) (rest : list (list ascii)) (l : list ascii) : Prop :=
  exists ws, point_text F ws p /\ begins (num n :: ws ++ rest) l.
Definition vertex_line (v : nat * pt) (l : list ascii) : Prop := point_line (Z.of_nat (fst v)) (snd v) [] l.
Definition hole_line (p : pt) (l : list ascii) : Prop := exists n, point_line n p [] l.
Definition seed_line (s : pt * Z) (l : list ascii) : Prop := exists n, point_line n (fst s) [num (snd s)] l.
Definition polygon_line (p : list nat) (l : list ascii) : Prop := begins (num (Z.of_nat (List.length p)) :: nums p) l.

(** The number of vertices, the dimension, and perhaps the number of attributes and
    whether there are boundary markers. *)
Definition marker (w : list ascii) : Prop := w = num 0 \/ w = num 1.
Definition first_line (n : nat) (l : list ascii) : Prop :=
  exists rest, words_of l = num (Z.of_nat n) :: num (Z.of_nat (f_dim F)) :: rest /\
    match rest with [] => True | a :: more => (exists k, a = num (Z.of_nat k)) /\ match more with [] => True | b :: _ => marker b end end.
(** The number of facets, and perhaps whether there are boundary markers. *)
Definition facets_line (n : nat) (l : list ascii) : Prop :=
  exists rest, words_of l = num (Z.of_nat n) :: rest /\ match rest with [] => True | b :: _ => marker b end.

Definition facet_lines (f : facet) (ls : list (list ascii)) : Prop :=
  exists l lps lhs, ls = l :: lps ++ lhs /\ begins (nums [List.length (fa_polygons f); List.length (fa_holes f)]) l /\
    Forall2 polygon_line (fa_polygons f) lps /\ Forall2 hole_line (fa_holes f) lhs.

(** A part that begins with the number of its lines. *)
Definition part {A} (one : A -> list ascii -> Prop) (xs : list A) (ls : list (list ascii)) : Prop :=
  exists l rest, ls = l :: rest /\ begins [num (Z.of_nat (List.length xs))] l /\ Forall2 one xs rest.

(** The last two parts may be missing. *)
Definition last_parts (P : poly) (ls : list (list ascii)) : Prop :=
  (ls = [] /\ po_holes P = [] /\ po_seeds P = []) \/
  (part hole_line (po_holes P) ls /\ po_seeds P = []) \/
  (exists ls1 ls2 more, ls = ls1 ++ ls2 ++ more /\ part hole_line (po_holes P) ls1 /\ part seed_line (po_seeds P) ls2).

(** The parts with the vertices and the facets. *)
Definition vertices_lines (P : poly) (ls : list (list ascii)) : Prop :=
  exists l rest, ls = l :: rest /\ first_line (List.length (po_vertices P)) l /\ Forall2 vertex_line (po_vertices P) rest.
Definition facets_lines (P : poly) (ls : list (list ascii)) : Prop :=
  exists l lfs, ls = l :: List.concat lfs /\ facets_line (List.length (po_facets P)) l /\ Forall2 facet_lines (po_facets P) lfs.
Definition poly_lines (P : poly) (ls : list (list ascii)) : Prop :=
  exists ls1 ls2 ls3, ls = ls1 ++ ls2 ++ ls3 /\ vertices_lines P ls1 /\ facets_lines P ls2 /\ last_parts P ls3.

(** The ids are different, the points have the right dimension, the polygons are not
    empty and their vertices are there. *)
Definition vertex_ids (P : poly) : list nat := map fst (po_vertices P).
Definition vertices_ok (P : poly) : Prop :=
  NoDup (vertex_ids P) /\ Forall (fun v => List.length (snd v) = f_dim F) (po_vertices P).
Definition polygon_ok (P : poly) (p : list nat) : Prop := p <> [] /\ incl p (vertex_ids P).
Definition right_dim (p : pt) : Prop := List.length p = f_dim F.
Definition facet_ok (P : poly) (f : facet) : Prop := Forall (polygon_ok P) (fa_polygons f) /\ Forall right_dim (fa_holes f).
Definition poly_ok (P : poly) : Prop :=
  vertices_ok P /\ Forall (facet_ok P) (po_facets P) /\ Forall right_dim (po_holes P) /\ Forall (fun s => right_dim (fst s)) (po_seeds P).

(** The sides of a polygon: from each vertex to the next one, and, if there are more
    than two, from the last to the first. *)
Definition sides (p : list nat) : list (nat * nat) :=
  combine p (tl p) ++ (if 2 <? List.length p then [(last p 0, hd 0 p)] else []).
Definition facet_sides (f : facet) : list (nat * nat) := flat_map sides (fa_polygons f).

(** The line [a] joins the vertices with these ids. *)
Definition joins (m : mesh) (a : addr) (ij : nat * nat) : Prop :=
  exists u v, vertices_at m Line a = Some [u; v] /\
    ((id_at m Vertex u = Some (fst ij) /\ id_at m Vertex v = Some (snd ij)) \/
     (id_at m Vertex u = Some (snd ij) /\ id_at m Vertex v = Some (fst ij))).

(** The PLC has one line for each side of the polygons of the facet, the vertices of
    the polygons, each once, and the hole points of the facet. *)
Record plc_of_facet (m : mesh) (f : facet) (c : plc K) : Prop := {
  pf_lines : forall a, In a (plc_lines c) <-> In a (range m Line) /\ exists ij, In ij (facet_sides f) /\ joins m a ij;
  pf_once : NoDup (plc_lines c);
  pf_verts : forall v, In v (plc_verts c) <-> In v (range m Vertex) /\ exists p i, In p (fa_polygons f) /\ In i p /\ id_at m Vertex v = Some i;
  pf_verts_once : NoDup (plc_verts c);
  pf_holes : plc_holes c = fa_holes f
}.

(** The mesh is what the file describes. *)
Record mesh_of_poly (P : poly) (m : mesh) (cs : list (plc K)) : Prop := {
  (* the vertices, in this order, with their ids *)
  mp_ids : map (id_at m Vertex) (range m Vertex) = map (fun v => Some (fst v)) (po_vertices P);
  mp_points : map (point_at m) (range m Vertex) = map (fun v => Some (snd v)) (po_vertices P);
  (* one line for each side, and no other *)
  mp_lines : forall ij, In ij (flat_map facet_sides (po_facets P)) ->
    exists a, In a (range m Line) /\ joins m a ij /\ forall b, In b (range m Line) -> joins m b ij -> b = a;
  mp_only : forall a, In a (range m Line) -> exists ij, In ij (flat_map facet_sides (po_facets P)) /\ joins m a ij;
  mp_rest : forall t, t <> Vertex -> t <> Line -> range m t = [];
  (* one PLC for each facet *)
  mp_plcs : Forall2 (plc_of_facet m) (po_facets P) cs
}.

(** The lines up to facet number [List.length pre] of [n], where the facets before are
    [pre]. *)
Definition lines_before (P : poly) (n : nat) (pre : list facet) (ls : list (list ascii)) : Prop :=
  exists ls1 l lfs, ls = ls1 ++ l :: List.concat lfs /\ vertices_lines P ls1 /\ facets_line n l /\ Forall2 facet_lines pre lfs /\ List.length pre < n.

End SpecPoly.
Arguments facet : clear implicits.
Arguments poly : clear implicits.
