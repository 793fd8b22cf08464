(** Specification vocabulary for reading .tess files (C78).  Nothing here is used by
    the model. *)
From Coq Require Import Ascii String List Arith ZArith Bool.
From Verif Require Import ModelTopo ModelMesh ModelCopySeg ModelXml ModelVtk ModelPoly SpecMesh SpecErase SpecCopy SpecNetgen SpecPoly.
Import ListNotations.
Open Scope nat_scope.

(** The words that begin the sections. *)
Definition heads : list string := ["**vertex"; "**face"; "**polyhedron"]%string.
Definition mentions (l : list ascii) (w : string) : Prop := exists a b, l = a ++ list_ascii_of_string w ++ b.
Definition plain (l : list ascii) : Prop := forall w, In w heads -> ~ mentions l w.
Definition head_line (w : string) (l : list ascii) : Prop := mentions l w /\ forall v, In v heads -> v <> w -> ~ mentions l v.

Section SpecNeper.
Context {K : Type}.
Variable F : format K.
Notation pt := (list K).
Notation mesh := (@mesh pt).

(** What a file describes: the vertices with their ids, the faces as lists of ids, the
    polyhedra with a point and a number. *)
Record tess := mkTess { te_vertices : list (Z * pt); te_faces : list (list Z); te_seeds : list (pt * Z) }.

(** A vertex has three lines: the id is in the first, the point in the third. *)
Definition vertex_block (v : Z * pt) (ls : list (list ascii)) : Prop :=
  exists l1 l2 l3 ws, ls = [l1; l2; l3] /\ begins [num (fst v)] l1 /\ point_text F ws (snd v) /\ begins ws l3.
(** A face has seven lines: the vertices are in the fourth. *)
Definition face_block (f : list Z) (ls : list (list ascii)) : Prop :=
  exists l1 l2 l3 l4 l5 l6 l7, ls = [l1; l2; l3; l4; l5; l6; l7] /\ begins (num (Z.of_nat (List.length f)) :: map num f) l4.
(** A polyhedron has three lines: the number and the point are in the first. *)
Definition seed_block (s : pt * Z) (ls : list (list ascii)) : Prop :=
  exists l1 l2 l3 ws, ls = [l1; l2; l3] /\ point_text F ws (fst s) /\ begins (num (snd s) :: ws) l1.

(** A section: its head, the number of its entries, and the entries. *)
Definition section {A} (w : string) (one : A -> list (list ascii) -> Prop) (xs : list A) (ls : list (list ascii)) : Prop :=
  exists h c lss, ls = h :: c :: List.concat lss /\ head_line w h /\ begins [num (Z.of_nat (List.length xs))] c /\
    Forall2 one xs lss /\ plain c /\ Forall plain (List.concat lss).

(** The three sections in this order, with other lines around them. *)
Definition tess_lines (T : tess) (ls : list (list ascii)) : Prop :=
  exists a l1 b l2 c l3 d, ls = a ++ l1 ++ b ++ l2 ++ c ++ l3 ++ d /\
    Forall plain a /\ Forall plain b /\ Forall plain c /\ Forall plain d /\
    section "**vertex" vertex_block (te_vertices T) l1 /\ section "**face" face_block (te_faces T) l2 /\
    section "**polyhedron" seed_block (te_seeds T) l3.

(** The ids are different, the points have the right dimension, the faces have at
    least three vertices, and these are there. *)
Definition tess_ids (T : tess) : list Z := map fst (te_vertices T).
Definition tess_face_ok (T : tess) (f : list Z) : Prop := 3 <= List.length f /\ incl f (tess_ids T).
Definition tess_ok (T : tess) : Prop :=
  NoDup (tess_ids T) /\ Forall (fun v => right_dim F (snd v)) (te_vertices T) /\ Forall (tess_face_ok T) (te_faces T) /\
  Forall (fun s => right_dim F (fst s)) (te_seeds T).

(** The same vertices and faces with the vertices numbered from zero: each facet is
    one polygon. *)
Definition renumbered (T : tess) (P : poly K) : Prop :=
  po_vertices P = combine (seq 0 (List.length (te_vertices T))) (map snd (te_vertices T)) /\
  Forall2 (fun f g => exists p, g = mkFacet [p] [] /\ Forall2 (fun z k => nth_error (tess_ids T) k = Some z) f p) (te_faces T) (po_facets P).
End SpecNeper.
Arguments tess : clear implicits.
