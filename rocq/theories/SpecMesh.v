(** Specification vocabulary for the mesh properties C01-C10.
    Nothing here is used by the model. *)
From Coq Require Import List Arith Bool Permutation.
From Verif Require Import ModelTopo ModelMesh ModelErase ModelKeyMap.
Import ListNotations.

(** The reference topology, written out as in the manual: for each cell type
    the vertex positions of its k-th line / triangle / quadrilateral. Vertex
    [i] of a quadrilateral or hexahedron sits at the corner of the unit
    square/cube whose coordinates are the binary digits of [i]. *)
Definition ref_facets (t bt : tag) : list (list nat) :=
  match t, bt with
  | Triangle, Line => [[0;1];[0;2];[1;2]]
  | Tet, Line => [[0;1];[0;2];[0;3];[1;2];[1;3];[2;3]]
  | Tet, Triangle => [[0;1;2];[0;1;3];[0;2;3];[1;2;3]]
  | Quad, Line => [[0;1];[0;2];[1;3];[2;3]]
  | Hex, Line => [[0;1];[0;2];[0;4];[1;3];[1;5];[2;3];[2;6];[3;7];[4;5];[4;6];[5;7];[6;7]]
  | Hex, Quad => [[0;1;2;3];[0;1;4;5];[0;2;4;6];[1;3;5;7];[2;3;6;7];[4;5;6;7]]
  | _, _ => []
  end.

(** [sub] consists of the entries of [l] at the positions [idx]. *)
Definition selects {A} (l : list A) (idx : list nat) (sub : list A) : Prop :=
  Forall2 (fun i x => nth_error l i = Some x) idx sub.

Section Spec.
Context {Pt : Type}.
Notation mesh := (@mesh Pt).
Notation element := (@element Pt).

(** The ids of the stored elements of one type, in iteration order. *)
Definition ids_of (m : mesh) (t : tag) : list nat := map (fun n => e_id (n_el n)) (m_nodes m t).

(** A handle refers to an element of the mesh. *)
Definition is_live (m : mesh) (t : tag) (a : addr) : Prop := exists e, deref m t a = Some e.

(** Element types that a mesh with this configuration can contain: the cell
    type and, for non-vertices, types of smaller dimension. *)
Definition in_config (cfg : config) (t : tag) : Prop :=
  t <> Vertex /\ (t = cfg_cell cfg \/ dim t < dim (cfg_cell cfg)).

(** Correct use of the creating operations: the vertices exist and are
    pairwise different; an explicit id is not in use and is not the next
    automatic id (see C02 for what happens otherwise). *)
Definition valid_op (cfg : config) (m : mesh) (o : op Pt) : Prop :=
  match o with
  | OVertex _ => True
  | OVertexId i _ => ~ In i (ids_of m Vertex) /\ i <> id_upper_bound m Vertex
  | OElement t vs => in_config cfg t /\ length vs = nverts t /\ NoDup vs /\
                     Forall (is_live m Vertex) vs
  | OErase _ => False
  | OClear => True
  end.

(** Meshes obtained from an empty mesh by correct use of the creating
    operations and clear. *)
Inductive reach (cfg : config) : mesh -> Prop :=
| reach_empty : reach cfg empty_mesh
| reach_step m o m' : reach cfg m -> valid_op cfg m o -> step cfg m o = Some m' -> reach cfg m'.

(** Histories in which the library chooses all ids / that do not clear. *)
Definition no_explicit (o : op Pt) : Prop := match o with OVertexId _ _ => False | _ => True end.
Definition no_clear (o : op Pt) : Prop := match o with OClear => False | _ => True end.

(** Every explicit id given along the history differs from the
    id_upper_bound of that moment. *)
Fixpoint explicit_ids_guarded (cfg : config) (ops : list (op Pt)) (m : mesh) : Prop :=
  match ops with
  | [] => True
  | o :: ops' =>
      match o with OVertexId i _ => i <> id_upper_bound m Vertex | _ => True end /\
      match step cfg m o with Some m' => explicit_ids_guarded cfg ops' m' | None => True end
  end.

(** Two lists of vertices denote the same set (no repetitions). *)
Definition same_vertices (l1 l2 : list addr) : Prop := Permutation l1 l2.

End Spec.

(** A finite map from keys to values that never overwrites, as a function
    together with its size. *)
Section FiniteMap.
Context {V : Type}.
Definition fmap := (list nat -> option V).
Definition fm_empty : fmap := fun _ => None.
Definition fm_set (k : list nat) (o : option V) (f : fmap) : fmap :=
  fun k' => if list_eq_dec Nat.eq_dec k k' then o else f k'.
(** The reference machine: a finite map and the number of its keys. *)
Definition fm_step (s : fmap * nat) (o : kop V) : (fmap * nat) * kres V :=
  let '(f, n) := s in
  match o with
  | KInsert k v =>
      match f k with
      | Some v0 => ((f, n), RInsert v0 false)
      | None => ((fm_set k (Some v) f, n + 1), RInsert v true)
      end
  | KFind k => ((f, n), RFind (f k))
  | KErase k => ((fm_set k None f, match f k with Some _ => n - 1 | None => n end), RUnit)
  | KClear => ((fm_empty, 0), RUnit)
  | KSize => ((f, n), RSize n)
  end.
Fixpoint fm_run (ops : list (kop V)) (s : fmap * nat) : list (kres V) :=
  match ops with
  | [] => []
  | o :: ops' => let '(s', r) := fm_step s o in r :: fm_run ops' s'
  end.
End FiniteMap.
Arguments fmap : clear implicits.
