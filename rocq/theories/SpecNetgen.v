(** Specification vocabulary for reading Netgen files (C67).  Nothing here is used
    by the model. *)
From Coq Require Import Ascii String List Arith ZArith Bool.
From Verif Require Import ModelTopo ModelMesh ModelErase ModelSegmentation ModelSegment ModelCopySeg ModelXml ModelVtk
  SpecMesh SpecErase SpecQuery SpecSegmentation SpecSegment SpecCopy SpecCopySeg SpecVtk.
Import ListNotations.
Open Scope nat_scope.

(** The words of a text, between separators. *)
Definition separator (c : ascii) : bool := existsb (Ascii.eqb c) separators.
Fixpoint split_words (w : list ascii) (s : list ascii) : list (list ascii) :=
  match s with
  | [] => match w with [] => [] | _ => [w] end
  | c :: r =>
      if separator c then match w with [] => split_words [] r | _ => w :: split_words [] r end
      else split_words (w ++ [c]) r
  end.
Definition words_of (s : list ascii) : list (list ascii) := split_words [] s.

(** The text goes on to its end with a word. *)
Definition ends_in_word (s : list ascii) : Prop := exists r c, s = r ++ [c] /\ separator c = false.

Definition num (z : Z) : list ascii := list_ascii_of_string (decimal z).

Section SpecNetgen.
Context {K : Type}.
Variable F : format K.

(** The words of a file with the points [ps] and the cells [cs]; a cell is the number
    of its segment with the numbers of its vertices. *)
Definition point_text (ws : list (list ascii)) (p : list K) : Prop := Forall2 (fun w x => f_rd F w = Some x) ws p.
Definition vertices_part (ps : list (list K)) (ws : list (list ascii)) : Prop :=
  exists wps, Forall2 point_text wps ps /\ ws = num (Z.of_nat (List.length ps)) :: List.concat wps.
Definition cell_words (c : Z * list Z) : list (list ascii) := num (fst c) :: map num (snd c).
Definition cells_part (cs : list (Z * list Z)) : list (list ascii) :=
  num (Z.of_nat (List.length cs)) :: List.concat (map cell_words cs).
Definition file_words (ps : list (list K)) (cs : list (Z * list Z)) (ws : list (list ascii)) : Prop :=
  exists wv, vertices_part ps wv /\ ws = wv ++ cells_part cs.

(** There are points, and they have the dimension of the mesh. *)
Definition points_ok (ps : list (list K)) : Prop := ps <> [] /\ Forall (fun p => List.length p = f_dim F) ps.
(** The cell has as many vertices as cells have; the vertices are different and exist
    (they are counted from 1). *)
Definition cell_ok (cfg : config) (n : nat) (c : Z * list Z) : Prop :=
  List.length (snd c) = nverts (cfg_cell cfg) /\ NoDup (snd c) /\ Forall (fun k => 1 <= k <= Z.of_nat n)%Z (snd c).

(** The mesh and the segmentation are what the file says. *)
Record mesh_of_file (cfg : config) (s : sstate (list K)) (ps : list (list K)) (cs : list (Z * list Z)) : Prop := {
  (* the vertices are the points, in this order, with their positions as ids *)
  mf_points : map (point_at (st_mesh s)) (range (st_mesh s) Vertex) = map Some ps;
  mf_vertex_ids : map (id_at (st_mesh s) Vertex) (range (st_mesh s) Vertex) = map Some (seq 0 (List.length ps));
  (* the cells are those of the file, in this order, on these vertices *)
  mf_cells : Forall2 (fun a c => exists vs, vertices_at (st_mesh s) (cfg_cell cfg) a = Some vs /\
     Forall2 (fun v k => nth_error (range (st_mesh s) Vertex) (Z.to_nat (k - 1)) = Some v) vs (snd c))
     (range (st_mesh s) (cfg_cell cfg)) cs;
  mf_cell_ids : map (id_at (st_mesh s) (cfg_cell cfg)) (range (st_mesh s) (cfg_cell cfg)) = map Some (seq 0 (List.length cs));
  (* the other elements are in the boundary of a cell *)
  mf_rest : forall t a, is_live (st_mesh s) t a -> t <> Vertex -> exists c, In c (range (st_mesh s) (cfg_cell cfg)) /\ part_of (st_mesh s) t a (cfg_cell cfg) c;
  (* a segment contains its cells and their boundaries, and there is no other segment *)
  mf_segments : forall z t x, in_segment_id s z t x <->
     exists i a ks, nth_error cs i = Some (z, ks) /\ nth_error (range (st_mesh s) (cfg_cell cfg)) i = Some a /\ part_of (st_mesh s) t x (cfg_cell cfg) a;
  mf_ids : forall z, (exists a, segment_has_id s a z) <-> In z (map fst cs)
}.

(** Equal but for the next automatic ids of vertices and of cells. *)
Definition same_but_ids (t : tag) (m m' : @mesh (list K)) : Prop :=
  (forall t', m_nodes m t' = m_nodes m' t') /\ (forall t', m_next m t' = m_next m' t') /\
  (forall t', t' <> Vertex -> t' <> t -> m_idgen m t' = m_idgen m' t') /\ m_cc m = m_cc m' /\ m_log m = m_log m'.
Definition same_state_but_ids (t : tag) (s s' : sstate (list K)) : Prop :=
  same_but_ids t (st_mesh s) (st_mesh s') /\ st_segs s = st_segs s' /\ st_con s = st_con s' /\ st_map s = st_map s' /\ st_all s = st_all s'.

End SpecNetgen.
