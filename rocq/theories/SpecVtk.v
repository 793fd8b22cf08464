(** Specification vocabulary for writing and reading VTK files (C61-C63).
    Nothing here is used by the model. *)
From Coq Require Import Ascii String List Arith ZArith Bool.
From Verif Require Import ModelTopo ModelMesh ModelErase ModelSegmentation ModelSegment ModelCopySeg ModelXml ModelVtk
  SpecMesh SpecErase SpecQuery SpecSegmentation SpecSegment SpecCopy SpecCopySeg SpecXml.
Import ListNotations.
Open Scope nat_scope.

Section SpecVtk.
Context {Pt : Type}.

(** Two meshes are equal but for the next automatic id of a vertex. *)
Definition same_but_generator (m m' : @mesh Pt) : Prop :=
  (forall t, m_nodes m t = m_nodes m' t) /\ (forall t, m_next m t = m_next m' t) /\
  (forall t, t <> Vertex -> m_idgen m t = m_idgen m' t) /\ m_cc m = m_cc m' /\ m_log m = m_log m'.
Definition same_state_but_generator (s s' : sstate Pt) : Prop :=
  same_but_generator (st_mesh s) (st_mesh s') /\ st_segs s = st_segs s' /\ st_con s = st_con s' /\ st_map s = st_map s' /\ st_all s = st_all s'.

End SpecVtk.

Section Format.
Context {K : Type}.
Variable F : format K.
(** What is left of a number that is written and read. *)
Variable rnd : K -> K.

(** Blank, tab, line feed, vertical tab, form feed and carriage return. *)
Definition separators : list ascii := [" "; "009"; "010"; "011"; "012"; "013"]%char.

(** A sane notation of numbers, in at most three dimensions: a number is written as
    one word without brackets and read back as the rounded number; "0" can be
    read; a rounded number equals itself (there is no NaN). *)
Record sane_format : Prop := {
  sf_word : forall x, f_wr F x <> [] /\ free_of ("<"%char :: separators) (f_wr F x);
  sf_read : forall x, f_rd F (f_wr F x) = Some (rnd x);
  sf_zero : f_rd F (list_ascii_of_string "0") <> None;
  sf_equal : forall x, f_eqb F (rnd x) (rnd x) = true;
  sf_dim : f_dim F <= 3
}.

(** Two points are equal as point_less sees them. *)
Definition equal_points (p q : list K) : Prop := Forall2 (fun x y => f_eqb F x y = true) p q.

(** A quantity can be written: its name can stand in an attribute, and it has one or
    three components. *)
Definition quantity_ok (q : @quantity K) : Prop :=
  attr_value_ok (fst q) /\ (fst (snd q) = 1 \/ fst (snd q) = 3) /\ forall a, List.length (snd (snd q) a) = fst (snd q).

Variable m : @mesh (list K).
Variable t : tag.
(** Which cells are written to the file of which segment. *)
Variable member : Z -> addr -> Prop.

(** The vertices of these cells. *)
Definition used_by (z : Z) (v : addr) : Prop := exists c vs, member z c /\ vertices_at m t c = Some vs /\ In v vs.

(** The mesh can be written and read: its points have the dimension of the format;
    different used vertices are still at different points after rounding; no two
    of the cells have the same vertices in the same order. *)
Record writable : Prop := {
  w_dim : forall v p, point_at m v = Some p -> List.length p = f_dim F;
  w_points : forall z v z' w p q, used_by z v -> used_by z' w -> point_at m v = Some p -> point_at m w = Some q ->
     equal_points (map rnd p) (map rnd q) -> v = w;
  w_cells : forall z c z' c', member z c -> member z' c' -> vertices_at m t c = vertices_at m t c' -> c = c'
}.

(** [dst] is what was written, under the maps [phi] of vertices and [psi] of cells. *)
Record read_back (dst : sstate (list K)) (phi psi : addr -> addr) : Prop := {
  (* the vertices are the images of the used vertices, one each, at the rounded points *)
  rb_vertices : forall a, is_live (st_mesh dst) Vertex a <-> exists z v, used_by z v /\ a = phi v;
  rb_vertices_inj : forall z v z' w, used_by z v -> used_by z' w -> phi v = phi w -> v = w;
  rb_points : forall z v, used_by z v -> exists p, point_at m v = Some p /\ point_at (st_mesh dst) (phi v) = Some (map rnd p);
  (* the cells are the images of the written cells, one each, on the images of their vertices *)
  rb_cells : forall a, is_live (st_mesh dst) t a <-> exists z c, member z c /\ a = psi c;
  rb_cells_inj : forall z c z' c', member z c -> member z' c' -> psi c = psi c' -> c = c';
  rb_verts : forall z c, member z c -> exists vs, vertices_at m t c = Some vs /\ vertices_at (st_mesh dst) t (psi c) = Some (map phi vs);
  (* every other element belongs to a cell *)
  rb_rest : forall t' a vs, t' <> Vertex -> vertices_at (st_mesh dst) t' a = Some vs ->
     exists z c ws, member z c /\ vertices_at (st_mesh dst) t (psi c) = Some ws /\ incl vs ws;
  (* the cell is in the same segments *)
  rb_segments : forall z c z', member z c -> (in_segment_id dst z' t (psi c) <-> member z' c);
  (* and the segments contain nothing but their cells and the parts of them *)
  rb_parts : forall z t' x, in_segment_id dst z t' x <-> exists c, member z c /\ part_of (st_mesh dst) t' x t (psi c)
}.

(** [d] is the delivery for the segment [z] of the quantity [q] on the elements
    [els]: one assignment of the rounded value to the image of every element. *)
Definition delivers (z : Z) (cell : bool) (q : @quantity K) (els : addr -> Prop) (image : addr -> addr) (d : @delivery K) : Prop :=
  dl_seg d = z /\ dl_cell d = cell /\ dl_name d = fst q /\
  exists us, NoDup us /\ (forall x, In x us <-> els x) /\ dl_values d = map (fun x => (image x, map rnd (snd (snd q) x))) us.

(** All quantities of all segments are delivered, and nothing else. *)
Definition all_delivered (zs : list Z) (vq cq : Z -> list (@quantity K)) (phi psi : addr -> addr) (ds : list (@delivery K)) : Prop :=
  (forall z q, In z zs -> In q (vq z) -> exists d, In d ds /\ delivers z false q (used_by z) phi d) /\
  (forall z q, In z zs -> In q (cq z) -> exists d, In d ds /\ delivers z true q (member z) psi d) /\
  (forall d, In d ds -> exists z q, In z zs /\
     (In q (vq z) /\ delivers z false q (used_by z) phi d \/ In q (cq z) /\ delivers z true q (member z) psi d)) /\
  List.length ds = fold_right (fun z n => List.length (vq z) + List.length (cq z) + n) 0 zs.

End Format.

(** The directory has the files [fl]. *)
Definition has_files (fs : list ascii -> option (list ascii)) (fl : list (list ascii * list ascii)) : Prop :=
  forall n s, In (n, s) fl -> fs n = Some s.
