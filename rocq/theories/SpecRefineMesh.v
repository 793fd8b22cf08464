(** Specification vocabulary for the refinement of meshes (C39, C40).
    Nothing here is used by the model. *)
From Coq Require Import Reals List Arith Bool.
From Verif Require Import ModelTopo ModelMesh ModelErase ModelGeom ModelRefineMesh SpecMesh SpecErase SpecCopy SpecRefine SpecTri.
Import ListNotations.

Section SpecRefineMesh.
Variable d : nat.
Notation mesh := (@mesh point).

(** [pos] and [vid] are the points and ids of the vertices of the mesh. *)
Definition reads (m : mesh) (pos : addr -> point) (vid : addr -> nat) : Prop :=
  forall a e, deref m Vertex a = Some e -> e_pt e = Some (pos a) /\ e_id e = vid a.

(** [cs] are the cells into which C33 (triangles) and C34 (tetrahedra) split the
    cell [c] of [src]; [phi] and [mu] give the vertices of [out] for the vertices
    and the edges of [src]. *)
Definition is_split (src out : mesh) (t : tag) (fl : addr -> bool) (phi mu : addr -> addr) (c : addr) (cs : list (list addr)) : Prop :=
  exists e, deref src t c = Some e /\
    forall pos vid, reads out pos vid ->
      children d t pos vid (fun i => phi (nth i (e_verts e) 0)) (fun k => mu (nth k (boundary_of e Line) 0))
        (fun k => fl (nth k (boundary_of e Line) 0)) = Some cs.

(** [out'] is [out] with the refinement of [src] added; the new vertices of the
    flagged edges are where [new_point] says. *)
Record is_refinement_at (new_point : point -> point -> point -> Prop) (src out out' : mesh) (t : tag) (fl : addr -> bool) (phi mu : addr -> addr) : Prop := {
  (* the old vertices, one for each flagged edge, one for each used vertex *)
  rf_vertices : range out' Vertex = range out Vertex ++ map mu (filter fl (range src Line)) ++
                                    map phi (first_uses (corners src t (range src t)));
  (* all different *)
  rf_distinct : NoDup (range out' Vertex);
  (* the copied vertices are where they were *)
  rf_points : forall x, In x (corners src t (range src t)) -> point_at src x <> None /\ point_at out' (phi x) = point_at src x;
  (* the new ones on their edges *)
  rf_middles : forall a, In a (range src Line) -> fl a = true -> exists v w p q mp,
     vertices_at src Line a = Some [v; w] /\ point_at src v = Some p /\ point_at src w = Some q /\
     point_at out' (mu a) = Some mp /\ new_point p q mp;
  (* every old element is unchanged *)
  rf_old : forall t' a e, deref out t' a = Some e -> deref out' t' a = Some e;
  (* the new cells are the parts of the cells of [src], in order *)
  rf_cells : exists new css, range out' t = range out t ++ new /\
     map (vertices_at out' t) new = map Some (concat css) /\
     Forall2 (is_split src out' t fl phi mu) (range src t) css /\
     (* every new element that is not a cell or vertex belongs to one of them *)
     forall t' a e, t' <> Vertex -> deref out' t' a = Some e -> deref out t' a = Some e \/
       exists c ec, In c new /\ deref out' t c = Some ec /\ incl (e_verts e) (e_verts ec)
}.

(** The refinement with the new vertices in the middle of the edges. *)
Definition middle_point (p q mp : point) : Prop := forall i, mp i = ((p i + q i) / 2)%R.
Definition is_refinement := is_refinement_at middle_point.

(** The vertex [u] of the refined mesh is on the face of [src] with the vertices
    [face]: a vertex of the face or the vertex of a flagged edge of it. *)
Definition on_face (src : mesh) (fl : addr -> bool) (phi mu : addr -> addr) (face : list addr) (u : addr) : Prop :=
  (exists x, In x face /\ u = phi x) \/
  (exists a v w, fl a = true /\ vertices_at src Line a = Some [v; w] /\ In v face /\ In w face /\ u = mu a).

End SpecRefineMesh.
