(** Specification vocabulary for copying between meshes (C23, C41).
    Nothing here is used by the model. *)
From Coq Require Import List Arith Bool.
From Verif Require Import ModelTopo ModelMesh ModelErase SpecMesh SpecErase.
Import ListNotations.

(** The list without later repetitions, in order of first occurrence. *)
Definition first_uses (l : list addr) : list addr :=
  fold_left (fun acc x => if memb x acc then acc else acc ++ [x]) l [].

Section SpecCopy.
Context {Pt : Type}.
Notation mesh := (@mesh Pt).

(** The vertices of an element, and the point of a vertex; [None]: no such element. *)
Definition vertices_at (m : mesh) (t : tag) (a : addr) : option (list addr) := option_map e_verts (deref m t a).
Definition point_at (m : mesh) (a : addr) : option Pt := obind (deref m Vertex a) e_pt.

(** The vertices of the elements [cs], one element after the other. *)
Definition corners (m : mesh) (t : tag) (cs : list addr) : list addr :=
  flat_map (fun c => match vertices_at m t c with Some vs => vs | None => [] end) cs.

(** [dst] is the copy of the elements [cs] of [src] under the vertex map [phi]. *)
Record is_copy (src dst : mesh) (t : tag) (cs : list addr) (phi : addr -> addr) : Prop := {
  (* one element for each of [cs], in order, on the images of its vertices *)
  ic_cells : map (vertices_at dst t) (range dst t) = map (fun c => option_map (map phi) (vertices_at src t c)) cs;
  (* the vertices are the images of the used vertices, in order of first use *)
  ic_verts : range dst Vertex = map phi (first_uses (corners src t cs));
  (* different vertices have different images *)
  ic_inj : forall x y, In x (corners src t cs) -> In y (corners src t cs) -> phi x = phi y -> x = y;
  (* with the same points *)
  ic_points : forall x, In x (corners src t cs) -> point_at src x <> None /\ point_at dst (phi x) = point_at src x;
  (* every other element belongs to a copied one *)
  ic_rest : forall t' a vs, t' <> Vertex -> vertices_at dst t' a = Some vs ->
     exists c ws, In c (range dst t) /\ vertices_at dst t c = Some ws /\ incl vs ws
}.

End SpecCopy.
