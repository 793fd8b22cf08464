(** Specification vocabulary for the OpenDX writer (C77).
    Nothing here is used by the model. *)
From Coq Require Import Reals List Arith ZArith String.
From Verif Require Import ModelTopo ModelMesh ModelErase ModelOpendx SpecMesh SpecErase SpecCopy.
Import ListNotations.

(** The numbers [ix] are the positions, counted from 0, of the vertices of a cell in the
    list of the vertices of the mesh. *)
Definition cell_at {Pt} (m : @mesh Pt) (t : tag) (c : addr) (ix : list nat) : Prop :=
  exists vs, vertices_at m t c = Some vs /\ map (nth_error (range m Vertex)) ix = map Some vs.

(** The id of every vertex is its position. *)
Definition ids_are_positions {Pt} (m : @mesh Pt) : Prop :=
  forall k v, nth_error (range m Vertex) k = Some v -> id_at m Vertex v = Some k.

(** A history in which no id is chosen by the user and nothing is erased. *)
Definition plain_op {Pt} (o : op Pt) : Prop := match o with OVertexId _ _ | OErase _ => False | _ => True end.
Inductive plain_reach {Pt} (cfg : config) : @mesh Pt -> Prop :=
| plain_empty : plain_reach cfg empty_mesh
| plain_step m o m' : plain_reach cfg m -> plain_op o -> valid_op cfg m o -> step cfg m o = Some m' -> plain_reach cfg m'.

(** Element types of OpenDX by name: type of the elements and number of corners. *)
Definition dx_names (s : string) (t : tag) : Prop :=
  (s = "line"%string /\ t = Line) \/ (s = "triangles"%string /\ t = Triangle) \/ (s = "tetrahedra"%string /\ t = Tet).

(** [z] times 1/100000 is [v], but for the rounding to five digits. *)
Definition five_digits_of (v : R) (z : Z) : Prop := (Rabs (IZR z / 100000 - v) <= / 200000)%R.

(** The registrations of quantities on [w], in order. *)
Definition registered (w : target) (l : list (target * quantity)) (q : quantity) : Prop := In (w, q) l.
(** The last registered quantity of its name. *)
Definition latest (w : target) (l : list (target * quantity)) (q : quantity) : Prop :=
  exists a b, l = a ++ (w, q) :: b /\ forall r, registered w b r -> fst r <> fst q.
(** The last registered quantity of the first name in alphabetic order. *)
Definition least (w : target) (l : list (target * quantity)) (q : quantity) : Prop :=
  latest w l q /\ forall r, registered w l r -> String.compare (fst q) (fst r) <> Gt.
