(** Specification vocabulary for the distance to boundaries (C50).
    Nothing here is used by the model. *)
From Coq Require Import Reals List.
From Verif Require Import ModelTopo ModelMesh ModelQuery ModelGeom SpecMesh SpecQuery SpecRefine SpecGeom SpecClosest.
Import ListNotations.
Local Open Scope R_scope.

(** The live element [a] of type [t] has the points [ps]. *)
Definition has_points (m : @mesh point) (t : tag) (a : addr) (ps : list point) : Prop :=
  exists e, deref m t a = Some e /\
    match t with
    | Vertex => exists p, e_pt e = Some p /\ ps = [p]
    | _ => Forall2 (fun v p => exists ev, deref m Vertex v = Some ev /\ e_pt ev = Some p) (e_verts e) ps
    end.

(** The region of an element: the convex hull of its points; a quadrilateral is
    taken as the union of the triangles 0-1-2 and 1-3-2 and a hexahedron as the
    union of the six tetrahedra along its diagonal. *)
Definition in_element (d : nat) (t : tag) (ps : list point) (x : point) : Prop :=
  match t, ps with
  | Quad, [a; b; c; e] => in_union d [[a; b; c]; [b; e; c]] x
  | Hex, _ => in_union d (diagonal_tets ps) x
  | _, _ => in_hull d ps x
  end.

(** The element is not degenerate. *)
Definition solid (d : nat) (t : tag) (ps : list point) : Prop :=
  match t, ps with
  | Vertex, _ | Line, _ => True
  | Quad, [a; b; c; e] => independent d [a; b; c] /\ independent d [b; e; c]
  | Hex, _ => forall c, In c (diagonal_tets ps) -> independent d c
  | _, _ => independent d ps
  end.

(** The boundary of the mesh: the points of the facets that belong to exactly
    one cell. *)
Definition on_mesh_boundary (cfg : config) (d : nat) (m : @mesh point) (x : point) : Prop :=
  exists f ps, on_one_cell cfg m f /\ has_points m (facet_tag (cfg_cell cfg)) f ps /\
    in_element d (facet_tag (cfg_cell cfg)) ps x.

(** The union of lines given by their end points. *)
Definition on_lines (d : nat) (ls : list (point * point)) (x : point) : Prop :=
  exists l, In l ls /\ in_hull d [fst l; snd l] x.
(** The lines are not degenerate, and parallel or not nearly so. *)
Definition comparable (d : nat) (l1 l2 : point * point) : Prop :=
  ~ same_point d (fst l1) (snd l1) /\ ~ same_point d (fst l2) (snd l2) /\
  (parallel d (fst l1) (snd l1) (fst l2) (snd l2) \/ ~ nearly_parallel d (fst l1) (snd l1) (fst l2) (snd l2)).
(** [r] is the distance of the sets [S] and [T]: attained, and no pair is nearer. *)
Definition set_distance (d : nat) (S T : point -> Prop) (r : R) : Prop :=
  exists x y, nearest_pair d S T x y /\ r = dist d x y.
