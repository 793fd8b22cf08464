(** Specification vocabulary for reading .bnd files (C75).  Nothing here is used by
    the model. *)
From Coq Require Import List Arith ZArith Bool Sorted.
From Verif Require Import ModelTopo ModelMesh ModelErase ModelSegmentation ModelSegment ModelCopySeg ModelBnd
  SpecMesh SpecErase SpecQuery SpecSegmentation SpecSegment SpecCopy SpecCopySeg.
Import ListNotations.
Open Scope nat_scope.

(** The entry number [i] of a list. *)
Definition entry {A} (l : list A) (i : Z) (x : A) : Prop := (0 <= i)%Z /\ nth_error l (Z.to_nat i) = Some x.

Section SpecBnd.
Context {K : Type}.
Variable b : @bnd K.

(** Numbers of edges and of faces: -1 is the entry 0 the other way round, -2 the
    entry 1 the other way round, and so on. *)
Definition refers {A} (l : list A) (i : Z) (x : A) : Prop := entry l i x \/ (i < 0)%Z /\ entry l (-1 - i) x.
(** The edge [e] ends in [v]. *)
Definition ends_in (e v : Z) : Prop := exists uw, refers (b_edges b) e uw /\ (v = fst uw \/ v = snd uw).
(** [vs] are the corners of the face [f] in increasing order: the ends of the edges. *)
Definition corners_of (f : Z) (vs : list Z) : Prop :=
  exists es, refers (b_faces b) f es /\ (forall e, In e es -> exists uw, refers (b_edges b) e uw) /\
    StronglySorted Z.lt vs /\ forall v, In v vs <-> exists e, In e es /\ ends_in e v.
(** The face is a triangle, and its corners are points of the file. *)
Definition triangle_of (f : Z) (vs : list Z) : Prop :=
  corners_of f vs /\ length vs = 3 /\ forall v, In v vs -> exists p, entry (b_points b) v p.
(** The element is a polyhedron with these triangles. *)
Definition polyhedron_of (e : element) (ts : list (list Z)) : Prop := exists fs, e = Polyhedron fs /\ Forall2 triangle_of fs ts.
(** The element is a polyhedron whose faces have these corners, at points of the file. *)
Definition solid_of (e : element) (ts : list (list Z)) : Prop :=
  exists fs, e = Polyhedron fs /\ Forall2 (fun f vs => corners_of f vs /\ forall v, In v vs -> exists p, entry (b_points b) v p) fs ts.

(** The mesh and the segmentation are what the file says: [segs] are the segments, as
    lists of triangles. *)
Definition triangle_in (segs : list (list (list Z))) (ts : list Z) : Prop := exists T, In T segs /\ In ts T.
Definition corner_in (segs : list (list (list Z))) (i : Z) : Prop := exists ts, triangle_in segs ts /\ In i ts.
Record surface_of (cfg : config) (s : sstate (list K)) (segs : list (list (list Z))) (vertex : Z -> addr) (cell : list Z -> addr) : Prop := {
  sf_reach : sreach cfg s;
  (* one vertex for every number that is used, at its point, and no others *)
  sf_vertices : forall v, is_live (st_mesh s) Vertex v <-> exists i, corner_in segs i /\ v = vertex i;
  sf_once : forall i j, corner_in segs i -> corner_in segs j -> vertex i = vertex j -> i = j;
  sf_points : forall i p, corner_in segs i -> entry (b_points b) i p -> point_at (st_mesh s) (vertex i) = Some p;
  (* one triangle for every set of three corners of a face, and no others *)
  sf_cells : forall a, is_live (st_mesh s) Triangle a <-> exists ts, triangle_in segs ts /\ a = cell ts;
  sf_corners : forall ts, triangle_in segs ts -> vertices_at (st_mesh s) Triangle (cell ts) = Some (map vertex ts);
  sf_rest : forall t x, is_live (st_mesh s) t x -> exists ts, triangle_in segs ts /\ part_of (st_mesh s) t x Triangle (cell ts);
  (* the segment number k has the triangles of the element number k with their boundaries *)
  sf_segments : forall z t x, in_segment_id s z t x <->
     exists k T ts, z = Z.of_nat k /\ nth_error segs k = Some T /\ In ts T /\ part_of (st_mesh s) t x Triangle (cell ts);
  sf_ids : forall z, (exists a, segment_has_id s a z) <-> (0 <= z < Z.of_nat (length segs))%Z
}.
End SpecBnd.
