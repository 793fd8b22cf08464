(** C64: the Voronoi boxes of a tetrahedron do not add up to its volume. *)
From Coq Require Import Reals List Arith Bool Lia Lra.
From Verif Require Import ModelTopo ModelMesh ModelGeom ModelVolume ModelVoronoi SpecMesh SpecQuery SpecRefine SpecGeom SpecDistance SpecSurface SpecVoronoi VoronoiTet.
Import ListNotations.
Local Open Scope R_scope.

Lemma C64_tetrahedra_refuted_pf : forall a b c, / 10 ^ 10 <= a -> 0 < b -> 0 < c ->
  exists m s', reach (full_config Tet) m /\ lists_exactly [0%nat] (is_live m Tet) /\ lists_exactly [0; 1; 2; 3]%nat (is_live m Vertex) /\
    has_points m Tet 0%nat [space 0 0 0; space a 0 0; space 0 b 0; space 0 0 c] /\ has_volume 3 m Tet 0%nat (a * b * c / 6) /\
    voronoi_tets m no_voronoi = Some s' /\ Rsum (map (increase no_voronoi s' VertexBox) [0; 1; 2; 3]%nat) >= 3 / 2 * (a * b * c / 6).
Proof. exact corner_boxes. Qed.
