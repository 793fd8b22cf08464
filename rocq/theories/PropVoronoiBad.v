(** C64: the Voronoi boxes of a tetrahedron do not add up to its volume. *)
From Coq Require Import Reals List Arith Bool Lia Lra.
From Verif Require Import ModelTopo ModelMesh ModelGeom ModelVolume ModelVoronoi SpecMesh SpecQuery SpecRefine SpecGeom SpecDistance SpecSurface SpecVoronoi VoronoiBadProofs.
Import ListNotations.
Local Open Scope R_scope.
(** If the edges at a corner of a single tetrahedron are at right angles to each other, the boxes have at
    least one and a half times the volume of the tetrahedron (the circumcenter is
    outside, and nothing is subtracted). *)
Theorem C64_tetrahedra_refuted : forall a b c, / 10 ^ 10 <= a -> 0 < b -> 0 < c ->
  exists m s', reach (full_config Tet) m /\ lists_exactly [0%nat] (is_live m Tet) /\ lists_exactly [0; 1; 2; 3]%nat (is_live m Vertex) /\
    has_points m Tet 0%nat [space 0 0 0; space a 0 0; space 0 b 0; space 0 0 c] /\ has_volume 3 m Tet 0%nat (a * b * c / 6) /\
    voronoi_tets m no_voronoi = Some s' /\ Rsum (map (increase no_voronoi s' VertexBox) [0; 1; 2; 3]%nat) >= 3 / 2 * (a * b * c / 6).
Proof. exact C64_tetrahedra_refuted_pf. Qed.
Print Assumptions C64_tetrahedra_refuted.

Example ex_vo_corner : / 10 ^ 10 <= 1 /\ 0 < 2 /\ 0 < 3.
Proof. split; [|lra]. rewrite <- Rinv_1. apply Rinv_le_contravar; [lra|]. apply pow_R1_Rle. lra. Qed.
