(** Property C26: spanned volumes. *)
From Coq Require Import Reals List Arith Lra Lia Permutation.
From Verif Require Import ModelMesh ModelGeom ModelVolume SpecRefine SpecGeom SpannedProofs.
Import ListNotations.

(** spanned_volume is the k-dimensional volume of the simplex: it is
    non-negative and its square times (k!)^2 is the Gram determinant of the edge
    vectors (k = number of points minus one). *)
Theorem C26_is_euclidean_volume : forall d ps v, spanned_volume d ps = Some v ->
  (0 <= v /\ (INR (fact (length ps - 1)) * v) ^ 2 = det (gram d (edge_vectors ps)))%R.
Proof. exact C26_is_euclidean_volume_pf. Qed.
Print Assumptions C26_is_euclidean_volume.

(** The overloads: one for two to d+1 points in one to three dimensions. *)
Theorem C26_defined_for : forall d ps,
  spanned_volume d ps <> None <-> (1 <= d <= 3 /\ 2 <= length ps <= d + 1)%nat.
Proof. exact C26_defined_for_pf. Qed.
Print Assumptions C26_defined_for.

(** Any permutation of the points spans the same volume. *)
Theorem C26_permutation : forall d ps qs v, Permutation ps qs ->
  spanned_volume d ps = Some v -> spanned_volume d qs = Some v.
Proof. exact C26_permutation_pf. Qed.
Print Assumptions C26_permutation.

(** Translation changes no volume. *)
Theorem C26_translation : forall d t ps, spanned_volume d (map (padd t) ps) = spanned_volume d ps.
Proof. exact C26_translation_pf. Qed.
Print Assumptions C26_translation.

(** Scaling all points by s multiplies the volume of a k-simplex by |s|^k. *)
Theorem C26_scaling : forall d s ps v, spanned_volume d ps = Some v ->
  spanned_volume d (map (pscale s) ps) = Some (Rabs s ^ (length ps - 1) * v)%R.
Proof. exact C26_scaling_pf. Qed.
Print Assumptions C26_scaling.

(** The volume is zero exactly if the points are affinely dependent. *)
Theorem C26_zero_iff_dependent : forall d ps v, spanned_volume d ps = Some v ->
  (v = 0%R <-> ~ independent d ps).
Proof. exact C26_zero_iff_dependent_pf. Qed.
Print Assumptions C26_zero_iff_dependent.

(** signed_spanned_volume of d+1 points in d dimensions: its absolute value is
    the volume, it is the determinant of the edge vectors divided by d!, and
    exchanging two points changes its sign. *)
Theorem C26_signed_orientation : forall d ps v, length ps = (d + 1)%nat ->
  signed_spanned_volume d ps = Some v ->
  (INR (fact d) * v = det (map (fun e => map e (seq 0 d)) (edge_vectors ps)))%R /\
  spanned_volume d ps = Some (Rabs v) /\
  forall pre x y post, ps = pre ++ x :: y :: post ->
    signed_spanned_volume d (pre ++ y :: x :: post) = Some (- v)%R.
Proof. exact C26_signed_orientation_pf. Qed.
Print Assumptions C26_signed_orientation.

(** The unit triangle and tetrahedron. *)
Definition unit_vec (k i : nat) : R := if Nat.eqb k i then 1%R else 0%R.
Example C26_witness : spanned_volume 3 [fun _ => 0%R; unit_vec 0; unit_vec 1; unit_vec 2] = Some (1 / 6)%R /\
  spanned_volume 2 [fun _ => 0%R; unit_vec 0; unit_vec 1] = Some (1 / 2)%R.
Proof.
  unfold spanned_volume, signed_spanned_volume, inner_prod, cross_prod, psub, unit_vec. cbn. split; f_equal; rewrite Rabs_pos_eq; lra.
Qed.
