(** Property C27: vector algebra. *)
From Coq Require Import Reals List Arith Lra Lia Permutation.
From Verif Require Import ModelMesh ModelGeom ModelVolume SpecRefine SpecGeom VectorProofs.
Import ListNotations.

(** The scalar product is symmetric, bilinear and positive definite, and
    satisfies the Cauchy-Schwarz inequality, in every dimension. *)
Theorem C27_inner_prod : forall d p q r c,
  inner_prod d p q = inner_prod d q p /\
  inner_prod d (padd p q) r = (inner_prod d p r + inner_prod d q r)%R /\
  inner_prod d (psub p q) r = (inner_prod d p r - inner_prod d q r)%R /\
  inner_prod d (pscale c p) q = (c * inner_prod d p q)%R /\
  (0 <= inner_prod d p p)%R /\
  (inner_prod d p p = 0%R <-> forall i, (i < d)%nat -> p i = 0%R) /\
  (inner_prod d p q ^ 2 <= inner_prod d p p * inner_prod d q q)%R.
Proof. exact C27_inner_prod_pf. Qed.
Print Assumptions C27_inner_prod.

(** norm(p, one_norm_tag), norm_2 and norm(p, inf_norm_tag) are norms in every
    dimension, and the 2-norm is the one of the scalar product. *)
Theorem C27_norms : forall d,
  is_norm d (norm_1 d) /\ is_norm d (norm_2 d) /\ is_norm d (norm_inf d) /\
  forall p, (norm_2 d p ^ 2 = inner_prod d p p)%R.
Proof. exact C27_norms_pf. Qed.
Print Assumptions C27_norms.

(** The cross product (in space) is bilinear and antisymmetric, orthogonal to
    both factors, and its length is the area of the spanned parallelogram; it
    vanishes exactly for parallel vectors. *)
Theorem C27_cross_prod : forall p q r c i, (i < 3)%nat ->
  cross_prod p q i = (- cross_prod q p i)%R /\
  cross_prod (padd p q) r i = (cross_prod p r i + cross_prod q r i)%R /\
  cross_prod (pscale c p) q i = (c * cross_prod p q i)%R /\
  inner_prod 3 p (cross_prod p q) = 0%R /\
  inner_prod 3 q (cross_prod p q) = 0%R /\
  (norm_2 3 (cross_prod p q) ^ 2 = inner_prod 3 p p * inner_prod 3 q q - inner_prod 3 p q ^ 2)%R /\
  ((forall j, (j < 3)%nat -> cross_prod p q j = 0%R) <->
   exists s t, (s <> 0 \/ t <> 0)%R /\ forall j, (j < 3)%nat -> (s * p j + t * q j = 0)%R).
Proof. exact C27_cross_prod_pf. Qed.
Print Assumptions C27_cross_prod.

Example C27_witness : cross_prod (fun i => match i with 0 => 1 | _ => 0 end)%R (fun i => match i with 1 => 1 | _ => 0 end)%R 2 = 1%R.
Proof. cbn. ring. Qed.
