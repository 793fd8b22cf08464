(** Model of the vector operations on points: viennagrid/point.hpp,
    algorithm/norm.hpp, algorithm/inner_prod.hpp, algorithm/cross_prod.hpp.
    Definitions only.

    A point of dimension [d] is a function whose values at 0..d-1 are its
    coordinates (spatial_point<CoordType, cartesian_cs<d>>, point.hpp:528-572).
    Simplification: CoordType is the exact real numbers; rounding and overflow
    of floating point numbers are not modelled. *)
From Coq Require Import Reals List.
Import ListNotations.
Local Open Scope R_scope.

Definition point := nat -> R.

(** The loops [for i < size()]: the sum of [f 0 .. f (d-1)]. *)
Fixpoint sum_upto (d : nat) (f : nat -> R) : R :=
  match d with O => 0 | S d' => sum_upto d' f + f d' end.

(** point.hpp:265-277 and 634-637, cartesian_cs::add, operator+. *)
Definition padd (p q : point) : point := fun i => p i + q i.

(** point.hpp:291-303, cartesian_cs::subtract, operator- (647-650). *)
Definition psub (p q : point) : point := fun i => p i - q i.

(** point.hpp:317-325, cartesian_cs::inplace_stretch; operator*(point, factor)
    and operator*(factor, point) (point.hpp:662-681, 714-719). *)
Definition pscale (c : R) (p : point) : point := fun i => p i * c.

(** point.hpp:669-688, operator/= and operator/: stretch by 1.0 / factor. *)
Definition pdiv (p : point) (c : R) : point := fun i => p i * (1 / c).

(** algorithm/inner_prod.hpp:35-81 (one, two and three dimensions written out
    in the code; here the sum over all coordinates). *)
Definition inner_prod (d : nat) (p q : point) : R := sum_upto d (fun i => p i * q i).

(** algorithm/norm.hpp:46-58, the 1-norm. *)
Definition norm_1 (d : nat) (p : point) : R := sum_upto d (fun i => Rabs (p i)).

(** algorithm/norm.hpp:61-72, the 2-norm; viennagrid::norm(p) without tag is
    this one (norm.hpp:124-129). *)
Definition norm_2 (d : nat) (p : point) : R := sqrt (sum_upto d (fun i => p i * p i)).

(** algorithm/norm.hpp:75-88, the inf-norm: running maximum starting at 0. *)
Fixpoint norm_inf (d : nat) (p : point) : R :=
  match d with
  | O => 0
  | S d' => if Rlt_dec (norm_inf d' p) (Rabs (p d')) then Rabs (p d') else norm_inf d' p
  end.

(** algorithm/cross_prod.hpp:59-69, three dimensions. *)
Definition cross_prod (p q : point) : point := fun i =>
  match i with
  | O => p 1%nat * q 2%nat - p 2%nat * q 1%nat
  | S O => p 2%nat * q O - p O * q 2%nat
  | S (S O) => p O * q 1%nat - p 1%nat * q O
  | _ => 0
  end.
