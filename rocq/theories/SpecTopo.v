(** Specification vocabulary for the topology properties C09, C10. *)
From Coq Require Import List Arith Bool.
Import ListNotations.

(** Corner [i] of the unit square or cube has the binary digits of [i] as
    coordinates. *)
Definition corner (i d : nat) : bool := Nat.testbit i d.

(** Two corners are joined by an edge when they differ in exactly one of the
    [n] coordinates. *)
Definition adjacent (n i j : nat) : bool :=
  Nat.eqb (length (filter (fun d => xorb (corner i d) (corner j d)) (seq 0 n))) 1.

(** The corners of the cube with coordinate [d] equal to [b]. *)
Definition cube_face (d : nat) (b : bool) : list nat := filter (fun i => Bool.eqb (corner i d) b) (seq 0 8).
