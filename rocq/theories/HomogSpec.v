(** Specification of the homogeneous transformations. *)
From Verif Require Import HomogModel.

(** The last row is 0, ..., 0, 1. *)
Definition affine (n : nat) (m : matrixf) : Prop := (forall j, (j < n)%nat -> m n j = 0) /\ m n n = 1.
(** The columns of the upper left n by n part are unit vectors perpendicular to one another. *)
Definition rigid (n : nat) (m : matrixf) : Prop :=
  forall i j, (i < n)%nat -> (j < n)%nat -> sum_to (fun k => m k i * m k j) n = if Nat.eqb i j then 1 else 0.
Definition dist_sqr (n : nat) (p q : coordf) : R := sum_to (fun i => (p i - q i) * (p i - q i)) n.
(** The same first n coordinates. *)
Definition same (n : nat) (p q : coordf) : Prop := forall i, (i < n)%nat -> p i = q i.
