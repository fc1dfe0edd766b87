(** Specification: the first digits of pi. *)
From Coq Require Import Reals QArith Qreals.

(** [q] is pi with its first [n] decimal digits (the digit 3 counted) and no others. *)
Definition first_digits (n : nat) (q : Q) : Prop :=
  exists m : Z, (Q2R q * 10 ^ (n - 1) = IZR m /\ IZR m <= PI * 10 ^ (n - 1) < IZR m + 1)%R.
