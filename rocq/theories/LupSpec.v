(** Specification of LUP decomposition in terms of matrix products. *)
From Verif Require Import Base.

(** f 0 + ... + f (n-1) *)
Fixpoint qsum (n : nat) (f : nat -> Q) : Q := match n with O => 0 | S k => qsum k f + f k end.
(** The unit lower and the upper triangular matrix stored in one. *)
Definition lower (m : nat -> nat -> Q) (i l : nat) : Q := if Nat.ltb l i then m i l else if Nat.eqb l i then 1 else 0.
Definition upper (m : nat -> nat -> Q) (l j : nat) : Q := if Nat.leb l j then m l j else 0.
(** [pi] permutes the indices below [N]. *)
Definition permutes (N : nat) (pi : nat -> nat) : Prop :=
  (forall i, (i < N)%nat -> (pi i < N)%nat) /\
  (forall i j, (i < N)%nat -> (j < N)%nat -> pi i = pi j -> i = j) /\
  (forall r, (r < N)%nat -> exists i, (i < N)%nat /\ pi i = r).
(** [x] solves A x = b. *)
Definition solves (N : nat) (A : nat -> nat -> Q) (b x : nat -> Q) : Prop :=
  forall i, (i < N)%nat -> qsum N (fun j => A i j * x j) == b i.
(** A maps some vector other than zero to zero. *)
Definition singular (N : nat) (A : nat -> nat -> Q) : Prop :=
  exists x, (exists j, (j < N)%nat /\ ~ x j == 0) /\ solves N A (fun _ => 0) x.
