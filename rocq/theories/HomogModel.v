(** Homogeneous coordinates: tensor/homogeneous_adaptor.hpp with the matrix products of
    algebra/detail/dot_product.hpp, over the reals and in any dimension.  A vector or point is the
    function from indices to coordinates, a matrix from row and column indices. *)
From Coq Require Export Reals Lra Lia Arith.
Open Scope R_scope.

Definition coordf : Type := nat -> R.
Definition matrixf : Type := nat -> nat -> R.

(** algebra/detail/dot_product.hpp:105-125: the products added from the left. *)
Fixpoint sum_to (f : nat -> R) (k : nat) : R :=
  match k with O => 0 | S k' => sum_to f k' + f k' end.

(** homogeneous_adaptor.hpp:20-45 and :56-60: the coordinate at an index of the adaptor over a
    sequence of dimension [n], whose extra coordinate is [w]. *)
Definition homogeneous_get (w : R) (n : nat) (p : coordf) : coordf := fun Index => if Nat.eqb Index n then w else p Index.
(** homogeneous_adaptor.hpp:68-77 and :150-154. *)
Definition as_positional_homogeneous (n : nat) (p : coordf) : coordf := homogeneous_get 1 n p.
(** homogeneous_adaptor.hpp:79-88 and :156-160. *)
Definition as_vectoral_homogeneous (n : nat) (p : coordf) : coordf := homogeneous_get 0 n p.

(** algebra/functions/dot_product.hpp:70-130: the matrix with [k] columns times a vector or point:
    the coordinate at [row]. *)
Definition matrix_vector (k : nat) (m : matrixf) (v : coordf) : coordf := fun row => sum_to (fun j => m row j * v j) k.
(** arithmetic/matrix_arithmetic.hpp:215-236: the product of two matrices. *)
Definition matrix_matrix (k : nat) (m1 m2 : matrixf) : matrixf := fun row column => sum_to (fun l => m1 row l * m2 l column) k.
(** tensor/identity_matrix.hpp:41-44. *)
Definition identity (i j : nat) : R := if Nat.eqb i j then 1 else 0.

(** What a user of the adaptor writes: [point = m * as_positional_homogeneous(p)], whose first [n]
    coordinates are assigned. *)
Definition move_point (n : nat) (m : matrixf) (p : coordf) : coordf := matrix_vector (S n) m (as_positional_homogeneous n p).
(** ... and [vector = m * as_vectoral_homogeneous(v)]. *)
Definition move_vector (n : nat) (m : matrixf) (v : coordf) : coordf := matrix_vector (S n) m (as_vectoral_homogeneous n v).
