(** Determinant, adjugate, inverse, product and trace of square matrices of compile-time size.
    Models arithmetic/detail/determinant.hpp, arithmetic/matrix_arithmetic.hpp,
    arithmetic/matrix/trace.hpp, tensor/matrix_minor_adaptor.hpp, tensor/identity_matrix.hpp,
    algebra/dot_product.hpp and power_c of arithmetic/arithmetic.hpp.

    The element type is an arbitrary field (exact arithmetic); a matrix is the function from row and
    column indices to elements.  The library generates determinants up to dimension 10; the model has
    all dimensions. *)
Set Warnings "-notation-overridden,-ambiguous-paths".
From mathcomp Require Import ssreflect ssrfun ssrbool ssrnat eqtype ssralg.
Set Implicit Arguments.
Unset Strict Implicit.
Import GRing.Theory.
Local Open Scope ring_scope.

Section Matrices.
Variable F : fieldType.
Definition mat := nat -> nat -> F.

(** matrix_minor_adaptor.hpp:51-53, 87-89, 121-123: Index + (Index >= ExcludedIndex). *)
Definition offset_index (index excluded : nat) : nat := (index + (excluded <= index))%N.
(** matrix_minor_adaptor.hpp:136-140. *)
Definition matrix_minor (m : mat) (r c : nat) : mat := fun i j => m (offset_index i r) (offset_index j c).
(** arithmetic.hpp:77-88, N^P for N = -1. *)
Fixpoint power_c (n : F) (p : nat) : F := match p with O => 1 | S p' => n * power_c n p' end.

(** The sum of f 0, ..., f (k - 1), added from the left as the macro does. *)
Fixpoint sum_upto (f : nat -> F) (k : nat) : F :=
  match k with O => 0 | S O => f O | S k' => sum_upto f k' + f k' end.
(** determinant.hpp:137-148 for dimensions 1 and 2, and 152-184 from 3 on.  There is no determinant
    for dimension 0; the model has 1 there. *)
Fixpoint determinant (n : nat) (m : mat) : F :=
  match n with
  | O => 1
  | S O => m O O
  | S (S O) => m O O * m 1%N 1%N - m 1%N O * m O 1%N
  | S n' => sum_upto (fun j => m O j * (power_c (-1) (0 + j) * determinant n' (matrix_minor m 0 j))) n
  end.
(** matrix_arithmetic.hpp:249-254: the minor without row [column] and column [row]. *)
Definition adjugate_at_index (n : nat) (m : mat) (row column : nat) : F :=
  power_c (-1) (row + column) * determinant n.-1 (matrix_minor m column row).
(** matrix_arithmetic.hpp:257-271; [None]: the exception. *)
Definition inverse_at_index (n : nat) (m : mat) (row column : nat) : option F :=
  let d := determinant n m in
  if d != 0 then Some (adjugate_at_index n m row column / d) else None.
(** algebra/detail/dot_product.hpp:105-125, 278-304; matrix_arithmetic.hpp:215-236. *)
Definition matrix_product_element (n : nat) (m1 m2 : mat) (row column : nat) : F :=
  sum_upto (fun k => m1 row k * m2 k column) n.
(** trace.hpp:19-45 and 61-66. *)
Fixpoint trace_sum (i : nat) (m : mat) (s : F) : F :=
  match i with O => s | S i' => trace_sum i' m (s + m i' i') end.
Definition trace (n : nat) (m : mat) : F := trace_sum n.-1 m (m n.-1 n.-1).
(** identity_matrix.hpp:41-44. *)
Definition identity_matrix : mat := fun i j => if i != j then 0 else 1.
End Matrices.
