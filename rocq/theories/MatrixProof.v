Set Warnings "-notation-overridden,-ambiguous-paths".
From mathcomp Require Import ssreflect ssrfun ssrbool eqtype ssrnat seq choice fintype bigop ssralg zmodp matrix.
From Verif Require Import MatrixModel.
Set Implicit Arguments.
Unset Strict Implicit.
Import GRing.Theory.
Local Open Scope ring_scope.

Section Proofs.
Variable F : fieldType.
Implicit Types m : mat F.
Definition to_matrix (n : nat) m : 'M[F]_n := \matrix_(i < n, j < n) m i j.

Lemma sum_upto_big (f : nat -> F) k : sum_upto f k = \sum_(i < k) f i.
Proof.
  elim: k => [|k IH]; first by rewrite big_ord0.
  rewrite big_ord_recr /= -IH. case: k IH => [|k] IH //=. by rewrite add0r.
Qed.
Lemma power_c_exp (x : F) p : power_c x p = x ^+ p.
Proof. elim: p => [|p IH] //=. by rewrite IH exprS. Qed.
Lemma offset_bump i e : offset_index i e = bump e i.
Proof. by rewrite /offset_index /bump addnC. Qed.
Lemma minor_matrix n m (r c : 'I_n.+1) : to_matrix n (matrix_minor m r c) = row' r (col' c (to_matrix n.+1 m)).
Proof. apply/matrixP => i j. by rewrite !mxE /matrix_minor !offset_bump. Qed.
Lemma det_step n m : determinant n.+1 m = \sum_(j < n.+1) m 0%N j * (power_c (-1) j * determinant n (matrix_minor m 0 j)).
Proof.
  case: n => [|[|n]].
  - by rewrite big_ord_recr big_ord0 /= add0r !mulr1.
  - rewrite big_ord_recr big_ord_recr big_ord0 /= add0r /matrix_minor /offset_index /= !mul1r mulr1 mulN1r mulrN. by rewrite addn0 addn1 (mulrC (m 1%N 0%N)).
  - by rewrite -(sum_upto_big (fun j => m 0%N j * (power_c (-1) j * determinant n.+2 (matrix_minor m 0 j)))).
Qed.
Lemma det_ok n m : determinant n m = \det (to_matrix n m).
Proof.
  elim: n m => [|n IH] m; first by rewrite det_mx00.
  rewrite det_step (expand_det_row _ ord0). apply: eq_bigr => j _. rewrite mxE /cofactor power_c_exp IH. by rewrite -(minor_matrix m ord0 j) add0n.
Qed.
Lemma adj_ok n m (i j : 'I_n) : adjugate_at_index n m i j = (\adj (to_matrix n m)) i j.
Proof.
  case: n i j => [|n] i j; first by case: i. by rewrite mxE /adjugate_at_index /cofactor power_c_exp det_ok minor_matrix (addnC i j).
Qed.
Lemma product_ok n m1 m2 (i j : 'I_n) : matrix_product_element n m1 m2 i j = (to_matrix n m1 *m to_matrix n m2) i j.
Proof. rewrite /matrix_product_element sum_upto_big mxE. by apply: eq_bigr => k _; rewrite !mxE. Qed.
Lemma trace_ok n m : (0 < n)%N -> trace n m = \tr (to_matrix n m).
Proof.
  case: n => [|n] // _. rewrite /trace /=.
  have G: forall i s, trace_sum i m s = s + \sum_(k < i) m k k.
  { elim=> [|i IH] s /=; first by rewrite big_ord0 addr0. rewrite IH big_ord_recr /= -addrA. congr (_ + _). by rewrite addrC. }
  rewrite G /mxtrace big_ord_recr /= addrC. congr (_ + _); last by rewrite mxE. by apply: eq_bigr => k _; rewrite mxE.
Qed.
Lemma product_mat n m1 m2 : to_matrix n (matrix_product_element n m1 m2) = to_matrix n m1 *m to_matrix n m2.
Proof. apply/matrixP => i j. by rewrite [LHS]mxE product_ok. Qed.
Lemma identity_mat n : to_matrix n (identity_matrix F) = 1%:M.
Proof.
  apply/matrixP => i j. rewrite !mxE /identity_matrix. case: (altP (@eqP _ i j)) => [->|H]; first by rewrite eqxx.
  have -> // : ((i : nat) == j) = false. apply/negbTE. apply: contra H => /eqP E. apply/eqP. exact: val_inj.
Qed.
Lemma inverse_ok n m : inverse_at_index n m =2 (fun i j => if determinant n m != 0 then Some (adjugate_at_index n m i j / determinant n m) else None).
Proof. by []. Qed.
End Proofs.
