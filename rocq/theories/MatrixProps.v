(** C98: matrices.  Specification vocabulary: mathcomp's finite sums and products over indices and its
    permutations with their signs.  [F] is any field. *)
Set Warnings "-notation-overridden,-ambiguous-paths".
From mathcomp Require Import ssreflect ssrfun ssrbool eqtype ssrnat seq choice fintype bigop ssralg zmodp perm fingroup matrix ssrint rat.
From Verif Require Import MatrixModel MatrixProof.
Set Implicit Arguments.
Unset Strict Implicit.
Import GRing.Theory.
Local Open Scope ring_scope.

Section Props.
Variable F : fieldType.
Implicit Types m a b : mat F.

(** The determinant is Leibniz's sum over all permutations, for every dimension. *)
Theorem C98_determinant n m :
  determinant n m = \sum_(s : 'S_n) (-1) ^+ s * \prod_(i < n) m i (s i).
Proof.
  rewrite det_ok /mathcomp.algebra.matrix.determinant. apply: eq_bigr => s _. congr (_ * _). apply: eq_bigr => i _. by rewrite mxE.
Qed.

(** Products are rows against columns, and the determinant of a product is the product of determinants. *)
Theorem C98_product n a b :
  (forall i j, (i < n)%N -> (j < n)%N -> matrix_product_element n a b i j = \sum_(k < n) a i k * b k j) /\
  determinant n (matrix_product_element n a b) = determinant n a * determinant n b.
Proof.
  split; last by rewrite !det_ok product_mat det_mulmx.
  move=> i j _ _. exact: sum_upto_big.
Qed.

(** A matrix (dimension at least two) with nonzero determinant: the elements handed out are those of a
    matrix that inverts it on both sides, and nothing else does. *)
Theorem C98_inverse n m : (2 <= n)%N -> determinant n m != 0 ->
  exists inv : mat F,
    (forall i j, (i < n)%N -> (j < n)%N -> inverse_at_index n m i j = Some (inv i j)) /\
    (forall i j, (i < n)%N -> (j < n)%N ->
       \sum_(k < n) m i k * inv k j = (if i == j then 1 else 0) /\
       \sum_(k < n) inv i k * m k j = (if i == j then 1 else 0)) /\
    (forall b : mat F,
       (forall i j, (i < n)%N -> (j < n)%N -> \sum_(k < n) m i k * b k j = (if i == j then 1 else 0)) ->
       forall i j, (i < n)%N -> (j < n)%N -> b i j = inv i j).
Proof.
  move=> _ D. have U: to_matrix n m \in unitmx by rewrite unitmxE unitfE -det_ok.
  pose iv : mat F := fun i j => adjugate_at_index n m i j / determinant n m.
  have E: to_matrix n iv = invmx (to_matrix n m).
  { rewrite /invmx U. apply/matrixP => i j. rewrite !mxE -det_ok mulrC. congr (_ * _). by rewrite /iv adj_ok mxE. }
  have one (i j : 'I_n) : (1%:M : 'M[F]_n) i j = if (i : nat) == j then 1 else 0 by rewrite mxE; case: eqP => [->|H]; [rewrite eqxx | case: eqP => // E'; case: H; exact: val_inj].
  exists iv. split; [|split].
  - move=> i j _ _. by rewrite /inverse_at_index D.
  - move=> i j Hi Hj. have:= one (Ordinal Hi) (Ordinal Hj) => /= <-. split.
    + rewrite -(mulmxV U) -E mxE. by apply: eq_bigr => k _; rewrite !mxE.
    + rewrite -(mulVmx U) -E mxE. by apply: eq_bigr => k _; rewrite !mxE.
  - move=> b Hb i j Hi Hj.
    have B: to_matrix n m *m to_matrix n b = 1%:M.
    { apply/matrixP => i' j'. rewrite one -(Hb i' j' (ltn_ord i') (ltn_ord j')) mxE. by apply: eq_bigr => k _; rewrite !mxE. }
    have: to_matrix n b = to_matrix n iv by rewrite E -[LHS](mulKmx U) B mulmx1.
    move/matrixP => /(_ (Ordinal Hi) (Ordinal Hj)). by rewrite !mxE.
Qed.

(** With determinant zero every element is an exception, rightly: no matrix inverts it, on either side. *)
Theorem C98_singular n m : (2 <= n)%N -> determinant n m = 0 ->
  (forall i j, inverse_at_index n m i j = None) /\
  (forall b : mat F,
     ~ (forall i j, (i < n)%N -> (j < n)%N -> \sum_(k < n) m i k * b k j = (if i == j then 1 else 0)) /\
     ~ (forall i j, (i < n)%N -> (j < n)%N -> \sum_(k < n) b i k * m k j = (if i == j then 1 else 0))).
Proof.
  move=> _ D. split; first by move=> i j; rewrite /inverse_at_index D eqxx.
  have G a b : (forall i j, (i < n)%N -> (j < n)%N -> \sum_(k < n) a i k * b k j = (if i == j then 1 else 0)) -> determinant n a * determinant n b = 1.
  { move=> H. rewrite !det_ok -det_mulmx. have -> : to_matrix n a *m to_matrix n b = 1%:M; last by rewrite det1.
    apply/matrixP => i j. rewrite [RHS]mxE mxE. transitivity (\sum_(k < n) a i k * b k j); first by apply: eq_bigr => k _; rewrite !mxE.
    rewrite H //. case: (altP (@eqP _ i j)) => [->|N]; first by rewrite eqxx. case: eqP => // E'; case/eqP: N; exact: val_inj. }
  move=> b. split=> /G; rewrite D ?mul0r ?mulr0 => /eqP; by rewrite eq_sym oner_eq0.
Qed.

(** The trace is the sum of the diagonal, and does not depend on the order of a product. *)
Theorem C98_trace n a b : (0 < n)%N ->
  trace n a = \sum_(i < n) a i i /\
  trace n (matrix_product_element n a b) = trace n (matrix_product_element n b a).
Proof.
  move=> N. split.
  - rewrite trace_ok // /mxtrace. by apply: eq_bigr => i _; rewrite mxE.
  - by rewrite !trace_ok // !product_mat mxtrace_mulC.
Qed.

(** Multiplying by the identity matrix changes no element. *)
Theorem C98_identity n m i j : (i < n)%N -> (j < n)%N ->
  matrix_product_element n (identity_matrix F) m i j = m i j /\
  matrix_product_element n m (identity_matrix F) i j = m i j.
Proof.
  move=> Hi Hj. have := product_ok (identity_matrix F) m (Ordinal Hi) (Ordinal Hj). have := product_ok m (identity_matrix F) (Ordinal Hi) (Ordinal Hj).
  rewrite /= identity_mat mulmx1 mul1mx !mxE /= => -> ->. by split.
Qed.
End Props.

(** A 3 by 3 rational matrix with determinant 3 and one with determinant 0. *)
Definition sample : mat rat_fieldType := fun i j => nth 0 (nth [::] [:: [:: 1; 2%:R; 3%:R]; [:: 0; 1; 4%:R]; [:: 5%:R; 6%:R; 2%:R]] i) j.
Definition flat_sample : mat rat_fieldType := fun i j => (i + j)%:R.
Example C98_witness : (determinant 3 sample = 3%:R) /\ (determinant 3 flat_sample = 0) /\
  (inverse_at_index 3 sample 0 0 = Some (- (22%:R / 3%:R))) /\ (trace 3 sample = 4%:R).
Proof. by split; [|split; [|split]]; apply/eqP; vm_compute. Qed.

Print Assumptions C98_determinant.
Print Assumptions C98_product.
Print Assumptions C98_inverse.
Print Assumptions C98_singular.
Print Assumptions C98_trace.
Print Assumptions C98_identity.
