(** C142: the order of points of doubles. *)
From Coq Require Import Reals Floats ZArith List Lia Bool.
Require Import Flocq.Core.Core Flocq.IEEE754.BinarySingleNaN Flocq.IEEE754.PrimFloat.
From Verif Require Import FloatModel FloatSpec FloatProof FloatProof2 FloatProof3 FloatProps FloatIntervalSpec FloatIntervalProof FloatOrderModel FloatOrderSpec FloatOrderProof.
From Coq Require Import Lra.
Import ListNotations.
Local Open Scope R_scope.

(** With the direct policy a point comes before another when it is smaller in the first coordinate that differs. *)
Theorem C142_meaning : forall a b, comparable a b -> (flexicographical fdirect a b = true <-> comes_before a b).
Proof. intros a b (_ & A & B). rewrite lex_below, before_below by assumption. tauto. Qed.
(** It is a strict weak order on points without NaNs, infinities allowed, and two points are equivalent exactly when
    all coordinates are equal: what std::set and std::map require. *)
Theorem C142_strict_weak_order : forall a b c, comparable a b -> comparable b c -> let before := flexicographical fdirect in
  before a a = false /\
  (before a b = true -> before b a = false) /\
  (before a b = true -> before b c = true -> before a c = true) /\
  (before a b = false -> before b a = false -> before b c = false -> before c b = false -> before a c = false /\ before c a = false).
Proof.
  intros a b c (L1 & A & B) (L2 & _ & C) before. unfold before.
  assert (F : forall u v, Forall number u -> Forall number v -> (flexicographical fdirect u v = false <-> ~ below u v)).
  { intros u v U V. pose proof (lex_below u v U V) as K. destruct (flexicographical fdirect u v); split; intro; try discriminate; try reflexivity; try tauto. intro Q. apply K in Q. discriminate. }
  rewrite !F, !lex_below by assumption. split; [apply below_irrefl, same_refl|]. split; [intros H K; exact (below_irrefl a a (same_refl a) (below_trans _ _ _ H K))|]. split; [apply below_trans|].
  intros H1 H2 H3 H4. destruct (below_cases a b L1) as [?|[S|?]]; try contradiction. destruct (below_cases b c L2) as [?|[T|?]]; try contradiction. pose proof (same_trans _ _ _ S T) as U.
  split; apply below_irrefl; [exact U|apply same_sym, U].
Qed.
Theorem C142_equivalent : forall a b, comparable a b ->
  (flexicographical fdirect a b = false /\ flexicographical fdirect b a = false <-> same_point a b).
Proof.
  intros a b (L & A & B). rewrite same_spec by assumption. pose proof (lex_below a b A B) as K1. pose proof (lex_below b a B A) as K2. split.
  - intros [H1 H2]. destruct (below_cases a b L) as [K|[K|K]]; [apply K1 in K; congruence|exact K|apply K2 in K; congruence].
  - intro S. split; apply not_true_is_false; intro K; [apply K1 in K; exact (below_irrefl _ _ S K)|apply K2 in K; exact (below_irrefl _ _ (same_sym _ _ S) K)].
Qed.
(** [numeric_sequence_equals] with the direct policy says whether all coordinates are equal. *)
Theorem C142_sequence_equals : forall a b, fsequence_equals fdirect a b = true <-> same_point a b.
Proof.
  unfold same_point. induction a as [|x a IH]; intros [|y b]; cbn [fsequence_equals]; try (split; [discriminate|intro H; inversion H]); [split; [constructor|reflexivity]|].
  rewrite andb_true_iff, IH. cbn [f_eq fdirect]. split; [intros [H K]; constructor; assumption|intro H; inversion_clear H; split; assumption].
Qed.
(** With a tolerance no two points come before each other, and points that are equal by the policy are not ordered. *)
Lemma usual_fit : forall cmp u v, usual cmp -> finite u -> finite v -> fits cmp u v /\ mirrored cmp u v.
Proof.
  intros cmp u v [->|(tol & T & N & ->)] U V.
  - destruct (C133_fits 0 u v zero_finite ltac:(rewrite zero_val; lra) U V) as (A & _). destruct (C133_mirrored 0 u v zero_finite U V) as (B & _). split; assumption.
  - destruct (C133_fits tol u v T N U V) as (_ & A & _). destruct (C133_mirrored tol u v T U V) as (_ & B & _). split; assumption.
Qed.
Theorem C142_tolerance : forall cmp a b, usual cmp -> Forall finite a -> Forall finite b ->
  (flexicographical cmp a b = true -> flexicographical cmp b a = false) /\ (fsequence_equals cmp a b = true -> flexicographical cmp a b = false) /\
  fsequence_equals cmp b a = fsequence_equals cmp a b.
Proof.
  intros cmp a b U. revert b. induction a as [|x a IH]; intros [|y b] A B; cbn [flexicographical fsequence_equals]; try (repeat split; discriminate).
  inversion_clear A as [|? ? FX A']; inversion_clear B as [|? ? FY B']. destruct (IH b A' B') as (I1 & I2 & I3). destruct (usual_fit cmp x y U FX FY) as ((_ & F1 & F2 & F3 & _) & (M1 & M2 & _)).
  rewrite M1, M2, I3. destruct (f_lt cmp x y) eqn:L, (f_eq cmp x y) eqn:E, (f_gt cmp x y) eqn:G; rewrite ?andb_true_r, ?andb_false_r; repeat split; auto; try discriminate; exfalso; tauto.
Qed.
(** It is not a strict weak order: equivalence is not transitive. *)
Theorem C142_tolerance_refuted : exists tol a b c, finite tol /\ 0 < val tol /\ Forall finite a /\ Forall finite b /\ Forall finite c /\ let before := flexicographical (fabsolute tol) in
  before a b = false /\ before b a = false /\ before b c = false /\ before c b = false /\ before a c = true.
Proof.
  exists 1%float, [0; 0]%float, [1; 0]%float, [2; 0]%float. split; [reflexivity|]. split; [rewrite (val_bpow 1%float false 4503599627370496 (-52)) by reflexivity; apply Rmult_lt_0_compat; [lra|apply bpow_gt_0]|].
  repeat (split; [repeat constructor|]). repeat split; reflexivity.
Qed.
(** Nor is the direct one when there are NaNs. *)
Theorem C142_nan_refuted : exists a b c, let before := flexicographical fdirect in
  before a b = false /\ before b a = false /\ before b c = false /\ before c b = false /\ before a c = true.
Proof. exists [1; 0]%float, [nan; 0]%float, [2; 0]%float. repeat split; reflexivity. Qed.
Example C142_witness : comparable [-0; infinity]%float [0; 3]%float /\ flexicographical fdirect [0; 3]%float [-0; infinity]%float = true /\ flexicographical fdirect [-0; infinity]%float [0; 3]%float = false.
Proof. repeat split; repeat constructor. Qed.
Print Assumptions C142_strict_weak_order.
