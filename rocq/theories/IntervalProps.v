(** Property theorems: intervals (C05, C49). *)
From Verif Require Import Base CmpModel IntervalModel.
From Coq Require Import Permutation.

(** Specification: membership in the closed interval, and in the half-open
    interval that the default constructor denotes. *)
Definition mem (x : Q) (i : ival) : Prop := lower i <= x <= upper i.
Definition mem_ro (x : Q) (i : ival) : Prop := lower i <= x < upper i.
Definition ival_eq (i j : ival) : Prop := lower i == lower j /\ upper i == upper j.

(** The hull of a list of values: bounds are values of the list and enclose all
    of them. *)
Definition is_hull (vs : list Q) (i : ival) : Prop :=
  In (lower i) vs /\ In (upper i) vs /\ forall v, In v vs -> mem v i.

Lemma expand_nonempty : forall i v, lower i <= upper i ->
  let j := expand i v in
  lower j <= upper j /\ (lower j = lower i \/ lower j = v) /\ (upper j = upper i \/ upper j = v) /\
  lower j <= lower i /\ upper i <= upper j /\ mem v j /\
  (forall k, lower k <= lower i -> upper i <= upper k -> mem v k -> lower k <= lower j /\ upper j <= upper k).
Proof.
  intros i v H; unfold expand, is_empty, mem; simpl.
  destruct (Qleb_spec (lower i) (upper i)); [|exfalso; lra]; simpl.
  destruct (Qltb_spec v (lower i)); simpl; [repeat split; auto; try lra; intros; lra|].
  destruct (Qgtb_spec v (upper i)); simpl; repeat split; auto; try lra; intros; lra.
Qed.

Lemma expand_empty : forall i v, upper i < lower i -> expand i v = mkival v v.
Proof.
  intros i v H; unfold expand, is_empty.
  destruct (Qleb_spec (lower i) (upper i)); [exfalso; lra|]; reflexivity.
Qed.

Lemma fold_expand_hull : forall vs i ws, is_hull ws i -> is_hull (ws ++ vs) (fold_left expand vs i).
Proof.
  induction vs as [|v vs IH]; intros i ws H; simpl.
  - rewrite app_nil_r; exact H.
  - replace (ws ++ v :: vs) with ((ws ++ [v]) ++ vs) by (rewrite <- app_assoc; reflexivity).
    apply IH. destruct H as (Hl & Hu & Ha).
    assert (Hle : lower i <= upper i) by (destruct (Ha _ Hl); lra).
    destruct (expand_nonempty i v Hle) as (E1 & E2 & E3 & E4 & E5 & E6 & _); simpl in *.
    split; [|split].
    + destruct E2 as [-> | ->]; apply in_or_app; simpl; auto.
    + destruct E3 as [-> | ->]; apply in_or_app; simpl; auto.
    + intros w Hw; apply in_app_or in Hw; destruct Hw as [Hw|[<-|[]]]; [|exact E6].
      specialize (Ha w Hw); unfold mem in *; lra.
Qed.

(** C05: starting from any empty interval (in particular a default one),
    expanding by the values of a non-empty list one after the other gives the
    hull of the list. *)
Theorem C05_expand_gives_hull : forall i vs, is_empty i = true -> vs <> [] ->
  is_hull vs (fold_left expand vs i).
Proof.
  intros i [|v vs] He Hne; [congruence|]; simpl.
  rewrite expand_empty.
  - apply (fold_expand_hull vs (mkival v v) [v]); unfold is_hull, mem; simpl; repeat split; auto;
      destruct H as [->|[]]; lra.
  - unfold is_empty in He. destruct (Qleb_spec (lower i) (upper i)); [discriminate|assumption].
Qed.

Lemma hull_unique : forall vs i j, is_hull vs i -> is_hull vs j -> ival_eq i j.
Proof.
  intros vs i j (A1 & A2 & A3) (B1 & B2 & B3); unfold mem in *; split;
  pose proof (A3 _ B1); pose proof (A3 _ B2); pose proof (B3 _ A1); pose proof (B3 _ A2); lra.
Qed.

(** The order of the insertions does not matter. *)
Theorem C05_expand_order_irrelevant : forall i vs ws, is_empty i = true -> vs <> [] -> Permutation vs ws ->
  ival_eq (fold_left expand vs i) (fold_left expand ws i).
Proof.
  intros i vs ws He Hne HP. apply (hull_unique vs).
  - apply C05_expand_gives_hull; assumption.
  - assert (Hw : ws <> []) by (intro; subst; apply Permutation_sym, Permutation_nil in HP; congruence).
    destruct (C05_expand_gives_hull i ws He Hw) as (A & B & C).
    split; [|split].
    + eapply Permutation_in; [apply Permutation_sym; exact HP | exact A].
    + eapply Permutation_in; [apply Permutation_sym; exact HP | exact B].
    + intros v Hv; apply C; eapply Permutation_in; [exact HP | exact Hv].
Qed.

(** A non-empty interval grows to the least interval containing it and the new
    value, never shrinks, and does not change when the value is already inside. *)
Theorem C05_expand_least : forall i v, lower i <= upper i ->
  (forall x, mem x i -> mem x (expand i v)) /\ mem v (expand i v) /\
  (forall k, (forall x, mem x i -> mem x k) -> mem v k -> forall x, mem x (expand i v) -> mem x k) /\
  (mem v i -> expand i v = i).
Proof.
  intros i v H. destruct (expand_nonempty i v H) as (E1 & E2 & E3 & E4 & E5 & E6 & E7); simpl in *.
  split; [|split; [|split]].
  - intros x Hx; unfold mem in *; lra.
  - exact E6.
  - intros k Hk Hv x Hx.
    assert (K1 : mem (lower i) k) by (apply Hk; unfold mem; lra).
    assert (K2 : mem (upper i) k) by (apply Hk; unfold mem; lra).
    destruct (E7 k) as [F1 F2]; unfold mem in *; lra.
  - unfold mem; intros [H1 H2]; unfold expand, is_empty.
    destruct (Qleb_spec (lower i) (upper i)); [|exfalso; lra]; simpl.
    destruct (Qltb_spec v (lower i)); [exfalso; lra|].
    destruct (Qgtb_spec v (upper i)); [exfalso; lra|]; reflexivity.
Qed.

(** The overload that takes a policy does not treat an empty interval specially:
    after expanding a default interval by 5 it contains 1. *)
Theorem C05_expand_with_policy_refuted : exists i v x, is_empty i = true /\
  mem x (expand_cmp direct i v) /\ ~ x == v.
Proof. exists ival_default, 5, 1; repeat split; try (vm_compute; congruence). Qed.

(** On an interval that is not empty both overloads agree when the policy is exact. *)
Theorem C05_expand_with_policy_nonempty : forall i v, is_empty i = false ->
  expand_cmp direct i v = expand i v.
Proof.
  intros i v H; unfold expand_cmp, expand; rewrite H; simpl.
  destruct (Qltb v (lower i)); simpl; [reflexivity|]. destruct (Qgtb v (upper i)); reflexivity.
Qed.

Example C05_witness : fold_left expand [3; 1; 7; 2] ival_default = mkival 1 7.
Proof. reflexivity. Qed.

(** C49: [intersects] decides whether two (right-open, as constructed by default)
    intervals share a point. *)
Theorem C49_intersects_right_open : forall i j, lower i < upper i -> lower j < upper j ->
  (intersects i j = true <-> exists x, mem_ro x i /\ mem_ro x j).
Proof.
  intros i j Hi Hj; unfold intersects, mem_ro; rewrite andb_true_iff, !Qltb_lt; split.
  - intros [H1 H2]. exists (qmax (lower i) (lower j)); unfold qmax; qcase; lra.
  - intros (x & H1 & H2); lra.
Qed.

(** For closed intervals it misses exactly the intervals that share one end point. *)
Theorem C49_intersects_closed_sound : forall i j, lower i <= upper i -> lower j <= upper j ->
  intersects i j = true -> exists x, mem x i /\ mem x j.
Proof.
  intros i j Hi Hj; unfold intersects, mem; rewrite andb_true_iff, !Qltb_lt; intros [H1 H2].
  exists (qmax (lower i) (lower j)); unfold qmax; qcase; lra.
Qed.
Theorem C49_intersects_closed_misses_only_touching : forall i j, lower i <= upper i -> lower j <= upper j ->
  intersects i j = false -> forall x, mem x i -> mem x j ->
  (x == upper i /\ x == lower j) \/ (x == lower i /\ x == upper j).
Proof.
  intros i j Hi Hj H x Hx Hy; unfold intersects, mem in *; apply andb_false_iff in H.
  destruct H as [H|H].
  - destruct (Qltb_spec (lower j) (upper i)); [discriminate|]; left; lra.
  - destruct (Qltb_spec (lower i) (upper j)); [discriminate|]; right; lra.
Qed.
Theorem C49_intersects_closed_refuted : exists i j x, mem x i /\ mem x j /\ intersects i j = false.
Proof. exists (mkival 0 1), (mkival 1 2), 1; unfold mem; simpl; repeat split; try lra. Qed.

(** Arithmetic: the sum with a scalar or an interval, the difference with a
    scalar, and the product with a positive scalar are the exact images. *)
(** With the direct policy the overload with a policy answers the same; with a tolerance it asks for a
    common stretch longer than the tolerance. *)
Theorem C49_intersects_direct : forall i j, intersects_cmp direct i j = intersects i j.
Proof. reflexivity. Qed.
Theorem C49_intersects_tolerance : forall tol i j, 0 <= tol -> lower i + tol < upper i -> lower j + tol < upper j ->
  (intersects_cmp (absolute tol) i j = true <-> exists x, mem_ro x i /\ mem_ro (x + tol) i /\ mem_ro x j /\ mem_ro (x + tol) j).
Proof.
  intros tol i j T Hi Hj; unfold intersects_cmp, mem_ro; cbn [less_than absolute]; rewrite andb_true_iff, !Qltb_lt; split.
  - intros [H1 H2]. destruct (Qlt_le_dec (lower i) (lower j)); [exists (lower j)|exists (lower i)]; lra.
  - intros [x H]. lra.
Qed.
Theorem C49_add_scalar_image : forall i v x, mem x (add_scalar i v) <-> exists y, mem y i /\ x == y + v.
Proof.
  intros i v x; unfold mem, add_scalar; simpl; split.
  - intro H; exists (x - v); lra.
  - intros (y & H1 & H2); lra.
Qed.
Theorem C49_sub_scalar_image : forall i v x, mem x (sub_scalar i v) <-> exists y, mem y i /\ x == y - v.
Proof.
  intros i v x; unfold mem, sub_scalar; simpl; split.
  - intro H; exists (x + v); lra.
  - intros (y & H1 & H2); lra.
Qed.
Theorem C49_mul_positive_scalar_image : forall i v x, 0 < v ->
  (mem x (mul_scalar i v) <-> exists y, mem y i /\ x == y * v).
Proof.
  intros i v x Hv; unfold mem, mul_scalar; simpl; split.
  - intro H; exists (x / v). assert (E : x / v * v == x) by (field; lra).
    split; [|lra]. split; apply (Qmult_le_r _ _ v Hv); lra.
  - intros (y & H1 & H2); nra.
Qed.
Theorem C49_add_interval_image : forall i j x, lower i <= upper i -> lower j <= upper j ->
  (mem x (add_ival i j) <-> exists y z, mem y i /\ mem z j /\ x == y + z).
Proof.
  intros i j x Hi Hj; unfold mem, add_ival; simpl; split.
  - intros [H1 H2].
    destruct (Qlt_le_dec (lower i + upper j) x) as [G|G].
    + exists (x - upper j), (upper j); lra.
    + exists (lower i), (x - lower i); lra.
  - intros (y & z & H1 & H2 & H3); lra.
Qed.
(** A negative factor turns an interval of positive length into an empty one, and
    the difference of two intervals does not contain all differences. *)
Theorem C49_mul_negative_scalar_refuted : forall i v, lower i < upper i -> v < 0 ->
  is_empty (mul_scalar i v) = true.
Proof.
  intros i v H1 H2; unfold is_empty, mul_scalar; simpl.
  destruct (Qleb_spec (lower i * v) (upper i * v)); [exfalso; nra|reflexivity].
Qed.
Theorem C49_sub_interval_refuted : forall i, lower i < upper i ->
  exists y z, mem y i /\ mem z i /\ ~ mem (y - z) (sub_ival i i).
Proof.
  intros i H; exists (lower i), (upper i); unfold mem, sub_ival; simpl; repeat split; try lra.
Qed.

(** [clamp] returns the nearest point of a non-empty range. *)
Theorem C49_clamp_nearest : forall n a b, a <= b -> a <= clamp n a b <= b /\
  forall y, a <= y <= b -> qabs (n - clamp n a b) <= qabs (n - y).
Proof.
  intros n a b H; unfold clamp.
  destruct (Qltb_spec n a); [|destruct (Qgtb_spec n b)]; (split; [lra|]); intros y Hy; unfold qabs; repeat qcase; lra.
Qed.

(** Division by a positive number; by zero it is undefined, by a negative number the result is empty. *)
Theorem C49_div_positive_scalar_image : forall i v, 0 < v ->
  exists j, div_scalar i v = Some j /\ forall x, mem x j <-> exists y, mem y i /\ x == y / v.
Proof.
  intros i v Hv; unfold div_scalar. destruct (Qeqb_spec v 0); [lra|]. eexists; split; [reflexivity|]. intro x. unfold mem; cbn [lower upper].
  assert (K : forall a, a / v * v == a) by (intro a; field; lra). split.
  - intros [H1 H2]. exists (x * v). apply (Qmult_le_r _ _ v Hv) in H1. apply (Qmult_le_r _ _ v Hv) in H2. rewrite K in H1, H2. split; [lra|]. field; lra.
  - intros (y & H1 & H2). rewrite H2. split; apply (Qmult_le_r _ _ v Hv); rewrite !K; lra.
Qed.
Theorem C49_div_scalar_undefined : forall i v, div_scalar i v = None <-> v == 0.
Proof. intros i v; unfold div_scalar. destruct (Qeqb_spec v 0); split; intro; try assumption; try reflexivity; try discriminate; contradiction. Qed.
Theorem C49_div_negative_scalar_refuted : forall i v, lower i < upper i -> v < 0 ->
  exists j, div_scalar i v = Some j /\ is_empty j = true.
Proof.
  intros i v H Hv; unfold div_scalar. destruct (Qeqb_spec v 0); [lra|]. eexists; split; [reflexivity|]. unfold is_empty; cbn [lower upper].
  destruct (Qleb_spec (lower i / v) (upper i / v)) as [G|G]; [exfalso|reflexivity].
  assert (K : forall a, a / v * - v == - a) by (intro a; field; lra). apply (Qmult_le_r _ _ (- v) ltac:(lra)) in G. rewrite !K in G. lra.
Qed.
(** The difference of intervals is right for a single value on the right; a number minus an interval of positive
    length is empty. *)
Theorem C49_sub_single_value : forall i j x, lower j == upper j ->
  (mem x (sub_ival i j) <-> exists y z, mem y i /\ mem z j /\ x == y - z).
Proof.
  intros i j x E; unfold mem, sub_ival; cbn [lower upper]; split.
  - intro H; exists (x + lower j), (lower j); lra.
  - intros (y & z & H1 & H2 & H3); lra.
Qed.
Theorem C49_scalar_minus_interval_refuted : forall v i, lower i < upper i -> is_empty (scalar_sub_ival v i) = true.
Proof.
  intros v i H; unfold is_empty, scalar_sub_ival, sub_ival; cbn [lower upper].
  destruct (Qleb_spec (v - lower i) (v - upper i)); [lra|reflexivity].
Qed.
(** [min_copy] and [max_copy] return the smaller and the greater argument; [sign] is 1 from zero on, else -1. *)
Theorem C49_min_max : forall a b, (min_copy a b = a \/ min_copy a b = b) /\ min_copy a b <= a /\ min_copy a b <= b /\
  (max_copy a b = a \/ max_copy a b = b) /\ a <= max_copy a b /\ b <= max_copy a b.
Proof.
  intros a b; unfold min_copy, max_copy. destruct (Qltb_spec a b), (Qgtb_spec a b); repeat split; auto; lra.
Qed.
Theorem C49_sign : forall v, (0 <= v -> sign v = 1%Z) /\ (v < 0 -> sign v = (-1)%Z).
Proof. intro v; unfold sign. split; intro; destruct (Qgeb_spec v 0); try reflexivity; lra. Qed.

Example C49_witness : intersects (mkival 0 2) (mkival 1 3) = true /\ clamp 5 0 3 == 3 /\
  add_ival (mkival 0 1) (mkival 2 5) = mkival 2 6.
Proof. repeat split. Qed.

Print Assumptions C05_expand_gives_hull.
Print Assumptions C49_intersects_right_open.
