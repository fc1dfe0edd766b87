(** The tolerance policies on finite doubles, in real numbers. *)
From Coq Require Import Reals Floats ZArith Lra Lia Bool.
Require Import Flocq.Core.Core Flocq.Prop.Plus_error Flocq.IEEE754.BinarySingleNaN Flocq.IEEE754.PrimFloat.
From Verif Require Import FloatModel FloatSpec FloatProof.
Local Open Scope R_scope.
#[local] Existing Instance Hprec.
#[local] Existing Instance Hmax.
#[local] Existing Instance fexp_monotone.

Lemma zero_finite : finite 0%float.
Proof. reflexivity. Qed.
Lemma zero_val : val 0%float = 0.
Proof. reflexivity. Qed.
Lemma opp_result : forall x r, result_is x r -> result_is (- x)%float (- r).
Proof.
  intros x r [ (X & V & B)|[ (X & B)|(X & B) ] ]; unfold result_is; rewrite rnd_opp, opp_equiv.
  - left. split; [apply opp_finite, X|]. split; [rewrite opp_val, V; reflexivity|rewrite Rabs_Ropp; exact B].
  - right; right. rewrite X. split; [reflexivity|lra].
  - right; left. rewrite X. split; [reflexivity|lra].
Qed.
Lemma abs_le : forall x r t, result_is x r -> finite t -> (absolute_value x <=? t)%float = Rle_bool (Rabs (rnd r)) (val t).
Proof.
  intros x r t X T. unfold absolute_value. destruct (result_lt x r 0%float X zero_finite) as (E & _). rewrite E, zero_val.
  destruct (Rlt_bool_spec (rnd r) 0) as [H|H].
  - destruct (result_lt _ _ t (opp_result _ _ X) T) as (_ & _ & L & _). rewrite L, rnd_opp, Rabs_left by exact H. reflexivity.
  - destruct (result_lt _ _ t X T) as (_ & _ & L & _). rewrite L, Rabs_pos_eq by exact H. reflexivity.
Qed.

(** What the five answers are in terms of the rounded difference and the bound. *)
Record answers_of (lt eq gt le ge : bool) (d t : R) : Prop := {
  a_lt : lt = Rlt_bool d (- t); a_eq : eq = Rle_bool (Rabs d) t; a_gt : gt = Rlt_bool t d;
  a_le : le = Rle_bool d t; a_ge : ge = Rle_bool (- t) d }.
Lemma abs_split : forall d t, Rabs d <= t <-> - t <= d <= t.
Proof. intros d t. split; intro H; [apply Rabs_le_inv, H|apply Rabs_le, H]. Qed.
Lemma answers_fit : forall cmp u v d t, 0 <= t -> answers_of (f_lt cmp u v) (f_eq cmp u v) (f_gt cmp u v) (f_le cmp u v) (f_ge cmp u v) d t -> fits cmp u v.
Proof.
  intros cmp u v d t T [A B C D E]. unfold fits. rewrite A, B, C, D, E. clear A B C D E.
  assert (S := abs_split d t).
  destruct (Rlt_bool_spec d (- t)), (Rle_bool_spec (Rabs d) t), (Rlt_bool_spec t d), (Rle_bool_spec d t), (Rle_bool_spec (- t) d); cbn;
    try (exfalso; try (apply S in H0); lra);
    try (exfalso; assert (Rabs d <= t) by (apply S; lra); lra);
    repeat split; try discriminate; intuition discriminate.
Qed.
Lemma absolute_answers : forall tol u v, finite tol -> finite u -> finite v ->
  let cmp := fabsolute tol in answers_of (f_lt cmp u v) (f_eq cmp u v) (f_gt cmp u v) (f_le cmp u v) (f_ge cmp u v) (rnd (val u - val v)) (val tol).
Proof.
  intros tol u v T U V. cbn. pose proof (sub_result u v U V) as S. pose proof (result_lt _ _ tol S T) as (_ & B & C & _).
  pose proof (result_lt _ _ (- tol)%float S (opp_finite _ T)) as (A & _ & _ & D). rewrite opp_val in A, D.
  split; [exact A|apply abs_le; assumption|exact B|exact C|exact D].
Qed.
Lemma result_small : forall x r, result_is x r -> Rabs (rnd r) < top -> finite x /\ val x = rnd r.
Proof.
  intros x r X B. apply Rabs_def2 in B. assert (0 < top) by apply bpow_gt_0.
  destruct X as [ (X & V & _)|[ (X & Y)|(X & Y) ] ]; [split; assumption|lra|lra].
Qed.
Lemma opp_mul : forall x y, finite x -> finite y -> finite (x * y)%float -> finite (- x * y)%float /\ val (- x * y)%float = - val (x * y)%float.
Proof.
  intros x y X Y F. pose proof (mul_result _ _ X Y) as M. pose proof (mul_result _ _ (opp_finite _ X) Y) as N. rewrite opp_val in N.
  replace (- val x * val y) with (- (val x * val y)) in N by ring.
  assert (B : finite (x * y)%float /\ val (x * y)%float = rnd (val x * val y)).
  { destruct M as [ (A1 & A2 & _)|[ (A1 & _)|(A1 & _) ] ]; [split; assumption| |]; apply finite_B in F; rewrite A1 in F; discriminate. }
  destruct B as [_ B]. pose proof (val_bound (x * y)%float) as BB. rewrite B in BB.
  destruct (result_small _ _ N) as [N1 N2]; [rewrite rnd_opp, Rabs_Ropp; exact BB|]. split; [exact N1|]. rewrite N2, rnd_opp, B. reflexivity.
Qed.
Definition rel_size (u v : PrimFloat.float) : PrimFloat.float := (abs u + abs v + 1)%float.
Lemma relative_answers : forall tol u v, finite tol -> finite u -> finite v -> finite (rel_size u v) -> finite (tol * rel_size u v)%float ->
  let cmp := frelative tol in answers_of (f_lt cmp u v) (f_eq cmp u v) (f_gt cmp u v) (f_le cmp u v) (f_ge cmp u v) (rnd (val u - val v)) (val (tol * rel_size u v)%float).
Proof.
  intros tol u v T U V R P. cbn. fold (rel_size u v). pose proof (sub_result u v U V) as S. pose proof (result_lt _ _ _ S P) as (_ & B & C & _).
  destruct (opp_mul _ _ T R P) as [N1 N2]. pose proof (result_lt _ _ _ S N1) as (A & _ & _ & D). rewrite N2 in A, D.
  split; [exact A|apply abs_le; assumption|exact B|exact C|exact D].
Qed.
Lemma answers_mirror : forall cmp u v d t,
  answers_of (f_lt cmp u v) (f_eq cmp u v) (f_gt cmp u v) (f_le cmp u v) (f_ge cmp u v) d t ->
  answers_of (f_lt cmp v u) (f_eq cmp v u) (f_gt cmp v u) (f_le cmp v u) (f_ge cmp v u) (- d) t -> mirrored cmp u v.
Proof.
  intros cmp u v d t [A B C D E] [A' B' C' D' E']. unfold mirrored. rewrite A, B, C, D, E, A', B', C', D', E', Rabs_Ropp.
  split; [reflexivity|]. split; [|split; [|split] ].
  - destruct (Rlt_bool_spec (- d) (- t)), (Rlt_bool_spec t d); try reflexivity; exfalso; lra.
  - destruct (Rlt_bool_spec t (- d)), (Rlt_bool_spec d (- t)); try reflexivity; exfalso; lra.
  - destruct (Rle_bool_spec (- d) t), (Rle_bool_spec (- t) d); try reflexivity; exfalso; lra.
  - destruct (Rle_bool_spec (- t) (- d)), (Rle_bool_spec d t); try reflexivity; exfalso; lra.
Qed.
Lemma rnd_swap : forall a b, rnd (b - a) = - rnd (a - b).
Proof. intros a b. rewrite <- rnd_opp. f_equal. ring. Qed.

Lemma Bplus_comm : forall x y : binary_float prec emax, Bplus mode_NE x y = Bplus mode_NE y x.
Proof.
  intros [sx|sx| |sx mx ex Hx] [sy|sy| |sy my ey Hy]; try reflexivity;
    try (destruct sx, sy; reflexivity).
  cbn. rewrite (Z.min_comm ey ex). unfold Fplus_naive. f_equal. apply Z.add_comm.
Qed.
Lemma rel_size_comm : forall u v, rel_size v u = rel_size u v.
Proof. intros u v. unfold rel_size. do 1 f_equal. apply Prim2B_inj. rewrite !add_equiv. apply Bplus_comm. Qed.

(** The rounded difference of two doubles is zero only for equal ones. *)
Lemma sub_zero : forall u v, rnd (val u - val v) = 0 -> val u = val v.
Proof.
  intros u v H. destruct (Req_dec (val u) (val v)) as [E|E]; [exact E|exfalso].
  revert H. apply (round_plus_neq_0 radix2 fexp64 ZnearestE (val u) (- val v)).
  - apply val_format.
  - apply generic_format_opp, val_format.
  - lra.
Qed.
Lemma sub_sign : forall u v, (rnd (val u - val v) < 0 <-> val u < val v) /\ (0 < rnd (val u - val v) <-> val v < val u) /\ (rnd (val u - val v) = 0 <-> val u = val v).
Proof.
  intros u v. assert (Z : rnd (val u - val v) = 0 <-> val u = val v).
  { split; [apply sub_zero|]. intro E. rewrite E. replace (val v - val v) with 0 by ring. apply rnd_0. }
  assert (L : val u <= val v -> rnd (val u - val v) <= 0) by (intro H; rewrite <- rnd_0; apply rnd_le; lra).
  assert (G : val v <= val u -> 0 <= rnd (val u - val v)) by (intro H; rewrite <- rnd_0; apply rnd_le; lra).
  split; [|split; [|exact Z] ].
  - split; intro H.
    + apply Rnot_le_lt. intro K. specialize (G K). lra.
    + destruct (Rle_lt_or_eq_dec _ _ (L ltac:(lra))) as [K|K]; [exact K|]. apply Z in K. lra.
  - split; intro H.
    + apply Rnot_le_lt. intro K. specialize (L K). lra.
    + destruct (Rle_lt_or_eq_dec _ _ (G ltac:(lra))) as [K|K]; [exact K|]. symmetry in K. apply Z in K. lra.
Qed.
(** A rounded value not above a double: the exact one is at most one spacing above it. *)
Lemma rnd_le_inv : forall x t, 0 <= val t -> rnd x <= val t -> x <= val t * (1 + powerRZ 2 (-52)) + powerRZ 2 (-1074).
Proof.
  intros x t T H. apply Rnot_lt_le. intro K.
  assert (U : ulp radix2 fexp64 (val t) <= val t * powerRZ 2 (-52) + powerRZ 2 (-1074)).
  { change (powerRZ 2 (-52)) with (powerRZ (IZR radix2) (-52)). change (powerRZ 2 (-1074)) with (powerRZ (IZR radix2) (-1074)). rewrite <- !bpow_powerRZ.
    assert (P1 : 0 <= bpow radix2 (-52)) by apply bpow_ge_0. assert (P2 : 0 <= bpow radix2 (-1074)) by apply bpow_ge_0.
    change fexp64 with (FLT_exp (-1074) 53).
    destruct (Rle_or_lt (bpow radix2 (-1074 + 53 - 1)) (Rabs (val t))) as [B|B].
    - pose proof (ulp_FLT_le radix2 (-1074) 53 (val t) B) as L. rewrite Rabs_pos_eq in L by exact T. replace (1 - 53)%Z with (-52)%Z in L by lia. lra.
    - rewrite ulp_FLT_small; [|reflexivity|].
      + nra.
      + apply Rlt_trans with (1 := B). apply bpow_lt. lia. }
  assert (S : val t + ulp radix2 fexp64 (val t) <= rnd x).
  { rewrite <- succ_eq_pos by exact T.
    assert (F : generic_format radix2 fexp64 (succ radix2 fexp64 (val t))) by (apply generic_format_succ; [apply fexp_ok|apply val_format]).
    rewrite <- (round_generic radix2 fexp64 ZnearestE _ F). apply rnd_le. rewrite succ_eq_pos by exact T. lra. }
  assert (PU : 0 < ulp radix2 fexp64 (val t)).
  { change fexp64 with (FLT_exp (-1074) 53). apply Rle_lt_trans with (Rabs (val t) * bpow radix2 (- (53))); [apply Rmult_le_pos; [apply Rabs_pos|apply bpow_ge_0]|apply (ulp_FLT_gt radix2 (-1074) 53)]. }
  lra.
Qed.
Lemma abs_result : forall x, finite x -> finite (abs x)%float /\ 0 <= val (abs x)%float.
Proof.
  intros x X. apply finite_B in X. rewrite val_B2R. split; [apply finite_B|]; rewrite abs_equiv.
  - destruct (Prim2B x); try discriminate; reflexivity.
  - rewrite B2R_Babs. apply Rabs_pos.
Qed.
Lemma add_nonneg : forall x y, finite x -> finite y -> 0 <= val x -> 0 <= val y -> 0 <= val (x + y)%float.
Proof.
  intros x y X Y PX PY. destruct (add_result x y X Y) as [ (A & B & _)|[ (A & _)|(A & _) ] ].
  - rewrite B, <- rnd_0. apply rnd_le. lra.
  - rewrite val_B2R, A. cbn. lra.
  - rewrite val_B2R, A. cbn. lra.
Qed.
Lemma add_finite_inv : forall x y, finite (x + y)%float -> finite x /\ finite y.
Proof.
  intros x y H. apply finite_B in H. rewrite add_equiv in H. rewrite !finite_B.
  destruct (Prim2B x) as [s|s| |s m e B], (Prim2B y) as [s2|s2| |s2 m2 e2 B2]; try discriminate H; try (split; reflexivity). cbn in H. destruct (Bool.eqb s s2); discriminate H.
Qed.
Lemma rel_size_pos : forall u v, finite u -> finite v -> finite (rel_size u v) -> 0 <= val (rel_size u v).
Proof.
  intros u v U V H. destruct (abs_result u U) as [A1 A2]. destruct (abs_result v V) as [B1 B2]. unfold rel_size in *.
  apply add_finite_inv in H. destruct H as [H _]. apply add_nonneg; [exact H|reflexivity| |].
  - apply add_nonneg; assumption.
  - unfold val. replace (Prim2SF 1) with (S754_finite false 4503599627370496 (-52)) by reflexivity. apply Rmult_le_pos; [lra|apply powerRZ_le; lra].
Qed.
