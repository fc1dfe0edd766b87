(** C133: the comparison policies on doubles. *)
From Coq Require Import Reals Floats ZArith Lra Lia Bool.
Require Import Flocq.Core.Core Flocq.Prop.Plus_error Flocq.IEEE754.BinarySingleNaN Flocq.IEEE754.PrimFloat.
From Verif Require Import FloatModel FloatSpec FloatProof FloatProof2.
Local Open Scope R_scope.

(** The double operators answer as the numbers do. *)
Theorem C133_direct : forall u v, finite u -> finite v ->
  (f_lt fdirect u v = true <-> val u < val v) /\ (f_eq fdirect u v = true <-> val u = val v) /\ (f_gt fdirect u v = true <-> val u > val v) /\
  (f_le fdirect u v = true <-> val u <= val v) /\ (f_ge fdirect u v = true <-> val u >= val v).
Proof.
  intros u v U V. cbn. rewrite !ltb_val, !leb_val, eqb_val by assumption.
  destruct (Rlt_bool_spec (val u) (val v)), (Req_bool_spec (val u) (val v)), (Rlt_bool_spec (val v) (val u)), (Rle_bool_spec (val u) (val v)), (Rle_bool_spec (val v) (val u));
    repeat split; intros; try reflexivity; try discriminate; try lra; exfalso; lra.
Qed.
(** On finite doubles the answers of a tolerance policy fit together, rounding and overflow of the
    difference included, *)
Theorem C133_fits : forall tol u v, finite tol -> 0 <= val tol -> finite u -> finite v ->
  fits fdirect u v /\ fits (fabsolute tol) u v /\
  (finite (abs u + abs v + 1)%float -> finite (tol * (abs u + abs v + 1))%float -> fits (frelative tol) u v).
Proof.
  intros tol u v T P U V. split; [|split].
  - unfold fits. cbn. rewrite !ltb_val, !leb_val, eqb_val by assumption.
    destruct (Rlt_bool_spec (val u) (val v)), (Req_bool_spec (val u) (val v)), (Rlt_bool_spec (val v) (val u)), (Rle_bool_spec (val u) (val v)), (Rle_bool_spec (val v) (val u));
      try (exfalso; lra); repeat split; try discriminate; intuition discriminate.
  - apply (answers_fit _ _ _ _ _ P (absolute_answers tol u v T U V)).
  - intros R M. fold (rel_size u v) in *.
    assert (P' : 0 <= val (tol * rel_size u v)%float).
    { destruct (mul_result _ _ T R) as [ (A & B & _)|[ (A & _)|(A & _) ] ]; [|apply finite_B in M; rewrite A in M; discriminate..].
      rewrite B, <- rnd_0. apply rnd_le. apply Rmult_le_pos; [exact P|]. apply rel_size_pos; assumption. }
    apply (answers_fit _ _ _ _ _ P' (relative_answers tol u v T U V R M)).
Qed.
(** and do not depend on the order of the operands. *)
Theorem C133_mirrored : forall tol u v, finite tol -> finite u -> finite v ->
  mirrored fdirect u v /\ mirrored (fabsolute tol) u v /\
  (finite (abs u + abs v + 1)%float -> finite (tol * (abs u + abs v + 1))%float -> mirrored (frelative tol) u v).
Proof.
  intros tol u v T U V. split; [|split].
  - unfold mirrored. cbn. rewrite !eqb_val by assumption. split; [|repeat split; reflexivity].
    destruct (Req_bool_spec (val v) (val u)), (Req_bool_spec (val u) (val v)); try reflexivity; exfalso; lra.
  - pose proof (absolute_answers tol u v T U V) as A. pose proof (absolute_answers tol v u T V U) as B. cbn zeta in *. rewrite rnd_swap in B.
    apply (answers_mirror _ _ _ _ _ A B).
  - intros R M. fold (rel_size u v) in *. pose proof (relative_answers tol u v T U V R M) as A.
    rewrite <- (rel_size_comm u v) in R, M. pose proof (relative_answers tol v u T V U R M) as B. cbn zeta in *. rewrite rnd_swap, rel_size_comm in B.
    apply (answers_mirror _ _ _ _ _ A B).
Qed.
(** With tolerance zero the absolute policy is the direct one: subtraction of different doubles never
    gives zero. *)
Theorem C133_zero_tolerance : forall u v, finite u -> finite v -> let a := fabsolute 0 in
  f_lt a u v = f_lt fdirect u v /\ f_eq a u v = f_eq fdirect u v /\ f_gt a u v = f_gt fdirect u v /\ f_le a u v = f_le fdirect u v /\ f_ge a u v = f_ge fdirect u v.
Proof.
  intros u v U V a. destruct (absolute_answers 0%float u v zero_finite U V) as [A B C D E]. fold a in A, B, C, D, E.
  rewrite A, B, C, D, E. rewrite zero_val, Ropp_0. cbn. rewrite !ltb_val, !leb_val, eqb_val by assumption.
  destruct (sub_sign u v) as (S1 & S2 & S3). set (d := rnd (val u - val v)) in *. repeat split.
  - destruct (Rlt_bool_spec d 0), (Rlt_bool_spec (val u) (val v)); try reflexivity; exfalso; intuition lra.
  - destruct (Rle_bool_spec (Rabs d) 0) as [H|H], (Req_bool_spec (val u) (val v)) as [K|K]; try reflexivity; exfalso.
    + apply K, S3. apply abs_split in H. lra.
    + apply S3 in K. rewrite K, Rabs_R0 in H. lra.
  - destruct (Rlt_bool_spec 0 d), (Rlt_bool_spec (val v) (val u)); try reflexivity; exfalso; intuition lra.
  - destruct (Rle_bool_spec d 0), (Rle_bool_spec (val u) (val v)); try reflexivity; exfalso; intuition lra.
  - destruct (Rle_bool_spec 0 d), (Rle_bool_spec (val v) (val u)); try reflexivity; exfalso; intuition lra.
Qed.
(** What equality within a tolerance means: numbers within it are equal, and equal numbers are within
    it up to one rounding. *)
Theorem C133_tolerance : forall tol u v, finite tol -> 0 <= val tol -> finite u -> finite v ->
  (Rabs (val u - val v) <= val tol -> f_eq (fabsolute tol) u v = true) /\
  (f_eq (fabsolute tol) u v = true -> Rabs (val u - val v) <= val tol * (1 + powerRZ 2 (-52)) + powerRZ 2 (-1074)) /\
  (f_lt (fabsolute tol) u v = true -> val v - val u > val tol) /\ (f_gt (fabsolute tol) u v = true -> val u - val v > val tol).
Proof.
  intros tol u v T P U V. destruct (absolute_answers tol u v T U V) as [A B C D E]. rewrite A, B, C.
  assert (M : Rabs (rnd (val u - val v)) = rnd (Rabs (val u - val v))).
  { unfold Rabs at 2. destruct (Rcase_abs (val u - val v)) as [H|H].
    - rewrite rnd_opp. apply Rabs_left1. rewrite <- rnd_0. apply rnd_le. lra.
    - apply Rabs_pos_eq. rewrite <- rnd_0. apply rnd_le. lra. }
  rewrite M. repeat split.
  - intro H. apply Rle_bool_true. rewrite <- (rnd_val tol). apply rnd_le, H.
  - intro H. apply rnd_le_inv; [exact P|]. destruct (Rle_bool_spec (rnd (Rabs (val u - val v))) (val tol)); [assumption|discriminate].
  - intro H. destruct (Rlt_bool_spec (rnd (val u - val v)) (- val tol)) as [K|]; [|discriminate].
    apply Rnot_le_gt. intro L. assert (rnd (- val tol) <= rnd (val u - val v)) by (apply rnd_le; lra). rewrite rnd_opp, rnd_val in H0. lra.
  - intro H. destruct (Rlt_bool_spec (val tol) (rnd (val u - val v))) as [K|]; [|discriminate].
    apply Rnot_le_gt. intro L. assert (rnd (val u - val v) <= rnd (val tol)) by (apply rnd_le; lra). rewrite rnd_val in H0. lra.
Qed.
(** Between two equal numbers all are equal; what is less stays less. *)
Theorem C133_between : forall tol u v w, finite tol -> 0 <= val tol -> finite u -> finite v -> finite w -> val u <= val v <= val w ->
  (f_eq (fabsolute tol) u w = true -> f_eq (fabsolute tol) u v = true /\ f_eq (fabsolute tol) v w = true) /\
  (f_lt (fabsolute tol) u v = true -> f_lt (fabsolute tol) u w = true) /\ (f_lt (fabsolute tol) v w = true -> f_lt (fabsolute tol) u w = true).
Proof.
  intros tol u v w T P U V W H.
  destruct (absolute_answers tol u w T U W) as [A1 B1 _ _ _]. destruct (absolute_answers tol u v T U V) as [A2 B2 _ _ _]. destruct (absolute_answers tol v w T V W) as [A3 B3 _ _ _].
  rewrite A1, A2, A3, B1, B2, B3. clear A1 A2 A3 B1 B2 B3.
  assert (L1 : rnd (val u - val w) <= rnd (val u - val v) <= 0) by (rewrite <- rnd_0; split; apply rnd_le; lra).
  assert (L2 : rnd (val u - val w) <= rnd (val v - val w) <= 0) by (rewrite <- rnd_0; split; apply rnd_le; lra).
  repeat split.
  - apply Rle_bool_true. destruct (Rle_bool_spec (Rabs (rnd (val u - val w))) (val tol)) as [K|]; [|discriminate]. apply abs_split in K. apply abs_split. lra.
  - apply Rle_bool_true. destruct (Rle_bool_spec (Rabs (rnd (val u - val w))) (val tol)) as [K|]; [|discriminate]. apply abs_split in K. apply abs_split. lra.
  - intro K. apply Rlt_bool_true. destruct (Rlt_bool_spec (rnd (val u - val v)) (- val tol)); [lra|discriminate].
  - intro K. apply Rlt_bool_true. destruct (Rlt_bool_spec (rnd (val v - val w)) (- val tol)); [lra|discriminate].
Qed.
(** An infinity is beyond every finite number, for every finite tolerance; *)
Theorem C133_infinite : forall tol v, finite tol -> finite v -> forall cmp, cmp = fdirect \/ cmp = fabsolute tol ->
  f_gt cmp infinity v = true /\ f_lt cmp infinity v = false /\ f_eq cmp infinity v = false /\
  f_lt cmp neg_infinity v = true /\ f_gt cmp neg_infinity v = false /\ f_eq cmp neg_infinity v = false.
Proof.
  intros tol v T V.
  assert (C : forall s y t, Prim2B y = B754_infinity s -> finite t -> (y <? t)%float = s /\ (t <? y)%float = negb s /\ (y <=? t)%float = s /\ (y =? t)%float = false).
  { intros s y t Y F. apply finite_B in F. rewrite !ltb_equiv, leb_equiv, eqb_equiv, Y. destruct (Prim2B t) as [z|z| |z m e B], s; try discriminate F; repeat split; try reflexivity; destruct z; reflexivity. }
  assert (M : forall s x, Prim2B x = B754_infinity s -> Prim2B (x - v)%float = B754_infinity s).
  { intros s x X. rewrite sub_equiv, X. apply finite_B in V. destruct (Prim2B v); try discriminate V; reflexivity. }
  assert (A : forall s y, Prim2B y = B754_infinity s -> (absolute_value y <=? tol)%float = false).
  { intros s y Y. unfold absolute_value. rewrite (proj1 (C s y 0%float Y zero_finite)). destruct s.
    - apply (C false). { rewrite opp_equiv, Y. reflexivity. } exact T.
    - apply (C false); assumption. }
  assert (P : Prim2B infinity = B754_infinity false) by reflexivity. assert (N : Prim2B neg_infinity = B754_infinity true) by reflexivity.
  intros cmp [->| ->]; unfold fdirect, fabsolute; cbn [f_gt f_lt f_eq].
  - destruct (C _ _ v P V) as (C1 & C2 & _ & C4), (C _ _ v N V) as (D1 & D2 & _ & D4). rewrite C1, C2, C4, D1, D2, D4. repeat split.
  - rewrite (A _ _ (M _ _ P)), (A _ _ (M _ _ N)).
    destruct (C _ _ tol (M _ _ P) T) as (_ & C2 & _). destruct (C _ _ (- tol)%float (M _ _ P) (opp_finite _ T)) as (C1 & _).
    destruct (C _ _ tol (M _ _ N) T) as (_ & D2 & _). destruct (C _ _ (- tol)%float (M _ _ N) (opp_finite _ T)) as (D1 & _).
    rewrite C1, C2, D1, D2. repeat split.
Qed.
(** but two equal infinities compare in no way at all, *)
Theorem C133_equal_infinities_refuted : forall tol, let cmp := fabsolute tol in
  f_eq cmp infinity infinity = false /\ f_le cmp infinity infinity = false /\ f_ge cmp infinity infinity = false /\
  f_lt cmp infinity infinity = false /\ f_gt cmp infinity infinity = false /\ f_eq fdirect infinity infinity = true.
Proof.
  intros tol cmp. subst cmp. unfold fdirect, fabsolute. cbn [f_gt f_lt f_eq f_le f_ge].
  assert (N : (infinity - infinity)%float = nan) by reflexivity. rewrite N. unfold absolute_value. change (nan <? 0)%float with false. cbv iota.
  rewrite !leb_equiv, !ltb_equiv, nan_equiv, !Prim2B_B2Prim. cbn. 
  destruct (Prim2B tol) as [s|[|]| |[|] m e B], (Prim2B (- tol)%float) as [s2|[|]| |[|] m2 e2 B2]; repeat split; reflexivity.
Qed.
(** and nor does NaN. *)
Theorem C133_nan : forall tol v cmp, cmp = fdirect \/ cmp = fabsolute tol \/ cmp = frelative tol ->
  f_eq cmp nan v = false /\ f_lt cmp nan v = false /\ f_gt cmp nan v = false /\ f_le cmp nan v = false /\ f_ge cmp nan v = false /\
  f_eq cmp v nan = false /\ f_lt cmp v nan = false /\ f_gt cmp v nan = false /\ f_le cmp v nan = false /\ f_ge cmp v nan = false.
Proof.
  assert (L : forall x, (nan <? x)%float = false /\ (x <? nan)%float = false /\ (nan <=? x)%float = false /\ (x <=? nan)%float = false /\ (nan =? x)%float = false /\ (x =? nan)%float = false).
  { intro x. rewrite !ltb_equiv, !leb_equiv, !eqb_equiv, nan_equiv, !Prim2B_B2Prim. destruct (Prim2B x) as [s|[|]| |[|] m e B]; repeat split; reflexivity. }
  assert (S1 : forall x, (nan - x)%float = nan) by (intro x; apply Prim2B_inj; rewrite sub_equiv, nan_equiv, Prim2B_B2Prim; reflexivity).
  assert (S2 : forall x, (x - nan)%float = nan) by (intro x; apply Prim2B_inj; rewrite sub_equiv, nan_equiv, Prim2B_B2Prim; destruct (Prim2B x); reflexivity).
  intros tol v cmp [->|[->| ->] ]; unfold fdirect, fabsolute, frelative; cbn [f_gt f_lt f_eq f_le f_ge]; rewrite ?S1, ?S2; unfold absolute_value; change (nan <? 0)%float with false; cbv iota;
    repeat match goal with |- context [(nan <? ?x)%float] => rewrite (proj1 (L x)) | |- context [(?x <? nan)%float] => rewrite (proj1 (proj2 (L x)))
    | |- context [(nan <=? ?x)%float] => rewrite (proj1 (proj2 (proj2 (L x)))) | |- context [(?x <=? nan)%float] => rewrite (proj1 (proj2 (proj2 (proj2 (L x)))))
    | |- context [(nan =? ?x)%float] => rewrite (proj1 (proj2 (proj2 (proj2 (proj2 (L x)))))) | |- context [(?x =? nan)%float] => rewrite (proj2 (proj2 (proj2 (proj2 (proj2 (L x)))))) end;
    repeat split; reflexivity.
Qed.
Example C133_witness : finite 0x1p-30 /\ f_eq (fabsolute 0x1p-30) 1 0x1.00000001p0 = true /\ f_lt (fabsolute 0x1p-30) 1 2 = true /\
  f_lt (fabsolute 0x1p-30) (-0x1p1023) 0x1p1023 = true /\ finite (-0x1p1023) /\ f_eq (frelative 0x1p-30) 0x1p60 0x1.00000001p60 = true.
Proof. repeat split; reflexivity. Qed.
Print Assumptions C133_fits.
Print Assumptions C133_tolerance.
