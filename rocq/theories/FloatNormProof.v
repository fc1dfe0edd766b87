(** Proofs for FloatNormProps. *)
From Coq Require Import Reals Floats ZArith List Lia Bool Lra.
Require Import Flocq.Core.Core Flocq.IEEE754.BinarySingleNaN Flocq.IEEE754.PrimFloat Flocq.Prop.Relative.
From Verif Require Import FloatModel FloatSpec FloatProof FloatProof2 FloatProof3 FloatPolyModel FloatPolySpec FloatGridModel FloatGridProof FloatGridProof2 FloatNormModel FloatNormSpec.
From Coq Require Import Lra.
Local Open Scope R_scope.

(** ** Rounding without underflow *)
Lemma rnd_relative : forall r, bpow radix2 (-1000) <= r -> exists e, Rabs e <= unit_error / (1 + unit_error) /\ rnd r = r * (1 + e).
Proof.
  intros r H. destruct (relative_error_N_FLT'_ex radix2 (-1074) 53 ltac:(lia) (fun z => negb (Z.even z)) r) as (e & h & E & HB & Z & K).
  assert (U : u_ro radix2 53 = unit_error). { unfold u_ro, unit_error. change (- (53) + 1)%Z with (-53 + 1)%Z. rewrite bpow_plus. change (bpow radix2 1) with 2. field. }
  rewrite U in E. apply Rmult_integral in Z. destruct Z as [Z|Z].
  - assert (P : 0 < r) by (pose proof (bpow_gt_0 radix2 (-1000)); lra). exists (h / r). split; [|change (rnd r = r * (1 + h / r)); transitivity (r * (1 + e) + h); [exact K|rewrite Z; field; lra] ].
    unfold Rdiv at 1. rewrite Rabs_mult, (Rabs_pos_eq (/ r)) by (left; apply Rinv_0_lt_compat, P).
    apply (Rmult_le_reg_r r); [exact P|]. rewrite Rmult_assoc, Rinv_l, Rmult_1_r by lra.
    apply Rle_trans with (bpow radix2 (-75) * bpow radix2 (-1000)); [apply Rle_trans with (1 := HB); rewrite <- bpow_plus; change (-1074)%Z with (1 + -1075)%Z; rewrite bpow_plus; change (bpow radix2 1) with 2; apply Req_le; change (-75 + -1000)%Z with (-1075)%Z; field|].
    apply Rmult_le_compat; try apply bpow_ge_0; [|exact H]. unfold unit_error. apply (Rmult_le_reg_r (1 + bpow radix2 (-53))); [pose proof (bpow_gt_0 radix2 (-53)); lra|].
    unfold Rdiv. rewrite Rmult_assoc, Rinv_l by (pose proof (bpow_gt_0 radix2 (-53)); lra). cbn. lra.
  - exists e. split; [exact E|]. transitivity (r * (1 + e) + h); [exact K|rewrite Z; ring].
Qed.
Lemma small_relative : unit_error / (1 + unit_error) <= unit_error.
Proof. unfold unit_error. apply (Rmult_le_reg_r (1 + bpow radix2 (-53))); [pose proof (bpow_gt_0 radix2 (-53)); lra|]. unfold Rdiv. rewrite Rmult_assoc, Rinv_l by (pose proof (bpow_gt_0 radix2 (-53)); lra). cbn. lra. Qed.

(** The root of the rounded square of a double is not below it. *)
Lemma root_of_square : forall X, generic_format radix2 fexp64 X -> bpow radix2 (-500) <= X <= bpow radix2 500 -> X <= rnd (R_sqrt.sqrt (rnd (X * X))).
Proof.
  intros X G [L H]. assert (P : 0 < X) by (pose proof (bpow_gt_0 radix2 (-500)); lra).
  assert (L2 : bpow radix2 (-1000) <= X * X). { replace (bpow radix2 (-1000)) with (bpow radix2 (-500) * bpow radix2 (-500)) by (rewrite <- bpow_plus; reflexivity). apply Rmult_le_compat; try apply bpow_ge_0; exact L. }
  destruct (rnd_relative _ L2) as (e & E & K). assert (EU : Rabs e <= unit_error) by (apply Rle_trans with (1 := E), small_relative). apply Rabs_le_inv in EU.
  pose proof (bpow_mag_le radix2 X ltac:(lra)) as B'. pose proof (bpow_mag_gt radix2 X) as B''. rewrite Rabs_pos_eq in B', B'' by lra.
  remember (mag_val radix2 X (mag radix2 X)) as b eqn:M. symmetry in M. pose proof (conj B' B'') as B. clear B' B''.
  assert (B1 : (-500 < b)%Z). { apply (lt_bpow radix2). lra. }
  assert (B2 : (b - 1 <= 500)%Z). { apply (le_bpow radix2). lra. }
  destruct (Req_dec X (bpow radix2 (b - 1))) as [Z|Z].
  - assert (S : X * X = bpow radix2 ((b - 1) + (b - 1))) by (rewrite Z, <- bpow_plus; reflexivity).
    assert (GS : generic_format radix2 fexp64 (X * X)). { rewrite S. apply (@generic_format_FLT_bpow radix2 (-1074) 53 eq_refl). lia. }
    rewrite (round_generic _ _ _ _ GS), sqrt_square by lra. rewrite (round_generic _ _ _ _ G). lra.
  - apply round_N_ge_midp; [apply fexp_ok|exact G|]. rewrite pred_eq_pos by lra. unfold pred_pos. rewrite Req_bool_false by (rewrite M; exact Z).
    rewrite ulp_neq_0 by lra. unfold cexp. rewrite M. assert (FE : fexp64 b = (b + -53)%Z) by (unfold SpecFloat.fexp, SpecFloat.emin, prec, emax; lia). rewrite FE, bpow_plus. fold unit_error.
    set (B0 := bpow radix2 b) in *. assert (HB : B0 / 2 <= X). { unfold B0. replace b with (b - 1 + 1)%Z by lia. rewrite bpow_plus. change (bpow radix2 1) with 2. lra. }
    assert (UX : X <= B0 - B0 * unit_error).
    { assert (GB : generic_format radix2 fexp64 B0) by (apply (@generic_format_FLT_bpow radix2 (-1074) 53 eq_refl); lia).
      pose proof (pred_ge_gt radix2 fexp64 X B0 G GB (proj2 B)) as Q. unfold B0 in Q. rewrite pred_bpow, FE, bpow_plus in Q. exact Q. }
    pose proof unit_error_small as U. assert (UP : 0 < unit_error) by apply bpow_gt_0. set (u := unit_error) in *. set (S := rnd (X * X)) in *. clearbody u B0. assert (BP : 0 < B0) by lra.
    assert (SL : X * X * (1 - u) <= S) by (rewrite K; apply Rmult_le_compat_l; nra).
    apply Rle_lt_trans with (R_sqrt.sqrt ((X - B0 * u / 2) * (X - B0 * u / 2))).
    + rewrite sqrt_square; [lra|]. assert (B0 * u <= B0 * (1 / 100)) by (apply Rmult_le_compat_l; lra). lra.
    + apply sqrt_lt_1_alt. split; [apply Rle_0_sqr|]. apply Rlt_le_trans with (2 := SL).
      assert (Q1 : B0 * u * u <= B0 * u - u * X). { assert (u * X <= u * (B0 - B0 * u)) by (apply Rmult_le_compat_l; lra). lra. }
      assert (Q2 : B0 / 2 * (B0 * u * u) <= X * (B0 * u - u * X)). { apply Rmult_le_compat; try lra. apply Rmult_le_pos; [apply Rmult_le_pos|]; lra. }
      assert (Q3 : 0 < B0 * u * (B0 * u)) by (apply Rmult_lt_0_compat; apply Rmult_lt_0_compat; lra).
      replace ((X - B0 * u / 2) * (X - B0 * u / 2)) with (X * X - X * (B0 * u) + B0 * u * (B0 * u) / 4) by field.
      replace (X * X * (1 - u)) with (X * X - X * (u * X)) by ring. replace (B0 / 2 * (B0 * u * u)) with (B0 * u * (B0 * u) / 2) in Q2 by field. rewrite Rmult_minus_distr_l in Q2. lra.
Qed.

(** ** The length *)
Lemma sized_bpow : forall v, sized v -> finite_pt v /\ Rabs (val (fx v)) <= bpow radix2 400 /\ Rabs (val (fy v)) <= bpow radix2 400 /\
  (bpow radix2 (-400) <= Rabs (val (fx v)) \/ bpow radix2 (-400) <= Rabs (val (fy v))).
Proof. intros v H. rewrite !bpow_powerRZ. exact H. Qed.
Lemma square_minus_zero : forall x, finite x -> ((x - 0) * (x - 0))%float = (x * x)%float.
Proof.
  intros x X. pose proof (sub_result x 0 X zero_finite) as R. rewrite zero_val, Rminus_0_r in R.
  destruct (result_small _ _ R) as [F V]; [rewrite rnd_val; apply val_bound|]. rewrite rnd_val in V.
  destruct (Req_dec (val x) 0) as [Z|Z]; [rewrite !square_zero by (assumption || congruence); reflexivity|]. rewrite (same_val (x - 0)%float x) by congruence. reflexivity.
Qed.
Lemma magnitude_distance : forall v, finite_pt v -> fmagnitude_sqrd v = fdistance_sqrd 0 0 (fx v) (fy v).
Proof. intros v [X Y]. unfold fmagnitude_sqrd, fdistance_sqrd. cbv zeta. rewrite !square_minus_zero by assumption. reflexivity. Qed.
Lemma sqrt_rnd : forall x, val (sqrt x)%float = rnd (R_sqrt.sqrt (val x)).
Proof. intro x. pose proof (Bsqrt_correct prec emax Hprec Hmax mode_NE (Prim2B x)) as (A & _). rewrite <- sqrt_equiv, <- !val_B2R in A. exact A. Qed.
Lemma square_bound : forall x A, Rabs x <= A -> 0 <= x * x <= A * A.
Proof. intros x A H. split; [apply Rle_0_sqr|]. rewrite <- (Rabs_pos_eq (x * x)) by apply Rle_0_sqr. apply small_product; assumption. Qed.
Lemma square_parts : forall v, sized v -> finite (fmagnitude_sqrd v) /\ rnd (val (fx v) * val (fx v)) <= val (fmagnitude_sqrd v) /\ rnd (val (fy v) * val (fy v)) <= val (fmagnitude_sqrd v).
Proof.
  intros v S. apply sized_bpow in S. destruct S as ((X & Y) & BX & BY & _). apply square_bound in BX. apply square_bound in BY. rewrite <- bpow_plus in BX, BY. change (400 + 400)%Z with 800%Z in BX, BY.
  assert (P : 0 <= bpow radix2 800) by apply bpow_ge_0.
  assert (K : forall x, finite x -> 0 <= val x * val x <= bpow radix2 800 -> finite (x * x)%float /\ val (x * x)%float = rnd (val x * val x) /\ 0 <= val (x * x)%float <= bpow radix2 800).
  { intros x F B. destruct (result_small _ _ (mul_result x x F F)) as [G V]; [apply (rnd_small _ 800); [lia|lra]|]. split; [exact G|]. split; [exact V|]. rewrite V. split.
    - rewrite <- rnd_0. apply rnd_le. lra.
    - rewrite <- (round_generic radix2 fexp64 ZnearestE (bpow radix2 800)); [apply rnd_le; lra|]. apply (@generic_format_FLT_bpow radix2 (-1074) 53 eq_refl). lia. }
  destruct (K _ X BX) as (FX & VX & RX). destruct (K _ Y BY) as (FY & VY & RY). clear K.
  destruct (result_small _ _ (add_result _ _ FX FY)) as [F V].
  { apply (rnd_small _ 801); [lia|]. change 801%Z with (1 + 800)%Z. rewrite bpow_plus. change (bpow radix2 1) with 2. lra. }
  unfold fmagnitude_sqrd. split; [exact F|]. rewrite V, <- VX, <- VY. split; [rewrite <- (rnd_val (fx v * fx v)%float) at 1|rewrite <- (rnd_val (fy v * fy v)%float) at 1]; apply rnd_le; lra.
Qed.
Lemma length_bounds : forall v, sized v -> bpow radix2 (-400) <= length_of v <= bpow radix2 401.
Proof.
  intros v S. apply sized_bpow in S. destruct S as (_ & BX & BY & L). apply square_bound in BX. apply square_bound in BY. unfold length_of. split.
  - rewrite <- (sqrt_square (bpow radix2 (-400))) by apply bpow_ge_0. apply sqrt_le_1_alt.
    assert (K : forall x, bpow radix2 (-400) <= Rabs x -> bpow radix2 (-400) * bpow radix2 (-400) <= x * x).
    { intros x H. rewrite <- (Rabs_pos_eq (x * x)) by apply Rle_0_sqr. rewrite Rabs_mult. apply Rmult_le_compat; try apply bpow_ge_0; exact H. }
    destruct L as [L|L]; apply K in L; lra.
  - rewrite <- (sqrt_square (bpow radix2 401)) by apply bpow_ge_0. apply sqrt_le_1_alt. change 401%Z with (1 + 400)%Z. rewrite bpow_plus. change (bpow radix2 1) with 2. pose proof (bpow_ge_0 radix2 400). nra.
Qed.
Lemma magnitude_close : forall v, sized v -> finite (fmagnitude v) /\ Rabs (val (fmagnitude v) - length_of v) <= length_of v * (8 * unit_error).
Proof.
  intros v S. destruct (square_parts v S) as (F & _). pose proof (length_bounds v S) as [L _]. destruct S as (V & _). pose proof V as [X Y]. rewrite (magnitude_distance v V) in F.
  destruct (plain_distance_error 0 0 (fx v) (fy v) zero_finite zero_finite X Y F) as [G H]. rewrite zero_val, !Rminus_0_r in H. fold (length_of v) in H.
  assert (E : fmagnitude v = fdistance 0 0 (fx v) (fy v)) by (unfold fmagnitude, fdistance; rewrite (magnitude_distance v V); reflexivity). rewrite E. split; [exact G|].
  apply Rle_trans with (1 := H). assert (bpow radix2 (-535) <= length_of v * unit_error); [|lra].
  apply Rle_trans with (bpow radix2 (-400) * unit_error); [unfold unit_error; rewrite <- bpow_plus; apply bpow_le; lia|apply Rmult_le_compat_r; [apply unit_error_small|exact L] ].
Qed.
Lemma magnitude_covers : forall v, sized v -> Rabs (val (fx v)) <= val (fmagnitude v) /\ Rabs (val (fy v)) <= val (fmagnitude v).
Proof.
  intros v S. destruct (square_parts v S) as (F & PX & PY). apply sized_bpow in S. destruct S as (V & BX & BY & L). unfold fmagnitude. rewrite sqrt_rnd. set (q := val (fmagnitude_sqrd v)) in *.
  assert (K : forall x, bpow radix2 (-400) <= Rabs (val x) <= bpow radix2 400 -> rnd (val x * val x) <= q -> Rabs (val x) <= rnd (R_sqrt.sqrt q)).
  { intros x B H. apply Rle_trans with (rnd (R_sqrt.sqrt (rnd (Rabs (val x) * Rabs (val x))))).
    - apply root_of_square; [apply generic_format_abs, val_format|]. pose proof (bpow_le radix2 (-500) (-400) ltac:(lia)). pose proof (bpow_le radix2 400 500 ltac:(lia)). lra.
    - apply rnd_le, sqrt_le_1_alt. rewrite <- Rabs_mult, (Rabs_pos_eq (val x * val x)) by apply Rle_0_sqr. exact H. }
  destruct (Rle_or_lt (Rabs (val (fx v))) (Rabs (val (fy v)))) as [C|C].
  - assert (M : Rabs (val (fy v)) <= rnd (R_sqrt.sqrt q)) by (apply K; [lra|exact PY]). lra.
  - assert (M : Rabs (val (fx v)) <= rnd (R_sqrt.sqrt q)) by (apply K; [lra|exact PX]). lra.
Qed.
Lemma factor_close : forall m, finite m -> bpow radix2 (-401) <= val m <= bpow radix2 402 ->
  finite (1 / m)%float /\ exists e, Rabs e <= unit_error / (1 + unit_error) /\ val (1 / m)%float = / val m * (1 + e).
Proof.
  intros m M [L H]. assert (P : 0 < val m) by (pose proof (bpow_gt_0 radix2 (-401)); lra).
  assert (I1 : bpow radix2 (-402) <= / val m). { change (-402)%Z with (- (402))%Z. rewrite bpow_opp. apply Rinv_le; assumption. }
  assert (I2 : / val m <= bpow radix2 401). { change 401%Z with (- (-401))%Z. rewrite bpow_opp. apply Rinv_le; [apply bpow_gt_0|exact L]. }
  pose proof (div_result 1 m eq_refl M ltac:(lra) ltac:(rewrite val_one; lra) ltac:(lra)) as R. rewrite val_one in R. unfold Rdiv in R. rewrite Rmult_1_l in R.
  destruct (result_small _ _ R) as [F V]; [apply (rnd_small _ 401); [lia|]; pose proof (bpow_ge_0 radix2 401); pose proof (bpow_ge_0 radix2 (-402)); lra|]. split; [exact F|].
  destruct (rnd_relative (/ val m)) as (e & E & K); [pose proof (bpow_le radix2 (-1000) (-402) ltac:(lia)); lra|]. exists e. split; [exact E|]. rewrite V. exact K.
Qed.
Lemma at_most_one : forall r, Rabs r < 1 + unit_error -> Rabs (rnd r) <= 1.
Proof.
  assert (K : forall r, r < 1 + unit_error -> rnd r <= 1).
  { intros r H. apply round_N_le_midp; [apply fexp_ok| |]. { rewrite <- val_one. apply val_format. }
    assert (SC : succ radix2 fexp64 1 = 1 + bpow radix2 (-52)). { change 1 with (bpow radix2 0). rewrite succ_eq_pos by apply bpow_ge_0. rewrite ulp_bpow. reflexivity. }
    rewrite SC. apply Rlt_le_trans with (1 := H). unfold unit_error. change (-52)%Z with (1 + -53)%Z. rewrite bpow_plus. change (bpow radix2 1) with 2. lra. }
  intros r H. apply Rabs_def2 in H. apply Rabs_le. split; [|apply K; lra]. assert (L : rnd (- r) <= 1) by (apply K; lra). rewrite rnd_opp in L. lra.
Qed.
(** ** The direction *)
Lemma normalized : forall v, sized v -> exists n e a b h g, fnormalize v = Some n /\ finite_pt n /\ let m := val (fmagnitude v) in 0 < m /\
  Rabs e <= unit_error / (1 + unit_error) /\ Rabs a <= unit_error /\ Rabs b <= unit_error /\ Rabs h <= tiny /\ Rabs g <= tiny /\
  val (fx n) = rnd (val (fx v) / m * (1 + e)) /\ val (fy n) = rnd (val (fy v) / m * (1 + e)) /\
  val (fx n) = val (fx v) / m * (1 + e) * (1 + a) + h /\ val (fy n) = val (fy v) / m * (1 + e) * (1 + b) + g /\
  Rabs (val (fx n)) <= 1 /\ Rabs (val (fy n)) <= 1.
Proof.
  intros v S. destruct (magnitude_close v S) as [F C]. destruct (magnitude_covers v S) as [CX CY]. pose proof (length_bounds v S) as [L1 L2]. pose proof unit_error_small as U. apply Rabs_le_inv in C.
  assert (B : bpow radix2 (-401) <= val (fmagnitude v) <= bpow radix2 402).
  { change (-401)%Z with (-1 + -400)%Z. change 402%Z with (1 + 401)%Z. rewrite !bpow_plus. change (bpow radix2 1) with 2. change (bpow radix2 (-1)) with (/ 2). pose proof (bpow_gt_0 radix2 (-400)). split; nra. }
  assert (P : 0 < val (fmagnitude v)) by (pose proof (bpow_gt_0 radix2 (-401)); lra).
  destruct (factor_close _ F B) as (FF & e & E & VF). unfold fnormalize. rewrite eqb_val, zero_val, Req_bool_false by (lra || assumption || reflexivity). set (f := (1 / fmagnitude v)%float) in *.
  set (m := val (fmagnitude v)) in *. pose proof small_relative as SR. assert (UP : 0 < unit_error) by apply bpow_gt_0.
  assert (EB : 1 + unit_error / (1 + unit_error) < 1 + unit_error). { apply Rplus_lt_compat_l. apply (Rmult_lt_reg_r (1 + unit_error)); [lra|]. unfold Rdiv. rewrite Rmult_assoc, Rinv_l by lra. nra. }
  assert (K : forall x, finite x -> Rabs (val x) <= m -> finite (x * f)%float /\ val (x * f)%float = rnd (val x / m * (1 + e)) /\ Rabs (val (x * f)%float) <= 1).
  { intros x X H. pose proof (mul_result x f X FF) as R. rewrite VF in R. replace (val x * (/ m * (1 + e))) with (val x / m * (1 + e)) in R by (unfold Rdiv; ring).
    assert (RB : Rabs (val x / m * (1 + e)) < 1 + unit_error).
    { apply Rle_lt_trans with (2 := EB). apply Rle_trans with (1 * (1 + unit_error / (1 + unit_error))); [|lra]. apply small_product.
      - unfold Rdiv. rewrite Rabs_mult, (Rabs_pos_eq (/ m)) by (left; apply Rinv_0_lt_compat, P). apply (Rmult_le_reg_r m); [exact P|]. rewrite Rmult_assoc, Rinv_l by lra. lra.
      - apply Rle_trans with (1 := Rabs_triang _ _). rewrite Rabs_R1. lra. }
    destruct (result_small _ _ R) as [G V]; [apply Rle_lt_trans with (1 := at_most_one _ RB); apply (bpow_lt radix2 0 1024); lia|]. split; [exact G|]. split; [exact V|]. rewrite V. apply at_most_one, RB. }
  destruct S as ((X & Y) & _). destruct (K _ X CX) as (FX & VX & OX). destruct (K _ Y CY) as (FY & VY & OY).
  destruct (mul_error (val (fx v) / m * (1 + e))) as (a & h & A & H & KA). destruct (mul_error (val (fy v) / m * (1 + e))) as (b & g & BB & G & KB).
  exists (mkfpt (fx v * f) (fy v * f)), e, a, b, h, g. cbn [fx fy]. split; [reflexivity|]. split; [split; assumption|]. cbv zeta.
  split; [exact P|]. split; [exact E|]. split; [exact A|]. split; [exact BB|]. split; [exact H|]. split; [exact G|]. split; [exact VX|]. split; [exact VY|].
  split; [rewrite VX; exact KA|]. split; [rewrite VY; exact KB|]. split; assumption.
Qed.
