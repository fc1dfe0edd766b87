(** C140: length and direction of vectors of doubles. *)
From Coq Require Import Reals Floats ZArith List Lia Bool.
Require Import Flocq.Core.Core Flocq.IEEE754.BinarySingleNaN Flocq.IEEE754.PrimFloat.
From Verif Require Import FloatModel FloatSpec FloatProof FloatProof2 FloatProof3 FloatPolyModel FloatPolySpec FloatGridModel FloatGridProof FloatNormModel FloatNormSpec FloatNormProof.
From Coq Require Import Lra.
Local Open Scope R_scope.

(** The computed length is right to one part in 2^50 and never below a component. *)
Theorem C140_length : forall v, sized v -> finite (fmagnitude v) /\ Rabs (val (fmagnitude v) - length_of v) <= length_of v * powerRZ 2 (-50) /\
  Rabs (val (fx v)) <= val (fmagnitude v) /\ Rabs (val (fy v)) <= val (fmagnitude v).
Proof.
  intros v S. destruct (magnitude_close v S) as [F C]. split; [exact F|]. split; [|exact (magnitude_covers v S)]. apply Rle_trans with (1 := C). apply Req_le. f_equal.
  change (powerRZ 2 (-50)) with (powerRZ (IZR radix2) (-50)). rewrite <- bpow_powerRZ. change (-50)%Z with (3 + -53)%Z. rewrite bpow_plus. reflexivity.
Qed.
(** A normalised vector has no component beyond 1, so the arc cosine of a component is defined. *)
Theorem C140_at_most_one : forall v, sized v -> exists n, fnormalize v = Some n /\ finite_pt n /\ -1 <= val (fx n) <= 1 /\ -1 <= val (fy n) <= 1.
Proof.
  intros v S. destruct (normalized v S) as (n & e & a & b & h & g & N & F & _ & _ & _ & _ & _ & _ & _ & _ & _ & _ & OX & OY). exists n. split; [exact N|]. split; [exact F|].
  split; apply Rabs_le_inv; assumption.
Qed.
Lemma near_square : forall p e a h u t, -1 <= p <= 1 -> 0 <= u <= 1 / 100 -> 0 <= t <= 1 / 100 -> Rabs e <= u -> Rabs a <= u -> Rabs h <= t ->
  Rabs ((p * (1 + e) * (1 + a) + h) * (p * (1 + e) * (1 + a) + h) - p * p) <= p * p * (9 / 2 * u) + 3 * t.
Proof.
  intros p e a h u t P U T E A H. set (c := e + a + e * a). assert (C : Rabs c <= 201 / 100 * u).
  { unfold c. apply Rle_trans with (1 := Rabs_triang _ _). pose proof (Rabs_triang e a). pose proof (small_product _ _ _ _ E A). nra. }
  replace ((p * (1 + e) * (1 + a) + h) * (p * (1 + e) * (1 + a) + h) - p * p) with (p * p * (2 * c + c * c) + h * (2 * p * (1 + c) + h)) by (unfold c; ring).
  pose proof (small_product _ _ _ _ C C) as CC. apply Rle_trans with (1 := Rabs_triang _ _). apply Rplus_le_compat.
  - rewrite Rabs_mult, (Rabs_pos_eq (p * p)) by apply Rle_0_sqr. apply Rmult_le_compat_l; [apply Rle_0_sqr|]. apply Rle_trans with (1 := Rabs_triang _ _). rewrite (Rabs_mult 2), (Rabs_pos_eq 2) by lra.
    assert (u * u <= 1 / 100 * u) by (apply Rmult_le_compat_r; lra). lra.
  - rewrite Rmult_comm, (Rmult_comm 3). rewrite Rmult_comm. rewrite Rabs_mult. apply Rmult_le_compat; try apply Rabs_pos; [exact H|]. apply Rabs_le_inv in H. apply Rabs_le_inv in C. apply Rabs_le.
    assert (Q : Rabs (p * (1 + c)) <= 1 * (103 / 100)) by (apply small_product; apply Rabs_le; lra). apply Rabs_le_inv in Q. lra.
Qed.
(** Its length is 1 to a part in 2^48, *)
Theorem C140_unit : forall v n, sized v -> fnormalize v = Some n -> Rabs (val (fx n) * val (fx n) + val (fy n) * val (fy n) - 1) <= powerRZ 2 (-48).
Proof.
  intros v n S E. destruct (normalized v S) as (n' & e & a & b & h & g & N & _ & M). rewrite N in E. injection E as ->. cbv zeta in M. destruct M as (PM & BE & BA & BB & BH & BG & _ & _ & VX & VY & _ & _).
  destruct (magnitude_close v S) as [_ C]. destruct (magnitude_covers v S) as [CX CY]. pose proof (length_bounds v S) as [L _].
  assert (TP : 0 < length_of v) by (pose proof (bpow_gt_0 radix2 (-400)); lra).
  assert (TT : length_of v * length_of v = val (fx v) * val (fx v) + val (fy v) * val (fy v)) by (unfold length_of; apply sqrt_sqrt; apply Rplus_le_le_0_compat; apply Rle_0_sqr).
  assert (BE' : Rabs e <= unit_error) by (apply Rle_trans with (1 := BE), small_relative). clear BE.
  set (m := val (fmagnitude v)) in *. set (T := length_of v) in *. clearbody m T. rewrite VX, VY. clear VX VY N.
  assert (IN : forall x, Rabs x <= m -> -1 <= x / m <= 1). { intros x H. apply Rabs_le_inv in H. split; apply (Rmult_le_reg_r m); try exact PM; unfold Rdiv; rewrite Rmult_assoc, Rinv_l by lra; lra. }
  assert (TY : 0 <= tiny <= unit_error / 1000). { unfold tiny, unit_error. split; [apply bpow_ge_0|]. pose proof (bpow_le radix2 (-1075) (-63) ltac:(lia)). replace (bpow radix2 (-53)) with (1024 * bpow radix2 (-63)) by (change 1024 with (bpow radix2 10); rewrite <- bpow_plus; reflexivity). pose proof (bpow_ge_0 radix2 (-63)). lra. }
  pose proof unit_error_small as U. set (u := unit_error) in *. set (t := tiny) in *. assert (US : 0 < u <= 1 / 100000). { unfold u, unit_error. split; [apply bpow_gt_0|cbn; lra]. }
  pose proof (near_square _ e a h u t (IN _ CX) U ltac:(lra) BE' BA BH) as NX. pose proof (near_square _ e b g u t (IN _ CY) U ltac:(lra) BE' BB BG) as NY.
  set (X := val (fx v) / m * (1 + e) * (1 + a) + h) in *. set (Y := val (fy v) / m * (1 + e) * (1 + b) + g) in *. clearbody X Y.
  set (p := val (fx v) / m) in *. set (q := val (fy v) / m) in *.
  assert (PQ : p * p + q * q = T / m * (T / m)). { unfold p, q. transitivity ((val (fx v) * val (fx v) + val (fy v) * val (fy v)) / (m * m)); [field; lra|]. rewrite <- TT. field. lra. }
  assert (R : 1 - 9 * u <= T / m <= 1 + 9 * u).
  { apply Rabs_le_inv in C. assert (0 <= T * u) by (apply Rmult_le_pos; lra). assert (T * u * u <= T * u * (1 / 100000)) by (apply Rmult_le_compat_l; lra).
    split; apply (Rmult_le_reg_r m); try exact PM; unfold Rdiv; rewrite Rmult_assoc, Rinv_l, Rmult_1_r by lra.
    - apply Rle_trans with ((1 - 9 * u) * (T * (1 + 8 * u))); [apply Rmult_le_compat_l; lra|]. nra.
    - apply Rle_trans with ((1 + 9 * u) * (T * (1 - 8 * u))); [|apply Rmult_le_compat_l; lra]. nra. }
  set (r := T / m) in *. clearbody r. assert (RR : 1 - 19 * u <= r * r <= 1 + 19 * u).
  { assert (0 <= u * u) by apply Rle_0_sqr. assert (u * u <= 1 / 100000 * u) by (apply Rmult_le_compat_r; lra). split.
    - apply Rle_trans with ((1 - 9 * u) * (1 - 9 * u)); [lra|apply Rmult_le_compat; lra].
    - apply Rle_trans with ((1 + 9 * u) * (1 + 9 * u)); [apply Rmult_le_compat; lra|lra]. }
  apply Rabs_le_inv in NX. apply Rabs_le_inv in NY. assert (0 <= p * p) by apply Rle_0_sqr. assert (0 <= q * q) by apply Rle_0_sqr.
  assert (W : (p * p + q * q) * (9 / 2 * u) <= 2 * (9 / 2 * u)) by (apply Rmult_le_compat_r; lra). rewrite Rmult_plus_distr_r in W.
  change (powerRZ 2 (-48)) with (powerRZ (IZR radix2) (-48)). rewrite <- bpow_powerRZ. change (-48)%Z with (5 + -53)%Z. rewrite bpow_plus. fold unit_error. fold u. change (bpow radix2 5) with 32. apply Rabs_le. lra.
Qed.
(** and it points the same way: no component changes sign, and it leaves the line of the vector by at most a
    part in 2^51 of its length. *)
Theorem C140_direction : forall v n, sized v -> fnormalize v = Some n ->
  0 <= val (fx n) * val (fx v) /\ 0 <= val (fy n) * val (fy v) /\
  Rabs (val (fx n) * val (fy v) - val (fy n) * val (fx v)) <= length_of v * powerRZ 2 (-51).
Proof.
  intros v n S E. destruct (normalized v S) as (n' & e & a & b & h & g & N & _ & M). rewrite N in E. injection E as ->. cbv zeta in M. destruct M as (PM & BE & BA & BB & BH & BG & RX & RY & VX & VY & _ & _).
  assert (BE' : Rabs e <= unit_error) by (apply Rle_trans with (1 := BE), small_relative). clear BE. pose proof unit_error_small as U. pose proof (Rabs_le_inv _ _ BE') as EB.
  assert (IP : 0 <= / val (fmagnitude v) * (1 + e)) by (apply Rmult_le_pos; [left; apply Rinv_0_lt_compat, PM|lra]).
  assert (SG : forall x, 0 <= rnd (x / val (fmagnitude v) * (1 + e)) * x).
  { intro x. replace (x / val (fmagnitude v) * (1 + e)) with (x * (/ val (fmagnitude v) * (1 + e))) by (unfold Rdiv; ring). destruct (Rle_or_lt 0 x) as [P|P].
    - apply Rmult_le_pos; [|exact P]. rewrite <- rnd_0. apply rnd_le. apply Rmult_le_pos; assumption.
    - rewrite <- (Rmult_opp_opp). apply Rmult_le_pos; [|lra]. assert (rnd (x * (/ val (fmagnitude v) * (1 + e))) <= rnd 0); [apply rnd_le|rewrite rnd_0 in *; lra].
      assert (0 <= (- x) * (/ val (fmagnitude v) * (1 + e))) by (apply Rmult_le_pos; lra). lra. }
  split; [rewrite RX; apply SG|]. split; [rewrite RY; apply SG|]. clear SG RX RY N.
  destruct (magnitude_close v S) as [_ C]. destruct (magnitude_covers v S) as [CX CY]. pose proof (length_bounds v S) as [L _]. assert (TP : 0 < length_of v) by (pose proof (bpow_gt_0 radix2 (-400)); lra).
  assert (XT : Rabs (val (fx v)) <= length_of v /\ Rabs (val (fy v)) <= length_of v).
  { unfold length_of. split; rewrite <- sqrt_Rsqr_abs; apply sqrt_le_1_alt; unfold Rsqr; [pose proof (Rle_0_sqr (val (fy v)))|pose proof (Rle_0_sqr (val (fx v)))]; unfold Rsqr in *; lra. }
  destruct XT as [XT YT]. rewrite VX, VY. set (x := val (fx v)) in *. set (y := val (fy v)) in *. set (m := val (fmagnitude v)) in *. set (T := length_of v) in *. clearbody m T x y. clear VX VY.
  replace ((x / m * (1 + e) * (1 + a) + h) * y - (y / m * (1 + e) * (1 + b) + g) * x) with (x / m * ((1 + e) * (y * (a - b))) + (h * y - g * x)) by (field; lra).
  apply Rle_trans with (1 := Rabs_triang _ _).
  assert (Q1 : Rabs (x / m) <= 1). { unfold Rdiv. rewrite Rabs_mult, (Rabs_pos_eq (/ m)) by (left; apply Rinv_0_lt_compat, PM). apply (Rmult_le_reg_r m); [exact PM|]. rewrite Rmult_assoc, Rinv_l by lra. lra. }
  assert (Q2 : Rabs (1 + e) <= 101 / 100) by (apply Rabs_le; lra). assert (Q3 : Rabs (a - b) <= 2 * unit_error). { apply Rle_trans with (1 := Rabs_triang _ _). rewrite Rabs_Ropp. lra. }
  pose proof (small_product _ _ _ _ Q1 (small_product _ _ _ _ Q2 (small_product _ _ _ _ YT Q3))) as Q.
  assert (Q4 : Rabs (h * y - g * x) <= 2 * tiny * T). { apply Rle_trans with (1 := Rabs_triang _ _). rewrite Rabs_Ropp. pose proof (small_product _ _ _ _ BH YT). pose proof (small_product _ _ _ _ BG XT). lra. }
  assert (TY : tiny <= unit_error / 1000). { unfold tiny, unit_error. pose proof (bpow_le radix2 (-1075) (-63) ltac:(lia)). replace (bpow radix2 (-53)) with (1024 * bpow radix2 (-63)) by (change 1024 with (bpow radix2 10); rewrite <- bpow_plus; reflexivity). pose proof (bpow_ge_0 radix2 (-63)). lra. }
  change (powerRZ 2 (-51)) with (powerRZ (IZR radix2) (-51)). rewrite <- bpow_powerRZ. change (-51)%Z with (2 + -53)%Z. rewrite bpow_plus. fold unit_error. change (bpow radix2 2) with 4.
  assert (tiny * T <= unit_error / 1000 * T) by (apply Rmult_le_compat_r; lra). assert (0 <= T * unit_error) by (apply Rmult_le_pos; lra). lra.
Qed.
(** The opposite vector has the same length and the opposite direction, exactly, for all doubles. *)
Lemma opp_times : forall x y, (- x * y)%float = (- (x * y))%float.
Proof.
  intros x y. apply Prim2B_inj. rewrite opp_equiv, !mul_equiv, opp_equiv. destruct (Prim2B x) as [s|s| |s m e B], (Prim2B y) as [s'|s'| |s' m' e' B']; try reflexivity; try (destruct s, s'; reflexivity).
  apply B2SF_inj. unfold Bmult. cbn [Bopp]. rewrite B2SF_SF2B.
  assert (K : forall z : binary_float prec emax, B2SF (Bopp z) = match B2SF z with S754_zero s => S754_zero (negb s) | S754_infinity s => S754_infinity (negb s) | S754_nan => S754_nan | S754_finite s m e => S754_finite (negb s) m e end) by (intros [ | | | ]; reflexivity).
  rewrite K, B2SF_SF2B. clear K. unfold binary_round_aux.
  destruct (shr_fexp _ _ _ _ _) as [r k]. replace (choice_mode mode_NE (xorb (negb s) s') (shr_m r) (loc_of_shr_record r)) with (choice_mode mode_NE (xorb s s') (shr_m r) (loc_of_shr_record r)) by reflexivity.
  destruct (shr_fexp prec emax (choice_mode mode_NE (xorb s s') (shr_m r) (loc_of_shr_record r)) k loc_Exact) as [r' k']. replace (xorb (negb s) s') with (negb (xorb s s')) by (destruct s, s'; reflexivity).
  destruct (shr_m r'); try reflexivity. unfold binary_fit_aux. destruct (k' <=? emax - prec)%Z; reflexivity.
Qed.
Theorem C140_opposite : forall v, fmagnitude (opposite v) = fmagnitude v /\ fnormalize (opposite v) = option_map opposite (fnormalize v).
Proof.
  intro v. assert (E : fmagnitude (opposite v) = fmagnitude v).
  { unfold fmagnitude, fmagnitude_sqrd, opposite. cbn [fx fy]. rewrite (Prim2B_inj _ _ (square_opp (fx v))), (Prim2B_inj _ _ (square_opp (fy v))). reflexivity. }
  split; [exact E|]. unfold fnormalize. rewrite E. destruct (fmagnitude v =? 0)%float; [reflexivity|]. cbv zeta. cbn [option_map]. unfold opposite. cbn [fx fy]. rewrite !opp_times. reflexivity.
Qed.
(** A vector along an axis need not get length 1. *)
Theorem C140_axis_refuted : exists x n, finite x /\ val x = 49 /\ fnormalize (mkfpt x 0) = Some n /\ val (fx n) <> 1 /\ val (fy n) = 0.
Proof.
  exists 49%float, (mkfpt 0x1.fffffffffffffp-1 0). split; [reflexivity|]. split; [rewrite (val_bpow 49%float false 6896136929411072 (-47)) by reflexivity; cbn; lra|]. split; [reflexivity|]. cbn [fx fy].
  split; [|apply zero_val]. rewrite (val_bpow 0x1.fffffffffffffp-1%float false 9007199254740991 (-53)) by reflexivity. cbn. lra.
Qed.
(** Vectors other than zero whose squares underflow have no direction (the assertion fails); those whose squares
    overflow are normalised to zero. *)
Theorem C140_range_refuted : (exists x, finite x /\ 0 < val x /\ fnormalize (mkfpt x 0) = None) /\
  (exists x, finite x /\ 0 < val x /\ fnormalize (mkfpt x 0) = Some (mkfpt 0 0)).
Proof.
  split; [exists 0x1p-600%float|exists 0x1p600%float]; (split; [reflexivity|]; split; [|reflexivity]).
  - rewrite (val_bpow 0x1p-600%float false 4503599627370496 (-652)) by reflexivity. apply Rmult_lt_0_compat; [lra|apply bpow_gt_0].
  - rewrite (val_bpow 0x1p600%float false 4503599627370496 548) by reflexivity. apply Rmult_lt_0_compat; [lra|apply bpow_gt_0].
Qed.
Example C140_witness : sized (mkfpt 3 4) /\ fmagnitude (mkfpt 3 4) = 5%float /\ fnormalize (mkfpt 3 4) = Some (mkfpt 0x1.3333333333334p-1 0x1.999999999999ap-1).
Proof.
  split; [|split; reflexivity]. assert (V3 : val 3%float = 3) by (rewrite (val_bpow 3%float false 6755399441055744 (-51)) by reflexivity; cbn; lra).
  assert (V4 : val 4%float = 4) by (rewrite (val_bpow 4%float false 4503599627370496 (-50)) by reflexivity; cbn; lra). unfold sized. cbn [fx fy]. rewrite V3, V4, !Rabs_pos_eq by lra.
  change 2 with (IZR radix2). rewrite <- !bpow_powerRZ. pose proof (bpow_le radix2 2 400 ltac:(lia)) as A. pose proof (bpow_le radix2 (-400) 0 ltac:(lia)) as B. change (bpow radix2 2) with 4 in A. change (bpow radix2 0) with 1 in B.
  split; [split; reflexivity|]. lra.
Qed.
Print Assumptions C140_at_most_one.
Print Assumptions C140_unit.
Print Assumptions C140_direction.
Print Assumptions C140_opposite.
