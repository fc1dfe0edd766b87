(** Grids on doubles: the centre of a cell has the index of the cell. *)
From Coq Require Import Reals Floats ZArith Lra Lia Bool List.
Require Import Flocq.Core.Core Flocq.Prop.Relative Flocq.IEEE754.BinarySingleNaN Flocq.IEEE754.PrimFloat.
From Verif Require Import FloatModel FloatSpec FloatProof FloatProof2 FloatProof3 FloatPolyModel FloatGridModel FloatGridProof.
From Coq Require Import Lra.
Local Open Scope R_scope.
#[local] Existing Instance Hprec.
#[local] Existing Instance Hmax.

Lemma index_whole : forall i, (0 <= i < 2 ^ 32)%Z -> whole (of_index i) i.
Proof.
  intros i H. unfold of_index. assert (E : Uint63.to_Z (Uint63.of_Z i) = i) by (rewrite Uint63.of_Z_spec; apply Z.mod_small; split; [lia|]; apply Z.lt_trans with (2 ^ 32)%Z; [lia|reflexivity]).
  pose proof (binary_normalize_correct prec emax Hprec Hmax mode_NE i 0 false) as C. cbv zeta in C.
  replace (F2R (Float radix2 i 0)) with (IZR i) in C by (unfold F2R; cbn; ring). change (round_mode mode_NE) with ZnearestE in C.
  rewrite (round_generic radix2 fexp64 ZnearestE (IZR i)) in C by (apply int_format; lia).
  rewrite Rlt_bool_true in C by (apply int_bound; lia). pose proof (of_int63_equiv (Uint63.of_Z i)) as K. rewrite E in K. rewrite <- K in C. destruct C as (C1 & C2 & _).
  split; [apply finite_B, C2|]. rewrite val_B2R. exact C1.
Qed.
Lemma half_val : finite 0x1p-1%float /\ val 0x1p-1%float = 1 / 2.
Proof. split; [reflexivity|]. rewrite (val_bpow 0x1p-1%float false 4503599627370496 (-53)) by reflexivity. cbn. lra. Qed.
Lemma index_half : forall i, (0 <= i < 2 ^ 32)%Z -> finite (of_index i + 0x1p-1)%float /\ val (of_index i + 0x1p-1)%float = IZR i + 1 / 2.
Proof.
  intros i H. destruct (index_whole i H) as [F V]. destruct half_val as [FH VH]. pose proof (add_result _ _ F FH) as R. rewrite V, VH in R.
  assert (G : generic_format radix2 fexp64 (IZR i + 1 / 2)).
  { apply (generic_format_FLT radix2 (-1074) 53). exists (Float radix2 (2 * i + 1) (-1)).
    - unfold F2R. cbn [Fnum Fexp]. rewrite plus_IZR, mult_IZR. cbn. field.
    - cbn [Fnum]. change (Zpower radix2 53) with (2 ^ 53)%Z. lia.
    - cbn [Fexp]. lia. }
  assert (E : rnd (IZR i + 1 / 2) = IZR i + 1 / 2) by (apply round_generic; [apply valid_rnd_N|exact G]).
  assert (B : 0 <= IZR i <= IZR (2 ^ 32)) by (split; apply IZR_le; lia). change (IZR (2 ^ 32)) with 4294967296 in B.
  destruct (result_small _ _ R) as [A C].
  - rewrite E. assert (8589934592 < top) by (replace 8589934592 with (bpow radix2 33) by (cbn; lra); apply bpow_lt; reflexivity). apply Rabs_def1; lra.
  - split; [exact A|]. rewrite C. exact E.
Qed.
Lemma rnd_small : forall r k, (-1074 <= k <= 1000)%Z -> - bpow radix2 k <= r <= bpow radix2 k -> Rabs (rnd r) < top.
Proof.
  intros r k K [A B]. assert (G : generic_format radix2 fexp64 (bpow radix2 k)).
  { apply (generic_format_FLT_bpow radix2 (-1074) 53). lia. }
  assert (EG : rnd (bpow radix2 k) = bpow radix2 k) by (apply round_generic; [apply valid_rnd_N|exact G]).
  assert (rnd r <= bpow radix2 k) by (rewrite <- EG; apply rnd_le; exact B).
  assert (- bpow radix2 k <= rnd r) by (rewrite <- EG, <- rnd_opp; apply rnd_le; exact A).
  assert (bpow radix2 k < top) by (apply bpow_lt; unfold emax; lia). apply Rabs_def1; lra.
Qed.
Lemma two_factors : forall e f u, 0 <= u <= 1 / 100 -> - u <= e <= u -> - (2 * u) <= f <= 2 * u -> 0 <= (1 + e) * (1 + f) <= 2.
Proof. intros e f u U E F. split; [apply Rmult_le_pos; lra|]. apply Rle_trans with (11 / 10 * (11 / 10)); [apply Rmult_le_compat; lra|lra]. Qed.
Lemma centre_index : forall lo w i, finite lo -> finite w -> powerRZ 2 (-900) <= val w <= powerRZ 2 900 -> Rabs (val lo) <= powerRZ 2 40 * val w -> (0 <= i < 2 ^ 32)%Z ->
  fto_uint32 ((lo + (of_index i + 0x1p-1) * w - lo) * (1 / w))%float = Some i.
Proof.
  intros lo w i LO W HW HL HI. destruct (index_half i HI) as [FA VA]. set (a := (of_index i + 0x1p-1)%float) in *. clearbody a.
  assert (HW2 : powerRZ 2 (-1000) <= val w <= powerRZ 2 1000).
  { change 2 with (IZR radix2) in HW |- *. rewrite <- !bpow_powerRZ in HW |- *. pose proof (bpow_le radix2 (-1000) (-900) ltac:(lia)). pose proof (bpow_le radix2 900 1000 ltac:(lia)). lra. }
  destruct (divisor_close w W HW2) as (FD & e2 & E2 & K2).
  change 2 with (IZR radix2) in HW, HL. rewrite <- (bpow_powerRZ radix2 (-900)), <- (bpow_powerRZ radix2 900) in HW. rewrite <- (bpow_powerRZ radix2 40) in HL. pose proof (bpow_gt_0 radix2 (-900)) as WP0. assert (WP : 0 < val w) by lra.
  assert (B : 0 <= IZR i <= 4294967295) by (split; [apply IZR_le; lia|]; apply (IZR_le i 4294967295); lia).
  assert (B40 : bpow radix2 40 = 1099511627776) by (cbn; lra). rewrite B40 in HL. apply Rabs_le_inv in HL.
  pose proof unit_error_small as US. assert (UE : unit_error * 9007199254740992 = 1).
  { unfold unit_error. replace 9007199254740992 with (bpow radix2 53) by (cbn; lra). rewrite <- bpow_plus. reflexivity. }
  assert (TE : 0 < tiny /\ tiny <= val w * (1 / 1000000) /\ tiny <= 1 / 1000000).
  { split; [apply bpow_gt_0|]. assert (bpow radix2 (-20) <= 1 / 1000000) by (cbn; lra). split.
    - apply Rle_trans with (bpow radix2 (-900) * bpow radix2 (-20)); [rewrite <- bpow_plus; apply bpow_le; lia|].
      assert (0 < bpow radix2 (-20)) by apply bpow_gt_0. apply Rmult_le_compat; lra.
    - apply Rle_trans with (bpow radix2 (-20)); [apply bpow_le; lia|assumption]. }
  set (u := unit_error) in *. set (t := tiny) in *.
  (* the product *)
  assert (BW : 0 <= val a * val w <= bpow radix2 940).
  { split; [rewrite VA; apply Rmult_le_pos; lra|]. replace (bpow radix2 940) with (bpow radix2 40 * bpow radix2 900) by (rewrite <- bpow_plus; reflexivity). rewrite B40, VA. apply Rmult_le_compat; lra. }
  destruct (result_small _ _ (mul_result a w FA W)) as [FB VB]; [apply (rnd_small _ 940); [lia|lra]|].
  destruct (mul_error (val a * val w)) as (e1 & h1 & E1 & H1 & K1). fold u in E1. fold t in H1. set (b := (a * w)%float) in *. clearbody b. rewrite K1, VA in VB.
  apply Rabs_le_inv in E1, H1. set (A := IZR i + 1 / 2) in *. assert (EA : A = IZR i + 1 / 2) by reflexivity. assert (AB : 1 / 2 <= A <= 4294967296) by (unfold A; lra). clearbody A.
  assert (AW : 0 <= A * val w <= 4294967296 * val w) by (split; [apply Rmult_le_pos; lra|apply Rmult_le_compat_r; lra]).
  assert (BC : - (val w * (1 / 100000)) <= val b - A * val w <= val w * (1 / 100000)).
  { rewrite VB. assert (- (4294967296 * val w * u) <= A * val w * e1 <= 4294967296 * val w * u) by nra.
    assert (4294967296 * val w * u <= val w * (1 / 1000000)) by nra. lra. }
  (* the sum *)
  assert (SB : - bpow radix2 960 <= val lo + val b <= bpow radix2 960).
  { assert (H9 : bpow radix2 960 = bpow radix2 60 * bpow radix2 900) by (rewrite <- bpow_plus; reflexivity). assert (H6 : bpow radix2 60 = 1152921504606846976) by (cbn; lra). rewrite H6 in H9.
    assert (1152921504606846976 * val w <= 1152921504606846976 * bpow radix2 900) by (apply Rmult_le_compat_l; lra). lra. }
  destruct (result_small _ _ (add_result lo b LO FB)) as [FX VX]; [apply (rnd_small _ 960); [lia|lra]|].
  destruct (add_error lo b) as (e4 & E4 & K4). fold u in E4. set (x := (lo + b)%float) in *. clearbody x. apply Rabs_le_inv in E4.
  assert (BP : 0 <= val b) by nra.
  assert (LX : val lo <= val x) by (rewrite VX, <- (rnd_val lo) at 1; apply rnd_le; lra). rewrite K4 in VX.
  assert (XC : - (val w * (1 / 1000)) <= val x - val lo - A * val w <= val w * (1 / 1000)).
  { assert (Q : - (1200000000000 * val w) <= val lo + val b <= 1200000000000 * val w) by lra.
    assert (- (1200000000000 * val w * u) <= (val lo + val b) * e4 <= 1200000000000 * val w * u) by nra.
    assert (1200000000000 * val w * u <= val w * (1 / 5000)) by (replace (1200000000000 * val w * u) with (val w * (1200000000000 * u)) by ring; apply Rmult_le_compat_l; lra). rewrite VX. lra. }
  (* the difference and the quotient *)
  assert (CB : - (1 / 1000) <= (val x - val lo) / val w - A <= 1 / 1000).
  { replace ((val x - val lo) / val w - A) with ((val x - val lo - A * val w) / val w) by (field; lra).
    assert (I : 0 < / val w) by (apply Rinv_0_lt_compat, WP). split.
    - apply Rle_trans with (- (val w * (1 / 1000)) / val w); [right; field; lra|]. apply Rmult_le_compat_r; lra.
    - apply Rle_trans with ((val w * (1 / 1000)) / val w); [|right; field; lra]. apply Rmult_le_compat_r; lra. }
  assert (DB : 0 <= val x - val lo <= bpow radix2 960).
  { assert (H9 : bpow radix2 960 = bpow radix2 60 * bpow radix2 900) by (rewrite <- bpow_plus; reflexivity). assert (H6 : bpow radix2 60 = 1152921504606846976) by (cbn; lra). rewrite H6 in H9.
    assert (1152921504606846976 * val w <= 1152921504606846976 * bpow radix2 900) by (apply Rmult_le_compat_l; lra). lra. }
  destruct (result_small _ _ (sub_result x lo FX LO)) as [FS VS]; [apply (rnd_small _ 960); [lia|lra]|].
  destruct (sub_error x lo) as (e5 & E5 & K5). fold u in E5. apply Rabs_le_inv in E5.
  assert (F : finite ((x - lo) * (1 / w))%float).
  { refine (proj1 (result_small _ _ (mul_result _ _ FS FD) _)). apply (rnd_small _ 40); [lia|]. rewrite B40, VS, K5.
    replace ((val x - val lo) * (1 + e5) * val (1 / w)%float) with ((val x - val lo) / val w * ((1 + e5) * (1 + e2))) by (rewrite <- K2; field; lra).
    apply Rabs_le_inv in E2. fold u in E2. pose proof (two_factors _ _ _ US E5 E2) as G. set (c := (val x - val lo) / val w) in *. set (f := (1 + e5) * (1 + e2)) in *. clearbody c f.
    assert (0 <= c * f) by (apply Rmult_le_pos; lra). assert (c * f <= 4294967297 * 2) by (apply Rmult_le_compat; lra). lra. }
  pose proof (scaled_close lo x w LO FX W HW2 LX F) as SC. cbv zeta in SC. fold u in SC. fold t in SC. apply Rabs_le_inv in SC.
  set (c := (val x - val lo) / val w) in *. set (v := ((x - lo) * (1 / w))%float) in *. clearbody c v.
  assert (c * (8 * u) <= 4294967297 * (8 * u)) by (apply Rmult_le_compat_r; lra).
  assert (VI : IZR i <= val v < IZR i + 1) by lra.
  rewrite to_uint32_in by (assumption || lra). f_equal. rewrite Ztrunc_floor by lra. apply Zfloor_imp. rewrite plus_IZR. exact VI.
Qed.

Lemma corner_close : forall lo w k, finite lo -> finite w -> powerRZ 2 (-900) <= val w <= powerRZ 2 900 -> Rabs (val lo) <= powerRZ 2 900 -> (0 <= k < 2 ^ 32)%Z ->
  finite (lo + of_index k * w)%float /\ Rabs (val (lo + of_index k * w)%float - (val lo + IZR k * val w)) <= (Rabs (val lo) + IZR k * val w) * powerRZ 2 (-51).
Proof.
  intros lo w k FL FW HW HL HK. destruct (index_whole k HK) as [FA VA]. set (a := of_index k) in *. clearbody a.
  replace (powerRZ 2 (-51)) with (4 * unit_error) by (unfold unit_error; change 2 with (IZR radix2); rewrite <- bpow_powerRZ; change (-51)%Z with (2 + -53)%Z; rewrite bpow_plus; change (bpow radix2 2) with 4; reflexivity).
  change 2 with (IZR radix2) in HW, HL. rewrite <- (bpow_powerRZ radix2 (-900)), <- (bpow_powerRZ radix2 900) in HW. rewrite <- (bpow_powerRZ radix2 900) in HL. pose proof (bpow_gt_0 radix2 (-900)) as WP0. assert (WP : 0 < val w) by lra.
  assert (B : 0 <= IZR k <= 4294967295) by (split; [apply IZR_le; lia|]; apply (IZR_le k 4294967295); lia).
  pose proof unit_error_small as US.
  (* the product *)
  assert (B40 : bpow radix2 40 = 1099511627776) by (cbn; lra).
  assert (BW : 0 <= IZR k * val w <= bpow radix2 940).
  { split; [apply Rmult_le_pos; lra|]. replace (bpow radix2 940) with (bpow radix2 40 * bpow radix2 900) by (rewrite <- bpow_plus; reflexivity). rewrite B40. apply Rmult_le_compat; lra. }
  pose proof (mul_result a w FA FW) as RP. rewrite VA in RP. destruct (result_small _ _ RP) as [FB VB]; [apply (rnd_small _ 940); [lia|lra]|]. clear RP.
  set (b := (a * w)%float) in *. clearbody b. set (P := IZR k * val w) in *.
  assert (PE : exists e, Rabs e <= unit_error /\ val b = P * (1 + e)).
  { destruct (Z.eq_dec k 0) as [Z|Z].
    - exists 0. rewrite Rabs_R0. split; [lra|]. rewrite VB. unfold P. rewrite Z, !Rmult_0_l. apply rnd_0.
    - assert (L : val w <= P) by (unfold P; assert (1 <= IZR k) by (apply (IZR_le 1); lia); rewrite <- (Rmult_1_l (val w)) at 1; apply Rmult_le_compat_r; lra).
      destruct (relative_error_N_FLT_ex radix2 (-1074) 53 ltac:(lia) (fun z => negb (Z.even z)) P) as (e' & E' & M').
      { rewrite Rabs_pos_eq by lra. apply Rle_trans with (bpow radix2 (-900)); [apply bpow_le; lia|lra]. }
      exists e'. split; [|rewrite VB; exact M']. apply Rle_trans with (1 := E'). unfold unit_error. apply Req_le. change (- (53) + 1)%Z with (1 + -53)%Z. rewrite bpow_plus. change (bpow radix2 1) with 2. field. }
  destruct PE as (e & E & PE). apply Rabs_le_inv in E. assert (PB : 0 <= P) by lra. 
  assert (PE1 : - (P * unit_error) <= P * e <= P * unit_error) by (split; [rewrite <- Ropp_mult_distr_r_reverse; apply Rmult_le_compat_l; lra|apply Rmult_le_compat_l; lra]).
  assert (PU : P * unit_error <= P * (1 / 2)) by (apply Rmult_le_compat_l; lra).
  assert (B900 : bpow radix2 900 <= bpow radix2 940) by (apply bpow_le; lia).
  assert (B960 : bpow radix2 940 * 4 <= bpow radix2 960) by (change 4 with (bpow radix2 2); rewrite <- bpow_plus; apply bpow_le; lia).
  pose proof (Rabs_le_inv (val lo) _ (Rle_refl _)) as AL.
  destruct (result_small _ _ (add_result lo b FL FB)) as [FS VS]; [apply (rnd_small _ 960); [lia|rewrite PE; apply Rabs_le_inv in HL; lra]|].
  split; [exact FS|]. destruct (add_error lo b) as (e2 & E2 & K2). rewrite VS, K2, PE. apply Rabs_le_inv in E2.
  set (X := Rabs (val lo)) in *. assert (XL : - X <= val lo <= X) by exact AL. assert (X0 : 0 <= X) by lra.
  set (S := val lo + P * (1 + e)). assert (SB : - (X + P * (3 / 2)) <= S <= X + P * (3 / 2)) by (unfold S; lra).
  assert (SE : Rabs (S * e2) <= (X + P * (3 / 2)) * unit_error).
  { rewrite Rabs_mult. apply Rmult_le_compat; try apply Rabs_pos; apply Rabs_le; lra. }
  apply Rabs_le_inv in SE. replace (S * (1 + e2) - (val lo + P)) with (S * e2 + P * e) by (unfold S; ring). apply Rabs_le.
  assert (0 <= X * unit_error) by (apply Rmult_le_pos; lra). assert (0 <= P * unit_error) by (apply Rmult_le_pos; lra). lra.
Qed.
