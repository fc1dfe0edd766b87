(** Grids on doubles: the index is monotone in the coordinate and close to the exact quotient. *)
From Coq Require Import Reals Floats ZArith Lra Lia Bool List.
Require Import Flocq.Core.Core Flocq.IEEE754.BinarySingleNaN Flocq.IEEE754.PrimFloat.
From Verif Require Import FloatModel FloatSpec FloatProof FloatProof2 FloatProof3 FloatPolyModel FloatGridModel.
From Coq Require Import Lra.
Local Open Scope R_scope.
#[local] Existing Instance Hprec.
#[local] Existing Instance Hmax.

Lemma trunc_val : forall v, ftrunc v = Ztrunc (val v).
Proof.
  intro v. unfold ftrunc, val. destruct (Prim2SF v) as [s|s| |s m e]; try (symmetry; apply (Ztrunc_IZR 0)).
  assert (P : Ztrunc (IZR (Zpos m) * powerRZ 2 e) = (if (0 <=? e)%Z then Zpos m * 2 ^ e else Zpos m / 2 ^ (- e))%Z).
  { destruct (Z.leb_spec 0 e) as [H|H].
    - rewrite <- (Ztrunc_IZR (Zpos m * 2 ^ e)), mult_IZR. f_equal. f_equal.
      change 2 with (IZR radix2) at 1. rewrite <- bpow_powerRZ. symmetry. apply (IZR_Zpower radix2). exact H.
    - rewrite <- Zfloor_div by lia. rewrite Ztrunc_floor.
      + f_equal. unfold Rdiv. f_equal. change 2 with (IZR radix2) at 1. rewrite <- bpow_powerRZ. replace e with (- - e)%Z at 1 by lia. rewrite bpow_opp. f_equal. symmetry. apply (IZR_Zpower radix2). lia.
      + apply Rmult_le_pos; [apply IZR_le; lia|]. apply powerRZ_le. lra. }
  destruct s; rewrite <- P; [|reflexivity]. rewrite Ropp_mult_distr_l_reverse, Ztrunc_opp. reflexivity.
Qed.
Lemma val_limit : val 4294967296%float = 4294967296. Proof. rewrite (val_bpow 4294967296%float false 4503599627370496 (-20)) by reflexivity. cbn. lra. Qed.
Lemma val_minus_one : val (-1)%float = -1. Proof. rewrite (val_bpow (-1)%float true 4503599627370496 (-52)) by reflexivity. cbn. lra. Qed.
Lemma val_one : val 1%float = 1. Proof. rewrite (val_bpow 1%float false 4503599627370496 (-52)) by reflexivity. cbn. lra. Qed.
Lemma to_uint32_some : forall v n, fto_uint32 v = Some n -> finite v /\ -1 < val v < 4294967296 /\ n = Ztrunc (val v).
Proof.
  intros v n H. unfold fto_uint32 in H. destruct ((-1 <? v)%float && (v <? 4294967296)%float) eqn:E; [|discriminate]. injection H as <-.
  apply andb_true_iff in E. destruct E as [A B]. destruct (float_cases v) as [F|[ [s F]|F] ].
  - rewrite ltb_val in A, B by (exact F || reflexivity). rewrite val_minus_one in A. rewrite val_limit in B.
    destruct (Rlt_bool_spec (-1) (val v)); [|discriminate]. destruct (Rlt_bool_spec (val v) 4294967296); [|discriminate]. repeat split; try assumption. apply trunc_val.
  - exfalso. destruct (infinite_less s v 4294967296%float F eq_refl) as [E1 _]. destruct (infinite_less s v (-1)%float F eq_refl) as [_ E2]. rewrite B in E1. rewrite A in E2. subst s. discriminate.
  - exfalso. rewrite (proj1 (nan_less v 4294967296%float F)) in B. discriminate.
Qed.
Lemma to_uint32_in : forall v, finite v -> 0 <= val v < 4294967296 -> fto_uint32 v = Some (Ztrunc (val v)).
Proof.
  intros v F [A B]. unfold fto_uint32. rewrite !ltb_val, val_minus_one, val_limit, !Rlt_bool_true by (lra || assumption || reflexivity). cbn. f_equal. apply trunc_val.
Qed.
Lemma div_result : forall u v, finite u -> finite v -> val v <> 0 -> 0 <= val u -> 0 <= val v -> result_is (u / v)%float (val u / val v).
Proof.
  intros u v U V N P Q. pose proof (Bdiv_correct prec emax _ _ mode_NE (Prim2B u) (Prim2B v)) as C. rewrite <- !val_B2R in C. specialize (C N).
  rewrite <- div_equiv, <- !val_B2R in C. change (round_mode mode_NE) with ZnearestE in C.
  assert (G : 0 <= val u / val v) by (apply Rmult_le_pos; [exact P|]; apply Rlt_le, Rinv_0_lt_compat; lra).
  destruct (Rlt_bool_spec (Rabs (rnd (val u / val v))) top) as [B|B].
  - left. destruct C as (C1 & C2 & _). split; [apply finite_B; rewrite C2; apply finite_B, U|]. split; [exact C1|exact B].
  - right. right. apply overflow_inf in C. pose proof (overflow_pos _ G B) as T. split; [|exact T]. rewrite C. f_equal.
    assert (S2 : Bsign (Prim2B v) = false).
    { destruct (Bsign (Prim2B v)) eqn:S2; [|reflexivity]. apply sign_val in S2. lra. }
    rewrite S2, xorb_false_r. destruct (Bsign (Prim2B u)) eqn:S; [|reflexivity]. exfalso. apply sign_val in S.
    assert (E : val u = 0) by lra. rewrite E in T. unfold Rdiv in T. rewrite Rmult_0_l, rnd_0 in T. assert (0 < top) by apply bpow_gt_0. lra.
Qed.

Lemma inf_mul : forall x y, Prim2B x = B754_infinity false -> not_negative y -> fto_uint32 (x * y)%float = None.
Proof.
  intros x y X Y. unfold fto_uint32.
  assert (H : Prim2B (x * y)%float = B754_infinity false \/ Prim2B (x * y)%float = B754_nan).
  { rewrite mul_equiv, X. destruct Y as [ [F V]|I].
    - rewrite val_B2R in V. apply finite_B in F. destruct (Prim2B y) as [s|s| |s m e B]; try discriminate; cbn.
      + right. reflexivity.
      + left. destruct s; [|reflexivity]. exfalso. cbn in V. assert (K : F2R (Float radix2 (Z.neg m) e) < 0) by (apply F2R_lt_0; cbn; lia). lra.
    - rewrite I. left. reflexivity. }
  destruct H as [H|H].
  - destruct (infinite_less false _ 4294967296%float H eq_refl) as [E _]. rewrite E, andb_false_r. reflexivity.
  - rewrite (proj1 (nan_less _ 4294967296%float H)), andb_false_r. reflexivity.
Qed.
(** A coordinate between two others has an index between theirs. *)
Lemma index_mono : forall lo x hi d n, finite lo -> finite x -> finite hi -> not_negative d -> val lo <= val x <= val hi -> val lo < val hi ->
  fto_uint32 ((hi - lo) * d)%float = Some n -> exists i, fto_uint32 ((x - lo) * d)%float = Some i /\ (0 <= i <= n)%Z.
Proof.
  intros lo x hi d n LO X HI D H S E.
  assert (P : not_negative (hi - lo)%float) by (apply (result_not_negative _ _ (sub_result _ _ HI LO)); lra).
  destruct P as [ [FH VH]|P]; [|rewrite (inf_mul _ _ P D) in E; discriminate].
  destruct D as [ [FD VD]|D].
  2: { exfalso. rewrite mul_comm, (inf_mul _ _ D) in E; [discriminate|]. left. split; assumption. }
  pose proof (finite_result _ _ (sub_result _ _ HI LO) FH) as V2.
  assert (TB : Rabs (rnd (val x - val lo)) < top).
  { pose proof (Rabs_def2 _ _ (val_bound (hi - lo)%float)) as K. rewrite V2 in K.
    assert (0 <= rnd (val x - val lo)) by (rewrite <- rnd_0; apply rnd_le; lra).
    assert (rnd (val x - val lo) <= rnd (val hi - val lo)) by (apply rnd_le; lra). assert (0 < top) by apply bpow_gt_0. apply Rabs_def1; lra. }
  destruct (result_small _ _ (sub_result _ _ X LO) TB) as [FX V1].
  destruct (to_uint32_some _ _ E) as (FP & VP & EN). pose proof (finite_result _ _ (mul_result _ _ FH FD) FP) as V3.
  assert (L0 : 0 <= val (x - lo)%float) by (rewrite V1, <- rnd_0; apply rnd_le; lra).
  assert (L1 : val (x - lo)%float <= val (hi - lo)%float) by (rewrite V1, V2; apply rnd_le; lra).
  assert (M0 : 0 <= rnd (val (x - lo)%float * val d)) by (rewrite <- rnd_0; apply rnd_le, Rmult_le_pos; assumption).
  assert (M1 : rnd (val (x - lo)%float * val d) <= val ((hi - lo) * d)%float) by (rewrite V3; apply rnd_le, Rmult_le_compat_r; assumption).
  assert (T : 4294967296 < top).
  { replace 4294967296 with (bpow radix2 32) by (cbn; lra). apply bpow_lt. reflexivity. }
  destruct (result_small _ _ (mul_result _ _ FX FD)) as [FM VM]; [apply Rabs_def1; lra|].
  exists (Ztrunc (val ((x - lo) * d)%float)). split; [apply to_uint32_in; [exact FM|lra]|].
  split; [rewrite <- (Ztrunc_IZR 0); apply Ztrunc_le; lra|]. rewrite EN. apply Ztrunc_le. lra.
Qed.
Lemma divisor_not_negative : forall w, finite w -> 0 < val w -> not_negative (1 / w)%float.
Proof.
  intros w W P. apply (result_not_negative _ (1 / val w)).
  - rewrite <- val_one. apply div_result; try rewrite val_one; try lra; [reflexivity|exact W].
  - apply Rlt_le. unfold Rdiv. rewrite Rmult_1_l. apply Rinv_0_lt_compat, P.
Qed.
Lemma between_finite : forall lo x hi, finite lo -> finite hi -> (lo <=? x)%float = true -> (x <=? hi)%float = true -> finite x /\ val lo <= val x <= val hi.
Proof.
  intros lo x hi LO HI A B. destruct (float_cases x) as [X|[ [s X]|X] ].
  - rewrite leb_val in A, B by assumption. destruct (Rle_bool_spec (val lo) (val x)); [|discriminate]. destruct (Rle_bool_spec (val x) (val hi)); [|discriminate]. repeat split; assumption.
  - exfalso. rewrite leb_equiv, X in A, B. apply finite_B in LO, HI. destruct s; [destruct (Prim2B lo) as [[]|[]| |[]]; discriminate|destruct (Prim2B hi) as [[]|[]| |[]]; discriminate].
  - exfalso. rewrite leb_equiv, X in A. destruct (Prim2B lo); discriminate.
Qed.

(** ** How close the index is *)
Lemma divisor_close : forall w, finite w -> powerRZ 2 (-1000) <= val w <= powerRZ 2 1000 ->
  finite (1 / w)%float /\ exists e, Rabs e <= 2 * unit_error /\ val (1 / w)%float * val w = 1 + e.
Proof.
  intros w W H. change 2 with (IZR radix2) in H. rewrite <- !bpow_powerRZ in H. assert (WP : 0 < val w) by (pose proof (bpow_gt_0 radix2 (-1000)); lra).
  assert (R : result_is (1 / w)%float (1 / val w)) by (rewrite <- val_one; apply div_result; try rewrite val_one; try lra; [reflexivity|exact W]).
  assert (B1 : 1 / val w <= bpow radix2 1000).
  { unfold Rdiv. rewrite Rmult_1_l. replace 1000%Z with (- (-1000))%Z by reflexivity. rewrite bpow_opp. apply Rinv_le; [apply bpow_gt_0|apply H]. }
  assert (B0 : 0 <= 1 / val w) by (unfold Rdiv; rewrite Rmult_1_l; apply Rlt_le, Rinv_0_lt_compat, WP).
  destruct (mul_error (1 / val w)) as (e & h & E & Hh & K).
  assert (F : Rabs (rnd (1 / val w)) < top).
  { assert (G : generic_format radix2 fexp64 (bpow radix2 1000)) by (apply generic_format_bpow; vm_compute; discriminate).
    assert (EG : rnd (bpow radix2 1000) = bpow radix2 1000) by (apply round_generic; [apply valid_rnd_N|exact G]).
    assert (rnd (1 / val w) <= bpow radix2 1000) by (rewrite <- EG; apply rnd_le; exact B1).
    assert (0 <= rnd (1 / val w)) by (rewrite <- rnd_0; apply rnd_le; exact B0).
    assert (bpow radix2 1000 < top) by (apply bpow_lt; reflexivity). apply Rabs_def1; lra. }
  destruct (result_small _ _ R F) as [FD VD]. split; [exact FD|]. exists (e + h * val w). rewrite VD, K. split; [|field; lra].
  apply Rle_trans with (Rabs e + Rabs (h * val w)); [apply Rabs_triang|]. rewrite Rabs_mult, (Rabs_pos_eq (val w)) by lra.
  assert (Rabs h * val w <= tiny * bpow radix2 1000) by (apply Rmult_le_compat; [apply Rabs_pos|lra|exact Hh|apply H]).
  assert (tiny * bpow radix2 1000 <= unit_error) by (unfold tiny, unit_error; rewrite <- bpow_plus; apply bpow_le; lia). lra.
Qed.
Lemma four_errors : forall c e1 e2 e3 h u t, 0 <= c -> 0 <= u <= 1 / 100 -> Rabs e1 <= u -> Rabs e2 <= 2 * u -> Rabs e3 <= u -> Rabs h <= t ->
  Rabs (c * ((1 + e1) * (1 + e2) * (1 + e3)) + h - c) <= c * (8 * u) + t.
Proof.
  intros c e1 e2 e3 h u t C U E1 E2 E3 H. replace (c * ((1 + e1) * (1 + e2) * (1 + e3)) + h - c) with (c * (e1 + e2 + e3 + e1 * e2 + e1 * e3 + e2 * e3 + e1 * e2 * e3) + h) by ring.
  apply Rle_trans with (Rabs (c * (e1 + e2 + e3 + e1 * e2 + e1 * e3 + e2 * e3 + e1 * e2 * e3)) + Rabs h); [apply Rabs_triang|].
  apply Rplus_le_compat; [|exact H]. rewrite Rabs_mult, (Rabs_pos_eq c) by exact C. apply Rmult_le_compat_l; [exact C|].
  pose proof (small_product _ _ _ _ E1 E2) as A. pose proof (small_product _ _ _ _ E1 E3) as B. pose proof (small_product _ _ _ _ E2 E3) as D. pose proof (small_product _ _ _ _ A E3) as G.
  apply Rabs_le_inv in E1, E2, E3, A, B, D, G. assert (u * u <= u * (1 / 100)) by nra. assert (u * (2 * u) * u <= u * (1 / 100)) by nra. apply Rabs_le. lra.
Qed.
(** The scaled coordinate is close to the exact quotient. *)
Lemma scaled_close : forall lo x w, finite lo -> finite x -> finite w -> powerRZ 2 (-1000) <= val w <= powerRZ 2 1000 -> val lo <= val x ->
  finite ((x - lo) * (1 / w))%float ->
  let c := (val x - val lo) / val w in Rabs (val ((x - lo) * (1 / w))%float - c) <= c * (8 * unit_error) + tiny.
Proof.
  intros lo x w LO X W H L F c. destruct (divisor_close w W H) as (FD & e2 & E2 & K2).
  assert (WP : 0 < val w) by (change 2 with (IZR radix2) in H; rewrite <- !bpow_powerRZ in H; pose proof (bpow_gt_0 radix2 (-1000)); lra).
  assert (FS : finite (x - lo)%float).
  { apply finite_B. apply finite_B in F. rewrite mul_equiv in F. destruct (Prim2B (x - lo)%float) as [s|s| |s m e B]; try reflexivity; destruct (Prim2B (1 / w)%float); discriminate. }
  pose proof (finite_result _ _ (mul_result _ _ FS FD) F) as V. destruct (sub_error x lo) as (e1 & E1 & K1). pose proof (finite_result _ _ (sub_result _ _ X LO) FS) as V1.
  destruct (mul_error (val (x - lo)%float * val (1 / w)%float)) as (e3 & h & E3 & Hh & K3). rewrite V, K3, V1, K1.
  replace ((val x - val lo) * (1 + e1) * val (1 / w)%float * (1 + e3) + h - c) with (c * ((1 + e1) * (1 + e2) * (1 + e3)) + h - c).
  - apply four_errors; try assumption; [|apply unit_error_small]. unfold c, Rdiv. apply Rmult_le_pos; [lra|]. apply Rlt_le, Rinv_0_lt_compat, WP.
  - rewrite <- K2. unfold c. field. lra.
Qed.
