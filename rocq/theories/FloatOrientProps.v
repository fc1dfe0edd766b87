(** C134: the orientation test on doubles.  C135: the distance on doubles. *)
From Coq Require Import Reals Floats ZArith Lra Lia Bool.
Require Import Flocq.Core.Core Flocq.Prop.Sterbenz Flocq.IEEE754.BinarySingleNaN Flocq.IEEE754.PrimFloat.
From Verif Require Import FloatModel FloatSpec FloatProof FloatProof2 FloatProof3.
Local Open Scope R_scope.
#[local] Existing Instance Hprec.
#[local] Existing Instance Hmax.
#[local] Existing Instance fexp_monotone.
#[local] Existing Instance fexp_ok.

(** ** C134 *)
(** A side reported for two vectors is the side, whatever is rounded away or overflows. *)
Theorem C134_vector_side : forall cmp ax ay bx b_y, usual cmp -> finite ax -> finite ay -> finite bx -> finite b_y ->
  let o := fvector_orientation cmp ax ay bx b_y in o <> F_collinear -> real_orientation (val ax) (val ay) (val bx) (val b_y) o.
Proof.
  intros cmp ax ay bx b_y C AX AY BX BY o. pose proof (mul_result _ _ AX BY) as P. pose proof (mul_result _ _ AY BX) as R.
  assert (S : (f_lt cmp (ax * b_y) (ay * bx) = true -> val ax * val b_y < val ay * val bx) /\ (f_gt cmp (ax * b_y) (ay * bx) = true -> val ay * val bx < val ax * val b_y)).
  { destruct C as [->|(tol & T & N & ->)].
    - cbn. split; apply result_lt2; assumption.
    - apply (absolute_sound tol _ _ _ _ T N P R). }
  subst o. unfold fvector_orientation, forient. destruct S as [S1 S2].
  destruct (f_lt cmp (ax * b_y) (ay * bx)); [intros _; cbn; specialize (S1 eq_refl); lra|].
  destruct (f_gt cmp (ax * b_y) (ay * bx)); [intros _; cbn; specialize (S2 eq_refl); lra|]. intro H. exfalso. apply H. reflexivity.
Qed.
(** So is a side reported for three points whose differences are doubles, *)
Theorem C134_point_side : forall cmp ax ay bx b_y cx cy, usual cmp ->
  finite (bx - ax)%float -> finite (b_y - ay)%float -> finite (cx - ax)%float -> finite (cy - ay)%float ->
  val (bx - ax) = val bx - val ax -> val (b_y - ay) = val b_y - val ay -> val (cx - ax) = val cx - val ax -> val (cy - ay) = val cy - val ay ->
  let o := fpoint_orientation cmp ax ay bx b_y cx cy in o <> F_collinear -> real_orientation (val bx - val ax) (val b_y - val ay) (val cx - val ax) (val cy - val ay) o.
Proof.
  intros cmp ax ay bx b_y cx cy C F1 F2 F3 F4 E1 E2 E3 E4 o. rewrite <- E1, <- E2, <- E3, <- E4. apply C134_vector_side; assumption.
Qed.
(** which they are for coordinates within a factor of two of the first point's, *)
Theorem C134_near_points : forall cmp ax ay bx b_y cx cy, usual cmp -> finite ax -> finite ay -> finite bx -> finite b_y -> finite cx -> finite cy ->
  val ax / 2 <= val bx <= 2 * val ax -> val ay / 2 <= val b_y <= 2 * val ay -> val ax / 2 <= val cx <= 2 * val ax -> val ay / 2 <= val cy <= 2 * val ay ->
  let o := fpoint_orientation cmp ax ay bx b_y cx cy in o <> F_collinear -> real_orientation (val bx - val ax) (val b_y - val ay) (val cx - val ax) (val cy - val ay) o.
Proof.
  assert (K : forall x y, finite x -> finite y -> val y / 2 <= val x <= 2 * val y -> finite (x - y)%float /\ val (x - y) = val x - val y).
  { intros x y X Y H. assert (F : generic_format radix2 fexp64 (val x - val y)) by (apply sterbenz; [apply fexp_ok|apply fexp_monotone|apply val_format|apply val_format|exact H]).
    assert (E : rnd (val x - val y) = val x - val y) by (apply round_generic; [apply valid_rnd_N|exact F]).
    destruct (result_small _ _ (sub_result x y X Y)) as [A B]; [|split; [exact A|lra] ].
    rewrite E. pose proof (Rabs_def2 _ _ (val_bound x)). pose proof (Rabs_def2 _ _ (val_bound y)). apply Rabs_def1; lra. }
  intros cmp ax ay bx b_y cx cy C AX AY BX BY CX CY H1 H2 H3 H4.
  destruct (K _ _ BX AX H1), (K _ _ BY AY H2), (K _ _ CX AX H3), (K _ _ CY AY H4). apply C134_point_side; assumption.
Qed.
(** and for integers up to 2^52. *)
Theorem C134_integer_side : forall cmp ax ay bx b_y cx cy kx ky lx ly mx my, usual cmp ->
  whole ax kx -> whole ay ky -> whole bx lx -> whole b_y ly -> whole cx mx -> whole cy my ->
  (Z.abs kx <= 2 ^ 52 /\ Z.abs ky <= 2 ^ 52 /\ Z.abs lx <= 2 ^ 52 /\ Z.abs ly <= 2 ^ 52 /\ Z.abs mx <= 2 ^ 52 /\ Z.abs my <= 2 ^ 52)%Z ->
  let o := fpoint_orientation cmp ax ay bx b_y cx cy in o <> F_collinear -> real_orientation (val bx - val ax) (val b_y - val ay) (val cx - val ax) (val cy - val ay) o.
Proof.
  intros cmp ax ay bx b_y cx cy kx ky lx ly mx my C AX AY BX BY CX CY H.
  destruct (whole_sub _ _ _ _ BX AX ltac:(lia)) as [F1 E1]. destruct (whole_sub _ _ _ _ BY AY ltac:(lia)) as [F2 E2].
  destruct (whole_sub _ _ _ _ CX AX ltac:(lia)) as [F3 E3]. destruct (whole_sub _ _ _ _ CY AY ltac:(lia)) as [F4 E4].
  apply C134_point_side; try assumption; [rewrite E1, (proj2 AX), (proj2 BX)|rewrite E2, (proj2 AY), (proj2 BY)|rewrite E3, (proj2 AX), (proj2 CX)|rewrite E4, (proj2 AY), (proj2 CY)];
    apply minus_IZR.
Qed.
(** For integers up to 2^25 the test is exact, collinearity included, also with a tolerance below one. *)
Theorem C134_integer_exact : forall cmp ax ay bx b_y cx cy kx ky lx ly mx my,
  cmp = fdirect \/ (exists tol, finite tol /\ 0 <= val tol < 1 /\ cmp = fabsolute tol) ->
  whole ax kx -> whole ay ky -> whole bx lx -> whole b_y ly -> whole cx mx -> whole cy my ->
  (Z.abs kx <= 2 ^ 25 /\ Z.abs ky <= 2 ^ 25 /\ Z.abs lx <= 2 ^ 25 /\ Z.abs ly <= 2 ^ 25 /\ Z.abs mx <= 2 ^ 25 /\ Z.abs my <= 2 ^ 25)%Z ->
  real_orientation (val bx - val ax) (val b_y - val ay) (val cx - val ax) (val cy - val ay) (fpoint_orientation cmp ax ay bx b_y cx cy).
Proof.
  intros cmp ax ay bx b_y cx cy kx ky lx ly mx my C AX AY BX BY CX CY H.
  pose proof (whole_sub _ _ _ _ BX AX ltac:(lia)) as D1. pose proof (whole_sub _ _ _ _ BY AY ltac:(lia)) as D2.
  pose proof (whole_sub _ _ _ _ CX AX ltac:(lia)) as D3. pose proof (whole_sub _ _ _ _ CY AY ltac:(lia)) as D4.
  assert (M : forall m n : Z, (Z.abs m <= 2 ^ 26 -> Z.abs n <= 2 ^ 26 -> Z.abs (m * n) <= 2 ^ 52)%Z).
  { intros m n A B. rewrite Z.abs_mul. change (2 ^ 52)%Z with (2 ^ 26 * 2 ^ 26)%Z. apply Z.mul_le_mono_nonneg; lia. }
  pose proof (M (lx - kx)%Z (my - ky)%Z ltac:(lia) ltac:(lia)) as M1. pose proof (M (ly - ky)%Z (mx - kx)%Z ltac:(lia) ltac:(lia)) as M2.
  pose proof (whole_mul _ _ _ _ D1 D4 ltac:(lia)) as P. pose proof (whole_mul _ _ _ _ D2 D3 ltac:(lia)) as R.
  unfold fpoint_orientation, fvector_orientation, forient.
  rewrite (proj2 AX), (proj2 AY), (proj2 BX), (proj2 BY), (proj2 CX), (proj2 CY), <- !minus_IZR.
  set (p := ((lx - kx) * (my - ky))%Z) in *. set (r := ((ly - ky) * (mx - kx))%Z) in *.
  set (x := ((bx - ax) * (cy - ay))%float) in *. set (y := ((b_y - ay) * (cx - ax))%float) in *. clearbody x y.
  assert (G : (f_lt cmp x y = true <-> (p < r)%Z) /\ (f_gt cmp x y = true <-> (r < p)%Z)).
  { destruct C as [->|(tol & T & N & ->)].
    - cbn. rewrite !ltb_val by (apply P || apply R). rewrite (proj2 P), (proj2 R).
      destruct (Rlt_bool_spec (IZR p) (IZR r)) as [L|L], (Rlt_bool_spec (IZR r) (IZR p)) as [L'|L'];
        try (apply lt_IZR in L); try (apply lt_IZR in L'); try (apply le_IZR in L); try (apply le_IZR in L'); split; split; intro Z; try reflexivity; try discriminate; lia.
    - assert (S : whole (x - y) (p - r)) by (apply whole_sub; [exact P|exact R|lia]). cbn. rewrite !ltb_val by (apply S || apply opp_finite, T || exact T).
      rewrite opp_val, (proj2 S), minus_IZR.
      assert (A1 : (p < r)%Z -> IZR p + 1 <= IZR r) by (intro Z; rewrite <- plus_IZR; apply IZR_le; lia).
      assert (A2 : (r < p)%Z -> IZR r + 1 <= IZR p) by (intro Z; rewrite <- plus_IZR; apply IZR_le; lia).
      assert (B1 : IZR p < IZR r -> (p < r)%Z) by apply lt_IZR. assert (B2 : IZR r < IZR p -> (r < p)%Z) by apply lt_IZR.
      destruct (Rlt_bool_spec (IZR p - IZR r) (- val tol)) as [L|L], (Rlt_bool_spec (val tol) (IZR p - IZR r)) as [L'|L']; split; split; intro Z; try reflexivity; try discriminate;
        try (apply B1; lra); try (apply B2; lra); try (apply A1 in Z; lra); try (apply A2 in Z; lra). }
  destruct G as [G1 G2]. unfold real_orientation. rewrite <- !mult_IZR. fold p. fold r.
  destruct (f_lt cmp x y).
  - assert (L : (p < r)%Z) by (apply G1; reflexivity). apply IZR_lt in L. lra.
  - destruct (f_gt cmp x y).
    + assert (L : (r < p)%Z) by (apply G2; reflexivity). apply IZR_lt in L. lra.
    + assert (L : p = r). { destruct (Z.lt_trichotomy p r) as [L|[L|L] ]; [apply G1 in L; discriminate|exact L|apply G2 in L; discriminate]. } rewrite L. lra.
Qed.
(** Exchanging the second and the third point turns the answer, for all doubles, infinities and NaN
    included. *)
Theorem C134_exchange : forall cmp ax ay bx b_y cx cy, usual cmp ->
  fpoint_orientation cmp ax ay cx cy bx b_y = turned (fpoint_orientation cmp ax ay bx b_y cx cy).
Proof.
  intros cmp ax ay bx b_y cx cy C. unfold fpoint_orientation, fvector_orientation.
  rewrite (mul_comm (cx - ax) (b_y - ay)), (mul_comm (cy - ay) (bx - ax)). set (x := ((bx - ax) * (cy - ay))%float). set (y := ((b_y - ay) * (cx - ax))%float).
  destruct C as [->|(tol & T & N & ->)]; apply orient_swap; cbn.
  - reflexivity.
  - reflexivity.
  - intros [A B]. exact (less_asym _ _ A B).
  - apply sub_flip, T.
  - symmetry. apply sub_flip, T.
  - intros [A B]. exact (not_both_less _ _ T N A B).
Qed.
(** Coinciding points are collinear. *)
Theorem C134_coinciding : forall cmp ax ay bx b_y, usual cmp -> finite ax -> finite ay ->
  fpoint_orientation cmp ax ay ax ay bx b_y = F_collinear /\ fpoint_orientation cmp ax ay bx b_y ax ay = F_collinear /\ fpoint_orientation cmp ax ay bx b_y bx b_y = F_collinear.
Proof.
  assert (U : forall o, turned o = o -> o = F_collinear) by (intros [| |] H; try reflexivity; discriminate).
  intros cmp ax ay bx b_y C AX AY.
  assert (A : fpoint_orientation cmp ax ay ax ay bx b_y = F_collinear).
  { apply U. unfold fpoint_orientation, fvector_orientation.
    assert (Z : forall x, finite x -> Prim2B (x - x) = B754_zero false).
    { intros x X. pose proof (Bminus_correct prec emax _ _ mode_NE (Prim2B x) (Prim2B x) (proj1 (finite_B x) X) (proj1 (finite_B x) X)) as M.
      replace (B2R (Prim2B x) - B2R (Prim2B x)) with 0 in M by ring. change (round_mode mode_NE) with ZnearestE in M. rewrite rnd_0, Rabs_R0 in M.
      rewrite Rlt_bool_true in M by apply bpow_gt_0. destruct M as (M1 & M2 & M3). rewrite Rcompare_Eq in M3 by reflexivity. rewrite <- sub_equiv in *.
      destruct (Prim2B (x - x)) as [s|s| |s m e B]; try discriminate M2.
      - cbn in M3. rewrite M3. destruct (Bsign (Prim2B x)); reflexivity.
      - exfalso. cbn in M1. apply eq_0_F2R in M1. destruct s; discriminate M1. }
    assert (W : forall z w, Prim2B z = B754_zero false -> (exists s, Prim2B (z * w) = B754_zero s) \/ Prim2B (z * w) = B754_nan).
    { intros z w H. rewrite mul_equiv, H. destruct (Prim2B w); [left|right|right|left]; cbn; eauto. }
    pose proof (W _ (b_y - ay)%float (Z _ AX)) as P. pose proof (W _ (bx - ax)%float (Z _ AY)) as R.
    set (x := ((ax - ax) * (b_y - ay))%float) in *. set (y := ((ay - ay) * (bx - ax))%float) in *. clearbody x y.
    assert (L : f_lt cmp x y = false /\ f_gt cmp x y = false).
    { destruct C as [->|(tol & T & N & ->)]; cbn.
      - rewrite !ltb_equiv. destruct P as [ [s P]|P], R as [ [r R]|R]; rewrite P, R; split; reflexivity.
      - assert (D : (exists s, Prim2B (x - y) = B754_zero s) \/ Prim2B (x - y) = B754_nan).
        { rewrite sub_equiv. destruct P as [ [s P]|P], R as [ [r R]|R]; rewrite P, R; [left|right|right|right]; try reflexivity. destruct s, r; cbn; eauto. }
        destruct D as [ [s D]|D].
        + assert (F : finite (x - y)%float) by (apply finite_B; rewrite D; reflexivity). assert (V : val (x - y) = 0) by (rewrite val_B2R, D; reflexivity).
          rewrite !ltb_val, opp_val, V by (assumption || apply opp_finite, T). rewrite !Rlt_bool_false by lra. split; reflexivity.
        + split; [apply (nan_less _ _ D)|apply (nan_less _ _ D)]. }
    unfold forient. destruct L as [-> ->]. reflexivity. }
  split; [exact A|]. split.
  - rewrite (C134_exchange cmp ax ay ax ay bx b_y C), A. reflexivity.
  - apply U. symmetry. apply C134_exchange, C.
Qed.
(** Without exact differences the side can be wrong and can depend on the point taken first. *)
Theorem C134_wrong_side_refuted : exists ax ay bx b_y cx cy,
  finite ax /\ finite ay /\ finite bx /\ finite b_y /\ finite cx /\ finite cy /\
  fpoint_orientation fdirect ax ay bx b_y cx cy = F_left /\ real_orientation (val bx - val ax) (val b_y - val ay) (val cx - val ax) (val cy - val ay) F_right /\
  fpoint_orientation fdirect bx b_y cx cy ax ay = F_collinear /\ fpoint_orientation fdirect cx cy ax ay bx b_y = F_right.
Proof.
  exists 0x1.0000000000032p-1%float, 0x1.000000000002fp-1%float, 12%float, 12%float, 24%float, 24%float. repeat (split; [reflexivity|]). split; [|split; reflexivity].
  unfold real_orientation. rewrite (val_bpow 12%float false 6755399441055744 (-49)) by reflexivity. rewrite (val_bpow 24%float false 6755399441055744 (-48)) by reflexivity.
  rewrite (val_bpow 0x1.0000000000032p-1%float false 4503599627370546 (-53)) by reflexivity. rewrite (val_bpow 0x1.000000000002fp-1%float false 4503599627370543 (-53)) by reflexivity.
  cbn -[IZR]. set (w := bpow radix2 (-49)). 
  unfold bpow. cbv [radix2 radix_val Z.pow_pos Pos.iter Z.mul Pos.mul]. lra.
Qed.
Example C134_witness : usual (fabsolute 0x1p-20) /\ whole 3 3 /\ fpoint_orientation fdirect 0 0 3 0 0 3 = F_left /\ fvector_orientation fdirect 0x1p1000 1 0 0x1p1000 = F_left.
Proof.
  split; [right; exists 0x1p-20%float; repeat split|].
  - rewrite (val_bpow 0x1p-20%float false 4503599627370496 (-72)) by reflexivity. apply Rmult_le_pos; [lra|apply bpow_ge_0].
  - split; [|split; reflexivity]. split; [reflexivity|]. rewrite (val_bpow 3%float false 6755399441055744 (-51)) by reflexivity. cbn. lra.
Qed.

(** ** C135 *)
(** The computed distance does not depend on the order of the points, is not negative and is zero
    between equal points. *)
Theorem C135_distance : forall ax ay bx b_y, finite ax -> finite ay -> finite bx -> finite b_y ->
  fdistance_sqrd ax ay bx b_y = fdistance_sqrd bx b_y ax ay /\ fdistance ax ay bx b_y = fdistance bx b_y ax ay /\
  (0 <=? fdistance_sqrd ax ay bx b_y)%float = true /\ (0 <=? fdistance ax ay bx b_y)%float = true /\
  (val ax = val bx -> val ay = val b_y -> fdistance_sqrd ax ay bx b_y = 0%float /\ fdistance ax ay bx b_y = 0%float).
Proof.
  intros ax ay bx b_y AX AY BX BY.
  assert (S : fdistance_sqrd ax ay bx b_y = fdistance_sqrd bx b_y ax ay).
  { unfold fdistance_sqrd. cbv zeta. rewrite (square_flip bx ax), (square_flip b_y ay) by assumption. reflexivity. }
  assert (P : not_negative (fdistance_sqrd ax ay bx b_y)) by (apply sum_not_negative; apply square_not_negative; assumption).
  split; [exact S|]. split; [unfold fdistance; rewrite S; reflexivity|]. split; [apply not_negative_leb, P|]. split; [apply not_negative_leb, sqrt_not_negative, P|].
  intros EX EY. assert (Z : fdistance_sqrd ax ay bx b_y = 0%float); [|split; [exact Z|unfold fdistance; rewrite Z; reflexivity] ].
  assert (K : forall x y, finite x -> finite y -> val x = val y -> ((y - x) * (y - x))%float = 0%float).
  { intros x y X Y E. pose proof (sub_result y x Y X) as R. replace (val y - val x) with 0 in R by lra.
    destruct (result_small _ _ R) as [F V]; [rewrite rnd_0, Rabs_R0; apply bpow_gt_0|]. rewrite rnd_0 in V. apply square_zero; assumption. }
  unfold fdistance_sqrd. cbv zeta. rewrite (K ax bx), (K ay b_y) by assumption. reflexivity.
Qed.
(** The squared distance, when it does not overflow, is right to five roundings and the smallest doubles. *)
Theorem C135_error : forall ax ay bx b_y, finite ax -> finite ay -> finite bx -> finite b_y -> finite (fdistance_sqrd ax ay bx b_y) ->
  let D := (val bx - val ax) * (val bx - val ax) + (val b_y - val ay) * (val b_y - val ay) in
  Rabs (val (fdistance_sqrd ax ay bx b_y) - D) <= D * (5 * powerRZ 2 (-53)) + powerRZ 2 (-1073).
Proof.
  intros ax ay bx b_y AX AY BX BY F D. pose proof (distance_error ax ay bx b_y AX AY BX BY F) as H. cbv zeta in H. fold D in H.
  change (powerRZ 2 (-53)) with (powerRZ (IZR radix2) (-53)). change (powerRZ 2 (-1073)) with (powerRZ (IZR radix2) (-1073)). rewrite <- !bpow_powerRZ.
  replace (bpow radix2 (-1073)) with (4 * tiny); [exact H|]. unfold tiny. change (-1073)%Z with (2 + -1075)%Z. rewrite bpow_plus. reflexivity.
Qed.
(** So is the distance. *)
Theorem C135_distance_error : forall ax ay bx b_y, finite ax -> finite ay -> finite bx -> finite b_y -> finite (fdistance_sqrd ax ay bx b_y) ->
  let D := R_sqrt.sqrt ((val bx - val ax) * (val bx - val ax) + (val b_y - val ay) * (val b_y - val ay)) in
  finite (fdistance ax ay bx b_y) /\ Rabs (val (fdistance ax ay bx b_y) - D) <= D * (7 * powerRZ 2 (-53)) + powerRZ 2 (-535).
Proof.
  intros ax ay bx b_y AX AY BX BY F D. change (powerRZ 2 (-53)) with (powerRZ (IZR radix2) (-53)). change (powerRZ 2 (-535)) with (powerRZ (IZR radix2) (-535)). rewrite <- !bpow_powerRZ.
  apply plain_distance_error; assumption.
Qed.
(** A distance of zero does not mean equal points, and points with finite coordinates can be infinitely
    far apart. *)
Theorem C135_underflow_refuted : exists ax ay bx b_y, finite ax /\ finite ay /\ finite bx /\ finite b_y /\ val ax <> val bx /\ fdistance ax ay bx b_y = 0%float.
Proof.
  exists 0%float, 0%float, 0x1p-600%float, 0%float. repeat (split; [reflexivity|]). split; [|reflexivity].
  rewrite zero_val, (val_bpow 0x1p-600%float false 4503599627370496 (-652)) by reflexivity. assert (0 < bpow radix2 (-652)) by apply bpow_gt_0. lra.
Qed.
Theorem C135_overflow_refuted : exists ax ay bx b_y, finite ax /\ finite ay /\ finite bx /\ finite b_y /\ fdistance ax ay bx b_y = infinity.
Proof. exists 0%float, 0%float, 0x1p600%float, 0%float. repeat split; reflexivity. Qed.
Example C135_witness : finite (fdistance_sqrd 1 2 4 6) /\ fdistance 1 2 4 6 = 5%float.
Proof. split; reflexivity. Qed.
Print Assumptions C134_vector_side.
Print Assumptions C134_integer_exact.
Print Assumptions C135_error.
Print Assumptions C135_distance_error.
