(** Segments with points of doubles: integer coordinates are decided exactly, and the point is close. *)
From Coq Require Import Reals Qreals Floats ZArith QArith Lra Lia Bool List.
Require Import Flocq.Core.Core Flocq.IEEE754.BinarySingleNaN Flocq.IEEE754.PrimFloat.
From Verif Require Import Base CmpModel OrientModel DistModel LinIntModel FloatModel FloatSpec FloatProof FloatProof2 FloatProof3 FloatPolyModel FloatPolySpec FloatGridProof FloatGridProof2 FloatLinIntModel FloatLinIntSpec.
From Coq Require Import Lra.
Local Open Scope R_scope.
Import ListNotations.
#[local] Existing Instance Hprec.
#[local] Existing Instance Hmax.

(** A double that stands for a rational number. *)
Definition stands (x : PrimFloat.float) (q : Q) : Prop := finite x /\ val x = Q2R q.
Lemma stands_ltb : forall x y p q, stands x p -> stands y q -> (x <? y)%float = Qltb p q.
Proof.
  intros x y p q [X VX] [Y VY]. rewrite ltb_val, VX, VY by assumption. destruct (Rlt_bool_spec (Q2R p) (Q2R q)) as [H|H].
  - symmetry. apply Qltb_lt, Rlt_Qlt, H.
  - symmetry. apply not_true_iff_false. intro K. apply (proj1 (Qltb_lt _ _)), Qlt_Rlt in K. lra.
Qed.
Lemma stands_leb : forall x y p q, stands x p -> stands y q -> (x <=? y)%float = Qleb p q.
Proof.
  intros x y p q [X VX] [Y VY]. rewrite leb_val, VX, VY by assumption. destruct (Rle_bool_spec (Q2R p) (Q2R q)) as [H|H].
  - symmetry. apply Qleb_le, Rle_Qle, H.
  - symmetry. apply not_true_iff_false. intro K. apply (proj1 (Qleb_le _ _)), Qle_Rle in K. lra.
Qed.
Lemma stands_eqb : forall x y p q, stands x p -> stands y q -> (x =? y)%float = Qeqb p q.
Proof.
  intros x y p q [X VX] [Y VY]. rewrite eqb_val, VX, VY by assumption. unfold Qeqb. destruct (Req_bool_spec (Q2R p) (Q2R q)) as [H|H].
  - symmetry. apply Qeq_bool_iff, eqR_Qeq, H.
  - symmetry. apply not_true_iff_false. intro K. apply H, Qeq_eqR, Qeq_bool_iff, K.
Qed.
Lemma Q2R_Z : forall n, Q2R (inject_Z n) = IZR n.
Proof. intro n. unfold Q2R. cbn. field. Qed.
Lemma whole_stands : forall x n q, whole x n -> (q == inject_Z n)%Q -> stands x q.
Proof. intros x n q [X V] E. split; [exact X|]. rewrite (Qeq_eqR _ _ E), Q2R_Z. exact V. Qed.
Lemma whole_add : forall x y m n, whole x m -> whole y n -> (Z.abs (m + n) <= 2 ^ 53)%Z -> whole (x + y) (m + n).
Proof. intros x y m n [X VX] [Y VY] H. apply exact_result; [|exact H]. rewrite plus_IZR, <- VX, <- VY. apply add_result; assumption. Qed.
Lemma whole_opp : forall x n, whole x n -> whole (- x) (- n).
Proof. intros x n [X V]. split; [apply opp_finite, X|]. rewrite opp_val, V, opp_IZR. reflexivity. Qed.
Lemma zero_stands : stands 0%float 0%Q.
Proof. split; [apply zero_finite|]. rewrite zero_val. unfold Q2R. cbn. lra. Qed.
Lemma one_stands : stands 1%float 1%Q.
Proof. split; [reflexivity|]. rewrite val_one. unfold Q2R. cbn. lra. Qed.

(** ** Quotients of integers *)
Lemma val_below_one : val 0x1.fffffffffffffp-1%float = 1 - bpow radix2 (-53).
Proof. rewrite (val_bpow 0x1.fffffffffffffp-1%float false 9007199254740991 (-53)) by reflexivity. cbn. lra. Qed.
Lemma val_above_one : val 0x1.0000000000001p0%float = 1 + bpow radix2 (-52).
Proof. rewrite (val_bpow 0x1.0000000000001p0%float false 4503599627370497 (-52)) by reflexivity. cbn. lra. Qed.
Lemma quotient_gap : forall n d k : Z, (0 < d <= 2 ^ 52)%Z -> IZR k < IZR n / IZR d -> IZR k + bpow radix2 (-52) <= IZR n / IZR d.
Proof.
  intros n d k [D1 D2] H. assert (DR : 0 < IZR d) by (apply IZR_lt; exact D1). assert (DL : IZR d <= IZR (2 ^ 52)) by (apply IZR_le; exact D2).
  assert (H1 : IZR (k * d) < IZR n) by (rewrite mult_IZR; apply (Rmult_lt_reg_r (/ IZR d)); [apply Rinv_0_lt_compat, DR|]; rewrite Rmult_assoc, Rinv_r, Rmult_1_r by lra; exact H).
  apply lt_IZR in H1. assert (H2 : IZR (k * d + 1) <= IZR n) by (apply IZR_le; lia). rewrite plus_IZR, mult_IZR in H2.
  apply (Rmult_le_reg_r (IZR d)); [exact DR|]. unfold Rdiv. rewrite Rmult_assoc, Rinv_l, Rmult_1_r by lra.
  assert (bpow radix2 (-52) * IZR d <= 1); [|lra]. assert (E : bpow radix2 (-52) * IZR (2 ^ 52) = 1) by (cbn; lra).
  rewrite <- E. apply Rmult_le_compat_l; [apply bpow_ge_0|exact DL].
Qed.
Lemma quotient_gap' : forall n d k : Z, (0 < d <= 2 ^ 52)%Z -> IZR n / IZR d < IZR k -> IZR n / IZR d <= IZR k - bpow radix2 (-52).
Proof.
  intros n d k D H. pose proof (quotient_gap (- n) d (- k) D) as K. rewrite !opp_IZR in K. unfold Rdiv in *. rewrite Ropp_mult_distr_l_reverse in K. specialize (K ltac:(lra)). lra.
Qed.
Lemma quotient_signs : forall n d : Z, (0 < Z.abs d <= 2 ^ 52)%Z -> let r := IZR n / IZR d in
  (0 < rnd r <-> 0 < r) /\ (rnd r < 0 <-> r < 0) /\ (rnd r < 1 <-> r < 1) /\ (1 < rnd r <-> 1 < r).
Proof.
  assert (G : forall n d : Z, (0 < d <= 2 ^ 52)%Z -> let r := IZR n / IZR d in (0 < rnd r <-> 0 < r) /\ (rnd r < 0 <-> r < 0) /\ (rnd r < 1 <-> r < 1) /\ (1 < rnd r <-> 1 < r)).
  { intros n d D r. assert (P53 : 0 < bpow radix2 (-53)) by apply bpow_gt_0. assert (E52 : bpow radix2 (-52) = 2 * bpow radix2 (-53)) by (cbn; lra).
    assert (R1 : rnd 1 = 1) by (rewrite <- val_one; apply rnd_val).
    assert (EB : rnd (bpow radix2 (-52)) = bpow radix2 (-52)).
    { apply round_generic; [apply valid_rnd_N|]. apply (generic_format_FLT_bpow radix2 (-1074) 53). lia. }
    pose proof (quotient_gap n d 0 D) as G0. pose proof (quotient_gap' n d 0 D) as L0. pose proof (quotient_gap n d 1 D) as G1. pose proof (quotient_gap' n d 1 D) as L1. fold r in G0, L0, G1, L1.
    assert (A0 : 0 < r -> 0 < rnd r) by (intro H; specialize (G0 H); assert (rnd (bpow radix2 (-52)) <= rnd r) by (apply rnd_le; lra); lra).
    assert (B0 : r < 0 -> rnd r < 0) by (intro H; specialize (L0 H); assert (rnd r <= rnd (- bpow radix2 (-52))) by (apply rnd_le; lra); rewrite rnd_opp in *; lra).
    assert (A1 : 1 < r -> 1 < rnd r).
    { intro H. specialize (G1 H). assert (K : rnd (val 0x1.0000000000001p0%float) <= rnd r) by (apply rnd_le; rewrite val_above_one; lra). rewrite rnd_val, val_above_one in K. lra. }
    assert (B1 : r < 1 -> rnd r < 1).
    { intro H. specialize (L1 H). assert (K : rnd r <= rnd (val 0x1.fffffffffffffp-1%float)) by (apply rnd_le; rewrite val_below_one; lra). rewrite rnd_val, val_below_one in K. lra. }
    pose proof rnd_0 as Z0.
    repeat split; try assumption; intro H.
    - destruct (Rlt_le_dec 0 r) as [K|K]; [exact K|]. apply rnd_le in K. lra.
    - destruct (Rlt_le_dec r 0) as [K|K]; [exact K|]. apply rnd_le in K. lra.
    - destruct (Rlt_le_dec r 1) as [K|K]; [exact K|]. apply rnd_le in K. lra.
    - destruct (Rlt_le_dec 1 r) as [K|K]; [exact K|]. apply rnd_le in K. lra. }
  intros n d D. destruct (Z.lt_trichotomy d 0) as [N|[N|N] ]; [|lia|apply G; lia].
  specialize (G (- n)%Z (- d)%Z ltac:(lia)). rewrite !opp_IZR in G. replace (- IZR n / - IZR d) with (IZR n / IZR d) in G; [exact G|]. field. apply not_0_IZR. lia.
Qed.
Lemma quotient_bound : forall n d : Z, (0 < Z.abs d)%Z -> (Z.abs n <= 2 ^ 52)%Z -> Rabs (IZR n / IZR d) <= bpow radix2 52.
Proof.
  intros n d D N. assert (DR : 1 <= Rabs (IZR d)) by (rewrite <- abs_IZR; apply IZR_le; lia). assert (NR : Rabs (IZR n) <= IZR (2 ^ 52)) by (rewrite <- abs_IZR; apply IZR_le; exact N).
  unfold Rdiv. rewrite Rabs_mult, Rabs_inv. apply Rle_trans with (IZR (2 ^ 52) * 1); [|cbn; lra].
  apply Rmult_le_compat; [apply Rabs_pos|apply Rlt_le, Rinv_0_lt_compat; lra|exact NR|]. rewrite <- Rinv_1. apply Rinv_le_contravar; lra.
Qed.
Lemma divided : forall x y n d, whole x n -> whole y d -> (0 < Z.abs d <= 2 ^ 52)%Z -> (Z.abs n <= 2 ^ 52)%Z -> finite (x / y)%float /\ val (x / y)%float = rnd (IZR n / IZR d).
Proof.
  intros x y n d [X VX] [Y VY] D N. assert (NZ : val y <> 0) by (rewrite VY; apply not_0_IZR; lia).
  pose proof (Bdiv_correct prec emax _ _ mode_NE (Prim2B x) (Prim2B y)) as C. rewrite <- !val_B2R in C. specialize (C NZ).
  rewrite <- div_equiv, <- !val_B2R in C. change (round_mode mode_NE) with ZnearestE in C.
  pose proof (quotient_bound n d ltac:(lia) N) as B. rewrite VX, VY in C. apply Rabs_le_inv in B.
  rewrite Rlt_bool_true in C by (apply (rnd_small _ 52); [lia|exact B]). destruct C as (C1 & C2 & _). split; [apply finite_B; rewrite C2; apply finite_B, X|exact C1].
Qed.
(** The computed quotient compares with zero and one as the exact one. *)
Lemma quotient_tests : forall x y n d q, whole x n -> whole y d -> (0 < Z.abs d <= 2 ^ 52)%Z -> (Z.abs n <= 2 ^ 52)%Z -> (q == inject_Z n / inject_Z d)%Q ->
  (0 <? x / y)%float = Qltb 0 q /\ (x / y <? 1)%float = Qltb q 1 /\ (x / y <? 0)%float = Qltb q 0 /\ (1 <? x / y)%float = Qltb 1 q /\ (0 =? x / y)%float = Qeqb 0 q /\ (x / y =? 1)%float = Qeqb q 1.
Proof.
  intros x y n d q WX WY D N E. destruct (divided x y n d WX WY D N) as [F V]. destruct (quotient_signs n d D) as (S1 & S2 & S3 & S4).
  assert (DZ : ~ (inject_Z d == 0)%Q) by (intro K; unfold Qeq in K; cbn in K; lia).
  assert (QE : Q2R q = IZR n / IZR d) by (rewrite (Qeq_eqR _ _ E), Q2R_div, !Q2R_Z by exact DZ; reflexivity).
  rewrite <- V, <- QE in S1, S2, S3, S4. set (z := (x / y)%float) in *. clearbody z. destruct zero_stands as [FZ VZ], one_stands as [FO VO].
  rewrite !ltb_val, !eqb_val, VZ, VO by assumption. assert (Q0 : Q2R 0 = 0) by (unfold Q2R; cbn; lra). assert (Q1 : Q2R 1 = 1) by (unfold Q2R; cbn; lra).
  assert (LT : forall a b, Qltb a b = Rlt_bool (Q2R a) (Q2R b)).
  { intros a b. destruct (Rlt_bool_spec (Q2R a) (Q2R b)) as [H|H]; [apply Qltb_lt, Rlt_Qlt, H|]. apply not_true_iff_false. intro K. apply (proj1 (Qltb_lt _ _)), Qlt_Rlt in K. lra. }
  assert (EQ : forall a b, Qeqb a b = Req_bool (Q2R a) (Q2R b)).
  { intros a b. unfold Qeqb. destruct (Req_bool_spec (Q2R a) (Q2R b)) as [H|H]; [apply Qeq_bool_iff, eqR_Qeq, H|]. apply not_true_iff_false. intro K. apply H, Qeq_eqR, Qeq_bool_iff, K. }
  rewrite !LT, !EQ, Q0, Q1. repeat split;
    repeat match goal with |- context [Rlt_bool ?a ?b] => destruct (Rlt_bool_spec a b) | |- context [Req_bool ?a ?b] => destruct (Req_bool_spec a b) end; try reflexivity; exfalso; try lra; intuition lra.
Qed.

(** ** The tests on integer points *)
Lemma mul_bound : forall a b A B : Z, (Z.abs a <= A -> Z.abs b <= B -> Z.abs (a * b) <= A * B)%Z.
Proof. intros a b A B H1 H2. rewrite Z.abs_mul. apply Z.mul_le_mono_nonneg; lia. Qed.
Ltac to_q := unfold Z.sub, Qminus; repeat rewrite ?inject_Z_plus, ?inject_Z_mult, ?inject_Z_opp; ring.
Lemma collinear_exact : forall A B C a b c, grid_pt A a -> grid_pt B b -> grid_pt C c -> fis_collinear fdirect A B C = is_collinear direct a b c.
Proof.
  intros A B C a b c (ax & ay & AX & AY & A1 & A2 & ->) (bx & b_y & BX & BY & B1 & B2 & ->) (cx & cy & CX & CY & C1 & C2 & ->).
  unfold fis_collinear, is_collinear. cbn [f_eq fdirect equals direct].
  pose proof (mul_bound (bx - ax) (cy - ay) (2 ^ 25) (2 ^ 25) ltac:(lia) ltac:(lia)) as P1. pose proof (mul_bound (b_y - ay) (cx - ax) (2 ^ 25) (2 ^ 25) ltac:(lia) ltac:(lia)) as P2.
  pose proof (whole_mul _ _ _ _ (whole_sub _ _ _ _ BX AX ltac:(lia)) (whole_sub _ _ _ _ CY AY ltac:(lia)) ltac:(lia)) as M1.
  pose proof (whole_mul _ _ _ _ (whole_sub _ _ _ _ BY AY ltac:(lia)) (whole_sub _ _ _ _ CX AX ltac:(lia)) ltac:(lia)) as M2.
  apply stands_eqb; [|exact zero_stands]. apply (whole_stands _ _ _ (whole_sub _ _ _ _ M1 M2 ltac:(lia))). unfold cross, vsub. cbn [px py]. to_q.
Qed.
Lemma whole_self : forall x n, whole x n -> stands x (inject_Z n).
Proof. intros x n W. apply (whole_stands x n); [exact W|reflexivity]. Qed.
Lemma between_exact : forall A B C a b c, grid_pt A a -> grid_pt B b -> grid_pt C c -> fis_between fdirect A B C = is_between direct a b c true.
Proof.
  intros A B C a b c GA GB GC. unfold fis_between, is_between. rewrite (collinear_exact A B C a b c GA GB GC). f_equal.
  destruct GA as (ax & ay & AX & AY & A1 & A2 & ->), GB as (bx & b_y & BX & BY & B1 & B2 & ->), GC as (cx & cy & CX & CY & C1 & C2 & ->).
  apply whole_self in AX, AY, BX, BY, CX, CY. unfold fis_collinear_point_between, is_collinear_point_between. cbn [px py f_eq f_le f_ge fdirect equals less_than_or_equal greater_than_or_equal direct]. unfold Qgeb.
  rewrite (stands_eqb _ _ _ _ AX BX), (stands_leb _ _ _ _ AX CX), (stands_leb _ _ _ _ CX BX), (stands_leb _ _ _ _ CX AX), (stands_leb _ _ _ _ BX CX),
    (stands_leb _ _ _ _ AY CY), (stands_leb _ _ _ _ CY BY), (stands_leb _ _ _ _ CY AY), (stands_leb _ _ _ _ BY CY). reflexivity.
Qed.
Lemma equals_exact : forall A B a b, grid_pt A a -> grid_pt B b -> fpt_equals fdirect A B = pt_equals direct a b.
Proof.
  intros A B a b (ax & ay & AX & AY & A1 & A2 & ->) (bx & b_y & BX & BY & B1 & B2 & ->). apply whole_self in AX, AY, BX, BY.
  unfold fpt_equals, pt_equals. cbn [px py f_eq fdirect numeric_sequence_equals equals direct]. rewrite (stands_eqb _ _ _ _ AX BX), (stands_eqb _ _ _ _ AY BY). cbn [andb]. apply andb_comm.
Qed.
Lemma grid_close : forall A a, grid_pt A a -> close_pt A a.
Proof.
  intros A a (ax & ay & [FX VX] & [FY VY] & _ & _ & ->). unfold close_pt. cbn [px py]. rewrite !Q2R_Z, VX, VY. assert (0 <= powerRZ 2 (-25)) by (apply powerRZ_le; lra).
  repeat split; try assumption; rewrite Rminus_diag_eq, Rabs_R0 by reflexivity; assumption.
Qed.
Lemma parallel_exact : forall A B C D a b c d, grid_pt A a -> grid_pt B b -> grid_pt C c -> grid_pt D d ->
  fst (fparallel_intersection fdirect A B C D) = fst (parallel_intersection direct a b c d) /\
  Forall2 grid_pt (snd (fparallel_intersection fdirect A B C D)) (snd (parallel_intersection direct a b c d)).
Proof.
  intros A B C D a b c d GA GB GC GD. unfold fparallel_intersection, parallel_intersection. cbv zeta.
  rewrite (collinear_exact A B C a b c), (between_exact A B C a b c), (between_exact A B D a b d), (between_exact C D A c d a), (between_exact C D B c d b),
    (equals_exact A C a c), (equals_exact B D b d), (equals_exact A D a d), (equals_exact B C b c) by assumption.
  repeat match goal with |- context [if ?x then _ else _] => destruct x end; cbn [fst snd]; split; try reflexivity; repeat (apply Forall2_nil || apply Forall2_cons); assumption.
Qed.
(** ** The three numbers *)
Lemma bounded_sub : forall a b, (Z.abs a <= 2 ^ 24 -> Z.abs b <= 2 ^ 24 -> Z.abs (a - b) <= 2 ^ 25)%Z.
Proof. intros a b H1 H2. lia. Qed.
Definition bounded (x : PrimFloat.float) (n M : Z) : Prop := whole x n /\ (Z.abs n <= M)%Z.
Lemma bounded_product : forall x y z m n k, whole x m -> whole y n -> whole z k -> (Z.abs m <= 2 ^ 24)%Z -> (Z.abs n <= 2 ^ 24)%Z -> (Z.abs k <= 2 ^ 24)%Z -> bounded (x * (y - z)) (m * (n - k)) (2 ^ 49).
Proof.
  intros x y z m n k X Y Z0 B1 B2 B3. pose proof (bounded_sub n k B2 B3) as B4. clear B2 B3. assert (P : (Z.abs (m * (n - k)) <= 2 ^ 49)%Z) by (change (2 ^ 49)%Z with (2 ^ 24 * 2 ^ 25)%Z; apply mul_bound; assumption).
  split; [|exact P]. apply whole_mul; [exact X| |apply Z.le_trans with (1 := P); discriminate]. apply whole_sub; [exact Y|exact Z0|apply Z.le_trans with (1 := B4); discriminate].
Qed.
Lemma bounded_add : forall x y m n M N, bounded x m M -> bounded y n N -> (M + N <= 2 ^ 53)%Z -> bounded (x + y) (m + n) (M + N).
Proof. intros x y m n M N [X B1] [Y B2] H. assert (P : (Z.abs (m + n) <= M + N)%Z) by lia. split; [|exact P]. apply whole_add; [exact X|exact Y|apply Z.le_trans with (1 := P), H]. Qed.
Lemma denom_exact : forall A B C D a b c d, grid_pt A a -> grid_pt B b -> grid_pt C c -> grid_pt D d -> exists n, whole (fxdenom A B C D) n /\ (Z.abs n <= 2 ^ 52)%Z /\ (xdenom a b c d == inject_Z n)%Q.
Proof.
  intros A B C D a b c d (ax & ay & AX & AY & A1 & A2 & ->) (bx & b_y & BX & BY & B1 & B2 & ->) (cx & cy & CX & CY & C1 & C2 & ->) (dx & dy & DX & DY & D1 & D2 & ->).
  pose proof (bounded_product _ _ _ _ _ _ AX DY CY A1 D2 C2) as P1. pose proof (bounded_product _ _ _ _ _ _ BX CY DY B1 C2 D2) as P2.
  pose proof (bounded_product _ _ _ _ _ _ DX BY AY D1 B2 A2) as P3. pose proof (bounded_product _ _ _ _ _ _ CX AY BY C1 A2 B2) as P4.
  pose proof (bounded_add _ _ _ _ _ _ (bounded_add _ _ _ _ _ _ (bounded_add _ _ _ _ _ _ P1 P2 ltac:(discriminate)) P3 ltac:(discriminate)) P4 ltac:(discriminate)) as [W P].
  eexists. split; [exact W|]. split; [apply Z.le_trans with (1 := P); discriminate|]. unfold xdenom. cbn [px py]. to_q.
Qed.
Lemma num_s_exact : forall A B C D a b c d, grid_pt A a -> grid_pt B b -> grid_pt C c -> grid_pt D d -> exists n, whole (fxnum_s A B C D) n /\ (Z.abs n <= 2 ^ 52)%Z /\ (xnum_s a b c d == inject_Z n)%Q.
Proof.
  intros A B C D a b c d (ax & ay & AX & AY & A1 & A2 & ->) (bx & b_y & BX & BY & B1 & B2 & ->) (cx & cy & CX & CY & C1 & C2 & ->) (dx & dy & DX & DY & D1 & D2 & ->).
  pose proof (bounded_product _ _ _ _ _ _ AX DY CY A1 D2 C2) as P1. pose proof (bounded_product _ _ _ _ _ _ CX AY DY C1 A2 D2) as P2. pose proof (bounded_product _ _ _ _ _ _ DX CY AY D1 C2 A2) as P3.
  pose proof (bounded_add _ _ _ _ _ _ (bounded_add _ _ _ _ _ _ P1 P2 ltac:(discriminate)) P3 ltac:(discriminate)) as [W P].
  eexists. split; [exact W|]. split; [apply Z.le_trans with (1 := P); discriminate|]. unfold xnum_s. cbn [px py]. to_q.
Qed.
Lemma num_t_exact : forall A B C D a b c d, grid_pt A a -> grid_pt B b -> grid_pt C c -> grid_pt D d -> exists n, whole (fxnum_t A B C D) n /\ (Z.abs n <= 2 ^ 52)%Z /\ (xnum_t a b c d == inject_Z n)%Q.
Proof.
  intros A B C D a b c d (ax & ay & AX & AY & A1 & A2 & ->) (bx & b_y & BX & BY & B1 & B2 & ->) (cx & cy & CX & CY & C1 & C2 & ->) (dx & dy & DX & DY & D1 & D2 & ->).
  pose proof (bounded_product _ _ _ _ _ _ AX CY BY A1 C2 B2) as P1. pose proof (bounded_product _ _ _ _ _ _ BX AY CY B1 A2 C2) as P2. pose proof (bounded_product _ _ _ _ _ _ CX BY AY C1 B2 A2) as P3.
  pose proof (bounded_add _ _ _ _ _ _ (bounded_add _ _ _ _ _ _ P1 P2 ltac:(discriminate)) P3 ltac:(discriminate)) as [W P].
  eexists. split; [exact (whole_opp _ _ W)|]. split; [rewrite Z.abs_opp; apply Z.le_trans with (1 := P); discriminate|]. unfold xnum_t. cbn [px py]. to_q.
Qed.
(** ** The point *)
Lemma coord_close : forall x y s m n r, whole x m -> whole y n -> (Z.abs m <= 2 ^ 24)%Z -> (Z.abs n <= 2 ^ 24)%Z -> finite s -> val s = rnd r -> 0 <= r <= 1 ->
  finite (x + s * (y - x))%float /\ Rabs (val (x + s * (y - x))%float - (IZR m + r * (IZR n - IZR m))) <= powerRZ 2 (-25).
Proof.
  intros x y s m n r WX WY M N FS VS R. destruct (whole_sub _ _ _ _ WY WX ltac:(lia)) as [FW VW]. rewrite minus_IZR in VW. destruct WX as [FX VX].
  set (w := (y - x)%float) in *. clearbody w.
  assert (MB : -16777216 <= IZR m <= 16777216) by (split; apply IZR_le; lia). assert (NB : -16777216 <= IZR n <= 16777216) by (split; apply IZR_le; lia).
  set (W := IZR n - IZR m) in *. assert (WB : Rabs W <= 33554432) by (apply Rabs_le; unfold W; lra).
  assert (SB : 0 <= rnd r <= 1).
  { split; [rewrite <- rnd_0; apply rnd_le; lra|]. assert (R1 : rnd 1 = 1) by (rewrite <- val_one; apply rnd_val). rewrite <- R1. apply rnd_le; lra. }
  assert (U : 0 < unit_error) by apply bpow_gt_0. assert (UV : unit_error = / 9007199254740992) by (unfold unit_error; cbn; lra).
  assert (T : 0 < tiny) by apply bpow_gt_0. assert (TU : tiny <= unit_error / 1073741824).
  { unfold tiny, unit_error. apply Rle_trans with (bpow radix2 (-83)); [apply bpow_le; lia|]. replace (-83)%Z with (-53 + -30)%Z by lia. rewrite bpow_plus. apply Rmult_le_compat_l; [apply bpow_ge_0|cbn; lra]. }
  destruct (mul_error r) as (e1 & h1 & E1 & H1 & Q1). rewrite <- VS in Q1, SB. set (s' := val s) in *.
  assert (DS : Rabs (s' - r) <= unit_error + tiny).
  { rewrite Q1. replace (r * (1 + e1) + h1 - r) with (r * e1 + h1) by ring. eapply Rle_trans; [apply Rabs_triang|]. apply Rplus_le_compat; [|exact H1].
    replace unit_error with (1 * unit_error) by ring. apply small_product; [apply Rabs_le; lra|exact E1]. }
  assert (SW : Rabs (s' * W) <= 33554432) by (replace 33554432 with (1 * 33554432) by ring; apply small_product; [apply Rabs_le; lra|exact WB]).
  destruct (result_small _ _ (mul_result s w FS FW)) as [FP VP].
  { rewrite VW. apply (rnd_small _ 25); [lia|]. apply Rabs_le_inv. fold s'. replace (bpow radix2 25) with 33554432 by (cbn; lra). exact SW. }
  rewrite VW in VP. fold s' in VP. destruct (mul_error (s' * W)) as (e2 & h2 & E2 & H2 & Q2). rewrite Q2 in VP. set (p := (s * w)%float) in *. clearbody p.
  assert (DP : Rabs (s' * W * e2) <= 33554432 * unit_error) by (apply small_product; assumption).
  assert (DR : Rabs ((s' - r) * W) <= (unit_error + tiny) * 33554432) by (apply small_product; assumption).
  assert (PB : Rabs (val x + val p) <= 67108864).
  { rewrite VP, VX. apply Rabs_le_inv in SW. apply Rabs_le_inv in DP. apply Rabs_le_inv in H2. apply Rabs_le. rewrite UV in *. lra. }
  destruct (result_small _ _ (add_result x p FX FP)) as [FR VR].
  { apply (rnd_small _ 26); [lia|]. apply Rabs_le_inv. replace (bpow radix2 26) with 67108864 by (cbn; lra). exact PB. }
  split; [exact FR|]. rewrite VR. destruct (add_error x p) as (e3 & E3 & Q3). rewrite Q3.
  assert (DA : Rabs ((val x + val p) * e3) <= 67108864 * unit_error) by (apply small_product; assumption).
  replace ((val x + val p) * (1 + e3) - (IZR m + r * W)) with ((val x + val p) * e3 + s' * W * e2 + h2 + (s' - r) * W) by (rewrite VP, VX; ring).
  assert (P25 : powerRZ 2 (-25) = / 33554432) by (change 2 with (IZR radix2); rewrite <- bpow_powerRZ; cbn; lra). rewrite P25.
  apply Rabs_le_inv in DA. apply Rabs_le_inv in DP. apply Rabs_le_inv in DR. apply Rabs_le_inv in H2. apply Rabs_le. rewrite UV in *. lra.
Qed.
Lemma point_close : forall A B a b x y n d q, grid_pt A a -> grid_pt B b -> whole x n -> whole y d -> (0 < Z.abs d <= 2 ^ 52)%Z -> (Z.abs n <= 2 ^ 52)%Z -> (q == inject_Z n / inject_Z d)%Q ->
  (0 <= q <= 1)%Q -> close_pt (mkfpt (fx A + x / y * (fx B - fx A)) (fy A + x / y * (fy B - fy A))) (vadd a (vscale q (vsub b a))).
Proof.
  intros A B a b x y n d q (ax & ay & AX & AY & A1 & A2 & ->) (bx & b_y & BX & BY & B1 & B2 & ->) WX WY D N E [Q0 Q1].
  destruct (divided x y n d WX WY D N) as [F V]. assert (DZ : ~ (inject_Z d == 0)%Q) by (intro K; unfold Qeq in K; cbn in K; lia).
  assert (QE : Q2R q = IZR n / IZR d) by (rewrite (Qeq_eqR _ _ E), Q2R_div, !Q2R_Z by exact DZ; reflexivity). rewrite <- QE in V.
  apply Qle_Rle in Q0. apply Qle_Rle in Q1. replace (Q2R 0) with 0 in Q0 by (unfold Q2R; cbn; lra). replace (Q2R 1) with 1 in Q1 by (unfold Q2R; cbn; lra).
  destruct (coord_close _ _ _ _ _ (Q2R q) AX BX A1 B1 F V (conj Q0 Q1)) as [F1 C1]. destruct (coord_close _ _ _ _ _ (Q2R q) AY BY A2 B2 F V (conj Q0 Q1)) as [F2 C2].
  unfold close_pt, vadd, vscale, vsub. cbn [fx fy px py]. rewrite !Q2R_plus, !Q2R_mult, !Q2R_minus, !Q2R_Z. repeat split; assumption.
Qed.
Lemma intersection_exact : forall A B C D a b c d, grid_pt A a -> grid_pt B b -> grid_pt C c -> grid_pt D d -> exists ty fpts pts,
  fsegment_segment_intersection fdirect A B C D = (ty, fpts) /\ segment_segment_intersection direct a b c d = Some (ty, pts) /\ Forall2 close_pt fpts pts /\ (ty = e_overlapping -> Forall2 grid_pt fpts pts).
Proof.
  intros A B C D a b c d GA GB GC GD. destruct (denom_exact A B C D a b c d GA GB GC GD) as (dz & WD & BD & ED). destruct (num_s_exact A B C D a b c d GA GB GC GD) as (ns & WS & BS & ES). destruct (num_t_exact A B C D a b c d GA GB GC GD) as (nt & WT & BT & ET).
  unfold fsegment_segment_intersection, segment_segment_intersection. cbv zeta. cbn [f_eq f_lt f_gt fdirect equals less_than greater_than direct]. unfold Qgtb.
  pose proof (whole_stands _ _ _ WD ED) as SD. pose proof (whole_stands _ _ _ WS ES) as SS. pose proof (whole_stands _ _ _ WT ET) as ST.
  rewrite (stands_eqb _ _ _ _ SD zero_stands). destruct (Qeqb (xdenom a b c d) 0) eqn:Z0.
  - destruct (parallel_exact A B C D a b c d GA GB GC GD) as [P1 P2]. destruct (fparallel_intersection fdirect A B C D) as [ty fpts], (parallel_intersection direct a b c d) as [ty' pts]. cbn [fst snd] in *. subst ty'.
    exists ty, fpts, pts. split; [reflexivity|]. split; [reflexivity|]. split; [|intros _; exact P2]. clear -P2. induction P2; constructor; [apply grid_close; assumption|assumption].
  - assert (DN : (0 < Z.abs dz <= 2 ^ 52)%Z).
    { split; [|exact BD]. destruct (Z.eq_dec dz 0) as [K|K]; [|lia]. exfalso. subst dz. unfold Qeqb in Z0. apply Qeq_bool_neq in Z0. apply Z0. exact ED. }
    unfold qdiv_opt. rewrite Z0. rewrite (stands_eqb _ _ _ _ SS zero_stands), (stands_eqb _ _ _ _ SS SD), (stands_eqb _ _ _ _ ST zero_stands), (stands_eqb _ _ _ _ ST SD).
    set (qs := (xnum_s a b c d / xdenom a b c d)%Q) in *. set (qt := (xnum_t a b c d / xdenom a b c d)%Q) in *.
    assert (EQS : (qs == inject_Z ns / inject_Z dz)%Q) by (unfold qs; rewrite ES, ED; reflexivity). assert (EQT : (qt == inject_Z nt / inject_Z dz)%Q) by (unfold qt; rewrite ET, ED; reflexivity).
    destruct (quotient_tests _ _ _ _ qs WS WD DN BS EQS) as (T1 & T2 & T3 & T4 & T5 & T6). destruct (quotient_tests _ _ _ _ qt WT WD DN BT EQT) as (U1 & U2 & U3 & U4 & U5 & U6).
    rewrite T1, T2, T3, T4, T5, T6, U1, U2, U3, U4, U5, U6. clearbody qs qt.
    pose proof (point_close A B a b _ _ _ _ qs GA GB WS WD DN BS EQS) as PC.
    destruct (Qltb 0 qs && Qltb qs 1 && Qltb 0 qt && Qltb qt 1) eqn:CR.
    + do 3 eexists. split; [reflexivity|]. split; [reflexivity|]. split; [|discriminate]. constructor; [|constructor]. apply PC. apply andb_true_iff in CR as [CR _]. apply andb_true_iff in CR as [CR _]. apply andb_true_iff in CR as [K1 K2].
      apply Qltb_lt in K1. apply Qltb_lt in K2. split; apply Qlt_le_weak; assumption.
    + destruct (Qltb qs 0 || Qltb 1 qs || Qltb qt 0 || Qltb 1 qt) eqn:NC; [do 3 eexists; split; [reflexivity|]; split; [reflexivity|]; split; [constructor|discriminate]|].
      do 3 eexists. split; [reflexivity|]. split; [reflexivity|]. split.
      * constructor; [|constructor]. apply PC. apply orb_false_iff in NC as [NC _]. apply orb_false_iff in NC as [NC _]. apply orb_false_iff in NC as [K1 K2].
        split; apply Qnot_lt_le; intro K; apply (proj2 (Qltb_lt _ _)) in K; congruence.
      * intro K. exfalso. revert K. repeat match goal with |- context [if ?x then _ else _] => destruct x end; discriminate.
Qed.
