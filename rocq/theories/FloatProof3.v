(** Orientation and distance on doubles. *)
From Coq Require Import Reals Floats ZArith Lra Lia Bool.
Require Import Flocq.Core.Core Flocq.Prop.Plus_error Flocq.Prop.Relative Flocq.Prop.Sterbenz Flocq.IEEE754.BinarySingleNaN Flocq.IEEE754.PrimFloat.
From Verif Require Import FloatModel FloatSpec FloatProof FloatProof2.
Local Open Scope R_scope.
#[local] Existing Instance Hprec.
#[local] Existing Instance Hmax.
#[local] Existing Instance fexp_monotone.
#[local] Existing Instance fexp_ok.

(** Subtraction of two rounded results compared with a bound that is not negative. *)
Lemma infinite_less : forall s y t, Prim2B y = B754_infinity s -> finite t ->
  (y <? t)%float = s /\ (t <? y)%float = negb s.
Proof.
  intros s y t Y F. apply finite_B in F. rewrite !ltb_equiv, Y. destruct (Prim2B t) as [z|z| |z m e B], s; try discriminate F; repeat split; try reflexivity; destruct z; reflexivity.
Qed.
Lemma nan_less : forall x y, Prim2B x = B754_nan -> (x <? y)%float = false /\ (y <? x)%float = false.
Proof. intros x y X. rewrite !ltb_equiv, X. destruct (Prim2B y) as [s|[|]| |[|] m e B]; split; reflexivity. Qed.
Lemma sub_infinite : forall x y s, Prim2B x = B754_infinity s -> finite y ->
  Prim2B (x - y)%float = B754_infinity s /\ Prim2B (y - x)%float = B754_infinity (negb s).
Proof.
  intros x y s X Y. apply finite_B in Y. rewrite !sub_equiv, X. destruct (Prim2B y); try discriminate Y; split; reflexivity.
Qed.
Lemma sub_infinities : forall x y s z, Prim2B x = B754_infinity s -> Prim2B y = B754_infinity z ->
  Prim2B (x - y)%float = if Bool.eqb s z then B754_nan else B754_infinity s.
Proof. intros x y s z X Y. rewrite sub_equiv, X, Y. destruct s, z; reflexivity. Qed.
Lemma sub_nan : forall x y, Prim2B x = B754_nan -> Prim2B (x - y)%float = B754_nan /\ Prim2B (y - x)%float = B754_nan.
Proof. intros x y X. rewrite !sub_equiv, X. destruct (Prim2B y); split; reflexivity. Qed.

(** What the order answers say of any two doubles that are rounded results. *)
Lemma absolute_sound : forall tol x y r q, finite tol -> 0 <= val tol -> result_is x r -> result_is y q ->
  (f_lt (fabsolute tol) x y = true -> r < q) /\ (f_gt (fabsolute tol) x y = true -> q < r).
Proof.
  intros tol x y r q T P X Y. cbn. assert (TP : 0 < top) by apply bpow_gt_0.
  assert (K : forall a b, rnd a < rnd b -> a < b) by (intros a b H; apply Rnot_le_lt; intro L; apply rnd_le in L; lra).
  assert (NT := opp_finite _ T).
  destruct X as [ (X & VX & BX)|[ (X & BX)|(X & BX) ] ], Y as [ (Y & VY & BY)|[ (Y & BY)|(Y & BY) ] ];
    try (apply Rabs_def2 in BX); try (apply Rabs_def2 in BY).
  - pose proof (sub_result x y X Y) as S. destruct (result_lt _ _ _ S NT) as (A & _). destruct (result_lt _ _ _ S T) as (_ & B & _). rewrite A, B, opp_val.
    destruct (sub_sign x y) as (S1 & S2 & _). split; intro H; apply K; rewrite <- VX, <- VY.
    + apply S1. destruct (Rlt_bool_spec (rnd (val x - val y)) (- val tol)); [lra|discriminate].
    + apply S2. destruct (Rlt_bool_spec (val tol) (rnd (val x - val y))); [lra|discriminate].
  - destruct (sub_infinite _ _ _ Y X) as [_ S]. destruct (infinite_less _ _ _ S NT) as [A _]. destruct (infinite_less _ _ _ S T) as [_ B]. rewrite A, B. cbn.
    split; intro H; [discriminate|apply K; lra].
  - destruct (sub_infinite _ _ _ Y X) as [_ S]. destruct (infinite_less _ _ _ S NT) as [A _]. destruct (infinite_less _ _ _ S T) as [_ B]. rewrite A, B. cbn.
    split; intro H; [apply K; lra|discriminate].
  - destruct (sub_infinite _ _ _ X Y) as [S _]. destruct (infinite_less _ _ _ S NT) as [A _]. destruct (infinite_less _ _ _ S T) as [_ B]. rewrite A, B. cbn.
    split; intro H; [apply K; lra|discriminate].
  - pose proof (sub_infinities _ _ _ _ X Y) as S. cbn in S. destruct (nan_less _ (- tol)%float S) as [A _]. destruct (nan_less _ tol S) as [_ B]. rewrite A, B. split; discriminate.
  - pose proof (sub_infinities _ _ _ _ X Y) as S. cbn in S. destruct (infinite_less _ _ _ S NT) as [A _]. destruct (infinite_less _ _ _ S T) as [_ B]. rewrite A, B. cbn.
    split; intro H; [apply K; lra|discriminate].
  - destruct (sub_infinite _ _ _ X Y) as [S _]. destruct (infinite_less _ _ _ S NT) as [A _]. destruct (infinite_less _ _ _ S T) as [_ B]. rewrite A, B. cbn.
    split; intro H; [discriminate|apply K; lra].
  - pose proof (sub_infinities _ _ _ _ X Y) as S. cbn in S. destruct (infinite_less _ _ _ S NT) as [A _]. destruct (infinite_less _ _ _ S T) as [_ B]. rewrite A, B. cbn.
    split; intro H; [discriminate|apply K; lra].
  - pose proof (sub_infinities _ _ _ _ X Y) as S. cbn in S. destruct (nan_less _ (- tol)%float S) as [A _]. destruct (nan_less _ tol S) as [_ B]. rewrite A, B. split; discriminate.
Qed.

Lemma Bmult_comm : forall x y : binary_float prec emax, Bmult mode_NE x y = Bmult mode_NE y x.
Proof.
  intros [sx|sx| |sx mx ex Hx] [sy|sy| |sy my ey Hy]; try reflexivity; try (destruct sx, sy; reflexivity).
  apply B2SF_inj. unfold Bmult. rewrite !B2SF_SF2B, xorb_comm, Pos.mul_comm, Z.add_comm. reflexivity.
Qed.
Lemma mul_comm : forall x y, (x * y)%float = (y * x)%float.
Proof. intros x y. apply Prim2B_inj. rewrite !mul_equiv. apply Bmult_comm. Qed.

(** Exchange of the operands for all doubles, infinities and NaN included. *)
Lemma float_cases : forall x, finite x \/ (exists s, Prim2B x = B754_infinity s) \/ Prim2B x = B754_nan.
Proof.
  intro x. rewrite finite_B. destruct (Prim2B x) as [s|s| |s m e B]; [left; reflexivity|right; left; exists s; reflexivity|right; right; reflexivity|left; reflexivity].
Qed.
Lemma sub_flip : forall x y t, finite t -> (x - y <? - t)%float = (t <? y - x)%float.
Proof.
  intros x y t T. pose proof (opp_finite _ T) as NT.
  destruct (float_cases x) as [X|[ [s X]|X ] ].
  - destruct (float_cases y) as [Y|[ [z Y]|Y ] ].
    + destruct (result_lt _ _ _ (sub_result x y X Y) NT) as (A & _). destruct (result_lt _ _ _ (sub_result y x Y X) T) as (_ & B & _). rewrite A, B, opp_val, (rnd_swap (val x) (val y)).
      destruct (Rlt_bool_spec (rnd (val x - val y)) (- val t)), (Rlt_bool_spec (val t) (- rnd (val x - val y))); try reflexivity; exfalso; lra.
    + destruct (sub_infinite _ _ _ Y X) as [A B]. rewrite (proj1 (infinite_less _ _ _ B NT)), (proj2 (infinite_less _ _ _ A T)). reflexivity.
    + destruct (sub_nan _ x Y) as [A B]. rewrite (proj1 (nan_less _ _ B)), (proj2 (nan_less _ _ A)). reflexivity.
  - destruct (float_cases y) as [Y|[ [z Y]|Y ] ].
    + destruct (sub_infinite _ _ _ X Y) as [A B]. rewrite (proj1 (infinite_less _ _ _ A NT)), (proj2 (infinite_less _ _ _ B T)), negb_involutive. reflexivity.
    + pose proof (sub_infinities _ _ _ _ X Y) as A. pose proof (sub_infinities _ _ _ _ Y X) as B. destruct s, z; cbn in A, B.
      1,4: rewrite (proj1 (nan_less _ _ A)), (proj2 (nan_less _ _ B)); reflexivity.
      all: rewrite (proj1 (infinite_less _ _ _ A NT)), (proj2 (infinite_less _ _ _ B T)); reflexivity.
    + destruct (sub_nan _ x Y) as [A B]. rewrite (proj1 (nan_less _ _ B)), (proj2 (nan_less _ _ A)). reflexivity.
  - destruct (sub_nan _ y X) as [A B]. rewrite (proj1 (nan_less _ _ A)), (proj2 (nan_less _ _ B)). reflexivity.
Qed.
Lemma not_both_less : forall x t, finite t -> 0 <= val t -> (x <? - t)%float = true -> (t <? x)%float = true -> False.
Proof.
  intros x t T P A B. pose proof (opp_finite _ T) as NT. destruct (float_cases x) as [X|[ [s X]|X ] ].
  - rewrite ltb_val in A, B by assumption. rewrite opp_val in A. destruct (Rlt_bool_spec (val x) (- val t)); [|discriminate]. destruct (Rlt_bool_spec (val t) (val x)); [lra|discriminate].
  - rewrite (proj1 (infinite_less _ _ _ X NT)) in A. rewrite (proj2 (infinite_less _ _ _ X T)) in B. destruct s; discriminate.
  - rewrite (proj1 (nan_less _ _ X)) in A. discriminate.
Qed.
Lemma less_asym : forall x y, (x <? y)%float = true -> (y <? x)%float = true -> False.
Proof.
  intros x y. destruct (float_cases x) as [X|[ [s X]|X ] ].
  - destruct (float_cases y) as [Y|[ [z Y]|Y ] ].
    + rewrite !ltb_val by assumption. destruct (Rlt_bool_spec (val x) (val y)); [|discriminate]. destruct (Rlt_bool_spec (val y) (val x)); [lra|discriminate].
    + destruct (infinite_less _ _ _ Y X) as [A B]. rewrite A, B. destruct z; discriminate.
    + rewrite (proj2 (nan_less _ x Y)). discriminate.
  - destruct (float_cases y) as [Y|[ [z Y]|Y ] ].
    + destruct (infinite_less _ _ _ X Y) as [A B]. rewrite A, B. destruct s; discriminate.
    + rewrite !ltb_equiv, X, Y. destruct s, z; discriminate.
    + rewrite (proj2 (nan_less _ x Y)). discriminate.
  - rewrite (proj1 (nan_less _ y X)). discriminate.
Qed.
Lemma orient_swap : forall cmp x y, (f_lt cmp y x = f_gt cmp x y) -> (f_gt cmp y x = f_lt cmp x y) ->
  ~ (f_lt cmp x y = true /\ f_gt cmp x y = true) -> forient cmp y x = turned (forient cmp x y).
Proof.
  intros cmp x y A B C. unfold forient. rewrite A, B. destruct (f_lt cmp x y), (f_gt cmp x y); try reflexivity. exfalso. apply C. split; reflexivity.
Qed.

(** Operations without a rounding error. *)
Lemma int_format : forall n, (Z.abs n <= 2 ^ 53)%Z -> generic_format radix2 fexp64 (IZR n).
Proof.
  intros n H. destruct (Z.eq_dec (Z.abs n) (2 ^ 53)) as [E|E].
  - assert (G : generic_format radix2 fexp64 (bpow radix2 53)) by (apply generic_format_bpow; vm_compute; discriminate).
    assert (I : IZR (2 ^ 53) = bpow radix2 53) by reflexivity.
    destruct (Z.abs_eq_or_opp n) as [A|A].
    + replace n with (2 ^ 53)%Z by lia. rewrite I. exact G.
    + replace n with (- 2 ^ 53)%Z by lia. rewrite opp_IZR, I. apply generic_format_opp, G.
  - replace (IZR n) with (F2R (Float radix2 n 0)) by (unfold F2R; cbn; ring).
    apply (generic_format_FLT radix2 (-1074) 53). apply (FLT_spec radix2 (-1074) 53 _ (Float radix2 n 0)); [reflexivity| |]; cbn; lia.
Qed.
Lemma int_bound : forall n, (Z.abs n <= 2 ^ 53)%Z -> Rabs (IZR n) < top.
Proof.
  intros n H. rewrite <- abs_IZR. apply Rle_lt_trans with (IZR (2 ^ 53)); [apply IZR_le, H|]. change (IZR (2 ^ 53)) with (bpow radix2 53). apply bpow_lt. reflexivity.
Qed.
Lemma exact_result : forall x n, result_is x (IZR n) -> (Z.abs n <= 2 ^ 53)%Z -> whole x n.
Proof.
  intros x n R H. assert (E : rnd (IZR n) = IZR n) by (apply round_generic; [apply valid_rnd_N|apply int_format, H]).
  destruct (result_small _ _ R) as [A B]; [rewrite E; apply int_bound, H|]. split; [exact A|]. rewrite B. exact E.
Qed.
Lemma whole_sub : forall x y m n, whole x m -> whole y n -> (Z.abs (m - n) <= 2 ^ 53)%Z -> whole (x - y) (m - n).
Proof. intros x y m n [X VX] [Y VY] H. apply exact_result; [|exact H]. rewrite minus_IZR, <- VX, <- VY. apply sub_result; assumption. Qed.
Lemma whole_mul : forall x y m n, whole x m -> whole y n -> (Z.abs (m * n) <= 2 ^ 53)%Z -> whole (x * y) (m * n).
Proof. intros x y m n [X VX] [Y VY] H. apply exact_result; [|exact H]. rewrite mult_IZR, <- VX, <- VY. apply mul_result; assumption. Qed.

Lemma val_bpow : forall x s m e, Prim2SF x = S754_finite s m e -> val x = (if s then - IZR (Zpos m) else IZR (Zpos m)) * bpow radix2 e.
Proof. intros x s m e H. unfold val. rewrite H, bpow_powerRZ. reflexivity. Qed.
(** The square of a difference does not depend on its order. *)
Lemma square_opp : forall x, Prim2B (- x * - x)%float = Prim2B (x * x)%float.
Proof.
  intro x. rewrite !mul_equiv, !opp_equiv. destruct (Prim2B x) as [s|s| |s m e B]; try reflexivity; try (destruct s; reflexivity).
  apply B2SF_inj. unfold Bmult, Bopp. rewrite !B2SF_SF2B. destruct s; reflexivity.
Qed.
Lemma square_zero : forall x, finite x -> val x = 0 -> (x * x)%float = 0%float.
Proof.
  intros x X V. apply Prim2B_inj. rewrite mul_equiv. apply finite_B in X. rewrite val_B2R in V.
  destruct (Prim2B x) as [s|s| |s m e B]; try discriminate X.
  - destruct s; reflexivity.
  - exfalso. cbn in V. apply eq_0_F2R in V. destruct s; discriminate V.
Qed.
Lemma same_val : forall x y, finite x -> finite y -> val x = val y -> val x <> 0 -> x = y.
Proof.
  intros x y X Y E N. apply Prim2B_inj. rewrite !val_B2R in *. apply finite_B in X. apply finite_B in Y.
  apply B2R_inj.
  - destruct (Prim2B x); try discriminate X; [exfalso; apply N; reflexivity|reflexivity].
  - destruct (Prim2B y); try discriminate Y; [exfalso; apply N; rewrite E; reflexivity|reflexivity].
  - exact E.
Qed.
Lemma square_flip : forall u v, finite u -> finite v -> ((u - v) * (u - v))%float = ((v - u) * (v - u))%float.
Proof.
  intros u v U V. pose proof (sub_result u v U V) as A. pose proof (sub_result v u V U) as B.
  assert (TP : 0 < top) by apply bpow_gt_0. pose proof (rnd_swap (val u) (val v)) as W.
  destruct A as [ (A & A1 & A2)|[ (A & A1)|(A & A1) ] ], B as [ (B & B1 & B2)|[ (B & B1)|(B & B1) ] ];
    try (apply Rabs_def2 in A2); try (apply Rabs_def2 in B2); rewrite W in *; try lra.
  - destruct (Req_dec (val (u - v)%float) 0) as [Z|Z].
    + rewrite !square_zero; [reflexivity|exact B| |exact A|exact Z]. lra.
    + apply Prim2B_inj. rewrite <- square_opp. assert (E : (- (u - v))%float = (v - u)%float); [|rewrite E; reflexivity].
      apply same_val; [apply opp_finite, A|exact B| |]; rewrite opp_val; lra.
  - apply Prim2B_inj. rewrite !mul_equiv, A, B. reflexivity.
  - apply Prim2B_inj. rewrite !mul_equiv, A, B. reflexivity.
Qed.
(** Doubles that are not negative: zero, positive or positive infinity. *)
Definition not_negative (x : PrimFloat.float) : Prop := (finite x /\ 0 <= val x) \/ Prim2B x = B754_infinity false.
Lemma result_not_negative : forall x r, result_is x r -> 0 <= r -> not_negative x.
Proof.
  intros x r R P. assert (TP : 0 < top) by apply bpow_gt_0. apply rnd_le in P. rewrite rnd_0 in P.
  destruct R as [ (A & B & _)|[ (A & B)|(A & B) ] ]; [left; split; [exact A|lra]|lra|right; exact A].
Qed.
Lemma square_not_negative : forall u v, finite u -> finite v -> not_negative ((u - v) * (u - v)).
Proof.
  intros u v U V. destruct (sub_result u v U V) as [ (A & _)|[ (A & _)|(A & _) ] ].
  - apply (result_not_negative _ _ (mul_result _ _ A A)). nra.
  - right. rewrite mul_equiv, A. reflexivity.
  - right. rewrite mul_equiv, A. reflexivity.
Qed.
Lemma sum_not_negative : forall x y, not_negative x -> not_negative y -> not_negative (x + y).
Proof.
  intros x y [ [X PX]|X] [ [Y PY]|Y].
  - apply (result_not_negative _ _ (add_result x y X Y)). lra.
  - right. rewrite add_equiv, Y. apply finite_B in X. destruct (Prim2B x); try discriminate X; reflexivity.
  - right. rewrite add_equiv, X. apply finite_B in Y. destruct (Prim2B y); try discriminate Y; reflexivity.
  - right. rewrite add_equiv, X, Y. reflexivity.
Qed.
Lemma not_negative_leb : forall x, not_negative x -> (0 <=? x)%float = true.
Proof.
  intros x [ [X P]|X].
  - rewrite leb_val by (reflexivity || assumption). rewrite zero_val. apply Rle_bool_true, P.
  - rewrite leb_equiv, X. reflexivity.
Qed.
Lemma sqrt_not_negative : forall x, not_negative x -> not_negative (sqrt x).
Proof.
  intros x [ [X P]|X].
  - left. pose proof (Bsqrt_correct prec emax _ _ mode_NE (Prim2B x)) as (A & B & _). rewrite <- sqrt_equiv, <- !val_B2R in A. rewrite <- sqrt_equiv in B. split.
    + apply finite_B. rewrite B. apply finite_B in X. rewrite val_B2R in P. destruct (Prim2B x) as [s|s| |s m e H]; try discriminate X; [reflexivity|].
      destruct s; [|reflexivity]. exfalso. cbn in P. assert (Q : F2R (Float radix2 (Zneg m) e) < 0) by (apply F2R_lt_0; reflexivity). lra.
    + rewrite A. rewrite <- rnd_0. apply rnd_le, sqrt_pos.
  - right. rewrite sqrt_equiv, X. reflexivity.
Qed.

(** The error of the squared distance. *)
Definition unit_error : R := bpow radix2 (-53).
Definition tiny : R := bpow radix2 (-1075).
Lemma unit_error_small : 0 <= unit_error <= 1 / 100.
Proof. unfold unit_error. cbn. split; lra. Qed.
Lemma sub_error : forall x y, exists e, Rabs e <= unit_error /\ rnd (val x - val y) = (val x - val y) * (1 + e).
Proof.
  intros x y. destruct (FLT_plus_error_N_ex radix2 (-1074) 53 (fun z => negb (Z.even z)) (val x) (- val y) (val_format x)) as (e & E & H).
  - apply generic_format_opp, (val_format y).
  - exists e. split; [|exact H]. apply Rle_trans with (1 := E). unfold u_ro. pose proof unit_error_small as U. unfold unit_error in *.
    replace (/ 2 * bpow radix2 (- (53) + 1)) with (bpow radix2 (-53)) by (cbn; lra).
    apply Rle_trans with (bpow radix2 (-53) / 1); [|lra]. apply Rmult_le_compat_l; [lra|]. apply Rinv_le; lra.
Qed.
Lemma add_error : forall x y, exists e, Rabs e <= unit_error /\ rnd (val x + val y) = (val x + val y) * (1 + e).
Proof.
  intros x y. destruct (sub_error x (- y)%float) as (e & E & H). exists e. split; [exact E|]. rewrite opp_val in H.
  replace (val x - - val y) with (val x + val y) in H by ring. exact H.
Qed.
Lemma mul_error : forall r, exists e h, Rabs e <= unit_error /\ Rabs h <= tiny /\ rnd r = r * (1 + e) + h.
Proof.
  intro r. destruct (error_N_FLT radix2 (-1074) 53 ltac:(lia) (fun z => negb (Z.even z)) r) as (e & h & E & H & _ & K).
  exists e, h. split; [|split; [|exact K] ].
  - apply Rle_trans with (1 := E). unfold unit_error. change (- (53) + 1)%Z with (-52)%Z. replace (-52)%Z with (-53 + 1)%Z by lia. rewrite bpow_plus. change (bpow radix2 1) with 2. apply Req_le. field.
  - apply Rle_trans with (1 := H). unfold tiny. replace (-1074)%Z with (-1075 + 1)%Z by lia. rewrite bpow_plus. change (bpow radix2 1) with 2. apply Req_le. field.
Qed.
Lemma small_product : forall a b A B, Rabs a <= A -> Rabs b <= B -> Rabs (a * b) <= A * B.
Proof. intros a b A B H K. rewrite Rabs_mult. apply Rmult_le_compat; try apply Rabs_pos; assumption. Qed.
Lemma square_error : forall d e1 e2 h u t, 0 <= u <= 1 / 100 -> Rabs e1 <= u -> Rabs e2 <= u -> Rabs h <= t ->
  Rabs (d * (1 + e1) * (d * (1 + e1)) * (1 + e2) + h - d * d) <= d * d * (7 / 2 * u) + t.
Proof.
  intros d e1 e2 h u t U E1 E2 H. replace (d * (1 + e1) * (d * (1 + e1)) * (1 + e2) + h - d * d) with (d * d * ((2 * e1 + e1 * e1) + e2 + (2 * e1 + e1 * e1) * e2) + h) by ring.
  assert (Q : Rabs (2 * e1 + e1 * e1) <= 201 / 100 * u).
  { apply Rle_trans with (1 := Rabs_triang _ _). rewrite Rabs_mult, (Rabs_pos_eq 2) by lra. pose proof (small_product _ _ _ _ E1 E1). nra. }
  pose proof (small_product _ _ _ _ Q E2) as M.
  apply Rle_trans with (1 := Rabs_triang _ _). apply Rplus_le_compat; [|exact H]. rewrite Rabs_mult, (Rabs_pos_eq (d * d)) by nra. apply Rmult_le_compat_l; [nra|].
  apply Rle_trans with (1 := Rabs_triang _ _). apply Rle_trans with (Rabs (2 * e1 + e1 * e1) + Rabs e2 + 201 / 100 * u * u); [|nra].
  apply Rplus_le_compat; [apply Rabs_triang|exact M].
Qed.
Lemma square_finite_inv : forall x, finite (x * x)%float -> finite x.
Proof. intros x H. apply finite_B in H. apply finite_B. rewrite mul_equiv in H. destruct (Prim2B x) as [s|s| |s m e B]; try reflexivity; try discriminate H. Qed.
Lemma finite_result : forall x r, result_is x r -> finite x -> val x = rnd r.
Proof. intros x r [ (_ & V & _)|[ (A & _)|(A & _) ] ] F; [exact V| |]; apply finite_B in F; rewrite A in F; discriminate F. Qed.
Lemma squared_difference_error : forall u v, finite u -> finite v -> finite ((u - v) * (u - v))%float ->
  Rabs (val ((u - v) * (u - v))%float - (val u - val v) * (val u - val v)) <= (val u - val v) * (val u - val v) * (7 / 2 * unit_error) + tiny.
Proof.
  intros u v U V F. pose proof (square_finite_inv _ F) as D. rewrite (finite_result _ _ (mul_result _ _ D D) F). rewrite (finite_result _ _ (sub_result u v U V) D).
  destruct (sub_error u v) as (e1 & E1 & H1). rewrite H1. destruct (mul_error ((val u - val v) * (1 + e1) * ((val u - val v) * (1 + e1)))) as (e2 & h & E2 & H & H2). rewrite H2.
  apply square_error; try assumption. apply unit_error_small.
Qed.
Lemma distance_error : forall ax ay bx b_y, finite ax -> finite ay -> finite bx -> finite b_y -> finite (fdistance_sqrd ax ay bx b_y) ->
  let D := (val bx - val ax) * (val bx - val ax) + (val b_y - val ay) * (val b_y - val ay) in
  Rabs (val (fdistance_sqrd ax ay bx b_y) - D) <= D * (5 * unit_error) + 4 * tiny.
Proof.
  intros ax ay bx b_y AX AY BX BY F D. unfold fdistance_sqrd in *. cbv zeta in *. destruct (add_finite_inv _ _ F) as [F1 F2].
  rewrite (finite_result _ _ (add_result _ _ F1 F2) F). destruct (add_error ((bx - ax) * (bx - ax)) ((b_y - ay) * (b_y - ay))) as (e & E & H). rewrite H. clear H F.
  pose proof (squared_difference_error bx ax BX AX F1) as H1. pose proof (squared_difference_error b_y ay BY AY F2) as H2.
  set (s1 := val ((bx - ax) * (bx - ax))%float) in *. set (s2 := val ((b_y - ay) * (b_y - ay))%float) in *.
  set (X := (val bx - val ax) * (val bx - val ax)) in *. set (Y := (val b_y - val ay) * (val b_y - val ay)) in *.
  assert (PX : 0 <= X) by apply (Rle_0_sqr (val bx - val ax)). assert (PY : 0 <= Y) by apply (Rle_0_sqr (val b_y - val ay)). subst D.
  pose proof unit_error_small as U. assert (T : 0 <= tiny) by apply bpow_ge_0. set (u := unit_error) in *. set (t := tiny) in *.
  assert (S : Rabs (s1 + s2 - (X + Y)) <= (X + Y) * (7 / 2 * u) + 2 * t).
  { replace (s1 + s2 - (X + Y)) with ((s1 - X) + (s2 - Y)) by ring. apply Rle_trans with (1 := Rabs_triang _ _). lra. }
  assert (S' : Rabs (s1 + s2) <= (X + Y) * (1 + 7 / 2 * u) + 2 * t).
  { replace (s1 + s2) with ((s1 + s2 - (X + Y)) + (X + Y)) by ring. apply Rle_trans with (1 := Rabs_triang _ _). rewrite (Rabs_pos_eq (X + Y)) by lra. lra. }
  replace ((s1 + s2) * (1 + e) - (X + Y)) with ((s1 + s2 - (X + Y)) + (s1 + s2) * e) by ring. apply Rle_trans with (1 := Rabs_triang _ _).
  pose proof (small_product _ _ _ _ S' E) as M. set (D := X + Y) in *. assert (0 <= D) by (unfold D; lra). 
  apply Rle_trans with (D * (7 / 2 * u) + 2 * t + (D * (1 + 7 / 2 * u) + 2 * t) * u); [lra|].
  assert (D * u * u <= D * u * (1 / 100)) by (apply Rmult_le_compat_l; nra). assert (t * u <= t * (1 / 100)) by (apply Rmult_le_compat_l; lra). nra.
Qed.
Lemma sqrt_error : forall x, finite x -> 0 <= val x -> exists e, Rabs e <= unit_error /\ finite (sqrt x) /\ val (sqrt x)%float = R_sqrt.sqrt (val x) * (1 + e).
Proof.
  intros x X P. pose proof (Bsqrt_correct prec emax _ _ mode_NE (Prim2B x)) as (A & B & _). rewrite <- sqrt_equiv, <- !val_B2R in A. change (round_mode mode_NE) with ZnearestE in A.
  assert (F : finite (sqrt x)).
  { destruct (sqrt_not_negative x) as [ [F _]|F]; [left; split; assumption|exact F|]. exfalso. rewrite sqrt_equiv in F. apply finite_B in X. rewrite F in B. rewrite val_B2R in P.
    destruct (Prim2B x) as [s|s| |s m e H]; try discriminate. destruct s; [|discriminate]. cbn in P. assert (K : F2R (Float radix2 (Zneg m) e) < 0) by (apply F2R_lt_0; reflexivity). lra. }
  destruct (Req_dec (val x) 0) as [Z|Z].
  - exists 0. rewrite Rabs_R0. split; [apply unit_error_small|]. split; [exact F|]. rewrite A, Z, sqrt_0, rnd_0. ring.
  - assert (G : bpow radix2 (-1074) <= val x).
    { apply finite_B in X. rewrite val_B2R in *. rewrite <- (Rabs_pos_eq _ P). apply (abs_B2R_ge_emin prec emax). destruct (Prim2B x); try discriminate X; [exfalso; apply Z; reflexivity|reflexivity]. }
    destruct (relative_error_N_FLT_ex radix2 (-1074) 53 ltac:(lia) (fun z => negb (Z.even z)) (R_sqrt.sqrt (val x))) as (e & E & H).
    + rewrite Rabs_pos_eq by apply sqrt_pos. apply Rle_trans with (R_sqrt.sqrt (bpow radix2 (-1074))); [|apply sqrt_le_1_alt, G].
      replace (bpow radix2 (-1074)) with (bpow radix2 (-537) * bpow radix2 (-537)) by (rewrite <- bpow_plus; reflexivity). rewrite sqrt_square by apply bpow_ge_0. apply bpow_le. lia.
    + exists e. split; [|split; [exact F|rewrite A; exact H] ]. apply Rle_trans with (1 := E). unfold unit_error. replace (- (53) + 1)%Z with (1 + -53)%Z by lia. rewrite bpow_plus. change (bpow radix2 1) with 2. apply Req_le. field.
Qed.
Lemma root_error : forall S T u w, 0 <= u <= 1 / 100 -> 0 <= S -> 0 <= T -> 0 <= w -> Rabs (S * S - T * T) <= T * T * (5 * u) + w * w -> Rabs (S - T) <= T * (5 * u) + w.
Proof.
  intros S T u w U PS PT PW H. apply Rabs_le_inv in H. apply Rabs_le. assert (TT : 0 <= T * T) by nra. assert (0 <= T * u) by nra. split.
  - apply Rnot_lt_le. intro K. assert (L : S + w < T * (1 - 5 * u)) by lra. assert (M : (S + w) * (S + w) < T * (1 - 5 * u) * (T * (1 - 5 * u))) by (apply Rmult_le_0_lt_compat; lra).
    assert (T * (1 - 5 * u) * (T * (1 - 5 * u)) <= T * T * (1 - 5 * u)). { replace (T * (1 - 5 * u) * (T * (1 - 5 * u))) with (T * T * (1 - 5 * u) * (1 - 5 * u)) by ring. rewrite <- (Rmult_1_r (T * T * (1 - 5 * u))) at 2. apply Rmult_le_compat_l; nra. }
    assert (0 <= S * w) by nra. nra.
  - apply Rnot_lt_le. intro K. assert (L : T * (1 + 5 * u) + w < S) by lra. assert (M : (T * (1 + 5 * u) + w) * (T * (1 + 5 * u) + w) < S * S) by (apply Rmult_le_0_lt_compat; nra).
    assert (0 <= T * w * (1 + 5 * u)) by (apply Rmult_le_pos; nra). assert (0 <= T * T * (u * u)) by (apply Rmult_le_pos; nra). assert (0 <= T * T * u) by (apply Rmult_le_pos; lra). nra.
Qed.
Lemma plain_distance_error : forall ax ay bx b_y, finite ax -> finite ay -> finite bx -> finite b_y -> finite (fdistance_sqrd ax ay bx b_y) ->
  let D := R_sqrt.sqrt ((val bx - val ax) * (val bx - val ax) + (val b_y - val ay) * (val b_y - val ay)) in
  finite (fdistance ax ay bx b_y) /\ Rabs (val (fdistance ax ay bx b_y) - D) <= D * (7 * unit_error) + bpow radix2 (-535).
Proof.
  intros ax ay bx b_y AX AY BX BY F D. pose proof (distance_error ax ay bx b_y AX AY BX BY F) as H. cbv zeta in H.
  assert (PD : 0 <= (val bx - val ax) * (val bx - val ax) + (val b_y - val ay) * (val b_y - val ay)) by (apply Rplus_le_le_0_compat; apply Rle_0_sqr).
  assert (P : 0 <= val (fdistance_sqrd ax ay bx b_y)).
  { assert (N : not_negative (fdistance_sqrd ax ay bx b_y)) by (apply sum_not_negative; apply square_not_negative; assumption).
    destruct N as [ [_ N]|N]; [exact N|]. apply finite_B in F. rewrite N in F. discriminate F. }
  destruct (sqrt_error _ F P) as (e & E & G & V). fold (fdistance ax ay bx b_y) in G, V. split; [exact G|]. rewrite V. clear V G.
  rewrite <- (sqrt_sqrt _ PD) in H. fold D in H. rewrite <- (sqrt_sqrt _ P) in H. set (s := R_sqrt.sqrt (val (fdistance_sqrd ax ay bx b_y))) in *.
  assert (PD' : 0 <= D) by apply sqrt_pos. assert (PS : 0 <= s) by apply sqrt_pos.
  pose proof unit_error_small as U. set (u := unit_error) in *. set (w := bpow radix2 (-536)). assert (W : 0 <= w) by apply bpow_ge_0.
  assert (K : Rabs (s - D) <= D * (5 * u) + w).
  { apply root_error; try assumption. apply Rle_trans with (1 := H). apply Rplus_le_compat_l. unfold w, tiny. rewrite <- bpow_plus. change 4 with (bpow radix2 2). rewrite <- bpow_plus. apply bpow_le. lia. }
  replace (bpow radix2 (-535)) with (2 * w) by (unfold w; change 2 with (bpow radix2 1); rewrite <- bpow_plus; reflexivity).
  replace (s * (1 + e) - D) with ((s - D) + s * e) by ring. apply Rle_trans with (1 := Rabs_triang _ _).
  assert (B : Rabs s <= D * (1 + 5 * u) + w) by (rewrite Rabs_pos_eq by exact PS; apply Rabs_le_inv in K; lra).
  pose proof (small_product _ _ _ _ B E) as M. assert (D * u * u <= D * u * (1 / 100)) by (apply Rmult_le_compat_l; nra). assert (w * u <= w * (1 / 100)) by (apply Rmult_le_compat_l; lra). assert (0 <= D * u) by nra. nra.
Qed.
