(** C132: fixed-point numbers with a scale of their own, mixed operations, functions and limits. *)
From Verif Require Import Base FixedModel FixedSpec FixedProof MixedModel MixedSpec.
From Coq Require Import Qabs.

Definition int16 := mkformat (-32768) 32767.
Definition int32 := mkformat (-2147483648) 2147483647.
Definition int64 := mkformat (-9223372036854775808) 9223372036854775807.

Lemma lift : forall s f P (r : result Z) x, fscale x = s ->
  match r with Ok z => representable f z /\ P z | _ => ~ exists z, representable f z /\ P z end ->
  the_number s f P (with_mant x r).
Proof. intros s f P [z| | |] x E H; cbn; [split; [exact E|exact H]|exact H|exact H|exact H]. Qed.

(** Numbers of one scale: the exact sum and difference, the product and the quotient rounded. *)
Theorem C132_same_scale : forall w f x y, let s := fscale x in
  proper s -> fscale y = s -> in_format f x -> in_format f y -> wide_for_products f w -> wide_for_scaling s f w ->
  the_number s f (exactly s (number x + number y)) (fadd f x y) /\
  the_number s f (exactly s (number x - number y)) (fsub f x y) /\
  the_number s f (product_rounded s (number x * number y)) (fmul w f x y) /\
  (~ number y == 0 -> the_number s f (truncated s (number x / number y)) (fdiv w f x y)).
Proof.
  intros w f x y s P E X Y W1 W2. unfold fadd, fsub, fmul, fdiv, number, exactly. rewrite E. fold s. split; [|split; [|split] ].
  - apply lift; [reflexivity|]. apply add_ok, P.
  - apply lift; [reflexivity|]. apply sub_ok, P.
  - apply lift; [reflexivity|]. apply mul_ok; assumption.
  - intro N. apply lift; [reflexivity|]. apply div_ok; try assumption. intro Z0. rewrite Z0 in N. apply N.
    pose proof (Fpos s P). unfold value. change (inject_Z 0) with 0. field. lra.
Qed.
(** and their order is that of the values. *)
Theorem C132_same_scale_order : forall x y, proper (fscale x) -> fscale y = fscale x ->
  answers (flt x y) (number x < number y) /\ answers (fgt x y) (number x > number y) /\ answers (fle x y) (number x <= number y) /\
  answers (fge x y) (number x >= number y) /\ answers (feq x y) (number x == number y) /\ answers (fne x y) (~ number x == number y).
Proof.
  intros x y P E. unfold answers, fgt, fle, fge, fne, number. rewrite E. set (s := fscale x) in *.
  destruct (less_ok s (fmant x) (fmant y) P) as [L Q]. destruct (less_ok s (fmant y) (fmant x) P) as [L' Q'].
  fold (flt x y) in L. fold (flt y x) in L'. fold (feq x y) in Q. change (less (fmant x) (fmant y)) with (flt x y) in L.
  change (less (fmant y) (fmant x)) with (flt y x) in L'. change (equal (fmant x) (fmant y)) with (feq x y) in Q.
  split; [exact L|]. split; [exact L'|]. split; [|split; [|split; [exact Q|] ] ].
  - rewrite negb_true_iff, <- not_true_iff_false, L'. split; [apply Qnot_lt_le|apply Qle_not_lt].
  - rewrite negb_true_iff, <- not_true_iff_false, L. split; [apply Qnot_lt_le|apply Qle_not_lt].
  - rewrite negb_true_iff, <- not_true_iff_false, Q. tauto.
Qed.
(** Numbers of two scales (run-time policies) are combined as if they had one: 1.00 + 1.0 is 1.10, and
    1.00 is above 9.0. *)
Theorem C132_mixed_scale_refuted : exists x y z, number x == 1 /\ number y == 1 /\ fadd int32 x y = Ok z /\ number z == 11 # 10 /\ flt y x = true.
Proof.
  exists (mkfnum (Generic 10 2) 100), (mkfnum (Generic 10 1) 10), (mkfnum (Generic 10 2) 110).
  repeat split; reflexivity.
Qed.

(** ** A plain integer on the right *)
Lemma from_integer_cases : forall s wt t f v,
  (convertible s wt t f v /\ from_integer s wt t f v = Ok (v * factor s)%Z) \/
  (~ convertible s wt t f v /\ (from_integer s wt t f v = Overflow \/ from_integer s wt t f v = BadCast)).
Proof.
  intros s wt t f v. unfold convertible, from_integer, scale_up, arith.
  destruct (in_range wt (v * factor s)) eqn:A; cbn [bind].
  2:{ right. split; [intros (H & _ & _); exact (range_not _ _ A H)|left; reflexivity]. }
  unfold numeric_cast at 1 3 5. destruct (in_range t (v * factor s)) eqn:B; cbn [bind].
  2:{ right. split; [intros (_ & H & _); exact (range_not _ _ B H)|right; reflexivity]. }
  unfold numeric_cast. destruct (in_range f (v * factor s)) eqn:C.
  - left. split; [|reflexivity]. split; [apply range_iff, A|]. split; apply range_iff; assumption.
  - right. split; [intros (_ & _ & H); exact (range_not _ _ C H)|right; reflexivity].
Qed.
Lemma num_int : forall s v, proper s -> value s (v * factor s) == inject_Z v.
Proof. intros s v P. pose proof (Fpos s P). unfold value. rewrite inject_Z_mult. field. lra. Qed.
Lemma the_number_ext : forall s f (P R : Z -> Prop) r, (forall m, P m <-> R m) -> the_number s f P r -> the_number s f R r.
Proof.
  intros s f P R [z| | |] H K; cbn in *; [destruct K as (K1 & K2 & K3); split; [exact K1|split; [exact K2|apply H, K3] ]| | |];
    intros (m & M1 & M2); apply K; exists m; (split; [exact M1|apply H, M2]).
Qed.
Lemma trunc_ext : forall s e e' m, e == e' -> truncated s e m <-> truncated s e' m.
Proof. intros s e e' m E. unfold truncated, rounded_down, rounded_up. rewrite E. tauto. Qed.
Lemma scaled_nonzero : forall s v, proper s -> v <> 0%Z -> ~ number (of_mant s (v * factor s)) == 0.
Proof.
  intros s v P V. unfold number. cbn [fscale fmant of_mant]. rewrite num_int by exact P. change 0 with (inject_Z 0).
  rewrite inject_Z_injective. exact V.
Qed.

(** The operations with an integer are those on the numbers, the product without rounding, when the
    integer can be converted; *)
Theorem C132_integer : forall wt t w f x v, let s := fscale x in
  proper s -> in_format f x -> wide_for_products f w -> wide_for_scaling s f w -> convertible s wt t f v ->
  the_number s f (exactly s (number x + inject_Z v)) (add_int wt t f x v) /\
  the_number s f (exactly s (number x - inject_Z v)) (sub_int wt t f x v) /\
  the_number s f (exactly s (number x * inject_Z v)) (mul_int wt t w f x v) /\
  (v <> 0%Z -> the_number s f (truncated s (number x / inject_Z v)) (div_int wt t w f x v)).
Proof.
  intros wt t w f x v s P X W1 W2 C. unfold add_int, sub_int, mul_int, div_int, of_integer. fold s.
  destruct (from_integer_cases s wt t f v) as [ [_ E]|[N _] ]; [|contradiction]. rewrite E. cbn [with_mant bind of_policy fscale].
  pose proof (C132_same_scale w f x (mkfnum s (v * factor s)) P eq_refl X (proj2 (proj2 C)) W1 W2) as (A & B & D & Q).
  fold s in A, B, D, Q. assert (V : number (mkfnum s (v * factor s)) == inject_Z v) by (apply num_int, P).
  split; [|split; [|split] ].
  - refine (the_number_ext _ _ _ _ _ _ A). intro m. unfold exactly. rewrite V. tauto.
  - refine (the_number_ext _ _ _ _ _ _ B). intro m. unfold exactly. rewrite V. tauto.
  - refine (the_number_ext _ _ _ _ _ _ D). intro m. unfold number at 1 2. cbn [fscale fmant]. fold s.
    rewrite (product_iff s (fmant x) (v * factor s) m P). unfold exactly, number. fold s.
    pose proof (factor_pos s P) as FP.
    assert (SD : scale_down_value s (fmant x * (v * factor s)) = (fmant x * v)%Z).
    { rewrite Z.mul_assoc. destruct s as [r e|e|e]; cbn [scale_down_value factor] in *; [apply Z.quot_mul; lia| |];
        (rewrite Z.shiftr_div_pow2 by exact P; apply Z.div_mul; lia). }
    rewrite SD. pose proof (Fpos s P) as FQ. unfold value. split.
    + intros ->. rewrite inject_Z_mult. field. lra.
    + intro H. apply inject_Z_injective. rewrite inject_Z_mult.
      setoid_replace (inject_Z m) with (inject_Z m / inject_Z (factor s) * inject_Z (factor s)) by (field; lra).
      rewrite H. field. lra.
  - intro NZ. refine (the_number_ext _ _ _ _ _ _ (Q _)); [|apply scaled_nonzero; assumption].
    intro m. apply trunc_ext. rewrite V. reflexivity.
Qed.
(** otherwise there is no result. *)
Theorem C132_integer_fails : forall wt t w f x v, ~ convertible (fscale x) wt t f v ->
  forall r, add_int wt t f x v <> Ok r /\ sub_int wt t f x v <> Ok r /\ mul_int wt t w f x v <> Ok r /\ div_int wt t w f x v <> Ok r.
Proof.
  intros wt t w f x v C r. unfold add_int, sub_int, mul_int, div_int, of_integer.
  destruct (from_integer_cases (fscale x) wt t f v) as [ [Y _]|[_ [E|E] ] ]; [contradiction| |]; rewrite E; cbn;
    (repeat split; discriminate).
Qed.
(** So a small integer type fails where a large one gives the result: 1.00 + short(400) throws. *)
Theorem C132_integer_type_refuted : exists s x v, number x == 1 /\ fscale x = s /\ representable int16 v /\
  add_int int32 int16 int64 x v = BadCast /\ add_int int64 int32 int64 x v = Ok (mkfnum s 40100) /\ value s 40100 == number x + inject_Z v.
Proof. exists (Generic 10 2), (mkfnum (Generic 10 2) 100), 400%Z. repeat split; try reflexivity; vm_compute; discriminate. Qed.

Theorem C132_integer_order : forall wt t f x v, proper (fscale x) -> convertible (fscale x) wt t f v ->
  exists bl bg be ble bge bne, lt_int wt t f x v = Ok bl /\ gt_int wt t f x v = Ok bg /\ eq_int wt t f x v = Ok be /\
    le_int wt t f x v = Ok ble /\ ge_int wt t f x v = Ok bge /\ ne_int wt t f x v = Ok bne /\
    answers bl (number x < inject_Z v) /\ answers bg (number x > inject_Z v) /\ answers be (number x == inject_Z v) /\
    answers ble (number x <= inject_Z v) /\ answers bge (number x >= inject_Z v) /\ answers bne (~ number x == inject_Z v) /\
    int_gt wt t f v x = Ok bl /\ int_lt wt t f v x = Ok bg /\ int_eq wt t f v x = Ok be /\
    int_ge wt t f v x = Ok ble /\ int_le wt t f v x = Ok bge /\ int_ne wt t f v x = Ok bne.
Proof.
  intros wt t f x v P C. unfold le_int, ge_int, ne_int, int_gt, int_lt, int_le, int_ge, int_eq, int_ne, lt_int, gt_int, eq_int.
  destruct (from_integer_cases (fscale x) wt t f v) as [ [_ E]|[N _] ]; [|contradiction]. rewrite E. cbn [bind rnot].
  destruct (C132_same_scale_order x (mkfnum (fscale x) (v * factor (fscale x))) P eq_refl) as (L & G & LE & GE & EQ & NE).
  assert (V : number (mkfnum (fscale x) (v * factor (fscale x))) == inject_Z v) by (apply num_int, P).
  unfold answers in *. rewrite V in *. unfold fgt, fle, fge, fne, flt, feq in *. cbn [fmant] in *.
  do 6 eexists. repeat (split; [reflexivity|]). repeat (split; [assumption|]). repeat (split; [reflexivity|]). reflexivity.
Qed.

(** ** A plain integer on the left of - and / *)
Theorem C132_integer_left : forall wt t w f v x, let s := fscale x in
  proper s -> in_format f x -> wide_for_products f w -> wide_for_scaling s f w -> convertible s wt t f v ->
  the_number s f (exactly s (inject_Z v - number x)) (int_sub s wt t f v x) /\
  (~ number x == 0 -> the_number s f (truncated s (inject_Z v / number x)) (int_div s wt t w f v x)).
Proof.
  intros wt t w f v x s P X W1 W2 C. unfold int_sub, int_div, of_integer.
  destruct (from_integer_cases s wt t f v) as [ [_ E]|[N _] ]; [|contradiction]. rewrite E. cbn [with_mant bind of_policy fscale].
  pose proof (C132_same_scale w f (mkfnum s (v * factor s)) x P eq_refl (proj2 (proj2 C)) X W1 W2) as (_ & B & _ & Q).
  cbn [fscale] in B, Q. assert (V : number (mkfnum s (v * factor s)) == inject_Z v) by (apply num_int, P).
  split.
  - refine (the_number_ext _ _ _ _ _ _ B). intro m. unfold exactly. rewrite V. tauto.
  - intro NZ. refine (the_number_ext _ _ _ _ _ _ (Q NZ)). intro m. apply trunc_ext. rewrite V. reflexivity.
Qed.
(** A run-time scale other than the default one spoils them: with four digits 3 - 1.0000 is -97.00. *)
Theorem C132_integer_left_refuted : exists x z, number x == 1 /\ int_sub (Generic 10 2) int64 int32 int32 3 x = Ok z /\ number z == - (97 # 1).
Proof. exists (mkfnum (Generic 10 4) 10000), (mkfnum (Generic 10 2) (-9700)). repeat split; reflexivity. Qed.

(** ** Functions *)
(** A function gives its value at a whole number, rounded, *)
Theorem C132_function_whole : forall p f fn x k, let s := fscale x in
  proper s -> match s with BinaryRuntime _ => False | _ => True end -> (forall a b, a == b -> fn a == fn b) -> number x == inject_Z k ->
  the_number s f (rounded p s (fn (inject_Z k))) (math s p f fn x).
Proof.
  intros p f fn x k s P NB EX K. unfold math, of_rational. fold s.
  assert (M : fmant x = (k * factor s)%Z).
  { apply inject_Z_injective. rewrite inject_Z_mult, <- K. unfold number. fold s. symmetry. apply value_eq, P. }
  pose proof (factor_pos s P) as FP.
  assert (CV : convert_to_float s (fmant x) = Ok (inject_Z k)).
  { rewrite M. destruct s as [r e|e|e]; cbn [convert_to_float scale_down_float factor] in *; [| |contradiction]; rewrite Z.quot_mul by lia; reflexivity. }
  rewrite CV. cbn [bind]. apply lift; [reflexivity|]. apply from_rational_ok, P.
Qed.
(** and at any other number its value at the whole part: the ceiling of 1.50 is 1.00, the floor of -1.50
    is -1.00, and two numbers with one whole part have one value under any function. *)
Theorem C132_function_fraction_refuted : exists x y, let s := fscale x in
  number x == 3 # 2 /\ fceil s HalfToEven int32 x = Ok (mkfnum s 100) /\ value s 100 == 1 /\
  number y == - (3 # 2) /\ ffloor s HalfToEven int32 y = Ok (mkfnum s (-100)) /\ value s (-100) == -1.
Proof. exists (mkfnum (Generic 10 2) 150), (mkfnum (Generic 10 2) (-150)). repeat split; reflexivity. Qed.
Theorem C132_function_whole_part : forall d p f fn x y k,
  fscale y = fscale x -> proper (fscale x) -> match fscale x with BinaryRuntime _ => False | _ => True end ->
  0 <= inject_Z k -> inject_Z k <= number x < inject_Z k + 1 -> inject_Z k <= number y < inject_Z k + 1 ->
  math d p f fn x = math d p f fn y.
Proof.
  intros d p f fn x y k E P NB K X Y. unfold math. rewrite E.
  assert (G : forall z, fscale z = fscale x -> inject_Z k <= number z < inject_Z k + 1 -> convert_to_float (fscale x) (fmant z) = Ok (inject_Z k)).
  { intros z Ez Hz. destruct (to_float_trunc (fscale x) (fmant z) P NB) as (j & J1 & J2 & _). rewrite J1. do 2 f_equal.
    unfold number in Hz. rewrite Ez in Hz. apply (down_unique (value (fscale x) (fmant z))); [apply J2; lra|exact Hz]. }
  rewrite (G x eq_refl X), (G y E Y). reflexivity.
Qed.
(** The result has the default scale, not that of the argument. *)
Theorem C132_function_scale_refuted : exists d x z, fscale x <> d /\ math d HalfToEven int32 (fun v => v) x = Ok z /\ fscale z <> fscale x.
Proof. exists (Generic 10 2), (mkfnum (Generic 10 4) 10000), (mkfnum (Generic 10 2) 100). split; [discriminate|]. split; [reflexivity|discriminate]. Qed.
(** Writing and reading back gives the number only if it is whole. *)
Theorem C132_stream : forall p f x, let s := fscale x in
  proper s -> match s with BinaryRuntime _ => False | _ => True end -> in_format f x ->
  (exists k, number x == inject_Z k) <-> (exists v, written x = Ok v /\ read_into p f x v = Ok x).
Proof.
  intros p f x s P NB X. unfold written, read_into, assign_rational. fold s. split.
  - intros [k K].
    assert (M : fmant x = (k * factor s)%Z).
    { apply inject_Z_injective. rewrite inject_Z_mult, <- K. unfold number. fold s. symmetry. apply value_eq, P. }
    pose proof (factor_pos s P) as FP. exists (inject_Z k). split.
    { rewrite M. destruct s as [r e|e|e]; cbn [convert_to_float scale_down_float factor] in *; [| |contradiction]; rewrite Z.quot_mul by lia; reflexivity. }
    unfold from_rational. assert (RI : round p (inject_Z k * inject_Z (factor s)) = (k * factor s)%Z).
    { rewrite <- inject_Z_mult. apply round_int. }
    rewrite RI. unfold numeric_cast. rewrite <- M. rewrite (proj2 (range_iff f _) X). cbn. destruct x; reflexivity.
  - intros (v & W & R). destruct (to_float_trunc s (fmant x) P NB) as (k & K & _). rewrite K in W. injection W as <-.
    unfold from_rational in R. assert (RI : round p (inject_Z k * inject_Z (factor s)) = (k * factor s)%Z).
    { rewrite <- inject_Z_mult. apply round_int. }
    rewrite RI in R. unfold numeric_cast in R. destruct (in_range f (k * factor s)); [|discriminate]. cbn in R. injection R as R1.
    exists k. unfold number. fold s. assert (M : fmant x = (k * factor s)%Z) by (rewrite <- R1; reflexivity). rewrite M. apply num_int, P.
Qed.

(** ** Limits *)
(** The least and the greatest number of a scale; the least positive one, which is also the distance
    between neighbours; a number is false when it is zero. *)
Theorem C132_limits : forall wti ti f x y, let s := fscale x in proper s -> in_format f x -> in_format f y -> fscale y = s ->
  number (own_min f x) <= number y <= number (own_max f x) /\ in_format f (own_min f x) /\ in_format f (own_max f x) /\
  limits_min s f = own_min f x /\ limits_max s f = own_max f x /\
  0 < number (own_epsilon x) /\ (0 < number y -> number (own_epsilon x) <= number y) /\
  (number x < number y -> number x + number (own_epsilon x) <= number y) /\
  (convertible s wti ti f 1 -> representable f (factor s + 1) -> representable f 1 -> limits_epsilon s wti ti f = Ok (own_epsilon x)) /\
  (is_false x = true <-> number x == 0) /\ is_true x = negb (is_false x).
Proof.
  intros wti ti f x y s P X Y E. pose proof (Fpos s P) as F. unfold own_min, own_max, own_epsilon, number. cbn [fscale fmant]. rewrite E. fold s.
  assert (MON : forall a b, (a <= b)%Z <-> value s a <= value s b).
  { intros a b. unfold value, Qdiv. rewrite Zle_Qle. symmetry. apply Qmult_le_r. apply Qinv_lt_0_compat, F. }
  assert (ML : forall a b, (a < b)%Z <-> value s a < value s b).
  { intros a b. unfold value, Qdiv. rewrite Zlt_Qlt. symmetry. apply Qmult_lt_r. apply Qinv_lt_0_compat, F. }
  assert (V0 : value s 0 == 0) by (unfold value; change (inject_Z 0) with 0; field; lra).
  destruct X as [X1 X2], Y as [Y1 Y2]. unfold in_format, representable. cbn [fmant].
  split; [split; apply (proj1 (MON _ _)); assumption|]. split; [lia|]. split; [lia|]. split; [reflexivity|]. split; [reflexivity|].
  split; [rewrite <- V0; apply (proj1 (ML _ _)); lia|]. split; [|split; [|split; [|split] ] ].
  - intro H. rewrite <- V0 in H. apply (proj2 (ML _ _)) in H. apply (proj1 (MON _ _)). lia.
  - intro H. apply (proj2 (ML _ _)) in H. assert (SUM : value s (fmant x) + value s 1 == value s (fmant x + 1)) by (unfold value; rewrite inject_Z_plus; field; lra).
    rewrite SUM. apply (proj1 (MON _ _)). lia.
  - intros C N O. unfold limits_epsilon, of_integer.
    destruct (from_integer_cases s wti ti f 1) as [ [_ E1]|[N1 _] ]; [|contradiction]. rewrite E1. rewrite Z.mul_1_l. cbn [with_mant bind of_policy fscale fmant].
    unfold arith. rewrite (proj2 (range_iff f _) N). unfold with_mant at 1. cbn [bind fscale]. unfold fsub, sub, arith. cbn [fmant].
    replace (factor s + 1 - factor s)%Z with 1%Z by ring. rewrite (proj2 (range_iff f _) O). reflexivity.
  - unfold is_false. rewrite Z.eqb_eq. rewrite <- V0. split; [intros ->; reflexivity|]. intro H. apply Z.le_antisymm; apply (proj2 (MON _ _)); rewrite H; apply Qle_refl.
  - reflexivity.
Qed.
(** Construction, assignment and swap. *)
Theorem C132_construct : forall p f s x y v, proper s -> proper (fscale x) ->
  number (of_policy s) == 0 /\ the_number s f (rounded p s v) (of_rational s p f v) /\
  the_number (fscale x) f (rounded p (fscale x) v) (assign_rational p f x v) /\ fswap x y = (y, x).
Proof.
  intros p f s x y v P PX. split; [|split; [|split] ].
  - pose proof (Fpos s P). unfold number, value. cbn. field. lra.
  - apply lift; [reflexivity|]. apply from_rational_ok, P.
  - apply lift; [reflexivity|]. apply from_rational_ok, PX.
  - destruct x, y. reflexivity.
Qed.

Example C132_witness : let s := Generic 10 2 in let x := mkfnum s 150 in
  proper s /\ in_format int32 x /\ wide_for_products int32 int64 /\ wide_for_scaling s int32 int64 /\ convertible s int64 int32 int32 3 /\
  mul_int int64 int32 int64 int32 x 3 = Ok (mkfnum s 450) /\ int_sub s int64 int32 int32 3 x = Ok (mkfnum s 150) /\
  limits_epsilon s int64 int32 int32 = Ok (mkfnum s 1).
Proof.
  cbv zeta. split; [cbn; lia|]. split; [unfold in_format, representable; cbn; lia|].
  split. { intros a b A B. unfold representable in *. cbn in *. nia. }
  split. { intros a A. unfold representable in *. cbn in *. lia. }
  split. { unfold convertible, representable. cbn. lia. }
  repeat split; reflexivity.
Qed.

Print Assumptions C132_same_scale.
Print Assumptions C132_same_scale_order.
Print Assumptions C132_mixed_scale_refuted.
Print Assumptions C132_integer.
Print Assumptions C132_integer_fails.
Print Assumptions C132_integer_type_refuted.
Print Assumptions C132_integer_order.
Print Assumptions C132_integer_left.
Print Assumptions C132_integer_left_refuted.
Print Assumptions C132_function_whole.
Print Assumptions C132_function_fraction_refuted.
Print Assumptions C132_function_whole_part.
Print Assumptions C132_function_scale_refuted.
Print Assumptions C132_stream.
Print Assumptions C132_limits.
Print Assumptions C132_construct.
