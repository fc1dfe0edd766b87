(** Properties of fixed-point arithmetic. *)
From Verif Require Import Base FixedModel FixedSpec FixedProof.
From Coq Require Import Qabs.

(** ** C42: arithmetic *)
Theorem C42_add : forall s f x y, proper s ->
  match add f x y with
  | Ok z => representable f z /\ value s z == value s x + value s y
  | _ => ~ exists z, representable f z /\ value s z == value s x + value s y
  end.
Proof. exact add_ok. Qed.
Theorem C42_sub : forall s f x y, proper s ->
  match sub f x y with
  | Ok z => representable f z /\ value s z == value s x - value s y
  | _ => ~ exists z, representable f z /\ value s z == value s x - value s y
  end.
Proof. exact sub_ok. Qed.
Theorem C42_neg_abs : forall s f x, proper s -> representable f x ->
  (match neg f x with
   | Ok z => representable f z /\ value s z == - value s x
   | _ => ~ exists z, representable f z /\ value s z == - value s x
   end) /\
  (match abs f x with
   | Ok z => representable f z /\ value s z == Qabs (value s x)
   | _ => ~ exists z, representable f z /\ value s z == Qabs (value s x)
   end).
Proof. intros s f x P X. split; [apply neg_ok, P|apply abs_ok; assumption]. Qed.
Theorem C42_increment : forall s w f x, proper s -> wide_for_scaling s f w -> representable f 1 -> representable f (factor s) ->
  (match incr s w f x with
   | Ok z => representable f z /\ value s z == value s x + 1
   | _ => ~ exists z, representable f z /\ value s z == value s x + 1
   end) /\
  (match decr s w f x with
   | Ok z => representable f z /\ value s z == value s x - 1
   | _ => ~ exists z, representable f z /\ value s z == value s x - 1
   end).
Proof. exact incr_ok. Qed.
Theorem C42_mul : forall s w f x y, proper s -> wide_for_products f w -> representable f x -> representable f y ->
  match mul s w f x y with
  | Ok z => representable f z /\ product_rounded s (value s x * value s y) z
  | _ => ~ exists z, representable f z /\ product_rounded s (value s x * value s y) z
  end.
Proof. exact mul_ok. Qed.
Theorem C42_div : forall s w f x y, proper s -> wide_for_scaling s f w ->
  representable f x -> y <> 0%Z ->
  match div s w f x y with
  | Ok z => representable f z /\ truncated s (value s x / value s y) z
  | _ => ~ exists z, representable f z /\ truncated s (value s x / value s y) z
  end.
Proof. exact div_ok. Qed.
Theorem C42_div_zero : forall s w f x, wide_for_scaling s f w -> representable f x -> div s w f x 0 = DivZero.
Proof. exact div_zero. Qed.
Theorem C42_fmod : forall s x y, proper s -> y <> 0%Z -> exists z k, fmod x y = Ok z /\
  value s x == inject_Z k * value s y + value s z /\ Qabs (value s z) < Qabs (value s y) /\ 0 <= value s z * value s x.
Proof. exact fmod_ok. Qed.
Theorem C42_compare : forall s x y, proper s -> (less x y = true <-> value s x < value s y) /\ (equal x y = true <-> value s x == value s y).
Proof. exact less_ok. Qed.

(** ** C83: conversions *)
Theorem C83_from_rational : forall s p f v, proper s ->
  match from_rational s p f v with
  | Ok z => representable f z /\ rounded p s v z
  | _ => ~ exists z, representable f z /\ rounded p s v z
  end.
Proof. exact from_rational_ok. Qed.
Theorem C83_integer_round_trip : forall s wt t f v z, proper s -> representable t v -> from_integer s wt t f v = Ok z ->
  value s z == inject_Z v /\ convert_to_integer s t z = Ok v.
Proof. exact integer_round_trip. Qed.
(** Conversion to a floating type cuts off the fraction, *)
Theorem C83_to_float_refuted : exists s x v, proper s /\ convert_to_float s x = Ok v /\ ~ v == value s x.
Proof. exists (Generic 10 2), 150%Z, 1. split; [cbn; lia|]. split; [reflexivity|]. vm_compute. discriminate. Qed.
Theorem C83_to_float_truncates : forall s x, proper s -> match s with BinaryRuntime _ => False | _ => True end ->
  exists k, convert_to_float s x = Ok (inject_Z k) /\
    (0 <= value s x -> inject_Z k <= value s x < inject_Z k + 1) /\ (value s x <= 0 -> inject_Z k - 1 < value s x <= inject_Z k).
Proof. exact to_float_trunc. Qed.
(** the run-time binary policy divides by the exponent, *)
Theorem C83_binary_runtime_refuted : exists x v, convert_to_float (BinaryRuntime 4) x = Ok v /\ value (BinaryRuntime 4) x == 1 /\ v == 4.
Proof. exists 16%Z, 4. split; [reflexivity|]. split; reflexivity. Qed.
(** so converting between two scales loses the fraction even when the target is finer, *)
Theorem C83_convert_traits_refuted : exists x z, convert_traits (Generic 10 2) (Generic 10 4) HalfToEven (mkformat (-2147483648) 2147483647) x = Ok z /\
  value (Generic 10 2) x == 3 # 2 /\ value (Generic 10 4) z == 1.
Proof. exists 150%Z, 10000%Z. split; [reflexivity|]. split; reflexivity. Qed.
(** and comparison with a floating value compares the rounded value. *)
Theorem C83_compare_rounded_refuted : exists x v, let s := Generic 10 1 in let f := mkformat (-2147483648) 2147483647 in
  equal_rational s HalfToEven f x v = Ok true /\ ~ value s x == v /\ less_rational s HalfToEven f x v = Ok false /\ value s x < v.
Proof.
  exists 10%Z, (104 # 100). cbv zeta. split; [reflexivity|]. split; [vm_compute; discriminate|]. split; [reflexivity|]. vm_compute. reflexivity.
Qed.

Definition int32 := mkformat (-2147483648) 2147483647.
Definition int64 := mkformat (-9223372036854775808) 9223372036854775807.
Lemma int64_products : wide_for_products int32 int64.
Proof. intros a b A B. unfold representable in *. cbn in *. nia. Qed.
Example C42_witness : proper (Generic 10 2) /\ proper (BinaryStatic 4) /\ wide_for_products int32 int64 /\ representable int32 (-150) /\ representable int32 35 /\
  mul (Generic 10 2) int64 int32 (-150) 35 = Ok (-52)%Z /\ mul (BinaryStatic 4) int64 int32 (-24) 5 = Ok (-8)%Z /\
  div (Generic 10 2) int64 int32 (-150) 35 = Ok (-428)%Z /\ add int32 2147483647 1 = Overflow /\ mul (Generic 10 2) int64 int32 2147483647 2147483647 = BadCast /\
  from_rational (Generic 10 1) HalfToEven int32 (125 # 100) = Ok 12%Z /\ from_integer (Generic 10 2) int64 int32 int32 7 = Ok 700%Z.
Proof. split; [cbn; lia|]. split; [cbn; lia|]. split; [exact int64_products|]. split; [cbn; unfold representable; cbn; lia|]. split; [unfold representable; cbn; lia|]. vm_compute. repeat split. Qed.
Example C42_witness_wide : wide_for_scaling (Generic 10 2) int32 int64 /\ representable int32 (factor (Generic 10 2)).
Proof. split; [intros a A|]; unfold representable in *; cbn in *; lia. Qed.
Example C83_witness : from_rational (Generic 10 1) HalfToEven int32 (135 # 100) = Ok 14%Z /\ from_rational (BinaryStatic 2) TowardZero int32 (- 9 # 10) = Ok (-3)%Z /\
  from_rational (BinaryStatic 2) TowardInfinity int32 (9 # 10) = Ok 4%Z /\ convert_to_integer (Generic 10 2) int32 (-199) = Ok (-1)%Z.
Proof. vm_compute. repeat split. Qed.
Print Assumptions C42_mul. Print Assumptions C42_div. Print Assumptions C83_from_rational.
