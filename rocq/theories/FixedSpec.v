(** Specification of fixed-point arithmetic: what number a mantissa stands for and how an exact
    result may be rounded to it. *)
From Verif Require Import Base FixedModel.
From Coq Require Import Qabs.

(** The number that a mantissa stands for, and the distance of neighbouring numbers. *)
Definition value (s : scaling) (m : Z) : Q := inject_Z m / inject_Z (factor s).
Definition ulp (s : scaling) : Q := 1 / inject_Z (factor s).
Definition representable (f : format) (m : Z) : Prop := (fmin f <= m <= fmax f)%Z.
(** Scalings whose factor is at least one. *)
Definition proper (s : scaling) : Prop :=
  match s with Generic r e => (1 <= r /\ 0 <= e)%Z | BinaryStatic e | BinaryRuntime e => (0 <= e)%Z end.
(** [m] is the largest number not above [e]. *)
Definition rounded_down (s : scaling) (e : Q) (m : Z) : Prop := value s m <= e < value s m + ulp s.
(** [m] is the smallest number not below [e]. *)
Definition rounded_up (s : scaling) (e : Q) (m : Z) : Prop := value s m - ulp s < e <= value s m.
(** [m] is the number next to [e] on the side of zero. *)
Definition truncated (s : scaling) (e : Q) (m : Z) : Prop :=
  (0 <= e -> rounded_down s e m) /\ (e <= 0 -> rounded_up s e m).
(** [m] is the number closest to [e], the even mantissa in case of a tie. *)
Definition nearest_even (s : scaling) (e : Q) (m : Z) : Prop :=
  Qabs (e - value s m) <= ulp s / 2 /\ (Qabs (e - value s m) == ulp s / 2 -> Z.even m = true).
(** How a policy rounds. *)
Definition rounded (p : rounding) (s : scaling) (e : Q) (m : Z) : Prop :=
  match p with
  | HalfToEven => nearest_even s e m
  | TowardZero => truncated s e m
  | TowardInfinity => rounded_up s e m
  | TowardNegInfinity => rounded_down s e m
  end.
(** How a product is rounded: truncated by the generic policies, down by the binary ones. *)
Definition product_rounded (s : scaling) (e : Q) (m : Z) : Prop :=
  match s with Generic _ _ => truncated s e m | BinaryStatic _ | BinaryRuntime _ => rounded_down s e m end.
(** The wide type holds all products of two numbers of the format, and of a number and the
    factor with either sign. *)
Definition wide_for_products (f w : format) : Prop := forall a b, representable f a -> representable f b -> representable w (a * b).
Definition wide_for_scaling (s : scaling) (f w : format) : Prop := forall a, representable f a ->
  representable w (a * factor s) /\ representable w (- (a * factor s)).
