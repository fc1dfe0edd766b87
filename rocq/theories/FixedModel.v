(** Fixed-point numbers: numeric/fixed_point.hpp and numeric/fixed_point_traits.hpp. *)
From Verif Require Import Base.
From Coq Require Export Qround.
Local Open Scope Z_scope.

(** The range of an integral type.  Simplified: formats narrower than int are computed in int and
    narrowed by an implementation-defined conversion on [+=]; here leaving the range is one outcome. *)
Record format := mkformat { fmin : Z; fmax : Z }.
Definition in_range (f : format) (v : Z) : bool := (fmin f <=? v) && (v <=? fmax f).

(** [Overflow]: signed integer overflow (undefined behaviour); [BadCast]: boost::numeric_cast throws;
    [DivZero]: integer division by zero (undefined behaviour). *)
Inductive result (A : Type) := Ok (a : A) | Overflow | BadCast | DivZero.
Arguments Ok {A} a. Arguments Overflow {A}. Arguments BadCast {A}. Arguments DivZero {A}.
Definition bind {A B} (r : result A) (k : A -> result B) : result B :=
  match r with Ok a => k a | Overflow => Overflow | BadCast => BadCast | DivZero => DivZero end.
Definition arith (f : format) (v : Z) : result Z := if in_range f v then Ok v else Overflow.
Definition numeric_cast (f : format) (v : Z) : result Z := if in_range f v then Ok v else BadCast.

(** fixed_point_traits.hpp:36-71 (compile time, any radix), 74-113 (run time, any radix), 115-173
    (compile time, binary) and 176-239 (run time, binary).  The two generic policies compute the same.
    Simplified: the power itself is taken not to overflow. *)
Inductive scaling := Generic (radix exp : Z) | BinaryStatic (exp : Z) | BinaryRuntime (exp : Z).
Definition factor (s : scaling) : Z :=
  match s with Generic r e => r ^ e | BinaryStatic e | BinaryRuntime e => 2 ^ e end.
(** The [scale_up] of an integer, traits.hpp:44-49, 84-89, 122-127, 184-189, to the type [f]; the
    widened type is [w].  [<<] of a negative value is taken as multiplication (C++20 and all
    compilers; undefined before). *)
Definition scale_up (s : scaling) (w f : format) (v : Z) : result Z :=
  bind (arith w (v * factor s)) (numeric_cast f).
(** The [scale_down] of an integer to an integral type, traits.hpp:51-56, 91-96, 135-140, 197-202:
    division truncates; [>>] rounds down. *)
Definition scale_down_value (s : scaling) (v : Z) : Z :=
  match s with Generic r e => Z.quot v (r ^ e) | BinaryStatic e | BinaryRuntime e => Z.shiftr v e end.
Definition scale_down (s : scaling) (f : format) (v : Z) : result Z := numeric_cast f (scale_down_value s v).
(** The [scale_down] of an integer to a floating type, traits.hpp:51-56, 91-96, 142-146, 204-209: both
    operands of the division are integers, and the run-time binary policy divides by the exponent. *)
Definition scale_down_float (s : scaling) (v : Z) : result Q :=
  match s with
  | Generic r e => Ok (inject_Z (Z.quot v (r ^ e)))
  | BinaryStatic e => Ok (inject_Z (Z.quot v (2 ^ e)))
  | BinaryRuntime e => if e =? 0 then DivZero else Ok (inject_Z (Z.quot v e))
  end.

(** Rounding policies, traits.hpp:241-330, on an exact rational. *)
Inductive rounding := HalfToEven | TowardZero | TowardInfinity | TowardNegInfinity.
Definition round (p : rounding) (v : Q) : Z :=
  match p with
  | HalfToEven =>
    let prev := Qfloor v in
    let next := Qceiling v in
    let rt := ((v - inject_Z prev) - (inject_Z next - v))%Q in
    if Qltb rt 0 then prev else if Qltb 0 rt then next
    else if 2 * Qfloor (inject_Z prev / 2) =? prev then prev else next
  | TowardZero => if Qleb 0 v then Qfloor v else Qceiling v
  | TowardInfinity => Qceiling v
  | TowardNegInfinity => Qfloor v
  end.

(** fixed_point.hpp:57-69 [convert_to_format] of a floating value (taken exactly). *)
Definition from_rational (s : scaling) (p : rounding) (f : format) (v : Q) : result Z :=
  numeric_cast f (round p (v * inject_Z (factor s))).
(** fixed_point.hpp:57-69 of an integer of type [t] (widened: [wt]). *)
Definition from_integer (s : scaling) (wt t f : format) (v : Z) : result Z :=
  bind (scale_up s wt t v) (numeric_cast f).

(** fixed_point.hpp:191-196. *)
Definition neg (f : format) (x : Z) : result Z := arith f (- x).
(** fixed_point.hpp:198-208. *)
Definition incr (s : scaling) (w f : format) (x : Z) : result Z := bind (scale_up s w f 1) (fun o => arith f (x + o)).
Definition decr (s : scaling) (w f : format) (x : Z) : result Z := bind (scale_up s w f 1) (fun o => arith f (x - o)).
(** fixed_point.hpp:210-214, 223-227. *)
Definition add (f : format) (x y : Z) : result Z := arith f (x + y).
Definition sub (f : format) (x y : Z) : result Z := arith f (x - y).
(** fixed_point.hpp:236-240. *)
Definition mul (s : scaling) (w f : format) (x y : Z) : result Z := bind (arith w (x * y)) (scale_down s f).
(** fixed_point.hpp:248-254. *)
Definition div (s : scaling) (w f : format) (x y : Z) : result Z :=
  bind (scale_up s w w x) (fun num => if y =? 0 then DivZero else bind (arith w (Z.quot num y)) (numeric_cast f)).
(** fixed_point.hpp:262-266. *)
Definition convert_to_integer (s : scaling) (t : format) (x : Z) : result Z := scale_down s t x.
Definition convert_to_float (s : scaling) (x : Z) : result Q := scale_down_float s x.
(** fixed_point.hpp:163-166, 180-183: comparisons of two fixed-point numbers. *)
Definition less (x y : Z) : bool := x <? y.
Definition equal (x y : Z) : bool := x =? y.
(** fixed_point.hpp:168-172, 185-189: comparison with a floating value converts it first. *)
Definition less_rational (s : scaling) (p : rounding) (f : format) (x : Z) (v : Q) : result bool :=
  bind (from_rational s p f v) (fun y => Ok (x <? y)).
Definition equal_rational (s : scaling) (p : rounding) (f : format) (x : Z) (v : Q) : result bool :=
  bind (from_rational s p f v) (fun y => Ok (x =? y)).
(** fixed_point.hpp:338-341. *)
Definition fmod (x y : Z) : result Z := if y =? 0 then DivZero else Ok (Z.rem x y).
(** fixed_point.hpp:464-480. *)
Definition abs (f : format) (x : Z) : result Z := if 0 <? x then Ok x else neg f x.
(** detail/fixed_point.hpp:64-79: conversion to other traits goes through double (the other
    specialisations name a member [radix_type] that the traits lack, so they never apply). *)
Definition convert_traits (from to : scaling) (p : rounding) (f : format) (x : Z) : result Z :=
  bind (convert_to_float from x) (fun v => from_rational to p f v).
