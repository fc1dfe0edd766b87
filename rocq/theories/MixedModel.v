(** Fixed-point numbers that carry a scale, their operators with plain numbers, the mathematical
    functions and the limits: numeric/fixed_point.hpp (what FixedModel leaves out) and
    numeric/detail/friend_ordered_field_operators.hpp. *)
From Verif Require Import Base FixedModel.
Local Open Scope Z_scope.

(** A number as stored: the state of its scale policy (fixed_point derives from it) and its mantissa.
    For the compile time policies all the numbers of a type carry the same scale. *)
Record fnum := mkfnum { fscale : scaling; fmant : Z }.
Definition with_mant (x : fnum) (r : result Z) : result fnum := bind r (fun z => Ok (mkfnum (fscale x) z)).

(** fixed_point.hpp:101-111 [from_format_value], 113-116 (default), 118-121, 123-127: construction from
    a mantissa, from a policy, from a value and a policy; 134-138 from a value alone takes the policy
    [d] that the policy's default constructor makes (traits.hpp:79-81, 180-182: scale 2 at run time). *)
Definition of_mant (s : scaling) (m : Z) : fnum := mkfnum s m.
Definition of_policy (s : scaling) : fnum := mkfnum s 0.
Definition of_rational (s : scaling) (p : rounding) (f : format) (v : Q) : result fnum := with_mant (of_policy s) (from_rational s p f v).
Definition of_integer (s : scaling) (wt t f : format) (v : Z) : result fnum := with_mant (of_policy s) (from_integer s wt t f v).
(** fixed_point.hpp:140-147: assignment from a value keeps the scale. *)
Definition assign_rational (p : rounding) (f : format) (x : fnum) (v : Q) : result fnum := with_mant x (from_rational (fscale x) p f v).
(** fixed_point.hpp:149-154. *)
Definition fswap (x y : fnum) : fnum * fnum := (mkfnum (fscale y) (fmant y), mkfnum (fscale x) (fmant x)).

(** fixed_point.hpp:210-214, 223-227, 236-240, 248-254 with 404-426: the mantissas are combined whatever
    the scale of the right operand; the result carries the scale of the left one. *)
Definition fadd (f : format) (x y : fnum) : result fnum := with_mant x (add f (fmant x) (fmant y)).
Definition fsub (f : format) (x y : fnum) : result fnum := with_mant x (sub f (fmant x) (fmant y)).
Definition fmul (w f : format) (x y : fnum) : result fnum := with_mant x (mul (fscale x) w f (fmant x) (fmant y)).
Definition fdiv (w f : format) (x y : fnum) : result fnum := with_mant x (div (fscale x) w f (fmant x) (fmant y)).
(** fixed_point.hpp:163-166, 180-183, and friend_ordered_field_operators.hpp:31-35, 43-46. *)
Definition flt (x y : fnum) : bool := fmant x <? fmant y.
Definition feq (x y : fnum) : bool := fmant x =? fmant y.
Definition fgt (x y : fnum) : bool := flt y x.
Definition fle (x y : fnum) : bool := negb (flt y x).
Definition fge (x y : fnum) : bool := negb (flt x y).
Definition fne (x y : fnum) : bool := negb (feq x y).

(** fixed_point.hpp:216-221, 229-234, 242-246, 256-260 with 363-401: a plain integer of type [t] on the
    right is converted to the scale of the number first. *)
Definition add_int (wt t f : format) (x : fnum) (v : Z) : result fnum :=
  bind (of_integer (fscale x) wt t f v) (fadd f x).
Definition sub_int (wt t f : format) (x : fnum) (v : Z) : result fnum :=
  bind (of_integer (fscale x) wt t f v) (fsub f x).
Definition mul_int (wt t w f : format) (x : fnum) (v : Z) : result fnum :=
  bind (of_integer (fscale x) wt t f v) (fmul w f x).
Definition div_int (wt t w f : format) (x : fnum) (v : Z) : result fnum :=
  bind (of_integer (fscale x) wt t f v) (fdiv w f x).
(** fixed_point.hpp:388-392, 398-402: an integer on the left of - and / is made a number by the
    constructor of 134-138. *)
Definition int_sub (d : scaling) (wt t f : format) (v : Z) (x : fnum) : result fnum :=
  bind (of_integer d wt t f v) (fun y => fsub f y x).
Definition int_div (d : scaling) (wt t w f : format) (v : Z) (x : fnum) : result fnum :=
  bind (of_integer d wt t f v) (fun y => fdiv w f y x).

(** fixed_point.hpp:168-178, 185-189 and friend_ordered_field_operators.hpp:22-29, 37-41: comparisons
    with an integer on the right (lt, gt, eq, le, ge, ne) and on the left (the primed ones). *)
Definition lt_int (wt t f : format) (x : fnum) (v : Z) : result bool := bind (from_integer (fscale x) wt t f v) (fun y => Ok (fmant x <? y)).
Definition gt_int (wt t f : format) (x : fnum) (v : Z) : result bool := bind (from_integer (fscale x) wt t f v) (fun y => Ok (y <? fmant x)).
Definition eq_int (wt t f : format) (x : fnum) (v : Z) : result bool := bind (from_integer (fscale x) wt t f v) (fun y => Ok (fmant x =? y)).
Definition rnot (r : result bool) : result bool := bind r (fun b => Ok (negb b)).
Definition le_int wt t f x v := rnot (gt_int wt t f x v).
Definition ge_int wt t f x v := rnot (lt_int wt t f x v).
Definition ne_int wt t f x v := rnot (eq_int wt t f x v).
Definition int_gt wt t f v x := lt_int wt t f x v.
Definition int_lt wt t f v x := gt_int wt t f x v.
Definition int_le wt t f v x := rnot (lt_int wt t f x v).
Definition int_ge wt t f v x := rnot (gt_int wt t f x v).
Definition int_eq wt t f v x := eq_int wt t f x v.
Definition int_ne wt t f v x := rnot (eq_int wt t f x v).

(** fixed_point.hpp:429-451: a function of <cmath> is applied to the conversion to double, and the
    result is made a number by the constructor of 134-138.  Simplified: doubles are exact rationals and
    the function is any function on them; a domain error is outside the model. *)
Definition math (d : scaling) (p : rounding) (f : format) (fn : Q -> Q) (x : fnum) : result fnum :=
  bind (convert_to_float (fscale x) (fmant x)) (fun v => of_rational d p f (fn v)).
Definition ffloor d p f x := math d p f (fun v => inject_Z (Qfloor v)) x.
Definition fceil d p f x := math d p f (fun v => inject_Z (Qceiling v)) x.
(** fixed_point.hpp:344-361: what is written is the conversion to double; reading assigns the double. *)
Definition written (x : fnum) : result Q := convert_to_float (fscale x) (fmant x).
Definition read_into (p : rounding) (f : format) (x : fnum) (v : Q) : result fnum := assign_rational p f x v.

(** fixed_point.hpp:268-290: the limits of a number's own scale. *)
Definition own_epsilon (x : fnum) : fnum := mkfnum (fscale x) 1.
Definition own_min (f : format) (x : fnum) : fnum := mkfnum (fscale x) (fmin f).
Definition own_max (f : format) (x : fnum) : fnum := mkfnum (fscale x) (fmax f).
(** fixed_point.hpp:302-310. *)
Definition is_false (x : fnum) : bool := fmant x =? 0.
Definition is_true (x : fnum) : bool := negb (fmant x =? 0).
(** fixed_point.hpp:521-541 and 573-580: std::numeric_limits and boost::numeric::bounds ([ti] is int). *)
Definition limits_min (d : scaling) (f : format) : fnum := mkfnum d (fmin f).
Definition limits_max (d : scaling) (f : format) : fnum := mkfnum d (fmax f).
Definition limits_epsilon (d : scaling) (wti ti f : format) : result fnum :=
  bind (of_integer d wti ti f 1) (fun one =>
    bind (with_mant one (arith f (fmant one + 1))) (fun next => fsub f next one)).
