(** Specification of intervals of doubles. *)
From Coq Require Import Reals Floats Bool.
From Verif Require Import FloatModel FloatSpec FloatIntervalModel.
Local Open Scope float_scope.

(** A double lies in an interval (infinities included). *)
Definition holds (i : fival) (x : float) : Prop := (flower i <=? x) = true /\ (x <=? fupper i) = true.
(** Not a NaN. *)
Definition number (x : float) : Prop := (x =? x) = true.
(** Both bounds are finite. *)
Definition bounded_ival (i : fival) : Prop := finite (flower i) /\ finite (fupper i).
(** Some real number lies strictly inside both. *)
Definition overlap (i j : fival) : Prop := exists r : R, (val (flower i) < r < val (fupper i) /\ val (flower j) < r < val (fupper j))%R.
