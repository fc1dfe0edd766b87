(** Specification of the length and direction of vectors of doubles: the real numbers meant. *)
From Coq Require Import Reals Floats.
From Verif Require Import FloatSpec FloatPolyModel FloatPolySpec.
Local Open Scope R_scope.

(** The vectors considered: finite, no component above 2^400, one not below 2^-400. *)
Definition sized (v : fpt) : Prop := finite_pt v /\ Rabs (val (fx v)) <= powerRZ 2 400 /\ Rabs (val (fy v)) <= powerRZ 2 400 /\
  (powerRZ 2 (-400) <= Rabs (val (fx v)) \/ powerRZ 2 (-400) <= Rabs (val (fy v))).
(** The exact length. *)
Definition length_of (v : fpt) : R := R_sqrt.sqrt (val (fx v) * val (fx v) + val (fy v) * val (fy v)).
(** The opposite vector. *)
Definition opposite (v : fpt) : fpt := mkfpt (- fx v) (- fy v).
