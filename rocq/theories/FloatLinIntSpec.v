(** Specification for intersections of segments with points of doubles. *)
From Coq Require Import Reals Qreals Floats ZArith QArith List.
From Verif Require Import Base FloatModel FloatSpec FloatPolyModel.
Local Open Scope R_scope.

(** The point of doubles [p] is the rational point [q], which has integer coordinates up to 2^24. *)
Definition grid_pt (p : fpt) (q : pt) : Prop :=
  exists m n : Z, whole (fx p) m /\ whole (fy p) n /\ (Z.abs m <= 2 ^ 24)%Z /\ (Z.abs n <= 2 ^ 24)%Z /\ q = mkpt (inject_Z m) (inject_Z n).
(** The point of doubles is finite and each coordinate is at most 2^-25 away from that of the rational point. *)
Definition close_pt (p : fpt) (q : pt) : Prop :=
  finite (fx p) /\ finite (fy p) /\ Rabs (val (fx p) - Q2R (px q)) <= powerRZ 2 (-25) /\ Rabs (val (fy p) - Q2R (py q)) <= powerRZ 2 (-25).
