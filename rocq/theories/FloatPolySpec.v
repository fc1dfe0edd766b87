(** Specification for points of doubles. *)
From Coq Require Import Reals Floats ZArith QArith List.
From Verif Require Import Base FloatModel FloatSpec FloatPolyModel.
Local Open Scope R_scope.

Definition finite_pt (p : fpt) : Prop := finite (fx p) /\ finite (fy p).
(** Coordinates whose differences do not overflow. *)
Definition modest (p : fpt) : Prop := finite_pt p /\ Rabs (val (fx p)) <= powerRZ 2 1022 /\ Rabs (val (fy p)) <= powerRZ 2 1022.
(** The point of doubles [p] is the rational point [q], which has integer coordinates up to 2^25. *)
Definition integer_pt (p : fpt) (q : pt) : Prop :=
  exists m n : Z, whole (fx p) m /\ whole (fy p) n /\ (Z.abs m <= 2 ^ 25)%Z /\ (Z.abs n <= 2 ^ 25)%Z /\ q = mkpt (inject_Z m) (inject_Z n).
(** No coordinate lies outside the bounds as far as the policy tells. *)
Definition within_bounds (cmp : fpolicy) (b : fbounds) (p : fpt) : Prop :=
  f_lt cmp (fx p) (b_xmin b) = false /\ f_gt cmp (fx p) (b_xmax b) = false /\
  f_lt cmp (fy p) (b_ymin b) = false /\ f_gt cmp (fy p) (b_ymax b) = false.
(** Every bound is a coordinate of one of the points. *)
Definition attained (b : fbounds) (ps : list fpt) : Prop :=
  (exists p, In p ps /\ fx p = b_xmin b) /\ (exists p, In p ps /\ fx p = b_xmax b) /\
  (exists p, In p ps /\ fy p = b_ymin b) /\ (exists p, In p ps /\ fy p = b_ymax b).
