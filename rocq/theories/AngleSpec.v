(** Specification of angles, rotations and directions. *)
From Verif Require Import RBase AngleModel.

(** The same direction up to full turns. *)
Definition same_angle (a b : R) : Prop := exists k : Z, b = a + IZR k * (2 * PI).
(** The unit vector at counter-clockwise angle [a] from the x axis. *)
Definition heading (a : R) : plane := (cos a, sin a).
Definition unit (v : plane) : Prop := p_dot v v = 1.
Definition p_dist (a b : plane) : R := p_norm (p_sub a b).
(** Twice the signed area of a triangle. *)
Definition turn (a b c : plane) : R := p_cross (p_sub b a) (p_sub c a).
(** A map that keeps distances and orientations. *)
Definition rigid (f : plane -> plane) : Prop :=
  (forall a b, p_dist (f a) (f b) = p_dist a b) /\ (forall a b c, turn (f a) (f b) (f c) = turn a b c).
