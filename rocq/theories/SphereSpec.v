(** Specification of balls, rays and moving bodies as point sets over the reals. *)
From Verif Require Import RBase SphereModel.

Definition rdist2 (X Y : rvec) : R := rdot (rsub X Y) (rsub X Y).
(** The closed ball and its surface. *)
Definition in_rball (s : ball) (X : rvec) : Prop := rdist2 X (b_center s) <= b_radius s * b_radius s.
Definition on_rsphere (s : ball) (X : rvec) : Prop := rdist2 X (b_center s) = b_radius s * b_radius s.
(** The point p + t d. *)
Definition along (p d : rvec) (t : R) : rvec := radd p (rscale t d).
(** [t] is the least non-negative time with the property. *)
Definition first_time (P : R -> Prop) (t : R) : Prop := 0 <= t /\ P t /\ forall t', 0 <= t' -> P t' -> t <= t'.
(** Two balls touch or overlap. *)
Definition balls_meet (s0 s1 : ball) : Prop :=
  rdist2 (b_center s1) (b_center s0) <= (b_radius s0 + b_radius s1) * (b_radius s0 + b_radius s1).
Definition moved (s : ball) (v : rvec) (t : R) : ball := mkball (along (b_center s) v t) (b_radius s).
(** Points of a plane, and of a segment. *)
Definition on_rplane (p : rplane) (X : rvec) : Prop := rdot X (pl_normal p) = pl_dist p.
Definition on_rsegment (a b X : rvec) : Prop := exists t, 0 <= t <= 1 /\ X = along a (rsub b a) t.
(** The capsule: points within distance r of the segment pq. *)
Definition in_capsule (p q : rvec) (r : R) (X : rvec) : Prop :=
  exists Y, on_rsegment p q Y /\ rdist2 X Y <= r * r.
(** A ball and a point set have a common point. *)
Definition ball_meets (s : ball) (S : rvec -> Prop) : Prop := exists X, length X = length (b_center s) /\ S X /\ in_rball s X.
