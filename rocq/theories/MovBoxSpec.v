(** Specification of a moving disc against a box. *)
From Verif Require Import RBase SphereModel SphereSpec MovBoxModel.

(** The points of the box from (lx, ly) to (hx, hy), and of an oriented box. *)
Definition in_raabb (lx ly hx hy : R) (X : rvec) : Prop := exists x y, X = [x; y] /\ lx <= x <= hx /\ ly <= y <= hy.
Definition in_robb (b : robb) (X : rvec) : Prop := exists su sv, -1 <= su <= 1 /\ -1 <= sv <= 1 /\ X = robb_point b su sv.
(** An oriented box: unit axes, the second a quarter turn to the left of the first, positive half widths. *)
Definition ok_robb (b : robb) : Prop :=
  ro_ux b * ro_ux b + ro_uy b * ro_uy b = 1 /\ ro_vx b = - ro_uy b /\ ro_vy b = ro_ux b /\ 0 < ro_hu b /\ 0 < ro_hv b.
(** The point lies beyond one of the sides of the box by more than [r]. *)
Definition beyond_raabb (lx ly hx hy r : R) (X : rvec) : Prop :=
  exists x y, X = [x; y] /\ (x < lx - r \/ hx + r < x \/ y < ly - r \/ hy + r < y).
Definition beyond_robb (b : robb) (r : R) (X : rvec) : Prop :=
  exists u v, X = [ro_cx b + u * ro_ux b + v * ro_vx b; ro_cy b + u * ro_uy b + v * ro_vy b] /\
  (u < - ro_hu b - r \/ ro_hu b + r < u \/ v < - ro_hv b - r \/ ro_hv b + r < v).
