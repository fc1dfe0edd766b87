(** Specification of linear intersections: common points of point sets. *)
From Verif Require Import Base OrientSpec DistModel LinIntModel.

(** The set S is the closed segment X Y; the set S is the single point X. *)
Definition is_segment_set (S : pt -> Prop) (X Y : pt) : Prop := forall Z, S Z <-> on_segment X Y Z.
Definition is_single_point (S : pt -> Prop) (X : pt) : Prop := forall Z, S Z <-> Z =p= X.
Definition is_empty_set (S : pt -> Prop) : Prop := forall Z, ~ S Z.
Definition both (S T : pt -> Prop) (X : pt) : Prop := S X /\ T X.

(** The direction vectors u and v are parallel. *)
Definition parallel (u v : pt) : Prop := exists a b, ~ (a == 0 /\ b == 0) /\ vscale a u =p= vscale b v.

(** The ray from O in direction v. *)
Definition on_ray (O v X : pt) : Prop := exists t, 0 <= t /\ X =p= vadd O (vscale t v).

(** Space. *)
Definition lerp3 (A B : pt3) (t : Q) : pt3 := vadd3 A (vscale3 t (vsub3 B A)).
Definition on_segment3 (A B X : pt3) : Prop := exists t, 0 <= t <= 1 /\ pt3eq X (lerp3 A B t).
Definition inside_segment3 (A B X : pt3) : Prop := exists t, 0 < t < 1 /\ pt3eq X (lerp3 A B t).
Definition common3 (A B C D X : pt3) : Prop := on_segment3 A B X /\ on_segment3 C D X.
Definition nonzero3 (v : pt3) : Prop := ~ (x3 v == 0 /\ y3 v == 0 /\ z3 v == 0).
Definition parallel3 (u v : pt3) : Prop := exists a b, ~ (a == 0 /\ b == 0) /\ pt3eq (vscale3 a u) (vscale3 b v).
