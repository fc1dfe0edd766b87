(** Specification vocabulary for orientation and angular order. *)
From Verif Require Import Base CmpModel OrientModel.

Definition nonzero (v : pt) : Prop := ~ (px v == 0 /\ py v == 0).

(** C lies strictly left of / on / strictly right of the directed line A -> B:
    it is reached from a point of the line by moving along the left normal by a
    positive / zero / negative amount. *)
Definition offset_from_line (A B C : pt) (k : Q) : Prop :=
  exists t, C =p= vadd (lerp A B t) (vscale k (left_normal (vsub B A))).
Definition left_of (A B C : pt) : Prop := exists k, 0 < k /\ offset_from_line A B C k.
Definition right_of (A B C : pt) : Prop := exists k, k < 0 /\ offset_from_line A B C k.
Definition on_line (A B C : pt) : Prop := exists t, C =p= lerp A B t.

(** The closed segment and its relative interior. *)
Definition on_segment (A B C : pt) : Prop := exists t, 0 <= t <= 1 /\ C =p= lerp A B t.
Definition inside_segment (A B C : pt) : Prop := exists t, 0 < t < 1 /\ C =p= lerp A B t.

(** Counter-clockwise angle of v from the reference r, in four sectors: along r,
    strictly left of r, opposite to r, strictly right of r. *)
Definition sector (r v : pt) : nat :=
  if Qltb 0 (cross r v) then 1%nat
  else if Qltb (cross r v) 0 then 3%nat
  else if Qltb (dot r v) 0 then 2%nat
  else 0%nat.

(** The counter-clockwise angle from r to u is smaller than that from r to v. *)
Definition angle_lt (r u v : pt) : Prop :=
  (sector r u < sector r v)%nat \/ (sector r u = sector r v /\ 0 < cross u v).
(** u and v point in the same direction. *)
Definition same_direction (u v : pt) : Prop := exists k, 0 < k /\ v =p= vscale k u.
