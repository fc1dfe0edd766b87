(** Specification of the range between two rays from a common origin. *)
From Verif Require Import Base OrientSpec.

(** The range from [lo] to [hi], less than half a turn to the left: the points [origin + a lo + b hi]. *)
Definition in_range (origin lo hi X : pt) : Prop :=
  exists a b, 0 <= a /\ 0 <= b /\ X =p= vadd origin (vadd (vscale a lo) (vscale b hi)).
Definition meets_range (origin lo hi A B : pt) : Prop := exists X, on_segment A B X /\ in_range origin lo hi X.
(** [X] is on the ray opposite to [d]. *)
Definition behind (origin d X : pt) : Prop := exists a, 0 < a /\ X =p= vsub origin (vscale a d).
