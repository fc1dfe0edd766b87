(** Specification of clipping. *)
From Verif Require Import Base BoxModel BoxSpec ClipModel.

(** The part of the segment A B inside the window is exactly the piece from [p] to [q], in
    the direction from A to B. *)
Definition clipped_to (A B : pt) (w : box2) (p q : pt) : Prop :=
  exists t u, 0 <= t /\ t <= u /\ u <= 1 /\ p =p= lerp A B t /\ q =p= lerp A B u /\
    forall s, 0 <= s <= 1 -> (in2 w (lerp A B s) <-> t <= s <= u).
Definition misses_window (A B : pt) (w : box2) : Prop :=
  forall s, 0 <= s <= 1 -> ~ in2 w (lerp A B s).
Definition window (w : box2) : Prop := px (lb2 w) <= px (ub2 w) /\ py (lb2 w) <= py (ub2 w).
