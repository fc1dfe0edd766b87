(** Specification vocabulary for the place of a point on a polyline. *)
From Verif Require Import RBase PathSpec.

(** No two consecutive points are equal. *)
Definition no_repeats (ps : list rvec) : Prop := forall pre a b post, ps = pre ++ a :: b :: post -> a <> b.
(** p is on the segment from a to b. *)
Definition on_seg (a b p : rvec) : Prop := exists t, 0 <= t <= 1 /\ p = on_the_way a b t.
