(** Specification of the segment sweep. *)
From Verif Require Import Base OrientSpec LinIntSpec SweepModel.

(** The [i]th segment goes through the point (its ends included). *)
Definition through (segs : list seg) (p : pt) (i : nat) : Prop :=
  exists a b, nth_error segs i = Some (a, b) /\ on_segment a b p.
(** The point is an end of the [i]th segment. *)
Definition end_of (segs : list seg) (p : pt) (i : nat) : Prop :=
  exists a b, nth_error segs i = Some (a, b) /\ (p =p= a \/ p =p= b).
(** The point is the only common point of the [i]th and the [j]th segment. *)
Definition only_common (segs : list seg) (p : pt) (i j : nat) : Prop :=
  forall z, through segs z i /\ through segs z j <-> z =p= p.
(** The order of the sweep: from left to right, on one abscissa upwards. *)
Definition lex_before (a b : pt) : Prop := px a < px b \/ (px a == px b /\ py a < py b).
(** What any search tree does: it puts an element behind one that answered "not less" (or first), and before
    one that answered "less" (or last). *)
Definition search_tree (tree : place) : Prop := forall t i answers,
  (tree t i answers <= length answers)%nat /\
  (forall k, tree t i answers = S k -> nth_error answers k = Some false) /\
  ((tree t i answers < length answers)%nat -> nth_error answers (tree t i answers) = Some true).
