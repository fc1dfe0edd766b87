(** Specification of boxes as point sets. *)
From Verif Require Import Base CmpModel BoxModel.

(** A point lies in the box spanned by [lo] and [hi]: every coordinate lies
    between the corresponding bounds. *)
Inductive between_all : coords -> coords -> coords -> Prop :=
| ba_nil : between_all [] [] []
| ba_cons : forall l h x lo hi p, l <= x <= h -> between_all lo hi p -> between_all (l :: lo) (h :: hi) (x :: p).
Definition in_aabb (b : aabb) (p : coords) : Prop := between_all (low b) (high b) p.

(** A box of dimension [n] with lower bounds below upper bounds. *)
Definition valid_box (n : nat) (b : aabb) : Prop :=
  length (low b) = n /\ Forall2 Qle (low b) (high b).

(** A list of (min, max) pairs is the tight bound of a point list: each point lies
    within, and every bound is a coordinate of some point. *)
Definition column (i : nat) (ps : list coords) : list Q := map (coord i) ps.
Definition attained (x : Q) (vs : list Q) : Prop := exists v, In v vs /\ v == x.
Definition tight_bounds (ps : list coords) (b : list (Q * Q)) : Prop :=
  forall i mn mx, nth_error b i = Some (mn, mx) ->
    attained mn (column i ps) /\ attained mx (column i ps) /\ forall v, In v (column i ps) -> mn <= v <= mx.

(** Planar and spatial boxes as point sets. *)
Definition in2 (b : box2) (p : pt) : Prop :=
  px (lb2 b) <= px p <= px (ub2 b) /\ py (lb2 b) <= py p <= py (ub2 b).
Definition in3 (b : box3) (p : pt3) : Prop :=
  x3 (lb3 b) <= x3 p <= x3 (ub3 b) /\ y3 (lb3 b) <= y3 p <= y3 (ub3 b) /\ z3 (lb3 b) <= z3 p <= z3 (ub3 b).
Definition ok2 (b : box2) : Prop := px (lb2 b) <= px (ub2 b) /\ py (lb2 b) <= py (ub2 b).
Definition ok3 (b : box3) : Prop :=
  x3 (lb3 b) <= x3 (ub3 b) /\ y3 (lb3 b) <= y3 (ub3 b) /\ z3 (lb3 b) <= z3 (ub3 b).

(** Least squared distance between a point and a set, and between two sets. *)
Definition least_dist2 (p : pt) (S : pt -> Prop) (d : Q) : Prop :=
  (exists q, S q /\ dist2 p q == d) /\ forall q, S q -> d <= dist2 p q.
Definition least_dist2_3 (p : pt3) (S : pt3 -> Prop) (d : Q) : Prop :=
  (exists q, S q /\ dist2_3 p q == d) /\ forall q, S q -> d <= dist2_3 p q.
Definition least_dist2_sets (S T : pt -> Prop) (d : Q) : Prop :=
  (exists p q, S p /\ T q /\ dist2 p q == d) /\ forall p q, S p -> T q -> d <= dist2 p q.
