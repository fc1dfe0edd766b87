(** Specification of the range search. *)
From Coq Require Import Permutation.
From Verif Require Import Base CmpModel CmpSpec BoxModel BoxSpec.

(** What the C++ standard promises of [std::nth_element(begin, begin + k, end, lt)]. *)
Definition nth_element_ok (lt : coords -> coords -> bool) (k : nat) (l l' : list coords) : Prop :=
  Permutation l l' /\
  forall m, nth_error l' k = Some m ->
    (forall a, In a (firstn k l') -> lt m a = false) /\ (forall b, In b (skipn k l') -> lt b m = false).
(** ... and what it asks of [lt]. *)
Definition strict_weak_order (dim : nat) (lt : coords -> coords -> bool) : Prop :=
  (forall a, length a = dim -> lt a a = false) /\
  (forall a b c, length a = dim -> length b = dim -> length c = dim -> lt a b = true -> lt b c = true -> lt a c = true) /\
  (forall a b, length a = dim -> length b = dim -> (lt a b = false /\ lt b a = false <-> coords_eq a b)).

(** A policy that never calls a number smaller (greater) than one that is not. *)
Definition cautious (cmp : policy) : Prop :=
  (forall a b, less_than cmp a b = true -> a < b) /\ (forall a b, greater_than cmp a b = true -> b < a).

(** The visited points are stored points, each visited at most as often as it was stored, and no
    stored point in the range is left out. *)
Definition finds_range (ps : list coords) (range : aabb) (visited : list coords) : Prop :=
  exists rest, Permutation ps (visited ++ rest) /\ forall p, In p rest -> ~ in_aabb range p.

(** Two boxes lie on the two sides of an axis-parallel plane. *)
Definition apart (dim : nat) (a b : aabb) : Prop :=
  exists D v, (D < dim)%nat /\ (forall q, in_aabb a q -> coord D q <= v) /\ (forall q, in_aabb b q -> v <= coord D q).
(** A division of space into cells that overlap in their borders at most, one for each stored
    point, which it contains. *)
Definition cell_division (dim : nat) (ps : list coords) (cs : list (aabb * coords)) : Prop :=
  Permutation ps (map snd cs) /\ (forall c, In c cs -> in_aabb (fst c) (snd c)) /\
  ForallOrdPairs (fun a b => apart dim (fst a) (fst b)) cs.
