(** Specification vocabulary for the comparison policies and point orders. *)
From Verif Require Import Base CmpModel.

(** A policy is coherent when its five answers fit together the way a caller
    expects of [<, ==, >] on numbers. *)
Record coherent (c : policy) : Prop := {
  co_refl : forall u, equals c u u = true;
  co_sym : forall u v, equals c u v = equals c v u;
  co_tri : forall u v,
    (less_than c u v = true /\ equals c u v = false /\ greater_than c u v = false) \/
    (less_than c u v = false /\ equals c u v = true /\ greater_than c u v = false) \/
    (less_than c u v = false /\ equals c u v = false /\ greater_than c u v = true);
  co_le : forall u v, less_than_or_equal c u v = less_than c u v || equals c u v;
  co_ge : forall u v, greater_than_or_equal c u v = greater_than c u v || equals c u v;
  co_flip : forall u v, greater_than c u v = less_than c v u;
  co_sound : forall u v, less_than c u v = true -> u < v }.

(** Dictionary order of two coordinate lists: equal up to some index, smaller
    there. *)
Definition dict_lt (a b : coords) : Prop :=
  exists i x y, nth_error a i = Some x /\ nth_error b i = Some y /\ x < y /\
    forall j u v, (j < i)%nat -> nth_error a j = Some u -> nth_error b j = Some v -> u == v.

(** Coordinatewise equality. *)
Definition coords_eq (a b : coords) : Prop := Forall2 Qeq a b.

(** The usual laws of an order relation given as a boolean function on a carrier
    [P]. *)
Definition irreflexive (P : coords -> Prop) (lt : coords -> coords -> bool) : Prop :=
  forall a, P a -> lt a a = false.
Definition transitive_on (P : coords -> Prop) (lt : coords -> coords -> bool) : Prop :=
  forall a b c, P a -> P b -> P c -> lt a b = true -> lt b c = true -> lt a c = true.
Definition incomparable (lt : coords -> coords -> bool) (a b : coords) : Prop :=
  lt a b = false /\ lt b a = false.

(** Squared Euclidean distance as the sum over all coordinates. *)
Fixpoint euclid2 (a b : coords) : Q :=
  match a, b with
  | x :: a', y :: b' => (y - x) * (y - x) + euclid2 a' b'
  | _, _ => 0
  end.

(** The lexicographically lower and upper end of a segment. *)
Definition seg_lower (c : policy) (s : cseg) : coords :=
  if lexicographical c (fst s) (snd s) then fst s else snd s.
Definition seg_upper (c : policy) (s : cseg) : coords :=
  if lexicographical c (fst s) (snd s) then snd s else fst s.
