(** Specification of the small helpers. *)
From Verif Require Import Base CmpModel CmpSpec.

(** X lies in the box with the diagonal A B. *)
Definition in_diagonal_box (A B X : pt) : Prop :=
  (px A <= px X <= px B \/ px B <= px X <= px A) /\ (py A <= py X <= py B \/ py B <= py X <= py A).

(** A strict weak order on the values that satisfy [P]: what [std::sort] and the ordered containers of
    the standard library ask of a comparison. *)
Definition strict_weak {A : Type} (P : A -> Prop) (lt : A -> A -> bool) : Prop :=
  (forall a, P a -> lt a a = false) /\
  (forall a b c, P a -> P b -> P c -> lt a b = true -> lt b c = true -> lt a c = true) /\
  (forall a b c, P a -> P b -> P c ->
     lt a b = false -> lt b a = false -> lt b c = false -> lt c b = false -> lt a c = false /\ lt c a = false).

(** No later element is smaller than an earlier one. *)
Fixpoint sorted_by {A : Type} (lt : A -> A -> bool) (l : list A) : Prop :=
  match l with
  | [] => True
  | a :: l' => (forall b, In b l' -> lt b a = false) /\ sorted_by lt l'
  end.

(** The sides of a ring in order: each point with the next, the last with the first. *)
Definition ring_sides {P : Type} (ring : list P) : list (P * P) :=
  match ring with
  | [] => []
  | a :: rest => combine ring (rest ++ [a])
  end.
