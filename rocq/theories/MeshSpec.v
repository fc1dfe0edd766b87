(** Specification for triangle meshes: what it means for a point to lie in a triangle or a box, and
    which triangles are neighbours. *)
From Verif Require Import RBase.

(** [p] is a weighted mean of the corners. *)
Definition in_triangle (p A B C : R * R) : Prop :=
  exists u v w, 0 <= u /\ 0 <= v /\ 0 <= w /\ u + v + w = 1 /\
    fst p = u * fst A + v * fst B + w * fst C /\ snd p = u * snd A + v * snd B + w * snd C.
Definition in_box (p lo hi : R * R) : Prop := fst lo <= fst p <= fst hi /\ snd lo <= snd p <= snd hi.
(** Twice the signed area. *)
Definition area2 (A B C : R * R) : R := (fst B - fst A) * (snd C - snd A) - (snd B - snd A) * (fst C - fst A).
(** The directed edge on side 0, 1, 2 of a triangle of vertex indices. *)
Definition directed_edge (t : nat * nat * nat) (s : nat) : option (nat * nat) :=
  let '(a, b, c) := t in
  match s with 0%nat => Some (a, b) | 1%nat => Some (b, c) | 2%nat => Some (c, a) | _ => None end.
(** Side [s] of triangle [i] is side [s'] of triangle [j] run through the other way. *)
Definition shares_edge (l : list (nat * nat * nat)) (i s j s' : nat) : Prop :=
  exists ti tj a b, nth_error l i = Some ti /\ nth_error l j = Some tj /\
    directed_edge ti s = Some (a, b) /\ directed_edge tj s' = Some (b, a).
(** No directed edge belongs to two sides. *)
Definition manifold (l : list (nat * nat * nat)) : Prop :=
  forall i s j s' ti tj e, nth_error l i = Some ti -> nth_error l j = Some tj ->
    directed_edge ti s = Some e -> directed_edge tj s' = Some e -> i = j /\ s = s'.
(** The list of vertex indices taken three at a time. *)
Fixpoint triples (l : list nat) : list (nat * nat * nat) :=
  match l with a :: b :: c :: l' => (a, b, c) :: triples l' | _ => [] end.
(** The triangle [T] has the points numbered [t] as its corners. *)
Definition corners (points : list (R * R)) (t : nat * nat * nat) (T : R * R * (R * R) * (R * R)) : Prop :=
  let '(i, j, k) := t in let '(a, b, c) := T in nth_error points i = Some a /\ nth_error points j = Some b /\ nth_error points k = Some c.
(** The sum of the first [n] elements. *)
Definition sum_first (n : nat) (l : list R) : R := fold_right Rplus 0 (firstn n l).
