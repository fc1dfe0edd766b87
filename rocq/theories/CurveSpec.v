(** Specification vocabulary for the curvature of polylines. *)
From Verif Require Import RBase CurveModel.

Definition rdist (a b : rp) : R := sqrt ((fst b - fst a) * (fst b - fst a) + (snd b - snd a) * (snd b - snd a)).
(** The three points are pairwise different. *)
Definition distinct3 (a b c : rp) : Prop := a <> b /\ b <> c /\ a <> c.
(** Twice the signed area of the triangle: positive for a left turn. *)
Definition turn (a b c : rp) : R :=
  (fst b - fst a) * (snd c - snd a) - (snd b - snd a) * (fst c - fst a).
Definition on_circle (O : rp) (r : R) (p : rp) : Prop := rdist O p = r.
(** Every three consecutive points are pairwise different. *)
Definition distinct_triples (poly : list rp) : Prop :=
  forall pre a b c post, poly = pre ++ a :: b :: c :: post -> distinct3 a b c.
(** A rotation by the angle of (co, si) about the origin followed by a shift. *)
Definition moved (co si : R) (sh : rp) (p : rp) : rp :=
  (co * fst p - si * snd p + fst sh, si * fst p + co * snd p + snd sh).

(** The sum of a quantity over the inner points of a polyline with their two
    neighbours. *)
Fixpoint over_triples (g : rp -> rp -> rp -> R) (poly : list rp) : R :=
  match poly with
  | a :: ((b :: c :: _) as rest) => g a b c + over_triples g rest
  | _ => 0
  end.
(** The signed curvature of the circle through three points that are pairwise
    different: plus or minus one over its radius, zero on a straight line. *)
Definition circle_curvature (a b c : rp) (k : R) : Prop :=
  (turn a b c = 0 /\ k = 0) \/
  (exists O r, 0 < r /\ on_circle O r a /\ on_circle O r b /\ on_circle O r c /\
     ((0 < turn a b c /\ k = 1 / r) \/ (turn a b c < 0 /\ k = - (1 / r)))).

(** The part of a polyline from index a to index b, both included, and the parts
    between consecutive cuts. *)
Definition part {A : Type} (poly : list A) (a b : nat) : list A := firstn (S b - a) (skipn a poly).
Fixpoint parts {A : Type} (poly : list A) (cuts : list nat) : list (list A) :=
  match cuts with
  | a :: ((b :: _) as rest) => part poly a b :: parts poly rest
  | _ => []
  end.
Fixpoint increasing (l : list nat) : Prop :=
  match l with
  | a :: ((b :: _) as rest) => (a < b)%nat /\ increasing rest
  | _ => True
  end.

(** The size of a bend: the mean of the two adjacent sides times the curvature. *)
Definition bend (a b c : rp) (k : R) : R := (rdist a b + rdist b c) / 2 * k.

(** The polyline turns right at the inner point number i. *)
Definition right_turn_at (poly : list rp) (i : nat) : Prop :=
  exists pre a b c post, poly = pre ++ a :: b :: c :: post /\ i = S (length pre) /\ turn a b c < 0.

(** Sum of the bends with indices above a, up to and including m. *)
Definition sum_bends (K : nat -> R) (a m : nat) : R := fold_right Rplus 0 (map K (seq (S a) (m - a))).
(** Between consecutive cuts the sum first exceeds the limit at the second cut
    (at the end it need not). *)
Fixpoint cut_rule (K : nat -> R) (limit : R) (last a : nat) (l : list nat) : Prop :=
  match l with
  | [] => True
  | b :: l' =>
      (forall m, (a < m < b)%nat -> sum_bends K a m <= limit) /\
      ((b < last)%nat -> limit < sum_bends K a b) /\ cut_rule K limit last b l'
  end.

