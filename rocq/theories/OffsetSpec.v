(** Specification vocabulary for parallel copies of a polyline. *)
From Verif Require Import RBase CurveModel CurveSpec.

Definition rpdot2 (a b : rp) : R := fst a * fst b + snd a * snd b.
(** Signed distance of X from the line through A and B, positive on the left. *)
Definition height (A B X : rp) : R := turn A B X / rdist A B.
(** The wanted signed distance. *)
Definition wanted (left : bool) (offset : R) : R := if left then offset else - offset.
(** X is straight beside P, seen along A to B. *)
Definition beside (A B P X : rp) : Prop := rpdot2 (rpsub B A) (rpsub X P) = 0.
(** Seen along A to B, X is neither before A nor beyond B. *)
Definition over_side (A B X : rp) : Prop :=
  0 <= rpdot2 (rpsub B A) (rpsub X A) <= rpdot2 (rpsub B A) (rpsub B A).
(** No two consecutive points coincide. *)
Definition no_zero_side (poly : list rp) : Prop :=
  forall pre a b post, poly = pre ++ a :: b :: post -> a <> b.

(** The points given for the corner at B. *)
Definition corner_points (left : bool) (offset : R) (A B C : rp) (l : list rp) : Prop :=
  let h := wanted left offset in
  (* a bend: the common point of the two parallel lines if the bend opens away from
     them, or if that point is over both sides; else the ends of both copies *)
  (turn A B C <> 0 /\ exists X, height A B X = h /\ height B C X = h /\
     ((h * turn A B C <= 0 \/ (over_side A B X /\ over_side B C X)) /\ l = [X] \/
      ~ (h * turn A B C <= 0 \/ (over_side A B X /\ over_side B C X)) /\
      exists P Q, l = [P; Q] /\ height A B P = h /\ beside A B B P /\ height B C Q = h /\ beside B C B Q)) \/
  (* straight on *)
  (turn A B C = 0 /\ 0 < rpdot2 (rpsub B A) (rpsub C B) /\
     exists P, l = [P] /\ height A B P = h /\ beside A B B P) \/
  (* straight back: no point, unless the distance is zero *)
  (turn A B C = 0 /\ rpdot2 (rpsub B A) (rpsub C B) < 0 /\
     (offset = 0 /\ l = [B] \/ offset <> 0 /\ l = [])).
(** One list of points for every corner. *)
Fixpoint corners_of (left : bool) (offset : R) (poly : list rp) (ls : list (list rp)) : Prop :=
  match poly, ls with
  | A :: ((B :: C :: _) as poly'), l :: ls' => corner_points left offset A B C l /\ corners_of left offset poly' ls'
  | A :: B :: [], [] => True
  | _, _ => False
  end.
