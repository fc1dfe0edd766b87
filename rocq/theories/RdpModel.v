(** Polyline simplification.  Models
    algorithm/point_sequence/ramer_douglas_peucker_algorithm.hpp. *)
From Verif Require Import Base.

Inductive rdp_outcome :=
| Thinned (ps : list pt)
| Undefined        (* a point out of range, the last point of an empty sequence removed, or a line through equal points *)
| Stopped          (* an assertion fails *)
| Endless.         (* the recursion does not end *)

(** point_line_distance.hpp:44-48 and line.hpp:46-51: |cross (b - a) (p - a)| divided by the
    length of b - a.  All distances of one call have the same divisor; the model compares the
    numerators. *)
Definition line_offset (a b p : pt) : Q := qabs (cross (vsub b a) (vsub p a)).

(** ramer_douglas_peucker_algorithm.hpp:40-48: the loop over i; [k] is what is left of it. *)
Fixpoint farthest (ps : list pt) (a b : pt) (k i : nat) (index : nat) (dmax : Q) : option (nat * Q) :=
  match k with
  | O => Some (index, dmax)
  | S k' =>
    match nth_error ps i with
    | None => None
    | Some p =>
      let d := line_offset a b p in
      if Qltb dmax d then farthest ps a b k' (S i) i d else farthest ps a b k' (S i) index dmax
    end
  end.

(** ramer_douglas_peucker_algorithm.hpp:35-49: index, and whether dmax > epsilon (line 52).
    normalize (arithmetic/vector/normalize.hpp:35-46) asserts that the points of the line differ and
    divides by zero otherwise: [None]. *)
Definition split_at (ps : list pt) (start end_ : nat) (eps : Q) : option (option nat) :=
  if (start + 2 <? end_)%nat then
    match nth_error ps start, nth_error ps (end_ - 1) with
    | Some a, Some b =>
      let chord2 := dot (vsub b a) (vsub b a) in
      if Qeqb chord2 0 then None
      else match farthest ps a b (end_ - start - 2) (start + 1) 0 0 with
           | None => None
           | Some (index, dmax) =>
             Some (if Qltb eps 0 || Qltb (eps * eps * chord2) (dmax * dmax) then Some index else None)
           end
    | _, _ => None
    end
  else Some (if Qltb eps 0 then Some 0%nat else None).

(** ramer_douglas_peucker_algorithm.hpp:24-65.  [ndebug]: built without assertions. *)
Fixpoint rdp_range (fuel : nat) (ndebug : bool) (ps : list pt) (eps : Q) (nPoly : list pt) (start end_ : nat) : rdp_outcome :=
  match fuel with
  | O => Endless
  | S fuel' =>
    match split_at ps start end_ eps with
    | None => Undefined
    | Some (Some index) =>
      match rdp_range fuel' ndebug ps eps nPoly start index with
      | Thinned [] => Undefined
      | Thinned n1 => rdp_range fuel' ndebug ps eps (removelast n1) index end_
      | r => r
      end
    | Some None =>
      if (start + 1 =? end_)%nat && negb ndebug then Stopped
      else match nth_error ps start, nth_error ps (end_ - 1) with
           | Some a, Some b => Thinned (nPoly ++ [a; b])
           | _, _ => Undefined
           end
    end
  end.
(** ramer_douglas_peucker_algorithm.hpp:67-74. *)
Definition ramer_douglas_peucker_algorithm (ndebug : bool) (ps : list pt) (eps : Q) : rdp_outcome :=
  rdp_range (S (length ps)) ndebug ps eps [] 0 (length ps).
