(** Congruence of polylines and polygons.  Models algorithm/point_sequence/is_congruent.hpp.
    [None]: a point index out of range. *)
From Verif Require Import Base CmpModel PlanarModel.

Definition dist2_of (p q : pt) : Q := dot (vsub q p) (vsub q p).

(** is_congruent.hpp:44-66 and 94-116: one turn of the loops, for the side i -> j.  [None]: out of
    range; [Some false]: return false.  The lengths are compared through their squares: with the
    exact comparison policy that is the same. *)
Definition side_matches (cmp : policy) (poly1 poly2 : list pt) (i j : nat) : option bool :=
  match nth_error poly1 i, nth_error poly1 j, nth_error poly2 i, nth_error poly2 j with
  | Some p1i, Some p1j, Some p2i, Some p2j =>
    if negb (equals cmp (dist2_of p1i p1j) (dist2_of p2i p2j)) then Some false
    else match i with
    | O => Some true
    | S h =>
      match nth_error poly1 h, nth_error poly2 h with
      | Some p1h, Some p2h =>
        let v1ih := vsub p1h p1i in
        let v2ih := vsub p2h p2i in
        let v1ij := vsub p1j p1i in
        let v2ij := vsub p2j p2i in
        Some (negb (negb (equals cmp (dot v1ih v1ij) (dot v2ih v2ij)) ||
                    negb (equals cmp (cross v1ih v1ij) (cross v2ih v2ij))))
      | _, _ => None
      end
    end
  | _, _, _, _ => None
  end.
Fixpoint sides_match (cmp : policy) (poly1 poly2 : list pt) (idx : list (nat * nat)) : option bool :=
  match idx with
  | [] => Some true
  | (i, j) :: idx' =>
    match side_matches cmp poly1 poly2 i j with
    | Some true => sides_match cmp poly1 poly2 idx'
    | r => r
    end
  end.
(** is_congruent.hpp:22-70. *)
Definition are_polylines_congruent (cmp : policy) (poly1 poly2 : list pt) : option bool :=
  if negb (length poly1 =? length poly2)%nat then Some false
  else sides_match cmp poly1 poly2 (polyline_indices (length poly1)).
(** is_congruent.hpp:72-120. *)
Definition are_polygons_congruent (cmp : policy) (poly1 poly2 : list pt) : option bool :=
  if negb (length poly1 =? length poly2)%nat then Some false
  else sides_match cmp poly1 poly2 (border_indices (length poly1) 0 1 (length poly1)).
