(** Small helpers handed to other algorithms: the bounding box test of two diagonals, orderings for
    sorting, and the sides of a polygon with holes as one range. *)
From Verif Require Import Base CmpModel.

(** [boost::minmax]: the smaller value first, the first one first when neither is smaller. *)
Definition minmax (a b : Q) : Q * Q := if Qltb b a then (b, a) else (a, b).

(** algorithm/bounding_box_intersection.hpp:21-38 (and :40-45, the overload taking two segments). *)
Definition bounding_box_intersection (cmp : policy) (p1 p2 p3 p4 : pt) : bool :=
  let '(xmin1, xmax1) := minmax (px p1) (px p2) in
  let '(ymin1, ymax1) := minmax (py p1) (py p2) in
  let '(xmin2, xmax2) := minmax (px p3) (px p4) in
  let '(ymin2, ymax2) := minmax (py p3) (py p4) in
  greater_than_or_equal cmp xmax1 xmin2 && greater_than_or_equal cmp xmax2 xmin1 &&
  greater_than_or_equal cmp ymax1 ymin2 && greater_than_or_equal cmp ymax2 ymin1.

(** algorithm/distance/distance_compare.hpp:18-44; [m_p] is the fixed point.  The squared distance is
    that of point_point_distance.hpp, with its reading of five and more coordinates. *)
Definition distance_compare (cmp : policy) (m_p lhs rhs : coords) : option bool :=
  match point_point_distance_sqrd m_p lhs, point_point_distance_sqrd m_p rhs with
  | Some distanceLHS, Some distanceRHS => Some (less_than cmp distanceLHS distanceRHS)
  | _, _ => None
  end.

(** utility/utilities.hpp:757-771, [coordinate_less_compare]. *)
Definition coordinate_less_compare (cmp : policy) (lhs rhs : Q) : bool := less_than cmp rhs lhs.
(** utility/utilities.hpp:773-787, [pair_first_compare], and :789-803, [pair_second_compare]. *)
Definition pair_first_compare {A B : Type} (m_compare : A -> A -> bool) (p1 p2 : A * B) : bool :=
  m_compare (fst p1) (fst p2).
Definition pair_second_compare {A B : Type} (m_compare : B -> B -> bool) (p1 p2 : A * B) : bool :=
  m_compare (snd p1) (snd p2).

(** algorithm/polygon_with_holes_as_segment_range.hpp:22-27 and :31-36: the loop over one ring, with
    [n] turns left.  [None]: a point is read outside the ring. *)
Fixpoint ring_loop {P : Type} (ring : list P) (n i j : nat) (segments : list (P * P)) : option (list (P * P)) :=
  match n with
  | O => Some segments
  | S n' =>
    match nth_error ring i, nth_error ring j with
    | Some a, Some b => ring_loop ring n' (S i) ((j + 1) mod length ring) (segments ++ [(a, b)])
    | _, _ => None
    end
  end.
(** polygon_with_holes_as_segment_range.hpp:29-37: the loop over the holes. *)
Fixpoint holes_loop {P : Type} (holes : list (list P)) (segments : list (P * P)) : option (list (P * P)) :=
  match holes with
  | [] => Some segments
  | hole :: holes' =>
    match ring_loop hole (length hole) 0 1 segments with
    | Some s => holes_loop holes' s
    | None => None
    end
  end.
(** polygon_with_holes_as_segment_range.hpp:15-40. *)
Definition polygon_with_holes_as_segment_range {P : Type} (outer : list P) (holes : list (list P)) : option (list (P * P)) :=
  match ring_loop outer (length outer) 0 1 [] with
  | Some s => holes_loop holes s
  | None => None
  end.
