(** Polygons: indices, area, centroid, containment.  Models
    primitive/point_sequence_utilities.hpp and algorithm/point_in_polygon.hpp. *)
From Verif Require Import Base CmpModel OrientModel.

(** primitive/point_sequence_utilities.hpp:413-423. *)
Definition next_index (size index : nat) : nat := if Nat.ltb (index + 1) size then (index + 1)%nat else 0%nat.
Definition prev_index (size index : nat) : nat := if Nat.ltb 0 index then (index - 1)%nat else (size - 1)%nat.

(** The closed loop [for (i = 0, j = size - 1; i < size; j = i, ++i)]: the pairs
    (point j, point i) in the order visited, starting from the predecessor [prev]. *)
Fixpoint chain (prev : pt) (ps : list pt) : list (pt * pt) :=
  match ps with [] => [] | a :: ps' => (prev, a) :: chain a ps' end.
Definition closed_chain (ps : list pt) : list (pt * pt) :=
  match ps with [] => [] | a :: _ => chain (last ps a) ps end.

(** primitive/point_sequence_utilities.hpp:99-127: the sum of the exterior products of
    successive points, then that of the last and the first, times one half.  On an empty
    sequence the iterator begin + 1 is out of range ([None]). *)
Definition sum_cross (es : list (pt * pt)) (acc : Q) : Q := fold_left (fun s e => s + cross (fst e) (snd e)) es acc.
Definition get_signed_area (ps : list pt) : option Q :=
  match ps with
  | [] => None
  | a :: rest => Some ((sum_cross (chain a rest) 0 + cross (last ps a) a) * (1 # 2))
  end.
(** primitive/point_sequence_utilities.hpp:130-147. *)
Definition get_area (ps : list pt) : option Q :=
  match get_signed_area ps with None => None | Some a => Some (qabs a) end.

(** primitive/point_sequence_utilities.hpp:22-74: the three running sums (area, mX, mY),
    then the division by 6 * area / 2; [None] for an empty sequence and for the division
    by zero. *)
Definition centroid_step (s : Q * Q * Q) (e : pt * pt) : Q * Q * Q :=
  let '(area, mx, my) := s in
  let ai := cross (fst e) (snd e) in
  (area + ai, mx + ai * (px (fst e) + px (snd e)), my + ai * (py (fst e) + py (snd e))).
Definition get_centroid (ps : list pt) : option pt :=
  match ps with
  | [] => None
  | a :: rest =>
    let '(area, mx, my) := centroid_step (fold_left centroid_step (chain a rest) (0, 0, 0)) (last ps a, a) in
    let den := 6 * (area * (1 # 2)) in
    if Qeqb den 0 then None else Some (mkpt (mx * (1 / den)) (my * (1 / den)))
  end.

(** primitive/point_sequence_utilities.hpp:425-435. *)
Definition is_point_concave (ps : list pt) (index : nat) : option bool :=
  let size := length ps in
  match nth_error ps index, nth_error ps (prev_index size index), nth_error ps (next_index size index) with
  | Some p, Some pr, Some nx => Some (negb (Qgtb (cross (vsub p pr) (vsub nx pr)) 0))
  | _, _, _ => None
  end.

(** primitive/point_sequence_utilities.hpp:437-449: j starts at 1, so a polygon of one point
    is read out of range ([None]); afterwards j wraps. *)
Fixpoint polygon_segments_from (ps : list pt) (i j fuel : nat) : option (list (pt * pt)) :=
  match fuel with
  | O => Some []
  | S fuel' =>
    match nth_error ps i, nth_error ps j, polygon_segments_from ps (i + 1) ((j + 1) mod length ps) fuel' with
    | Some a, Some b, Some rest => Some ((a, b) :: rest)
    | _, _, _ => None
    end
  end.
Definition polygon_as_segment_range (ps : list pt) : option (list (pt * pt)) := polygon_segments_from ps 0 1 (length ps).
(** primitive/point_sequence_utilities.hpp:451-463. *)
Definition polyline_as_segment_range (ps : list pt) : list (pt * pt) :=
  match ps with [] => [] | a :: rest => chain a rest end.

(** primitive/point_sequence_utilities.hpp:465-481. *)
Definition point_equals (cmp : policy) (a b : pt) : bool := numeric_sequence_equals cmp [px a; py a] [px b; py b].
Definition point_sequences_equal (cmp : policy) (p1 p2 : list pt) : bool :=
  Nat.eqb (length p1) (length p2) && forallb (fun e => point_equals cmp (fst e) (snd e)) (combine p1 p2).
(** primitive/point_sequence_utilities.hpp:483-499.  [None] would be a read out of range. *)
Fixpoint all_equal_at (cmp : policy) (p1 p2 : list pt) (offset i fuel : nat) : option bool :=
  match fuel with
  | O => Some true
  | S fuel' =>
    match nth_error p1 i, nth_error p2 ((i + offset) mod length p2) with
    | Some a, Some b => if negb (point_equals cmp a b) then Some false else all_equal_at cmp p1 p2 offset (i + 1) fuel'
    | _, _ => None
    end
  end.
Definition polygons_equal (cmp : policy) (p1 p2 : list pt) (offset : nat) : option bool :=
  if negb (Nat.eqb (length p1) (length p2)) then Some false else all_equal_at cmp p1 p2 offset 0 (length p1).
(** primitive/point_sequence_utilities.hpp:501-517: [None] is the value max of size_t; the
    sizes are asserted equal. *)
Fixpoint find_point (cmp : policy) (a : pt) (ps : list pt) (i : nat) : option nat :=
  match ps with [] => None | b :: ps' => if point_equals cmp a b then Some i else find_point cmp a ps' (i + 1) end.
Definition polygon_polygon_offset (cmp : policy) (p1 p2 : list pt) : option nat :=
  match p1 with [] => None | a :: _ => find_point cmp a p2 0 end.

(** algorithm/point_in_polygon.hpp:43-64, one turn of the loop: u0 = point i, u1 = point j. *)
Definition pip_flip (A u1 u0 : pt) : bool :=
  if Qltb (py A) (py u1) then
    if Qleb (py u0) (py A) then
      Qgtb ((py A - py u0) * (px u1 - px u0)) ((px A - px u0) * (py u1 - py u0))
    else false
  else if Qltb (py A) (py u0) then
    Qltb ((py A - py u0) * (px u1 - px u0)) ((px A - px u0) * (py u1 - py u0))
  else false.
(** algorithm/point_in_polygon.hpp:26-68. *)
Definition point_in_polygon (A : pt) (ps : list pt) : bool :=
  if Nat.ltb (length ps) 3 then false
  else fold_left (fun inside e => if pip_flip A (fst e) (snd e) then negb inside else inside) (closed_chain ps) false.

(** algorithm/point_in_polygon.hpp:70-74, on ints. *)
Definition get_middle_index (i0 i1 n : nat) : nat :=
  ((if Nat.ltb i0 i1 then (i0 + i1) / 2 else (i0 + i1 + n) / 2) mod n)%nat.
(** algorithm/point_in_polygon.hpp:84-109: [None] is a read out of range or, for the outer
    option of the recursion, more than [fuel] recursive calls.  The indices stay in [0, N). *)
Fixpoint point_in_subpolygon (cmp : policy) (fuel : nat) (p : pt) (ps : list pt) (i0 i1 : nat) : option bool :=
  match fuel with
  | O => None
  | S fuel' =>
    let n := length ps in
    match nth_error ps i0, nth_error ps i1 with
    | Some v0, Some v1 =>
      if Nat.eqb ((i1 + n - i0) mod n) 1 then
        Some (match get_orientation cmp v0 v1 p with oriented_right => false | _ => true end)
      else
        let mid := get_middle_index i0 i1 n in
        match nth_error ps mid with
        | None => None
        | Some vm =>
          match get_orientation cmp v0 vm p with
          | oriented_right => point_in_subpolygon cmp fuel' p ps i0 mid
          | _ => point_in_subpolygon cmp fuel' p ps mid i1
          end
        end
    | _, _ => None
    end
  end.
(** algorithm/point_in_polygon.hpp:111-120; the number of recursive calls the proofs show to
    suffice. *)
Definition point_in_convex_polygon (cmp : policy) (p : pt) (ps : list pt) : option bool :=
  point_in_subpolygon cmp (length ps + 1) p ps 0 0.

Definition is_right (o : orientation_type) : bool := match o with oriented_right => true | _ => false end.
Definition is_left (o : orientation_type) : bool := match o with oriented_left => true | _ => false end.
(** algorithm/point_in_polygon.hpp:122-161, the four corners as arguments. *)
Definition point_in_convex_quadrilateral (cmp : policy) (p v0 v1 v2 v3 : pt) : bool :=
  if negb (is_left (get_orientation cmp v0 v2 p)) then
    if is_right (get_orientation cmp v0 v1 p) then false
    else if is_right (get_orientation cmp v1 v2 p) then false
    else true
  else
    if is_right (get_orientation cmp v2 v3 p) then false
    else if is_right (get_orientation cmp v3 v0 p) then false
    else true.

(** algorithm/point_in_polygon.hpp:175-178. *)
Definition pseudo_cross_2d (u v : pt) : Q := py u * px v - px u * py v.
(** algorithm/point_in_polygon.hpp:180-198. *)
Definition point_in_triangle (cmp : policy) (p A B C : pt) : bool :=
  if less_than cmp (pseudo_cross_2d (vsub p A) (vsub B A)) 0 then false
  else if less_than cmp (pseudo_cross_2d (vsub p B) (vsub C B)) 0 then false
  else if less_than cmp (pseudo_cross_2d (vsub p C) (vsub A C)) 0 then false
  else true.

(** algebra/cross_product.hpp, dimension 3. *)
Definition cross3 (u v : pt3) : pt3 :=
  mkpt3 (y3 u * z3 v - z3 u * y3 v) (z3 u * x3 v - x3 u * z3 v) (x3 u * y3 v - y3 u * x3 v).
(** algorithm/point_in_polygon.hpp:200-228. *)
Definition point_in_triangle3 (cmp : policy) (p A B C : pt3) : bool :=
  let a := vsub3 A p in let b := vsub3 B p in let c := vsub3 C p in
  let u := cross3 b c in let v := cross3 c a in
  if less_than cmp (dot3 u v) 0 then false
  else
    let w := cross3 a b in
    if less_than cmp (dot3 u w) 0 then false else true.

(** algorithm/point_in_polygon.hpp:236-242. *)
Inductive polygon_containment : Type := exterior | interior | border | vertex.
(** algorithm/point_in_polygon.hpp:261-287, one turn of the loop: the counters rcross and
    lcross; h is the predecessor of i.  [eps] stands for the machine epsilon. *)
Definition containment_step (cmp : policy) (eps : Q) (p h i : pt) (c : nat * nat) : nat * nat :=
  let rstrad := negb (Bool.eqb (greater_than cmp (py i) (py p)) (greater_than cmp (py h) (py p))) in
  let lstrad := negb (Bool.eqb (less_than cmp (py i) (py p)) (less_than cmp (py h) (py p))) in
  if rstrad || lstrad then
    let ydiff := py h - py i in
    let denom := if Qeqb ydiff 0 then eps else ydiff in
    let slopeInverse := (px h - px i) / denom in
    let x := slopeInverse * (py p - py i) + px i in
    ((if rstrad && greater_than cmp x (px p) then S (fst c) else fst c),
     (if lstrad && less_than cmp x (px p) then S (snd c) else snd c))
  else c.
(** algorithm/point_in_polygon.hpp:244-296: [None] when a vertex was met. *)
Fixpoint containment_loop (cmp : policy) (eps : Q) (p : pt) (es : list (pt * pt)) (c : nat * nat) : option (nat * nat) :=
  match es with
  | [] => Some c
  | (h, i) :: es' => if point_equals cmp p i then None else containment_loop cmp eps p es' (containment_step cmp eps p h i c)
  end.
Definition point_polygon_containment_or_on_border (cmp : policy) (eps : Q) (p : pt) (ps : list pt) : polygon_containment :=
  match containment_loop cmp eps p (closed_chain ps) (0, 0)%nat with
  | None => vertex
  | Some (rcross, lcross) =>
    if negb (Nat.eqb (rcross mod 2) (lcross mod 2)) then border
    else if Nat.eqb (rcross mod 2) 1 then interior
    else exterior
  end.
