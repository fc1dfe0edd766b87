(** Axis aligned bounding boxes, bounds of point sequences, and distances to
    boxes.  Models primitive/axis_aligned_bounding_box.hpp,
    primitive/point_sequence_utilities.hpp (bounds),
    algorithm/distance/point_aabb_distance.hpp and
    algorithm/distance/aabb_aabb_distance.hpp. *)
From Verif Require Import Base CmpModel.

(** primitive/axis_aligned_bounding_box.hpp:201-212: two corner points, any
    dimension (coordinate lists of equal length). *)
Record aabb : Type := mkaabb { low : coords; high : coords }.

(** [get<D>] on a coordinate list; D is below the dimension in every use (an
    out-of-range index does not compile). *)
Definition coord (D : nat) (p : coords) : Q := nth D p 0.

(** axis_aligned_bounding_box.hpp:65-95, [dimension_processor<D>::compare] for a
    point. *)
Fixpoint dim_compare_point (cmp : policy) (D : nat) (n lo hi : coords) : bool :=
  if less_than cmp (coord D n) (coord D lo) || greater_than cmp (coord D n) (coord D hi) then false
  else match D with
       | O => true
       | S D' => dim_compare_point cmp D' n lo hi
       end.

(** axis_aligned_bounding_box.hpp:76-82 and 97-101, for two boxes. *)
Fixpoint dim_compare_box (cmp : policy) (D : nat) (a b : aabb) : bool :=
  if less_than cmp (coord D (high a)) (coord D (low b)) || greater_than cmp (coord D (low a)) (coord D (high b))
  then false
  else match D with
       | O => true
       | S D' => dim_compare_box cmp D' a b
       end.

(** axis_aligned_bounding_box.hpp:231-241, [intersects(point)]. *)
Definition intersects_point (cmp : policy) (b : aabb) (p : coords) : bool :=
  dim_compare_point cmp (length p - 1) p (low b) (high b).

(** axis_aligned_bounding_box.hpp:243-254, [intersects(box)]. *)
Definition intersects_box (cmp : policy) (a b : aabb) : bool :=
  dim_compare_box cmp (length (low a) - 1) a b.

(** axis_aligned_bounding_box.hpp:256-271, [contains(box)]. *)
Definition contains_box (cmp : policy) (a b : aabb) : bool :=
  intersects_point cmp a (high b) && intersects_point cmp a (low b).

(** axis_aligned_bounding_box.hpp:153-197, [update_lo_bound], [update_hi_bound]
    (dimension 2 and 3 are the same statement per coordinate). *)
Fixpoint update_lo (b1 b2 : coords) : coords :=
  match b1, b2 with
  | x1 :: r1, x2 :: r2 => (if Qltb x2 x1 then x2 else x1) :: update_lo r1 r2
  | _, _ => b1
  end.
Fixpoint update_hi (b1 b2 : coords) : coords :=
  match b1, b2 with
  | x1 :: r1, x2 :: r2 => (if Qltb x1 x2 then x2 else x1) :: update_hi r1 r2
  | _, _ => b1
  end.
(** axis_aligned_bounding_box.hpp:309-314, [expand(box)]. *)
Definition expand_box (a b : aabb) : aabb := mkaabb (update_lo (low a) (low b)) (update_hi (high a) (high b)).

(** axis_aligned_bounding_box.hpp:279-295, [operator[]] of a planar box; an index
    of four or more throws. *)
Definition box_corner (b : pt * pt) (i : nat) : option pt :=
  match i with
  | 0%nat => Some (fst b)
  | 1%nat => Some (mkpt (px (snd b)) (py (fst b)))
  | 2%nat => Some (snd b)
  | 3%nat => Some (mkpt (px (fst b)) (py (snd b)))
  | _ => None
  end.

(** point_sequence_utilities.hpp:218-243 and 275-306, [get_bounds]: running
    minimum and maximum per coordinate, starting from the largest and smallest
    representable values [HI] and [LO].  The dimension-2 and dimension-3
    overloads repeat the same statement per coordinate. *)
Definition upd_axis (cmp : policy) (v : Q) (b : Q * Q) : Q * Q :=
  let mn := if less_than cmp v (fst b) then v else fst b in
  let mx := if greater_than cmp v (snd b) then v else snd b in
  (mn, mx).
Fixpoint upd_bounds (cmp : policy) (p : coords) (b : list (Q * Q)) : list (Q * Q) :=
  match p, b with
  | v :: p', ax :: b' => upd_axis cmp v ax :: upd_bounds cmp p' b'
  | _, _ => b
  end.
Definition get_bounds (cmp : policy) (HI LO : Q) (dim : nat) (ps : list coords) : list (Q * Q) :=
  fold_left (fun b p => upd_bounds cmp p b) ps (repeat (HI, LO) dim).

(** point_sequence_utilities.hpp:245-273, [get_bounds] on the inclusive index
    range [i, j]; reading past the end is undefined ([None]). *)
Definition get_bounds_range (cmp : policy) (HI LO : Q) (dim : nat) (ps : list coords) (i j : nat)
  : option (list (Q * Q)) :=
  if Nat.ltb j i then Some (repeat (HI, LO) dim)
  else if Nat.ltb j (length ps) then Some (get_bounds cmp HI LO dim (firstn (S j - i) (skipn i ps)))
  else None.

(** axis_aligned_bounding_box.hpp:330-353, [make_aabb(points)]. *)
Definition make_aabb (cmp : policy) (HI LO : Q) (dim : nat) (ps : list coords) : aabb :=
  let b := get_bounds cmp HI LO dim ps in mkaabb (map fst b) (map snd b).

(** axis_aligned_bounding_box.hpp:36-63 and 392-424, [make_aabb(segment)]: start
    from the first point, then visit both end points coordinatewise. *)
Fixpoint nsb_low (cmp : policy) (p lo : coords) : coords :=
  match p, lo with
  | n :: p', l :: lo' => (if less_than cmp n l then n else l) :: nsb_low cmp p' lo'
  | _, _ => lo
  end.
Fixpoint nsb_high (cmp : policy) (p hi : coords) : coords :=
  match p, hi with
  | n :: p', h :: hi' => (if greater_than cmp n h then n else h) :: nsb_high cmp p' hi'
  | _, _ => hi
  end.
Definition make_aabb_segment (cmp : policy) (s e : coords) : aabb :=
  mkaabb (nsb_low cmp e (nsb_low cmp s s)) (nsb_high cmp e (nsb_high cmp s s)).

(** point_sequence_utilities.hpp:391-411, [update_bound] on (min, max) tuples. *)
Definition update_bound (b1 b2 : list (Q * Q)) : list (Q * Q) :=
  map (fun '((mn1, mx1), (mn2, mx2)) => (qmin mn1 mn2, qmax mx1 mx2)) (combine b1 b2).

(** Planar and spatial boxes for the distance functions. *)
Record box2 : Type := mkbox2 { lb2 : pt; ub2 : pt }.
Record box3 : Type := mkbox3 { lb3 : pt3; ub3 : pt3 }.

(** algorithm/distance/point_aabb_distance.hpp:34-53. *)
Definition point_aabb_distance_sqrd (p : pt) (b : box2) : Q :=
  let x := px p in let y := py p in
  let d := 0 in
  let d := if Qltb x (px (lb2 b)) then d + (px (lb2 b) - x) * (px (lb2 b) - x) else d in
  let d := if Qgtb x (px (ub2 b)) then d + (x - px (ub2 b)) * (x - px (ub2 b)) else d in
  let d := if Qltb y (py (lb2 b)) then d + (py (lb2 b) - y) * (py (lb2 b) - y) else d in
  let d := if Qgtb y (py (ub2 b)) then d + (y - py (ub2 b)) * (y - py (ub2 b)) else d in
  d.

(** algorithm/distance/point_aabb_distance.hpp:55-81. *)
Definition point_aabb_distance_sqrd3 (p : pt3) (b : box3) : Q :=
  let x := x3 p in let y := y3 p in let z := z3 p in
  let d := 0 in
  let d := if Qltb x (x3 (lb3 b)) then d + (x3 (lb3 b) - x) * (x3 (lb3 b) - x) else d in
  let d := if Qgtb x (x3 (ub3 b)) then d + (x - x3 (ub3 b)) * (x - x3 (ub3 b)) else d in
  let d := if Qltb y (y3 (lb3 b)) then d + (y3 (lb3 b) - y) * (y3 (lb3 b) - y) else d in
  let d := if Qgtb y (y3 (ub3 b)) then d + (y - y3 (ub3 b)) * (y - y3 (ub3 b)) else d in
  let d := if Qltb z (z3 (lb3 b)) then d + (z3 (lb3 b) - z) * (z3 (lb3 b) - z) else d in
  let d := if Qgtb z (z3 (ub3 b)) then d + (z - z3 (ub3 b)) * (z - z3 (ub3 b)) else d in
  d.

(** algorithm/distance/point_aabb_distance.hpp:83-102: two successive [if]s per
    coordinate, the second reading the coordinate after the first assignment. *)
Definition clamp2 (x lo hi : Q) : Q :=
  let x := if Qltb x lo then lo else x in
  let x := if Qgtb x hi then hi else x in
  x.
Definition point_aabb_closest_point (p : pt) (b : box2) : pt :=
  mkpt (clamp2 (px p) (px (lb2 b)) (px (ub2 b))) (clamp2 (py p) (py (lb2 b)) (py (ub2 b))).

(** algorithm/distance/point_aabb_distance.hpp:104-129. *)
Definition point_aabb_closest_point3 (p : pt3) (b : box3) : pt3 :=
  mkpt3 (clamp2 (x3 p) (x3 (lb3 b)) (x3 (ub3 b))) (clamp2 (y3 p) (y3 (lb3 b)) (y3 (ub3 b)))
        (clamp2 (z3 p) (z3 (lb3 b)) (z3 (ub3 b))).

(** algorithm/distance/aabb_aabb_distance.hpp:40-67.  [square(v)] is [v*v]. *)
Definition aabb_aabb_distance_sqrd (a b : box2) : Q :=
  let l1 := lb2 a in let u1 := ub2 a in let l2 := lb2 b in let u2 := ub2 b in
  let d := 0 in
  let d := if Qltb (px u2) (px l1) then d + (px u2 - px l1) * (px u2 - px l1)
           else if Qgtb (px l2) (px u1) then d + (px l2 - px u1) * (px l2 - px u1) else d in
  let d := if Qltb (py u2) (py l1) then d + (py u2 - py l1) * (py u2 - py l1)
           else if Qgtb (py l2) (py u1) then d + (py l2 - py u1) * (py l2 - py u1) else d in
  d.

(** algorithm/distance/aabb_aabb_distance.hpp:69-104: the second overload, meant
    for dimension 3 (it is declared for [dimension<2>] with a template parameter
    that cannot be deduced, so no call reaches it).  Line 99 subtracts the y
    coordinate of the lower bound. *)
Definition aabb_aabb_distance_sqrd3 (a b : box3) : Q :=
  let l1 := lb3 a in let u1 := ub3 a in let l2 := lb3 b in let u2 := ub3 b in
  let d := 0 in
  let d := if Qltb (x3 u2) (x3 l1) then d + (x3 u2 - x3 l1) * (x3 u2 - x3 l1)
           else if Qgtb (x3 l2) (x3 u1) then d + (x3 l2 - x3 u1) * (x3 l2 - x3 u1) else d in
  let d := if Qltb (y3 u2) (y3 l1) then d + (y3 u2 - y3 l1) * (y3 u2 - y3 l1)
           else if Qgtb (y3 l2) (y3 u1) then d + (y3 l2 - y3 u1) * (y3 l2 - y3 u1) else d in
  let d := if Qltb (z3 u2) (z3 l1) then d + (z3 u2 - y3 l1) * (z3 u2 - y3 l1)
           else if Qgtb (z3 l2) (z3 u1) then d + (z3 l2 - z3 u1) * (z3 l2 - z3 u1) else d in
  d.
