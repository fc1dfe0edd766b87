(** Orientation, collinearity, betweenness and angular order.  Models
    algorithm/orientation.hpp, algorithm/orientation_enum.hpp,
    utility/utilities.hpp (is_collinear .. x_of_y), utility/vector_angle_compare.hpp
    and utility/point_angle_compare.hpp. *)
From Verif Require Import Base CmpModel.

(** algorithm/orientation_enum.hpp:16-21. *)
Inductive orientation_type : Type := oriented_right | oriented_collinear | oriented_left.
Definition orientation_value (o : orientation_type) : Z :=
  match o with oriented_right => (-1)%Z | oriented_collinear => 0%Z | oriented_left => 1%Z end.
(** algorithm/orientation_enum.hpp:23-26. *)
Definition opposite_orientation (o : orientation_type) : orientation_type :=
  match o with oriented_right => oriented_left | oriented_collinear => oriented_collinear | oriented_left => oriented_right end.

(** algorithm/orientation.hpp:20-31. *)
Definition orientation (cmp : policy) (x0 x1 : Q) : orientation_type :=
  if less_than cmp x0 x1 then oriented_right
  else if greater_than cmp x0 x1 then oriented_left
  else oriented_collinear.

(** algorithm/orientation.hpp:35-42, vectors. *)
Definition get_orientation_v (cmp : policy) (A B : pt) : orientation_type :=
  orientation cmp (px A * py B) (py A * px B).

(** algorithm/orientation.hpp:45-49, points. *)
Definition get_orientation (cmp : policy) (A B C : pt) : orientation_type :=
  get_orientation_v cmp (vsub B A) (vsub C A).

(** utility/utilities.hpp:134-148. *)
Definition is_collinear (cmp : policy) (A B C : pt) : bool :=
  equals cmp (cross (vsub B A) (vsub C A)) 0.

(** utility/utilities.hpp:170-213. *)
Definition is_collinear_point_between (cmp : policy) (A B C : pt) (includeBounds : bool) : bool :=
  let ABVertical := equals cmp (px A) (px B) in
  if negb ABVertical then
    if includeBounds then
      (less_than_or_equal cmp (px A) (px C) && less_than_or_equal cmp (px C) (px B))
      || (greater_than_or_equal cmp (px A) (px C) && greater_than_or_equal cmp (px C) (px B))
    else
      (less_than cmp (px A) (px C) && less_than cmp (px C) (px B))
      || (greater_than cmp (px A) (px C) && greater_than cmp (px C) (px B))
  else
    if includeBounds then
      (less_than_or_equal cmp (py A) (py C) && less_than_or_equal cmp (py C) (py B))
      || (greater_than_or_equal cmp (py A) (py C) && greater_than_or_equal cmp (py C) (py B))
    else
      (less_than cmp (py A) (py C) && less_than cmp (py C) (py B))
      || (greater_than cmp (py A) (py C) && greater_than cmp (py C) (py B)).

(** utility/utilities.hpp:152-166. *)
Definition is_between (cmp : policy) (A B C : pt) (includeBounds : bool) : bool :=
  is_collinear cmp A B C && is_collinear_point_between cmp A B C includeBounds.

(** utility/utilities.hpp:217-254. *)
Definition is_vector_between (cmp : policy) (a b c : pt) (includeBounds : bool) : bool :=
  let detcb := cross c b in
  if equals cmp detcb 0 && greater_than_or_equal cmp (dot b c) 0 then includeBounds
  else
    let detac := cross a c in
    if equals cmp detac 0 && greater_than_or_equal cmp (dot a c) 0 then includeBounds
    else
      let detab := cross a b in
      if equals cmp detab 0 && greater_than_or_equal cmp (dot b a) 0 then false
      else if greater_than_or_equal cmp (detac * detab) 0 then greater_than cmp detcb 0
      else greater_than cmp detac 0.

(** utility/vector_angle_compare.hpp:56-84, with reference vector [r]. *)
Definition vector_angle_compare (cmp : policy) (r v1 v2 : pt) : bool :=
  let detv2 := cross r v2 in
  if equals cmp detv2 0 && greater_than_or_equal cmp (dot v2 r) 0 then false
  else
    let detv1 := cross r v1 in
    if equals cmp detv1 0 && greater_than_or_equal cmp (dot v1 r) 0 then true
    else if greater_than_or_equal cmp (detv1 * detv2) 0 then greater_than cmp (cross v1 v2) 0
    else greater_than cmp detv1 0.

(** utility/point_angle_compare.hpp:43-72, with origin [o]; the reference is the
    x axis. *)
Definition point_angle_compare (cmp : policy) (o a b : pt) : bool :=
  vector_angle_compare cmp (mkpt 1 0) (vsub a o) (vsub b o).

(** utility/vector_angle_compare.hpp:24-32, [pseudo_angle].  The zero vector fails
    the assertion and divides by zero: [None].  Signed zeros do not exist in [Q]:
    [copysign] is by the sign of y, non-negative for y = 0. *)
Definition pseudo_angle (v : pt) : option Q :=
  let d := qabs (px v) + qabs (py v) in
  if Qeqb d 0 then None
  else
    let m := qabs (1 - px v / d) in
    let result := if Qltb (py v) 0 then - m else m in
    Some (if Qltb (py v) 0 then 4 + result else result).

(** utility/utilities.hpp:256-286. *)
Definition is_vertical (cmp : policy) (s e : pt) : bool := equals cmp (px s) (px e).
Definition is_horizontal (cmp : policy) (s e : pt) : bool := equals cmp (py s) (py e).

(** utility/utilities.hpp:289-294; division by zero is [None]. *)
Definition get_slope (s e : pt) : option Q :=
  if Qeqb (px e - px s) 0 then None else Some ((py e - py s) / (px e - px s)).

(** utility/utilities.hpp:304-316, [y_of_x]. *)
Definition y_of_x (s e : pt) (x : Q) : option Q :=
  match get_slope s e with
  | None => None
  | Some slope => Some ((x - px s) * slope + py s)
  end.

(** utility/utilities.hpp:329-346, [x_of_y]: divides by the slope. *)
Definition x_of_y (s e : pt) (y : Q) : option Q :=
  match get_slope s e with
  | None => None
  | Some slope => if Qeqb slope 0 then None else Some ((y - py s) / slope + px s)
  end.

(** algorithm/linear_components_intersection.hpp: the results used here. *)
Inductive oriented_result : Type :=
  oi_non_crossing | oi_endpoint | oi_overlapping | oi_left_right | oi_right_left.

Definition pt_equals (cmp : policy) (a b : pt) : bool :=
  numeric_sequence_equals cmp [px a; py a] [px b; py b].

(** algorithm/orientation.hpp:53-122, [oriented_intersection]. *)
Definition oriented_intersection (cmp : policy) (p1 p2 p3 p4 : pt) : oriented_result :=
  let o1 := orientation_value (get_orientation cmp p3 p4 p1) in
  let o2 := orientation_value (get_orientation cmp p3 p4 p2) in
  if negb (Z.eqb o1 0) && negb (Z.eqb o2 0) then
    let o3 := orientation_value (get_orientation cmp p1 p2 p3) in
    let o4 := orientation_value (get_orientation cmp p1 p2 p4) in
    if Z.leb 0 o1 && Z.leb o2 0 then
      if Z.leb (o3 * o4) 0 then oi_left_right else oi_non_crossing
    else if Z.leb o1 0 && Z.leb 0 o2 then
      if Z.leb (o3 * o4) 0 then oi_right_left else oi_non_crossing
    else oi_non_crossing
  else
    let b3 := is_between cmp p1 p2 p3 false in
    let b4 := is_between cmp p1 p2 p4 false in
    if b3 && b4 then oi_overlapping
    else
      let b1 := is_between cmp p3 p4 p1 false in
      let b2 := is_between cmp p3 p4 p2 false in
      if b1 && b2 then oi_overlapping
      else if b3 && b2 then oi_overlapping
      else if b3 && b1 then oi_overlapping
      else if b4 && b2 then oi_overlapping
      else if b4 && b1 then oi_overlapping
      else
        let e13 := pt_equals cmp p1 p3 in
        let e24 := pt_equals cmp p2 p4 in
        let e14 := pt_equals cmp p1 p4 in
        let e23 := pt_equals cmp p2 p3 in
        if (e13 && e24) || (e14 && e23) then oi_overlapping
        else if e13 then oi_endpoint
        else if e14 then oi_endpoint
        else if e23 then oi_endpoint
        else if e24 then oi_endpoint
        else oi_non_crossing.
