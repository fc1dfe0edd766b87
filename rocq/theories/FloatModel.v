(** The comparison policies, the orientation test and the squared distance on IEEE doubles.  Models
    numeric/number_comparison_policy.hpp, utility/floating_point_comparison.hpp, algorithm/orientation.hpp
    and algorithm/distance/point_point_distance.hpp instantiated with double.  The arithmetic is that of
    Coq's primitive floats: binary64, every operation rounded to nearest even, signed zeros, infinities
    and NaN.  Taken as given: the compiler rounds every operation to double and contracts none. *)
From Coq Require Import Floats.
Local Open Scope float_scope.

(** NumberComparisonPolicyConcept on doubles. *)
Record fpolicy : Type := mkfpolicy {
  f_eq : float -> float -> bool;
  f_lt : float -> float -> bool;
  f_le : float -> float -> bool;
  f_gt : float -> float -> bool;
  f_ge : float -> float -> bool }.

(** floating_point_comparison.hpp:22-26, [absolute_value]. *)
Definition absolute_value (v : float) : float := if v <? 0 then - v else v.

(** number_comparison_policy.hpp:449-486, [direct_comparison_policy]. *)
Definition fdirect : fpolicy :=
  mkfpolicy (fun u v => u =? v) (fun u v => u <? v) (fun u v => u <=? v) (fun u v => v <? u) (fun u v => v <=? u).
(** number_comparison_policy.hpp:389-434, [absolute_tolerance_comparison_policy]. *)
Definition fabsolute (tol : float) : fpolicy :=
  mkfpolicy (fun u v => absolute_value (u - v) <=? tol)
            (fun u v => u - v <? - tol)
            (fun u v => u - v <=? tol)
            (fun u v => tol <? u - v)
            (fun u v => - tol <=? u - v).
(** number_comparison_policy.hpp:501-551, [relative_tolerance_comparison_policy].  The unqualified [abs]
    of all members but [equals] is taken to be the one on doubles. *)
Definition frelative (tol : float) : fpolicy :=
  mkfpolicy (fun u v => absolute_value (u - v) <=? tol * (abs u + abs v + 1))
            (fun u v => u - v <? - tol * (abs u + abs v + 1))
            (fun u v => u - v <=? tol * (abs u + abs v + 1))
            (fun u v => tol * (abs u + abs v + 1) <? u - v)
            (fun u v => - tol * (abs u + abs v + 1) <=? u - v).

Inductive forientation := F_right | F_collinear | F_left.
(** orientation.hpp:20-31, [detail::orientation]. *)
Definition forient (cmp : fpolicy) (x0 x1 : float) : forientation :=
  if f_lt cmp x0 x1 then F_right else if f_gt cmp x0 x1 then F_left else F_collinear.
(** orientation.hpp:35-42, of two vectors. *)
Definition fvector_orientation (cmp : fpolicy) (ax ay bx b_y : float) : forientation := forient cmp (ax * b_y) (ay * bx).
(** orientation.hpp:45-49, of three points. *)
Definition fpoint_orientation (cmp : fpolicy) (ax ay bx b_y cx cy : float) : forientation :=
  fvector_orientation cmp (bx - ax) (b_y - ay) (cx - ax) (cy - ay).

(** point_point_distance.hpp:73-82 and 131-134, [point_point_distance_sqrd] in the plane. *)
Definition fdistance_sqrd (ax ay bx b_y : float) : float :=
  let a := bx - ax in let b := b_y - ay in a * a + b * b.
(** point_point_distance.hpp:119-123, [point_point_distance] in the plane; the square root is rounded
    to nearest, as IEEE 754 asks of it. *)
Definition fdistance (ax ay bx b_y : float) : float := sqrt (fdistance_sqrd ax ay bx b_y).
