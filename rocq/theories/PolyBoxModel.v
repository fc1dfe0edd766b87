(** A polygon against a box.  Models
    algorithm/intersection/polygon_aabb_intersection.hpp. *)
From Verif Require Import Base CmpModel BoxModel DistModel PolygonModel BoxIntModel.

(** polygon_aabb_intersection.hpp:35-41: [for (i = 0, j = 1; i < size; ++i, j = (j + 1) % size)]; [n] is
    [size - i].  [None] reads past the end. *)
Fixpoint border_aabb (eps : Q) (ps : list pt) (b : box2) (n i j : nat) : option bool :=
  match n with
  | O => Some false
  | S n' =>
    match nth_error ps i, nth_error ps j with
    | Some p1, Some p2 =>
      if segment_aabb_intersection eps p1 p2 b then Some true
      else border_aabb eps ps b n' (S i) ((j + 1) mod length ps)%nat
    | _, _ => None
    end
  end.

(** polygon_aabb_intersection.hpp:17-44.  The corners are [b[0]] ... [b[3]]
    (axis_aligned_bounding_box.hpp:279-295). *)
Definition polygon_aabb_intersection (eps : Q) (ps : list pt) (b : box2) : option bool :=
  if point_in_polygon (lb2 b) ps
     || point_in_polygon (mkpt (px (ub2 b)) (py (lb2 b))) ps
     || point_in_polygon (ub2 b) ps
     || point_in_polygon (mkpt (px (lb2 b)) (py (ub2 b))) ps
  then Some true
  else border_aabb eps ps b (length ps) 0 1.
