(** Intersections with boxes.  Models algorithm/intersection/ray_aabb_intersection.hpp,
    segment_aabb_intersection.hpp, polyline_aabb_intersection.hpp,
    sphere_aabb_intersection.hpp, sphere_obb_intersection.hpp, obb_obb_intersection.hpp
    and segment_plane_intersection.hpp. *)
From Verif Require Import Base CmpModel BoxModel DistModel.

(** ** Ray / box *)

(** A scalar that may be the value of [constants::infinity]: [None] is +infinity. *)
Definition min_inf (a : option Q) (b : Q) : Q := match a with None => b | Some x => qmin x b end.
Definition gt_inf (a : Q) (b : option Q) : bool := match b with None => false | Some x => Qgtb a x end.

(** One slab, ray_aabb_intersection.hpp:68-94 (first coordinate), 97-125 (second) and the
    same code at 153-180, 182-212.  [Some (tmin, tmax)]: go on; [None]: return false. *)
Definition ray_slab (cmp : policy) (p d lo hi tmin : Q) (tmax : option Q) : option (Q * option Q) :=
  if equals cmp d 0 then
    if Qltb p lo || Qgtb p hi then None else Some (tmin, tmax)
  else
    let ood := 1 / d in
    let t1 := (lo - p) * ood in
    let t2 := (hi - p) * ood in
    let '(t1, t2) := if Qgtb t1 t2 then (t2, t1) else (t1, t2) in
    let tmin := qmax tmin t1 in
    let tmax := Some (min_inf tmax t2) in
    if gt_inf tmin tmax then None else Some (tmin, tmax).

(** [p + d * t]; [None] stands for a product with infinity (not a number or infinite). *)
Definition ray_at_inf (p d : pt) (t : option Q) : option pt :=
  match t with None => None | Some t => Some (vadd p (vscale t d)) end.

(** aabb.intersects(p, cmp), axis_aligned_bounding_box.hpp:231-241, as called at
    ray_aabb_intersection.hpp:127, 219. *)
Definition aabb_has_point (cmp : policy) (b : box2) (p : pt) : bool :=
  intersects_point cmp (mkaabb [px (lb2 b); py (lb2 b)] [px (ub2 b); py (ub2 b)]) [px p; py p].

(** The exit parameter, :96, 123 and 181, 211: [texit] is [tmax] after the first slab and
    [min t2 texit] after the second, which is the second [tmax]. *)
Record ray_box_hit : Type := mkhit { h_inside : bool; h_tmin : Q; h_texit : option Q }.
Definition ray_aabb (cmp : policy) (p d : pt) (b : box2) : option ray_box_hit :=
  match ray_slab cmp (px p) (px d) (px (lb2 b)) (px (ub2 b)) 0 None with
  | None => None
  | Some (tmin, tmax) =>
    match ray_slab cmp (py p) (py d) (py (lb2 b)) (py (ub2 b)) tmin tmax with
    | None => None
    | Some (tmin, tmax) => Some (mkhit (aabb_has_point cmp b p) tmin tmax)
    end
  end.

(** ray_aabb_intersection.hpp:60-138.  Outer [None]: not intersecting.  Otherwise the flag
    is_origin_inside, the parameter and the point written. *)
Definition ray_aabb_intersection (cmp : policy) (p d : pt) (b : box2) : option (bool * Q * option pt) :=
  match ray_aabb cmp p d b with
  | None => None
  | Some h => Some (h_inside h, h_tmin h, if h_inside h then ray_at_inf p d (h_texit h) else Some (vadd p (vscale (h_tmin h) d)))
  end.

(** ray_aabb_intersection.hpp:144-222: entrance and exit. *)
Definition ray_aabb_intersection2 (cmp : policy) (p d : pt) (b : box2)
  : option (bool * (Q * pt) * (option Q * option pt)) :=
  match ray_aabb cmp p d b with
  | None => None
  | Some h => Some (h_inside h, (h_tmin h, vadd p (vscale (h_tmin h) d)), (h_texit h, ray_at_inf p d (h_texit h)))
  end.

(** ** Segment / box *)

(** segment_aabb_intersection.hpp:67-101.  [eps] is [numeric_limits<length_t>::epsilon()],
    which is 0 for exact number types. *)
Definition segment_aabb_intersection (eps : Q) (p0 p1 : pt) (b : box2) : bool :=
  let e := vsub (ub2 b) (lb2 b) in
  let d := vsub p1 p0 in
  let m := vadd (vsub p0 (lb2 b)) (vsub p1 (ub2 b)) in
  let adx := qabs (px d) in
  if Qgtb (qabs (px m)) (px e + adx) then false
  else
    let ady := qabs (py d) in
    if Qgtb (qabs (py m)) (py e + ady) then false
    else
      let adx := adx + eps in
      let ady := ady + eps in
      if Qgtb (qabs (px m * py d - py m * px d)) (px e * ady + py e * adx) then false
      else true.

(** segment_aabb_intersection.hpp:25-64. *)
Definition segment_aabb_intersection3 (eps : Q) (p0 p1 : pt3) (b : box3) : bool :=
  let e := vsub3 (ub3 b) (lb3 b) in
  let d := vsub3 p1 p0 in
  let m := vadd3 (vsub3 p0 (lb3 b)) (vsub3 p1 (ub3 b)) in
  let adx := qabs (x3 d) in
  if Qgtb (qabs (x3 m)) (x3 e + adx) then false
  else
  let ady := qabs (y3 d) in
  if Qgtb (qabs (y3 m)) (y3 e + ady) then false
  else
  let adz := qabs (z3 d) in
  if Qgtb (qabs (z3 m)) (z3 e + adz) then false
  else
  let adx := adx + eps in
  let ady := ady + eps in
  let adz := adz + eps in
  if Qgtb (qabs (y3 m * z3 d - z3 m * y3 d)) (y3 e * adz + z3 e * ady) then false
  else if Qgtb (qabs (z3 m * x3 d - x3 m * z3 d)) (x3 e * adz + z3 e * adx) then false
  else if Qgtb (qabs (x3 m * y3 d - y3 m * x3 d)) (x3 e * ady + y3 e * adx) then false
  else true.

(** polyline_aabb_intersection.hpp:18-32 (the loop over consecutive points). *)
Fixpoint edges_aabb_intersection (eps : Q) (es : list (nat * (pt * pt))) (b : box2) : bool :=
  match es with
  | [] => false
  | (_, (p1, p2)) :: es' => if segment_aabb_intersection eps p1 p2 b then true else edges_aabb_intersection eps es' b
  end.
Definition polyline_aabb_intersection (eps : Q) (ps : list pt) (b : box2) : bool :=
  edges_aabb_intersection eps (polyline_edges ps) b.

(** ** Discs and boxes *)

(** sphere_aabb_intersection.hpp:19-24 and 26-38. *)
Definition sphere_aabb_intersection (c : pt) (r : Q) (b : box2) : bool :=
  Qleb (point_aabb_distance_sqrd c b) (r * r).
Definition sphere_aabb_intersection_point (c : pt) (r : Q) (b : box2) : bool * pt :=
  let p := point_aabb_closest_point c b in
  (Qleb (dot (vsub p c) (vsub p c)) (r * r), p).
Definition sphere_aabb_intersection3 (c : pt3) (r : Q) (b : box3) : bool :=
  Qleb (point_aabb_distance_sqrd3 c b) (r * r).
(** sphere_obb_intersection.hpp:19-31. *)
Definition sphere_obb_intersection (c : pt) (r : Q) (b : obb) : bool :=
  let p := point_obb_closest_point c b in
  Qleb (dot (vsub p c) (vsub p c)) (r * r).

(** ** Two oriented boxes *)

(** obb_obb_intersection.hpp:19-82; [scalar_projection] is the dot product
    (algebra/dot_product.hpp:41-54). *)
Definition obb_obb_intersection (cmp : policy) (o1 o2 : obb) : bool :=
  let cdiff := vsub (o_center o2) (o_center o1) in
  let abscuu := qabs (dot (o_u o1) (o_u o2)) in
  let abscuv := qabs (dot (o_u o1) (o_v o2)) in
  let r := qabs (dot cdiff (o_u o1)) in
  let r1 := o_hu o1 in
  let r2 := o_hu o2 * abscuu + o_hv o2 * abscuv in
  if greater_than cmp r (r1 + r2) then false
  else
  let abscvu := qabs (dot (o_v o1) (o_u o2)) in
  let abscvv := qabs (dot (o_v o1) (o_v o2)) in
  let r := qabs (dot cdiff (o_v o1)) in
  let r1 := o_hv o1 in
  let r2 := o_hu o2 * abscvu + o_hv o2 * abscvv in
  if greater_than cmp r (r1 + r2) then false
  else
  let r := qabs (dot cdiff (o_u o2)) in
  let r2 := o_hu o2 in
  let r1 := o_hu o1 * abscuu + o_hv o1 * abscuv in
  if greater_than cmp r (r1 + r2) then false
  else
  let r := qabs (dot cdiff (o_v o2)) in
  let r2 := o_hv o2 in
  let r1 := o_hu o1 * abscvu + o_hv o1 * abscvv in
  if greater_than cmp r (r1 + r2) then false
  else true.

(** ** Segment / plane *)

(** segment_plane_intersection.hpp:21-39 with a plane given by unit normal and distance to
    the origin (primitive/plane.hpp); [None]: division by zero.  The result is the
    flag, t and the point when written. *)
Definition segment_plane_intersection (a b n : pt3) (pd : Q) : option (bool * Q * option pt3) :=
  let ab := vsub3 b a in
  match qdiv_opt (pd - dot3 n a) (dot3 n ab) with
  | None => None
  | Some t =>
    if Qgeb t 0 && Qleb t 1 then Some (true, t, Some (vadd3 a (vscale3 t ab))) else Some (false, t, None)
  end.
