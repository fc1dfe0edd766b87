(** A moving disc against a box, aligned with the axes or not.  Models
    algorithm/intersection/moving_sphere_aabb_intersection.hpp and moving_sphere_obb_intersection.hpp,
    with ray_aabb_intersection.hpp over the real numbers. *)
From Verif Require Import RBase SphereModel.

(** One slab of ray_aabb_intersection.hpp:68-94 and 97-125 (as [BoxIntModel.ray_slab], which is over the
    rationals).  [None] for tmax is infinity. *)
Definition rray_slab (cmp : rpolicy) (p d lo hi tmin : R) (tmax : option R) : option (R * option R) :=
  if req cmp d 0 then
    if Rltb p lo || Rltb hi p then None else Some (tmin, tmax)
  else
    let ood := 1 / d in
    let t1 := (lo - p) * ood in
    let t2 := (hi - p) * ood in
    let '(t1, t2) := if Rltb t2 t1 then (t2, t1) else (t1, t2) in
    let tmin := Rmax tmin t1 in
    let tmax := match tmax with None => t2 | Some x => Rmin x t2 end in
    if Rltb tmax tmin then None else Some (tmin, Some tmax).

(** ray_aabb_intersection.hpp:60-138: the parameter, and the point written: the entrance, or the exit when the
    origin is inside ([None]: a product with infinity).  The containment test is
    axis_aligned_bounding_box.hpp:231-241. *)
Definition rray_aabb (cmp : rpolicy) (px py dx dy lx ly hx hy : R) : option (R * option (R * R)) :=
  match rray_slab cmp px dx lx hx 0 None with
  | None => None
  | Some (tmin, tmax) =>
    match rray_slab cmp py dy ly hy tmin tmax with
    | None => None
    | Some (tmin, tmax) =>
      if rle cmp lx px && rle cmp px hx && rle cmp ly py && rle cmp py hy then
        Some (tmin, match tmax with None => None | Some t => Some (px + dx * t, py + dy * t) end)
      else Some (tmin, Some (px + dx * tmin, py + dy * tmin))
    end
  end.

(** point_segment_closest_point.hpp:63-79; [None] divides by zero. *)
Definition rclosest_on_segment (p A B : rvec) : option rvec :=
  let AB := rsub B A in
  let l2 := rdot AB AB in
  if Reqb l2 0 then None
  else
    let t := rdot (rsub p A) AB / l2 in
    if Rleb t 0 then Some A
    else if Rleb 1 t then Some B
    else Some (radd A (rscale t AB)).

(** The time and point of a test against a side, if it is a hit. *)
Definition side_hit (cmp : rpolicy) (s : ball) (vel a b : rvec) : option (R * rvec) :=
  match moving_sphere_segment_intersection cmp s vel a b with
  | (f, Some (t, q)) => if sf_intersecting f then Some (t, q) else None
  | (_, None) => None
  end.
(** moving_sphere_aabb_intersection.hpp:110-131 and moving_sphere_obb_intersection.hpp:122-143: the
    earlier hit of the two sides from V. *)
Definition corner_best (cmp : rpolicy) (s : ball) (vel V P1 P2 : rvec) : option (R * rvec) :=
  match side_hit cmp s vel V P2 with
  | Some (t2, q2) =>
    match side_hit cmp s vel V P1 with
    | Some (t1, q1) => if Rltb t2 t1 then Some (t2, q2) else Some (t1, q1)
    | None => Some (t2, q2)
    end
  | None => side_hit cmp s vel V P1
  end.

(** The code the two functions share: moving_sphere_aabb_intersection.hpp:79-148 and
    moving_sphere_obb_intersection.hpp:91-160.  The disc [s] with velocity [vel] and the corners [corner n] are those
    of the caller; the centre (cx, cy), velocity (vx, vy) and box are given in the frame of the box, in which
    the ray is tested.  The two bits of [u] and [v] are the coordinates below and above the box.  The return
    value and the outputs t and q are one value; the point is [None] where a zero vector is normalised.
    Simplifications: the flags of the returned object are reduced to intersecting or not (the first function
    returns only that); the last statement (an edge region) is left out: with two coordinates [m] is at most 3
    and never gets there. *)
Definition moving_sphere_box (cmp : rpolicy) (s : ball) (vel : rvec) (corner : nat -> rvec) (cx cy vx vy lx ly hx hy : R) : hit (R * option rvec) :=
  let r := b_radius s in
  match rray_aabb cmp cx cy vx vy (lx - r) (ly - r) (hx + r) (hy + r) with
  | None => Miss
  | Some (_, None) => NotANumber
  | Some (t, Some (x, y)) =>
    let u := ((if Rltb x lx then 1 else 0) + (if Rltb y ly then 2 else 0))%nat in
    let v := ((if Rltb hx x then 1 else 0) + (if Rltb hy y then 2 else 0))%nat in
    let m := (u + v)%nat in
    if Nat.eqb m 3 then
      let best := corner_best cmp s vel (corner v) (corner (Nat.lxor v 1)) (corner (Nat.lxor v 2)) in
      match best with None => Miss | Some (t, q) => Hit (t, Some q) end
    else
      let newCenter := radd (b_center s) (rscale t vel) in
      match rclosest_on_segment newCenter (corner (Nat.lxor u 3)) (corner v) with
      | None => NotANumber
      | Some k =>
        let w := rsub k newCenter in
        Hit (t, if Reqb (rdot w w) 0 then None else Some (radd newCenter (rscale r (rnormalize w))))
      end
  end.

(** moving_sphere_aabb_intersection.hpp:100-103. *)
Definition aabb_corner (lx ly hx hy : R) (n : nat) : rvec :=
  [if Nat.testbit n 0 then hx else lx; if Nat.testbit n 1 then hy else ly].
(** moving_sphere_aabb_intersection.hpp:73-149, for the box from (lx, ly) to (hx, hy). *)
Definition moving_sphere_aabb_intersection (cmp : rpolicy) (s : ball) (vel : rvec) (lx ly hx hy : R) : hit (R * option rvec) :=
  match b_center s, vel with
  | [cx; cy], [vx; vy] => moving_sphere_box cmp s vel (aabb_corner lx ly hx hy) cx cy vx vy lx ly hx hy
  | _, _ => NotANumber
  end.

(** primitive/oriented_bounding_box.hpp:24-104, over the reals: the axes as pairs. *)
Record robb : Type := mkrobb { ro_cx : R; ro_cy : R; ro_ux : R; ro_uy : R; ro_vx : R; ro_vy : R; ro_hu : R; ro_hv : R }.
(** oriented_bounding_box.hpp:73-88 and 95-98, [operator[]]: the corner with the given signs. *)
Definition robb_point (b : robb) (su sv : R) : rvec :=
  [ro_cx b + su * ro_hu b * ro_ux b + sv * ro_hv b * ro_vx b; ro_cy b + su * ro_hu b * ro_uy b + sv * ro_hv b * ro_vy b].
(** moving_sphere_obb_intersection.hpp:112-115; ll, lr, ur, ul are [obb[0]] to [obb[3]]. *)
Definition obb_corner (b : robb) (n : nat) : rvec :=
  robb_point b (if Nat.testbit n 0 then 1 else -1) (if Nat.testbit n 1 then 1 else -1).
(** algorithm/rotation.hpp:23-39 and 47-51 with the rotation that takes (ux, uy) to (1, 0): the matrix is
    ((cos, -sin), (sin, cos)), cos = (ux, uy) . (1, 0), sin = (ux, uy) x (1, 0). *)
Definition rot_vec (ux uy x y : R) : R * R :=
  let cosa := ux * 1 + uy * 0 in
  let sina := ux * 0 - uy * 1 in
  (cosa * x + (- sina) * y, sina * x + cosa * y).
Definition rot_point (ux uy ox oy x y : R) : R * R :=
  let '(a, b) := rot_vec ux uy (x - ox) (y - oy) in (a + ox, b + oy).
(** moving_sphere_obb_intersection.hpp:70-161. *)
Definition moving_sphere_obb_intersection (cmp : rpolicy) (s : ball) (vel : rvec) (b : robb) : hit (R * option rvec) :=
  match b_center s, vel, obb_corner b 0, obb_corner b 3 with
  | [cx; cy], [vx; vy], [llx; lly], [urx; ury] =>
    let rot := rot_point (ro_ux b) (ro_uy b) (ro_cx b) (ro_cy b) in
    let '(rcx, rcy) := rot cx cy in
    let '(rvx, rvy) := rot_vec (ro_ux b) (ro_uy b) vx vy in
    let '(lx, ly) := rot llx lly in
    let '(hx, hy) := rot urx ury in
    moving_sphere_box cmp s vel (obb_corner b) rcx rcy rvx rvy lx ly hx hy
  | _, _, _, _ => NotANumber
  end.
