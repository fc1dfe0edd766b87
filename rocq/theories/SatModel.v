(** Separating axis tests of convex polygons and of moving shapes.  Models
    algorithm/intersection/{separating_axis_convex_polygons,moving_separating_axis_convex_polygons,
    moving_obb_obb_intersection}.hpp and detail/separating_axis_common.hpp. *)
From Verif Require Import Base CmpModel DistModel DistSpec.

(** Point i of a sequence; indices are always in range for a non-empty sequence. *)
Definition get_point (c : list pt) (i : nat) : pt := nth i c (mkpt 0 0).
(** arithmetic/vector/perp.hpp:49-54. *)
Definition left_normal (u : pt) : pt := mkpt (- py u) (px u).

(** separating_axis_common.hpp:24-30. *)
Definition get_middle_index (i0 i1 n : nat) : nat :=
  if Nat.ltb i0 i1 then ((i0 + i1) / 2)%nat else (((i0 + i1 + n) / 2) mod n)%nat.
(** separating_axis_common.hpp:32-69: the loop; [None]: not finished after [fuel] passes. *)
Fixpoint extreme_loop (cmp : policy) (c : list pt) (d : pt) (fuel i0 i1 : nat) : option nat :=
  match fuel with
  | O => None
  | S fuel' =>
    let n := length c in
    let mid := get_middle_index i0 i1 n in
    let next := ((mid + 1) mod n)%nat in
    let de := dot d (vsub (get_point c next) (get_point c mid)) in
    if greater_than cmp de 0 then
      if negb (Nat.eqb mid i0) then extreme_loop cmp c d fuel' mid i1 else Some i1
    else
      let prev := ((mid + n - 1) mod n)%nat in
      let de := dot d (vsub (get_point c mid) (get_point c prev)) in
      if less_than cmp de 0 then extreme_loop cmp c d fuel' i0 mid else Some mid
  end.
Definition get_extreme_index (cmp : policy) (fuel : nat) (c : list pt) (d : pt) : option nat := extreme_loop cmp c d fuel 0 0.

(** separating_axis_convex_polygons.hpp:26-45: the pairs (point i1, point i0), i1 before i0. *)
Definition edges_into (c : list pt) : list (pt * pt) :=
  map (fun i0 => (get_point c ((i0 + length c - 1) mod length c), get_point c i0)) (seq 0 (length c)).
(** One of the two loops: [None] when get_extreme_index does not end, [Some false] when an edge
    separates. *)
Fixpoint edges_loop (cmp : policy) (fuel : nat) (edges : list (pt * pt)) (other : list pt) : option bool :=
  match edges with
  | [] => Some true
  | (q1, q0) :: edges' =>
    let d := left_normal (vsub q0 q1) in
    match get_extreme_index cmp fuel other (vneg d) with
    | None => None
    | Some min =>
      let diff := vsub (get_point other min) q0 in
      if greater_than cmp (dot d diff) 0 then Some false else edges_loop cmp fuel edges' other
    end
  end.
(** separating_axis_convex_polygons.hpp:16-48, for polygons with points. *)
Definition convex_polygons_intersection (cmp : policy) (fuel : nat) (p1 p2 : list pt) : option bool :=
  match edges_loop cmp fuel (edges_into p1) p2 with
  | Some true => edges_loop cmp fuel (edges_into p2) p1
  | r => r
  end.

(** ** Moving shapes *)
(** A time that may be infinite. *)
Definition time : Type := option Q.
Definition t_less (t : Q) (u : time) : bool := match u with Some v => Qltb t v | None => true end.
Definition t_greater (t : Q) (u : time) : bool := match u with Some v => Qltb v t | None => false end.
(** separating_axis_common.hpp:87-156.  [None]: returns true (no intersection); otherwise the new
    tfirst and tlast.  The output [side] is not modelled.  The inverse of the speed is computed
    even for speed 0, but then never used. *)
Definition no_intersect (tmax speed min1 max1 min2 max2 : Q) (s : Q * time) : option (Q * time) :=
  let '(tfirst, tlast) := s in
  let inv_speed := 1 / speed in
  if Qltb max2 min1 then
    if Qleb speed 0 then None
    else
      let t := (min1 - max2) * inv_speed in
      let tfirst := if Qltb tfirst t then t else tfirst in
      if Qltb tmax tfirst then None
      else
        let t := (max1 - min2) * inv_speed in
        let tlast := if t_less t tlast then Some t else tlast in
        if t_greater tfirst tlast then None else Some (tfirst, tlast)
  else if Qltb max1 min2 then
    if Qleb 0 speed then None
    else
      let t := (max1 - min2) * inv_speed in
      let tfirst := if Qltb tfirst t then t else tfirst in
      if Qltb tmax tfirst then None
      else
        let t := (min1 - max2) * inv_speed in
        let tlast := if t_less t tlast then Some t else tlast in
        if t_greater tfirst tlast then None else Some (tfirst, tlast)
  else if Qltb 0 speed then
    let t := (max1 - min2) * inv_speed in
    let tlast := if t_less t tlast then Some t else tlast in
    if t_greater tfirst tlast then None else Some (tfirst, tlast)
  else if Qltb speed 0 then
    let t := (min1 - max2) * inv_speed in
    let tlast := if t_less t tlast then Some t else tlast in
    if t_greater tfirst tlast then None else Some (tfirst, tlast)
  else Some (tfirst, tlast).

(** moving_obb_obb_intersection.hpp:19-121.  [None]: returns false; otherwise tfirst and tlast. *)
Definition moving_obb_obb_intersection (o1 : obb) (v1 : pt) (o2 : obb) (v2 : pt) (tmax : Q) : option (Q * time) :=
  let cdiff := vsub (o_center o2) (o_center o1) in
  let v := vsub v2 v1 in
  let abscuu := qabs (dot (o_u o1) (o_u o2)) in
  let abscuv := qabs (dot (o_u o1) (o_v o2)) in
  let center := dot cdiff (o_u o1) in
  let speed := dot v (o_u o1) in
  let r1 := o_hu o1 in
  let r2 := o_hu o2 * abscuu + o_hv o2 * abscuv in
  match no_intersect tmax speed (- r1) r1 (center - r2) (center + r2) (0, None) with
  | None => None
  | Some s =>
  let abscvu := qabs (dot (o_v o1) (o_u o2)) in
  let abscvv := qabs (dot (o_v o1) (o_v o2)) in
  let center := dot cdiff (o_v o1) in
  let speed := dot v (o_v o1) in
  let r1 := o_hv o1 in
  let r2 := o_hu o2 * abscvu + o_hv o2 * abscvv in
  match no_intersect tmax speed (- r1) r1 (center - r2) (center + r2) s with
  | None => None
  | Some s =>
  let center := dot cdiff (o_u o2) in
  let speed := dot v (o_u o2) in
  let r2 := o_hu o2 in
  let r1 := o_hu o1 * abscuu + o_hv o1 * abscuv in
  match no_intersect tmax speed (- r1) r1 (center - r2) (center + r2) s with
  | None => None
  | Some s =>
  let center := dot cdiff (o_v o2) in
  let speed := dot v (o_v o2) in
  let r2 := o_hv o2 in
  let r1 := o_hu o1 * abscvu + o_hv o1 * abscvv in
  no_intersect tmax speed (- r1) r1 (center - r2) (center + r2) s
  end end end.

(** separating_axis_common.hpp:71-77. *)
Definition compute_interval (cmp : policy) (fuel : nat) (c : list pt) (d : pt) : option (Q * Q) :=
  match get_extreme_index cmp fuel c (vneg d), get_extreme_index cmp fuel c d with
  | Some i, Some j => Some (dot d (get_point c i), dot d (get_point c j))
  | _, _ => None
  end.
(** moving_separating_axis_convex_polygons.hpp:35-53: one of the loops.  The outer [None]:
    get_extreme_index does not end; the inner [None]: returns false. *)
Fixpoint moving_loop (cmp : policy) (fuel : nat) (edges : list (pt * pt)) (p1 p2 : list pt) (v : pt) (tmax : Q) (s : Q * time)
  : option (option (Q * time)) :=
  match edges with
  | [] => Some (Some s)
  | (q1, q0) :: edges' =>
    let d := left_normal (vsub q0 q1) in
    let speed := dot d v in
    match compute_interval cmp fuel p1 d, compute_interval cmp fuel p2 d with
    | Some (min1, max1), Some (min2, max2) =>
      match no_intersect tmax speed min1 max1 min2 max2 s with
      | None => Some None
      | Some s' => moving_loop cmp fuel edges' p1 p2 v tmax s'
      end
    | _, _ => None
    end
  end.
(** moving_separating_axis_convex_polygons.hpp:15-58. *)
Definition moving_convex_polygons_intersection (cmp : policy) (fuel : nat) (p1 : list pt) (v1 : pt) (p2 : list pt) (v2 : pt) (tmax : Q)
  : option (option (Q * time)) :=
  let v := vsub v2 v1 in
  match moving_loop cmp fuel (edges_into p1) p1 p2 v tmax (0, None) with
  | Some (Some s) => moving_loop cmp fuel (edges_into p2) p1 p2 v tmax s
  | r => r
  end.
