(** Distances between points, segments, polylines, polygons, lines and oriented
    boxes.  Models algorithm/distance/*.hpp. *)
From Verif Require Import Base CmpModel IntervalModel.

(** ** Point to segment *)

(** algorithm/distance/point_segment_distance.hpp:40-54, plane. *)
Definition point_segment_distance_sqrd (p A B : pt) : Q :=
  let ab := vsub B A in
  let ac := vsub p A in
  let bc := vsub p B in
  let e := dot ac ab in
  if Qleb e 0 then dot ac ac
  else
    let f := dot ab ab in
    if Qgeb e f then dot bc bc
    else dot ac ac - e * e / f.

(** algorithm/distance/point_segment_closest_point.hpp:46-61, the segment overload. *)
Definition point_segment_closest_point_seg (p A B : pt) : pt :=
  let AP := vsub p A in
  let AB := vsub B A in
  let t := dot AP AB in
  if Qleb t 0 then A
  else
    let denom := dot AB AB in
    if Qgeb t denom then B
    else vadd A (vscale (t / denom) AB).

(** algorithm/distance/point_segment_closest_point.hpp:63-79, the overload taking
    two points, and :81-96, which also returns the parameter.  Both divide by the
    squared length first: [None] when it is zero (0/0, a NaN point). *)
Definition point_segment_closest_point_and_param (p A B : pt) : option (pt * Q) :=
  let AP := vsub p A in
  let AB := vsub B A in
  let l2 := dot AB AB in
  if Qeqb l2 0 then None
  else
    let t := dot AP AB / l2 in
    Some (if Qleb t 0 then A else if Qgeb t 1 then B else vadd A (vscale t AB), t).
Definition point_segment_closest_point (p A B : pt) : option pt :=
  match point_segment_closest_point_and_param p A B with
  | None => None
  | Some (c, _) => Some c
  end.

(** The same in any dimension: coordinate sequences. *)
Fixpoint csub (a b : coords) : coords :=
  match a, b with x :: a', y :: b' => (x - y) :: csub a' b' | _, _ => [] end.
Fixpoint cadd (a b : coords) : coords :=
  match a, b with x :: a', y :: b' => (x + y) :: cadd a' b' | _, _ => [] end.
Definition cscale (k : Q) (a : coords) : coords := map (fun x => k * x) a.
(** algebra/dot_product.hpp / detail/dot_product.hpp. *)
Fixpoint cdot (a b : coords) : Q :=
  match a, b with x :: a', y :: b' => x * y + cdot a' b' | _, _ => 0 end.
(** algorithm/distance/point_segment_distance.hpp:40-54, any dimension. *)
Definition point_segment_distance_sqrd_n (p A B : coords) : Q :=
  let ab := csub B A in
  let ac := csub p A in
  let bc := csub p B in
  let e := cdot ac ab in
  if Qleb e 0 then cdot ac ac
  else
    let f := cdot ab ab in
    if Qgeb e f then cdot bc bc
    else cdot ac ac - e * e / f.
(** algorithm/distance/point_segment_closest_point.hpp:46-61, any dimension. *)
Definition point_segment_closest_point_n (p A B : coords) : coords :=
  let AP := csub p A in
  let AB := csub B A in
  let t := cdot AP AB in
  if Qleb t 0 then A
  else
    let denom := cdot AB AB in
    if Qgeb t denom then B
    else cadd A (cscale (t / denom) AB).

(** ** Segment to segment *)

(** The four outputs and the result of [segment_segment_closest_point]. *)
Record ssc : Type := mkssc { ss_s : Q; ss_t : Q; ss_c1 : pt; ss_c2 : pt; ss_d2 : Q }.

(** algorithm/distance/segment_segment_closest_point.hpp:31-110.  [denom] is tested
    with the built-in [!=].  The divisions are guarded by the policy's tests of a and
    e; over an arbitrary policy they may still be by zero, so they are [option]s. *)
Definition qdiv_opt (x y : Q) : option Q := if Qeqb y 0 then None else Some (x / y).
Definition segment_segment_params (cmp : policy) (a b c e f : Q) : option (Q * Q) :=
  if less_than_or_equal cmp a 0 && less_than_or_equal cmp e 0 then Some (0, 0)
  else if less_than_or_equal cmp a 0 then
    match qdiv_opt f e with None => None | Some t => Some (0, clamp t 0 1) end
  else if less_than_or_equal cmp e 0 then
    match qdiv_opt (- c) a with None => None | Some s => Some (clamp s 0 1, 0) end
  else
    let denom := a * e - b * b in
    let s := if negb (Qeqb denom 0) then clamp ((b * f - c * e) / denom) 0 1 else 0 in
    let tnom := b * s + f in
    if Qltb tnom 0 then
      match qdiv_opt (- c) a with None => None | Some s => Some (clamp s 0 1, 0) end
    else if Qgtb tnom e then
      match qdiv_opt (b - c) a with None => None | Some s => Some (clamp s 0 1, 1) end
    else match qdiv_opt tnom e with None => None | Some t => Some (s, t) end.
Definition segment_segment_closest_point (cmp : policy) (p1 q1 p2 q2 : pt) : option ssc :=
  let d1 := vsub q1 p1 in
  let d2 := vsub q2 p2 in
  let r := vsub p1 p2 in
  let a := dot d1 d1 in
  let e := dot d2 d2 in
  let f := dot d2 r in
  let c := dot d1 r in
  let b := dot d1 d2 in
  match segment_segment_params cmp a b c e f with
  | None => None
  | Some (s, t) =>
    (* the early return for two degenerate segments also has s = t = 0 *)
    let c1 := vadd p1 (vscale s d1) in
    let c2 := vadd p2 (vscale t d2) in
    Some (mkssc s t c1 c2 (dot (vsub c1 c2) (vsub c1 c2)))
  end.

(** algorithm/distance/segment_segment_distance.hpp:56-70, 87-97. *)
Definition segment_segment_distance_sqrd (cmp : policy) (p1 p2 p3 p4 : pt) : option Q :=
  match segment_segment_closest_point cmp p1 p2 p3 p4 with None => None | Some r => Some (ss_d2 r) end.

(** ** Polylines and polygons: loops over the edges *)

(** [for (i = 0, j = 1; j < size; i = j++)]: the edges of a polyline with the index
    of their first point. *)
Fixpoint polyline_edges_from (i : nat) (ps : list pt) : list (nat * (pt * pt)) :=
  match ps with
  | a :: (b :: _) as rest => (i, (a, b)) :: polyline_edges_from (S i) rest
  | _ => []
  end.
Definition polyline_edges (ps : list pt) : list (nat * (pt * pt)) := polyline_edges_from 0 ps.
(** [for (i = size-1, j = 0; j < size; i = j++)]: the closing edge first. *)
Definition polygon_edges (ps : list pt) : list (nat * (pt * pt)) :=
  match ps with
  | [] => []
  | a :: _ => (length ps - 1, (last ps a, a))%nat :: polyline_edges ps
  end.

(** The running minimum, starting at infinity ([None]): [if (d < dist) dist = d], and
    [dist = std::min(dist, d)] which keeps the old value unless [d < dist]. *)
Definition less_inf (d : Q) (best : option Q) : bool :=
  match best with None => true | Some b => Qltb d b end.
Definition take_min (best : option Q) (d : Q) : option Q := if less_inf d best then Some d else best.

(** algorithm/distance/point_polyline_distance.hpp:27-44 and
    algorithm/distance/point_polygon_distance.hpp:27-44. *)
Definition point_polyline_distance_sqrd (p : pt) (ps : list pt) : option Q :=
  fold_left (fun best e => take_min best (point_segment_distance_sqrd p (fst (snd e)) (snd (snd e)))) (polyline_edges ps) None.
Definition point_polygon_distance_sqrd (p : pt) (ps : list pt) : option Q :=
  fold_left (fun best e => take_min best (point_segment_distance_sqrd p (fst (snd e)) (snd (snd e)))) (polygon_edges ps) None.

(** The best edge so far, with its distance. *)
Definition take_edge (p : pt) (best : option (Q * (pt * pt))) (e : nat * (pt * pt)) : option (Q * (pt * pt)) :=
  let d := point_segment_distance_sqrd p (fst (snd e)) (snd (snd e)) in
  if less_inf d (match best with None => None | Some (b, _) => Some b end) then Some (d, snd e) else best.
(** algorithm/distance/point_polyline_closest_point.hpp:33-55 and
    point_polygon_closest_point.hpp:34-56.  With no edge the code reads point 0 twice,
    which is out of range ([None]) or divides by zero ([None]). *)
Definition closest_of_edges (p : pt) (es : list (nat * (pt * pt))) : option pt :=
  match fold_left (take_edge p) es None with
  | None => None
  | Some (_, (A, B)) => point_segment_closest_point p A B
  end.
Definition point_polyline_closest_point (p : pt) (ps : list pt) : option pt := closest_of_edges p (polyline_edges ps).
Definition point_polygon_closest_point (p : pt) (ps : list pt) : option pt := closest_of_edges p (polygon_edges ps).
(** algorithm/distance/point_polygon_closest_point.hpp:58-84. *)
Definition point_polygon_collection_closest_point (p : pt) (polys : list (list pt)) : option pt :=
  closest_of_edges p (flat_map polygon_edges polys).

(** algorithm/distance/segment_polyline_distance.hpp:37-49 and
    segment_polygon_distance.hpp:37-49; the [option] is the division by zero of
    [segment_segment_closest_point], the inner one infinity. *)
Fixpoint segment_edges_distance (cmp : policy) (p1 p2 : pt) (best : option Q) (es : list (nat * (pt * pt))) : option (option Q) :=
  match es with
  | [] => Some best
  | (_, (A, B)) :: es' =>
    match segment_segment_distance_sqrd cmp p1 p2 A B with
    | None => None
    | Some d => segment_edges_distance cmp p1 p2 (take_min best d) es'
    end
  end.
Definition segment_polyline_distance_sqrd (cmp : policy) (p1 p2 : pt) (ps : list pt) : option (option Q) :=
  segment_edges_distance cmp p1 p2 None (polyline_edges ps).
Definition segment_polygon_distance_sqrd (cmp : policy) (p1 p2 : pt) (ps : list pt) : option (option Q) :=
  segment_edges_distance cmp p1 p2 None (polygon_edges ps).

(** algorithm/distance/segment_polyline_closest_point.hpp:31-56 and
    segment_polygon_closest_point.hpp:32-57: distance, segment index, parameters and
    points of the first best edge; [Some None] when there is no edge (infinity, outputs
    untouched). *)
Fixpoint segment_edges_closest (cmp : policy) (p1 p2 : pt) (best : option (nat * ssc)) (es : list (nat * (pt * pt))) : option (option (nat * ssc)) :=
  match es with
  | [] => Some best
  | (i, (A, B)) :: es' =>
    match segment_segment_closest_point cmp p1 p2 A B with
    | None => None
    | Some r =>
      let best' := if less_inf (ss_d2 r) (match best with None => None | Some (_, b) => Some (ss_d2 b) end)
                   then Some (i, r) else best in
      segment_edges_closest cmp p1 p2 best' es'
    end
  end.
Definition segment_polyline_closest_point (cmp : policy) (p1 p2 : pt) (ps : list pt) := segment_edges_closest cmp p1 p2 None (polyline_edges ps).
Definition segment_polygon_closest_point (cmp : policy) (p1 p2 : pt) (ps : list pt) := segment_edges_closest cmp p1 p2 None (polygon_edges ps).

(** ** Lines and oriented boxes *)

(** primitive/line.hpp:18-70: reference point, direction, left normal.  The
    constructors normalise the direction; the model takes the unit direction as given. *)
Record line2 : Type := mkline { l_ref : pt; l_dir : pt }.
Definition l_normal (l : line2) : pt := left_normal (l_dir l).
(** primitive/line.hpp:44-58 (m_d). *)
Definition l_dist_origin (l : line2) : Q := dot (l_ref l) (l_normal l).
(** algorithm/distance/point_line_distance.hpp:30-34, 45-50; [scalar_projection] is the
    dot product (algebra/dot_product.hpp:41-54). *)
Definition signed_point_line_distance (p : pt) (l : line2) : Q := dot (vsub p (l_ref l)) (l_normal l).
Definition point_line_distance (p : pt) (l : line2) : Q := qabs (signed_point_line_distance p l).

(** primitive/oriented_bounding_box.hpp:25-105. *)
Record obb : Type := mkobb { o_center : pt; o_u : pt; o_v : pt; o_hu : Q; o_hv : Q }.
(** operator[] of oriented_bounding_box, :75-92, 98-101. *)
Definition obb_point (b : obb) (i : nat) : option pt :=
  let u := vscale (o_hu b) (o_u b) in
  let v := vscale (o_hv b) (o_v b) in
  match i with
  | 0%nat => Some (vsub (vsub (o_center b) u) v)
  | 1%nat => Some (vsub (vadd (o_center b) u) v)
  | 2%nat => Some (vadd (vadd (o_center b) u) v)
  | 3%nat => Some (vadd (vsub (o_center b) u) v)
  | _ => None
  end.

(** algorithm/distance/point_obb_distance.hpp:30-62. *)
Definition obb_excess (d h : Q) : Q :=
  if Qltb d (- h) then d + h else if Qgtb d h then d - h else 0.
Definition point_obb_distance_sqrd (p : pt) (b : obb) : Q :=
  let v := vsub p (o_center b) in
  let ex1 := obb_excess (dot v (o_v b)) (o_hv b) in
  let ex0 := obb_excess (dot v (o_u b)) (o_hu b) in
  0 + ex1 * ex1 + ex0 * ex0.

(** algorithm/distance/point_obb_distance.hpp:91-129. *)
Definition obb_clamp (d h : Q) : Q :=
  let d := if Qgtb d h then h else d in
  if Qltb d (- h) then - h else d.
Definition point_obb_closest_point (p : pt) (b : obb) : pt :=
  let d := vsub p (o_center b) in
  let q := vadd (o_center b) (vscale (obb_clamp (dot d (o_u b)) (o_hu b)) (o_u b)) in
  vadd q (vscale (obb_clamp (dot d (o_v b)) (o_hv b)) (o_v b)).

(** algorithm/distance/segment_obb_distance.hpp:30-37. *)
Definition segment_obb_distance_sqrd (cmp : policy) (p q : pt) (b : obb) : option Q :=
  match obb_point b 0, obb_point b 1, obb_point b 2, obb_point b 3 with
  | Some o0, Some o1, Some o2, Some o3 =>
    match segment_segment_distance_sqrd cmp p q o0 o1, segment_segment_distance_sqrd cmp p q o1 o2,
          segment_segment_distance_sqrd cmp p q o2 o3, segment_segment_distance_sqrd cmp p q o3 o1 with
    | Some d0, Some d1, Some d2, Some d3 => Some (qmin (qmin (qmin d0 d1) d2) d3)
    | _, _, _, _ => None
    end
  | _, _, _, _ => None
  end.
