(** Segment against triangle.  Models algorithm/intersection/segment_triangle_intersection.hpp.
    [None] is undefined behaviour: division by zero or reading a point that was not written. *)
From Verif Require Import Base CmpModel OrientModel DistModel LinIntModel PolygonModel PlanarModel.

(** segment_triangle_intersection.hpp:63-70 (and 72-79, 81-88): what one side adds to the set [iPoints]. *)
Definition add_contacts (cmp : policy) (A B C D : pt) (s : list pt) : option (list pt) :=
  match segment_segment_intersection cmp A B C D with
  | None => None
  | Some (e_crossing, X :: _) | Some (e_endpoint, X :: _) => Some (set_insert cmp X s)
  | Some (e_overlapping, X :: Y :: _) => Some (set_insert cmp Y (set_insert cmp X s))
  | Some (e_crossing, _) | Some (e_endpoint, _) | Some (e_overlapping, _) => None
  | Some _ => Some s
  end.

(** Lines 33-104: the points written to [xPoints]; the returned number is their number. *)
Definition segment_triangle_points (cmp : policy) (A B t0 t1 t2 : pt) : option (list pt) :=
  let aInside := point_in_triangle cmp A t0 t1 t2 in
  let bInside := point_in_triangle cmp B t0 t1 t2 in
  if aInside && bInside then Some [A; B]
  else
    let s := if aInside then [A] else if bInside then [B] else [] in
    match add_contacts cmp A B t0 t1 s with
    | None => None
    | Some s =>
        match add_contacts cmp A B t1 t2 s with
        | None => None
        | Some s =>
            match add_contacts cmp A B t2 t0 s with
            | None => None
            | Some [] => Some []
            | Some [X] => Some [X]
            | Some (X :: Y :: _) => Some [X; Y]
            end
        end
    end.

(** Lines 121-146, 148-174, 176-202, 204-230: the projections on [n] are apart.  Simplification: the
    first minimum is taken with the largest number of the type and the first maximum with its
    opposite; here the first projection itself is the start. *)
Definition apart (n A B t0 t1 t2 : pt) : bool :=
  let nt0 := dot n t0 in
  let nt1 := dot n t1 in
  let nt2 := dot n t2 in
  let tmin := qmin (qmin nt0 nt1) nt2 in
  let tmax := qmax (qmax nt0 nt1) nt2 in
  let nA := dot n A in
  let nB := dot n B in
  let pmin := qmin nA nB in
  let pmax := qmax nA nB in
  Qltb pmax tmin || Qltb tmax pmin.

(** Lines 108-233 (and 236-240 for a segment). *)
Definition segment_triangle_intersect (A B t0 t1 t2 : pt) : bool :=
  if apart (left_normal (vsub B A)) A B t0 t1 t2 then false
  else if apart (left_normal (vsub t1 t0)) A B t0 t1 t2 then false
  else if apart (left_normal (vsub t2 t1)) A B t0 t1 t2 then false
  else if apart (left_normal (vsub t0 t2)) A B t0 t1 t2 then false
  else true.
