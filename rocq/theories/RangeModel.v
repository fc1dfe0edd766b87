(** A segment against the range between two rays.  Models algorithm/is_segment_in_range.hpp.
    [None] is a division by zero.  Simplification: the directions [normalize(lo)] and [normalize(hi)] are
    [lo / nlo] and [hi / nhi] for given numbers [nlo] and [nhi]; the theorems hold for all positive ones. *)
From Verif Require Import Base CmpModel OrientModel DistModel LinIntModel.

Definition crosses (r : option itype) : option bool :=
  match r with None => None | Some e_non_crossing => Some false | Some _ => Some true end.

(** is_segment_in_range.hpp:25-86. *)
Definition is_segment_in_range_2d (nlo nhi : Q) (A B lo hi origin : pt) : option bool :=
  let vSegStart := vsub A origin in
  let vSegEnd := vsub B origin in
  let detLoSegStart := cross lo vSegStart in
  let detHiSegStart := cross hi vSegStart in
  if Qgeb detLoSegStart 0 && Qleb detHiSegStart 0 then Some true
  else
    let detLoSegEnd := cross lo vSegEnd in
    let detHiSegEnd := cross hi vSegEnd in
    if Qgeb detLoSegEnd 0 && Qleb detHiSegEnd 0 then Some true
    else if (Qgtb detHiSegStart 0 && Qgtb detHiSegEnd 0) || (Qltb detLoSegStart 0 && Qltb detLoSegEnd 0) then Some false
    else if Qeqb detHiSegStart 0 && Qeqb detLoSegEnd 0 then
      Some (match get_orientation direct A B origin with oriented_left => false | _ => true end)
    else if Qeqb detHiSegEnd 0 && Qeqb detLoSegStart 0 then
      Some (match get_orientation direct A B origin with oriented_right => false | _ => true end)
    else
      match crosses (ray_segment_intersection_type direct origin (vscale (1 / nlo) lo) A B) with
      | None => None
      | Some true => Some true
      | Some false => crosses (ray_segment_intersection_type direct origin (vscale (1 / nhi) hi) A B)
      end.

Definition is_touching (ty : itype) : bool := match ty with e_crossing | e_endpoint => true | _ => false end.
Definition is_overlap (ty : itype) : bool := match ty with e_overlapping => true | _ => false end.

(** is_segment_in_range.hpp:122-158, exactly one end in the range.  The outer option is undefined behaviour,
    the inner one the returned boolean with the two points written. *)
Definition range_one_in (cmp : policy) (A B lo hi origin : pt) (startIn : bool) : option (option (pt * pt)) :=
  let inner := if startIn then A else B in
  match line_segment_intersect cmp origin (vadd origin lo) A B with
  | None => None
  | Some (e_crossing, Some xLo) => Some (Some (xLo, inner))
  | Some (e_overlapping, _) => Some (Some (A, A))
  | Some (loIType, xLo) =>
    match line_segment_intersect cmp origin (vadd origin hi) A B with
    | None => None
    | Some (hiIType, xHi) =>
      if is_touching hiIType then
        match loIType, xLo, xHi with
        | e_endpoint, Some xl, Some xh => Some (Some (xl, xh))
        | _, _, Some xh => Some (Some (inner, xh))
        | _, _, None => None
        end
      else if is_overlap hiIType then Some (Some (A, A))
      else Some None
    end
  end.

(** is_segment_in_range.hpp:89-208. *)
Definition is_segment_in_range_2d_points (cmp : policy) (nlo nhi : Q) (A B lo hi origin : pt) : option (option (pt * pt)) :=
  let vSegStart := vsub A origin in
  let vSegEnd := vsub B origin in
  let detLoSegStart := cross lo vSegStart in
  let detHiSegStart := cross hi vSegStart in
  let detLoSegEnd := cross lo vSegEnd in
  let detHiSegEnd := cross hi vSegEnd in
  let startIn := Qgeb detLoSegStart 0 && Qleb detHiSegStart 0 in
  let endIn := Qgeb detLoSegEnd 0 && Qleb detHiSegEnd 0 in
  if startIn && endIn then Some (Some (A, B))
  else if negb (Bool.eqb startIn endIn) then range_one_in cmp A B lo hi origin startIn
  else
    let dotHiSegStart := dot hi vSegStart in
    let dotLoSegEnd := dot lo vSegEnd in
    let dotLoSegStart := dot lo vSegStart in
    let dotHiSegEnd := dot hi vSegEnd in
    if (Qgeb detHiSegStart 0 && Qltb detLoSegEnd 0 && Qgtb dotHiSegStart 0 && Qgtb dotLoSegEnd 0)
       || (Qgeb detHiSegEnd 0 && Qltb detLoSegStart 0 && Qgtb dotHiSegEnd 0 && Qgtb dotLoSegStart 0) then
      match ray_segment_intersection cmp origin (vscale (1 / nlo) lo) A B, ray_segment_intersection cmp origin (vscale (1 / nhi) hi) A B with
      | Some (loIType, _, xLo), Some (hiIType, _, xHi) =>
        if is_touching loIType && is_touching hiIType then
          match xLo, xHi with
          | xl :: _, xh :: _ => Some (Some (xl, xh))
          | _, _ => None
          end
        else if is_overlap loIType || is_overlap hiIType then Some (Some (A, A))
        else Some None
      | _, _ => None
      end
    else if (Qeqb detHiSegStart 0 && Qeqb detLoSegEnd 0
               && match get_orientation (absolute 0) A B origin with oriented_left => false | _ => true end)
         || (Qeqb detHiSegEnd 0 && Qeqb detLoSegStart 0
               && match get_orientation (absolute 0) A B origin with oriented_right => false | _ => true end) then
      Some (Some (A, A))
    else Some None.
