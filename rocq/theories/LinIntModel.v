(** Intersections of segments, lines and rays.  Models
    algorithm/linear_components_intersection.hpp (the result enumeration),
    algorithm/intersection/segment_segment_intersection.hpp,
    algorithm/line_intersection.hpp,
    algorithm/intersection/ray_line_intersection.hpp and
    algorithm/intersection/ray_segment_intersection.hpp. *)
From Verif Require Import Base CmpModel OrientModel DistModel.

(** algorithm/linear_components_intersection.hpp:20-29 (the two oriented values belong
    to [oriented_intersection], modelled in OrientModel). *)
Inductive itype : Type := e_invalid_intersection | e_non_crossing | e_crossing | e_overlapping | e_endpoint.

(** ** Segment / segment in the plane *)

(** segment_segment_intersection.hpp:24-146.  The result is the type and the list of
    points written to [xPoint] (the pointer is taken to be non-null). *)
Definition parallel_intersection (cmp : policy) (A B C D : pt) : itype * list pt :=
  if negb (is_collinear cmp A B C) then (e_non_crossing, [])
  else
    let CisBetweenAB := is_between cmp A B C true in
    let DisBetweenAB := is_between cmp A B D true in
    if CisBetweenAB && DisBetweenAB then (e_overlapping, [C; D])
    else
      let AisBetweenCD := is_between cmp C D A true in
      let BisBetweenCD := is_between cmp C D B true in
      if AisBetweenCD && BisBetweenCD then (e_overlapping, [A; B])
      else if CisBetweenAB && BisBetweenCD then (e_overlapping, [C; B])
      else if CisBetweenAB && AisBetweenCD then (e_overlapping, [C; A])
      else if DisBetweenAB && BisBetweenCD then (e_overlapping, [D; B])
      else if DisBetweenAB && AisBetweenCD then (e_overlapping, [D; A])
      else
        let originEqualsC := pt_equals cmp A C in
        let destinationEqualsD := pt_equals cmp B D in
        let originEqualsD := pt_equals cmp A D in
        let destinationEqualsC := pt_equals cmp B C in
        if (originEqualsC && destinationEqualsD) || (originEqualsD && destinationEqualsC) then (e_overlapping, [A; B])
        else if originEqualsC then (e_endpoint, [A])
        else if originEqualsD then (e_endpoint, [A])
        else if destinationEqualsC then (e_endpoint, [B])
        else if destinationEqualsD then (e_endpoint, [B])
        else (e_non_crossing, []).

(** The two numerators and the denominator shared by segment_segment_intersection.hpp:157-177,
    line_intersection.hpp:37-59, 82-98 and 120-136. *)
Definition xdenom (A B C D : pt) : Q :=
  px A * (py D - py C) + px B * (py C - py D) + px D * (py B - py A) + px C * (py A - py B).
Definition xnum_s (A B C D : pt) : Q :=
  px A * (py D - py C) + px C * (py A - py D) + px D * (py C - py A).
Definition xnum_t (A B C D : pt) : Q :=
  - (px A * (py C - py B) + px B * (py A - py C) + px C * (py B - py A)).

Definition itype_is_invalid (i : itype) : bool := match i with e_invalid_intersection => true | _ => false end.

(** segment_segment_intersection.hpp:148-203; [None]: division by zero (impossible with
    the direct policy). *)
Definition segment_segment_intersection (cmp : policy) (A B C D : pt) : option (itype * list pt) :=
  let denom := xdenom A B C D in
  if equals cmp denom 0 then Some (parallel_intersection cmp A B C D)
  else
    let num := xnum_s A B C D in
    let iType := if equals cmp num 0 || equals cmp num denom then e_endpoint else e_invalid_intersection in
    match qdiv_opt num denom with
    | None => None
    | Some s =>
      let num := xnum_t A B C D in
      let iType := if equals cmp num 0 || equals cmp num denom then e_endpoint else iType in
      match qdiv_opt num denom with
      | None => None
      | Some t =>
        if less_than cmp 0 s && less_than cmp s 1 && less_than cmp 0 t && less_than cmp t 1
        then Some (e_crossing, [vadd A (vscale s (vsub B A))])
        else if greater_than cmp 0 s || greater_than cmp s 1 || greater_than cmp 0 t || greater_than cmp t 1
        then Some (e_non_crossing, [])
        else
          let iType := if itype_is_invalid iType &&
                          (equals cmp 0 s || equals cmp s 1 || equals cmp 0 t || equals cmp t 1)
                       then e_endpoint else iType in
          Some (iType, [vadd A (vscale s (vsub B A))])
      end
    end.

(** ** Segment / segment in space *)

(** algebra/cross_product.hpp. *)
Definition cross3 (a b : pt3) : pt3 :=
  mkpt3 (y3 a * z3 b - z3 a * y3 b) (z3 a * x3 b - x3 a * z3 b) (x3 a * y3 b - y3 a * x3 b).
(** segment_segment_intersection.hpp:205-210. *)
Definition is_coplanar (cmp : policy) (p1 p2 p3 p4 : pt3) : bool :=
  equals cmp (dot3 (vsub3 p3 p1) (cross3 (vsub3 p2 p1) (vsub3 p4 p3))) 0.
(** segment_segment_intersection.hpp:212-306. *)
Definition segment_segment_intersection3 (cmp : policy) (p1 p2 p3 p4 : pt3) : option (itype * list pt3) :=
  if negb (is_coplanar cmp p1 p2 p3 p4) then Some (e_non_crossing, [])
  else
    let v1 := vsub3 p2 p1 in
    let v2 := vsub3 p4 p3 in
    let a := dist2_3 p1 p2 in
    let b := dot3 v1 v2 in
    let c := dist2_3 p3 p4 in
    let det := a * c - b * b in
    if greater_than cmp det 0 then
      let u := vsub3 p1 p3 in
      let d := dot3 v1 u in
      let e := dot3 v2 u in
      match qdiv_opt (b * e - c * d) det with
      | None => None
      | Some s =>
        if less_than cmp s 0 || greater_than cmp s 1 then Some (e_non_crossing, [])
        else
          (* :246-249 set iType from s; both branches below overwrite it *)
          match qdiv_opt (a * e - b * d) det with
          | None => None
          | Some t =>
            if less_than cmp t 0 || greater_than cmp t 1 then Some (e_non_crossing, [])
            else
              let iType := if greater_than cmp t 0 && less_than cmp t 1 then e_crossing else e_endpoint in
              Some (iType, [vadd3 p1 (vscale3 s v1)])
          end
      end
    else
      let k := cross3 v1 (vsub3 p3 p1) in
      if negb (Qeqb (x3 k) 0 && Qeqb (y3 k) 0 && Qeqb (z3 k) 0) then Some (e_non_crossing, [])
      else
        let f := dot3 v1 (vsub3 p3 p1) in
        let l2 := dot3 v1 v1 in
        match qdiv_opt f l2, qdiv_opt b l2 with
        | Some s0, Some s01 =>
          let s1 := s0 + s01 in
          let lo := qmin s0 s1 in
          let hi := qmax s0 s1 in
          if Qltb 1 lo || Qgtb 0 hi then Some (e_non_crossing, [])
          else if Qgtb 1 lo then
            if Qltb 0 hi then
              Some (e_overlapping,
                [if Qltb 0 lo then vadd3 p1 (vscale3 lo v1) else p1;
                 if Qgtb 1 hi then vadd3 p1 (vscale3 hi v1) else vadd3 p1 v1])
            else Some (e_endpoint, [p1])
          else Some (e_endpoint, [vadd3 p1 v1])
        | _, _ => None
        end.

(** ** Lines *)

(** line_intersection.hpp:23-66: type, point and the two parameters. *)
Definition line_line_intersect_params (cmp : policy) (A B C D : pt) : option (itype * option (pt * Q * Q)) :=
  let denom := xdenom A B C D in
  if equals cmp denom 0 then
    if is_collinear cmp A B C then Some (e_overlapping, None) else Some (e_non_crossing, None)
  else
    match qdiv_opt (xnum_s A B C D) denom, qdiv_opt (xnum_t A B C D) denom with
    | Some s, Some t => Some (e_crossing, Some (vadd A (vscale s (vsub B A)), s, t))
    | _, _ => None
    end.
(** line_intersection.hpp:68-102. *)
Definition line_line_intersect (cmp : policy) (A B C D : pt) : option (itype * option pt) :=
  let denom := xdenom A B C D in
  if equals cmp denom 0 then
    if is_collinear cmp A B C then Some (e_overlapping, None) else Some (e_non_crossing, None)
  else
    match qdiv_opt (xnum_t A B C D) denom with
    | Some t => Some (e_crossing, Some (vadd C (vscale t (vsub D C))))
    | _ => None
    end.
(** line_intersection.hpp:104-152. *)
Definition line_segment_intersect (cmp : policy) (A B C D : pt) : option (itype * option pt) :=
  let denom := xdenom A B C D in
  if equals cmp denom 0 then
    if is_collinear cmp A B C then Some (e_overlapping, None) else Some (e_non_crossing, None)
  else
    let num := xnum_t A B C D in
    let iType := if equals cmp num 0 || equals cmp num denom then e_endpoint else e_invalid_intersection in
    match qdiv_opt num denom with
    | None => None
    | Some t =>
      if less_than cmp t 0 || greater_than cmp t 1 then Some (e_non_crossing, None)
      else
        let iType := if greater_than cmp t 0 && less_than cmp t 1 then e_crossing else iType in
        Some (iType, Some (vadd C (vscale t (vsub D C))))
    end.

(** ** Rays *)

(** ray_line_intersection.hpp:27-102; the line is (reference point, parallel vector).
    The result is (is_intersecting, is_overlapping) with t and the point when they are
    written.  The constructor at :33-35 ors in [geometrix::e_overlapping] (= 2), which is
    also the value of the flag [e_is_overlapping]. *)
Definition ray_line_intersection (cmp : policy) (O v : pt) (l : line2) : option (bool * bool * option Q * option pt) :=
  let A := l_ref l in
  let v1 := vsub O A in
  let v2 := l_dir l in
  let v3 := left_normal v in
  let denom := dot v2 v3 in
  if equals cmp denom 0 then
    match get_orientation_v cmp v v2 with
    | oriented_collinear => Some (true, true, None, None)
    | _ => Some (false, false, None, None)
    end
  else
    match qdiv_opt (cross v2 v1) denom with
    | None => None
    | Some t =>
      if less_than cmp t 0 then Some (false, false, Some t, None)
      else
        match qdiv_opt (dot v1 v3) denom with
        | None => None
        | Some t2 =>
          if less_than cmp t2 0 then Some (false, false, Some t, None)
          else Some (true, false, Some t, Some (vadd O (vscale t v)))
        end
    end.

(** ray_segment_intersection.hpp:26-120: type, ray parameter, points. *)
Definition ray_segment_intersection (cmp : policy) (O v A B : pt) : option (itype * option Q * list pt) :=
  let v1 := vsub O A in
  let v2 := vsub B A in
  let v3 := left_normal v in
  let denom := dot v2 v3 in
  if equals cmp denom 0 then
    match get_orientation cmp A B O with
    | oriented_collinear =>
      let vOB := vsub B O in
      let OA := dot (vneg v1) v in
      let OB := dot vOB v in
      if less_than cmp OA 0 then
        if less_than cmp OB 0 then Some (e_non_crossing, None, [])
        else Some (e_overlapping, Some 0, [O; B])
      else if less_than cmp OB 0 then Some (e_overlapping, Some 0, [O; A])
      else if Qltb OA OB then Some (e_overlapping, Some OA, [A; B])
      else Some (e_overlapping, Some OB, [B; A])
    | _ => Some (e_non_crossing, None, [])
    end
  else
    match qdiv_opt (cross v2 v1) denom with
    | None => None
    | Some t1 =>
      if less_than cmp t1 0 then Some (e_non_crossing, None, [])
      else
        match qdiv_opt (dot v1 v3) denom with
        | None => None
        | Some t2 =>
          if less_than cmp t2 0 || greater_than cmp t2 1 then Some (e_non_crossing, None, [])
          else Some (if equals cmp t2 0 || equals cmp t2 1 then e_endpoint else e_crossing, Some t1, [vadd O (vscale t1 v)])
        end
    end.

(** ray_segment_intersection.hpp:129-181, the overload without outputs. *)
Definition ray_segment_intersection_type (cmp : policy) (O v A B : pt) : option itype :=
  let v1 := vsub O A in
  let v2 := vsub B A in
  let v3 := left_normal v in
  let denom := dot v2 v3 in
  if equals cmp denom 0 then
    match get_orientation_v cmp v v2 with
    | oriented_collinear =>
      let vOB := vsub B O in
      let OA := dot (vneg v1) v in
      let OB := dot vOB v in
      if less_than cmp OA 0 && less_than cmp OB 0 then Some e_non_crossing else Some e_overlapping
    | _ => Some e_non_crossing
    end
  else
    match qdiv_opt (cross v2 v1) denom with
    | None => None
    | Some t1 =>
      if less_than cmp t1 0 then Some e_non_crossing
      else
        match qdiv_opt (dot v1 v3) denom with
        | None => None
        | Some t2 =>
          if less_than cmp t2 0 || greater_than cmp t2 1 then Some e_non_crossing
          else Some (if equals cmp t2 0 || equals cmp t2 1 then e_endpoint else e_crossing)
        end
    end.
