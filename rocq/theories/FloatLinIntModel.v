(** Intersection of two plane segments with points of doubles.  Models algorithm/intersection/segment_segment_intersection.hpp
    and the tests of utility/utilities.hpp that it uses, instantiated with double; the arithmetic is that of FloatModel. *)
From Coq Require Import Floats List Bool.
From Verif Require Import FloatModel FloatPolyModel LinIntModel DistModel.
Import ListNotations.
Local Open Scope float_scope.

(** utilities.hpp:134-148 with algebra/exterior_product.hpp:87-95. *)
Definition fis_collinear (cmp : fpolicy) (A B C : fpt) : bool :=
  f_eq cmp ((fx B - fx A) * (fy C - fy A) - (fy B - fy A) * (fx C - fx A)) 0.
(** utilities.hpp:170-213 with the bounds included. *)
Definition fis_collinear_point_between (cmp : fpolicy) (A B C : fpt) : bool :=
  if negb (f_eq cmp (fx A) (fx B)) then
    (f_le cmp (fx A) (fx C) && f_le cmp (fx C) (fx B)) || (f_ge cmp (fx A) (fx C) && f_ge cmp (fx C) (fx B))
  else
    (f_le cmp (fy A) (fy C) && f_le cmp (fy C) (fy B)) || (f_ge cmp (fy A) (fy C) && f_ge cmp (fy C) (fy B)).
(** utilities.hpp:152-166. *)
Definition fis_between (cmp : fpolicy) (A B C : fpt) : bool := fis_collinear cmp A B C && fis_collinear_point_between cmp A B C.
(** tensor/numeric_sequence_compare.hpp:22-88, [numeric_sequence_equals] in the plane; the C++ compares the second coordinate
    first, the conjunction is the same. *)
Definition fpt_equals (cmp : fpolicy) (A B : fpt) : bool := f_eq cmp (fx A) (fx B) && f_eq cmp (fy A) (fy B).
(** segment_segment_intersection.hpp:24-146. *)
Definition fparallel_intersection (cmp : fpolicy) (A B C D : fpt) : itype * list fpt :=
  if negb (fis_collinear cmp A B C) then (e_non_crossing, [])
  else
    let CisBetweenAB := fis_between cmp A B C in
    let DisBetweenAB := fis_between cmp A B D in
    if CisBetweenAB && DisBetweenAB then (e_overlapping, [C; D])
    else
      let AisBetweenCD := fis_between cmp C D A in
      let BisBetweenCD := fis_between cmp C D B in
      if AisBetweenCD && BisBetweenCD then (e_overlapping, [A; B])
      else if CisBetweenAB && BisBetweenCD then (e_overlapping, [C; B])
      else if CisBetweenAB && AisBetweenCD then (e_overlapping, [C; A])
      else if DisBetweenAB && BisBetweenCD then (e_overlapping, [D; B])
      else if DisBetweenAB && AisBetweenCD then (e_overlapping, [D; A])
      else
        let originEqualsC := fpt_equals cmp A C in
        let destinationEqualsD := fpt_equals cmp B D in
        let originEqualsD := fpt_equals cmp A D in
        let destinationEqualsC := fpt_equals cmp B C in
        if (originEqualsC && destinationEqualsD) || (originEqualsD && destinationEqualsC) then (e_overlapping, [A; B])
        else if originEqualsC then (e_endpoint, [A])
        else if originEqualsD then (e_endpoint, [A])
        else if destinationEqualsC then (e_endpoint, [B])
        else if destinationEqualsD then (e_endpoint, [B])
        else (e_non_crossing, []).
(** segment_segment_intersection.hpp:157-160, 166-168 and 175-177. *)
Definition fxdenom (A B C D : fpt) : float :=
  fx A * (fy D - fy C) + fx B * (fy C - fy D) + fx D * (fy B - fy A) + fx C * (fy A - fy B).
Definition fxnum_s (A B C D : fpt) : float :=
  fx A * (fy D - fy C) + fx C * (fy A - fy D) + fx D * (fy C - fy A).
Definition fxnum_t (A B C D : fpt) : float :=
  - (fx A * (fy C - fy B) + fx B * (fy A - fy C) + fx C * (fy B - fy A)).
(** segment_segment_intersection.hpp:148-203. *)
Definition fsegment_segment_intersection (cmp : fpolicy) (A B C D : fpt) : itype * list fpt :=
  let denom := fxdenom A B C D in
  if f_eq cmp denom 0 then fparallel_intersection cmp A B C D
  else
    let num := fxnum_s A B C D in
    let iType := if f_eq cmp num 0 || f_eq cmp num denom then e_endpoint else e_invalid_intersection in
    let s := num / denom in
    let num := fxnum_t A B C D in
    let iType := if f_eq cmp num 0 || f_eq cmp num denom then e_endpoint else iType in
    let t := num / denom in
    let x := mkfpt (fx A + s * (fx B - fx A)) (fy A + s * (fy B - fy A)) in
    if f_lt cmp 0 s && f_lt cmp s 1 && f_lt cmp 0 t && f_lt cmp t 1 then (e_crossing, [x])
    else if f_gt cmp 0 s || f_gt cmp s 1 || f_gt cmp 0 t || f_gt cmp t 1 then (e_non_crossing, [])
    else
      let iType := if itype_is_invalid iType && (f_eq cmp 0 s || f_eq cmp s 1 || f_eq cmp 0 t || f_eq cmp t 1) then e_endpoint else iType in
      (iType, [x]).
