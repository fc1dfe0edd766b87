(** The side of a polyline a point is on.  Models algorithm/point_sequence/point_polyline_orientation.hpp.
    [None] is a failed assertion, an index out of range, or a division by zero. *)
From Verif Require Import Base CmpModel OrientModel DistModel.

(** point_polyline_orientation.hpp:26-118. *)
Definition point_polyline_orientation_at (cmp : policy) (p : pt) (ps : list pt) (minDistance : Q) (segIndex : nat) : option orientation_type :=
  if (length ps <=? 1)%nat then None
  else if greater_than cmp minDistance 0 then
    match nth_error ps segIndex, nth_error ps (segIndex + 1) with
    | Some pi, Some pj =>
      match point_segment_closest_point_and_param p pi pj with
      | None => None
      | Some (_, t) =>
        if Qltb 0 t && Qltb t 1 then Some (get_orientation cmp pi pj p)
        else if equals cmp t 0 then
          match segIndex with
          | O => Some (get_orientation cmp pi pj p)
          | S h =>
            match nth_error ps h with
            | None => None
            | Some ph =>
              match get_orientation cmp ph pi pj with
              | oriented_left => Some (if is_vector_between cmp (vsub pj pi) (vsub ph pi) (vsub p pi) false then oriented_left else oriented_right)
              | oriented_right => Some (if is_vector_between cmp (vsub ph pi) (vsub pj pi) (vsub p pi) false then oriented_right else oriented_left)
              | oriented_collinear => Some (get_orientation cmp pi pj p)
              end
            end
          end
        else
          match nth_error ps (segIndex + 2) with
          | None => Some (get_orientation cmp pi pj p)
          | Some pk =>
            match get_orientation cmp pi pj pk with
            | oriented_left => Some (if is_vector_between cmp (vsub pk pj) (vsub pi pj) (vsub p pj) false then oriented_left else oriented_right)
            | oriented_right => Some (if is_vector_between cmp (vsub pi pj) (vsub pk pj) (vsub p pj) false then oriented_right else oriented_left)
            | oriented_collinear => Some (get_orientation cmp pi pj p)
            end
          end
      end
    | _, _ => None
    end
  else Some oriented_collinear.

(** point_polyline_orientation.hpp:134-145, the search.  Simplification: the start is [None] instead
    of the largest number of the type. *)
Definition nearest_side (p : pt) (ps : list pt) : option (Q * nat) :=
  fold_left (fun best e =>
    let d2 := point_segment_distance_sqrd p (fst (snd e)) (snd (snd e)) in
    if less_inf d2 (option_map fst best) then Some (d2, fst e) else best) (polyline_edges ps) None.
(** point_polyline_orientation.hpp:120-147. *)
Definition point_polyline_orientation (cmp : policy) (p : pt) (ps : list pt) : option orientation_type :=
  match nearest_side p ps with
  | None => None
  | Some (minDistance, segIndex) => point_polyline_orientation_at cmp p ps minDistance segIndex
  end.
