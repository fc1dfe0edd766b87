(** Simplicity of a polygon with points of doubles.  Models algorithm/point_sequence/is_polygon_simple.hpp and the visits of
    algorithm/intersection/segment_polyline_intersection.hpp instantiated with double. *)
From Coq Require Import Floats List Bool Arith.
From Verif Require Import LinIntModel PlanarModel FloatModel FloatPolyModel FloatLinIntModel.
Import ListNotations.

(** is_polygon_simple.hpp:70-93: whether the sides i -> i' and j -> j' meet; reading out of range is undefined. *)
Definition fintersecting (cmp : fpolicy) (ps : list fpt) (i i' j j' : nat) : option bool :=
  match nth_error ps i, nth_error ps i', nth_error ps j, nth_error ps j' with
  | Some A, Some B, Some C, Some D => Some (negb (is_non_crossing (fst (fsegment_segment_intersection cmp A B C D))))
  | _, _, _, _ => None
  end.
(** is_polygon_simple.hpp:70-93, the loops over pairs of sides; the indices are those of PlanarModel. *)
Definition fis_polygon_simple (cmp : fpolicy) (ps : list fpt) : option bool :=
  let n := length ps in
  if Nat.ltb n 2 then None
  else option_map negb (search (fun ij : nat * nat => let (i, j) := ij in
    match fintersecting cmp ps i (next n i) j (next n j) with
    | None => None
    | Some b => Some (b && negb (adjacent n i j))
    end) (simple_indices n)).
(** segment_polyline_intersection.hpp:29-55 without a visitor: does the segment meet a side of the polyline? *)
Fixpoint fsides_hit (cmp : fpolicy) (A B : fpt) (ps : list fpt) : list bool :=
  match ps with
  | C :: ((D :: _) as ps') => negb (is_non_crossing (fst (fsegment_segment_intersection cmp A B C D))) :: fsides_hit cmp A B ps'
  | _ => []
  end.
Definition fsegment_polyline_intersect (cmp : fpolicy) (A B : fpt) (ps : list fpt) : bool := existsb (fun b => b) (fsides_hit cmp A B ps).
