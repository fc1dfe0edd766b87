(** The polygon test and the bounds of a point sequence on IEEE doubles.  Models algorithm/point_in_polygon.hpp
    and primitive/point_sequence_utilities.hpp instantiated with points of doubles; the arithmetic is that
    of FloatModel. *)
From Coq Require Import Floats List Bool Arith.
From Verif Require Import FloatModel.
Import ListNotations.
Local Open Scope float_scope.

(** A point of two doubles. *)
Record fpt : Type := mkfpt { fx : float; fy : float }.
(** The closed loop [for (i = 0, j = size - 1; i < size; j = i, ++i)]: the pairs (point j, point i) in the
    order visited, starting from the predecessor [prev]. *)
Fixpoint fchain (prev : fpt) (ps : list fpt) : list (fpt * fpt) :=
  match ps with [] => [] | a :: ps' => (prev, a) :: fchain a ps' end.
Definition fclosed_chain (ps : list fpt) : list (fpt * fpt) :=
  match ps with [] => [] | a :: _ => fchain (last ps a) ps end.
(** point_in_polygon.hpp:43-64, one turn of the loop: u0 = point i, u1 = point j. *)
Definition fpip_flip (A u1 u0 : fpt) : bool :=
  if fy A <? fy u1 then
    if fy u0 <=? fy A then
      (fx A - fx u0) * (fy u1 - fy u0) <? (fy A - fy u0) * (fx u1 - fx u0)
    else false
  else if fy A <? fy u0 then
    (fy A - fy u0) * (fx u1 - fx u0) <? (fx A - fx u0) * (fy u1 - fy u0)
  else false.
(** point_in_polygon.hpp:26-68. *)
Definition fpoint_in_polygon (A : fpt) (ps : list fpt) : bool :=
  if Nat.ltb (length ps) 3 then false
  else fold_left (fun inside e => if fpip_flip A (fst e) (snd e) then negb inside else inside) (fclosed_chain ps) false.

(** point_sequence_utilities.hpp:187-200: xmin, xmax, ymin, ymax. *)
Record fbounds : Type := mkfbounds { b_xmin : float; b_xmax : float; b_ymin : float; b_ymax : float }.
(** point_sequence_utilities.hpp:167-183 and 196-199, [initial]: the infinities. *)
Definition initial_bounds : fbounds := mkfbounds infinity neg_infinity infinity neg_infinity.
(** point_sequence_utilities.hpp:227-240, one turn of the loop. *)
Definition widen_bounds (cmp : fpolicy) (b : fbounds) (p : fpt) : fbounds :=
  mkfbounds (if f_lt cmp (fx p) (b_xmin b) then fx p else b_xmin b)
            (if f_gt cmp (fx p) (b_xmax b) then fx p else b_xmax b)
            (if f_lt cmp (fy p) (b_ymin b) then fy p else b_ymin b)
            (if f_gt cmp (fy p) (b_ymax b) then fy p else b_ymax b).
(** point_sequence_utilities.hpp:218-243, [get_bounds] in the plane. *)
Definition fget_bounds (cmp : fpolicy) (ps : list fpt) : fbounds := fold_left (widen_bounds cmp) ps initial_bounds.
