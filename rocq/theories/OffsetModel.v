(** Parallel copies of a polyline: algorithm/point_sequence/polyline_offset.hpp.
    Coordinates are real numbers (the code takes square roots) and the comparison
    is exact. *)
From Verif Require Import RBase CurveModel.

Definition rpadd (a b : rp) : rp := (fst a + fst b, snd a + snd b).
Definition rpscale (k : R) (a : rp) : rp := (k * fst a, k * snd a).
(** arithmetic/vector/normalize.hpp:33-45; the zero vector divides by zero ([None]). *)
Definition rpnormalize (v : rp) : option rp :=
  let m := sqrt (fst v * fst v + snd v * snd v) in
  if Reqb m 0 then None else Some (rpscale (1 / m) v).
(** arithmetic/vector/perp.hpp:47-61. *)
Definition left_normal (u : rp) : rp := (- snd u, fst u).
Definition right_normal (u : rp) : rp := (snd u, - fst u).
(** perp.hpp:63-104; [true] is [oriented_left]. *)
Definition oriented_normal (left : bool) (u : rp) : rp := if left then left_normal u else right_normal u.

(** utility/utilities.hpp:128-146, [is_collinear] under exact comparison. *)
Definition ris_collinear (a b c : rp) : bool := Reqb (rpcross (rpsub b a) (rpsub c a)) 0.
(** algorithm/line_intersection.hpp: the denominator shared by all three functions. *)
Definition line_denom (A B C D : rp) : R :=
  fst A * (snd D - snd C) + fst B * (snd C - snd D) + fst D * (snd B - snd A) + fst C * (snd A - snd B).
Inductive ltype : Type := l_non_crossing | l_crossing | l_overlapping.
(** line_intersection.hpp:68-103, [line_line_intersect]; [None] for the point: not written. *)
Definition rline_line_intersect (A B C D : rp) : ltype * option rp :=
  let denom := line_denom A B C D in
  if Reqb denom 0 then
    if ris_collinear A B C then (l_overlapping, None) else (l_non_crossing, None)
  else
    let num := - (fst A * (snd C - snd B) + fst B * (snd A - snd C) + fst C * (snd B - snd A)) in
    (l_crossing, Some (rpadd C (rpscale (num / denom) (rpsub D C)))).
(** line_intersection.hpp:23-65, [line_line_intersect] with both parameters. *)
Definition rline_line_intersect_params (A B C D : rp) : ltype * option (rp * R * R) :=
  let denom := line_denom A B C D in
  if Reqb denom 0 then
    if ris_collinear A B C then (l_overlapping, None) else (l_non_crossing, None)
  else
    let num := fst A * (snd D - snd C) + fst C * (snd A - snd D) + fst D * (snd C - snd A) in
    let s := num / denom in
    let num2 := - (fst A * (snd C - snd B) + fst B * (snd A - snd C) + fst C * (snd B - snd A)) in
    let t := num2 / denom in
    (l_crossing, Some (rpadd A (rpscale s (rpsub B A)), s, t)).

(** polyline_offset.hpp:313, 324 (and 63, 75): the shift of a side; [None]: the
    side has length zero and is divided by it. *)
Definition side_shift (left : bool) (offset : R) (A B : rp) : option rp :=
  match rpnormalize (rpsub B A) with
  | None => None
  | Some u => Some (rpscale offset (oriented_normal left u))
  end.

(** polyline_offset.hpp:319-339: the loop; [rest] are the points from index d on.
    Each pushed point is [Some p], or [None] if [xPoint] was left uninitialised. *)
Fixpoint offset_loop (left : bool) (offset : R) (B pA pB : rp) (rest : list rp) (res : list (option rp)) : option (list (option rp)) :=
  match rest with
  | [] => Some res
  | D :: rest' =>
      match side_shift left offset B D with
      | None => None
      | Some v =>
          let pC := rpadd B v in
          let pD := rpadd D v in
          let res1 := res ++ [snd (rline_line_intersect pA pB pC pD)] in
          let res2 := match rest' with [] => res1 ++ [Some pD] | _ :: _ => res1 end in
          offset_loop left offset D pC pD rest' res2
      end
  end.

(** Outcomes of [polyline_offset]: the assertion of line 309 fails, a side of length
    zero is normalised, or the pushed points. *)
Inductive offset_result : Type := off_assert | off_zero_side | off_points (l : list (option rp)).

(** polyline_offset.hpp:301-347 [polyline_offset_impl] and 350-357 [polyline_offset]. *)
Definition polyline_offset (left : bool) (offset : R) (poly : list rp) : offset_result :=
  match poly with
  | A :: B :: rest =>
      match side_shift left offset A B with
      | None => off_zero_side
      | Some v =>
          let pA := rpadd A v in
          let pB := rpadd B v in
          match rest with
          | [] => off_points [Some pA; Some pB]
          | _ :: _ =>
              match offset_loop left offset B pA pB rest [Some pA] with
              | None => off_zero_side
              | Some l => off_points l
              end
          end
      end
  | _ => off_assert
  end.

(** polyline_offset.hpp:30-48, [classify_xpoint_type] and [is_fip]. *)
Inductive xpoint_type : Type := x_tip | x_pfip | x_nfip.
Definition classify_xpoint_type (s : R) : xpoint_type :=
  if Rltb s 0 then x_nfip else if Rltb 1 s then x_pfip else x_tip.

(** polyline_offset.hpp:79-111: what is pushed at one inner vertex. *)
Definition untrimmed_step (pA pB pC pD : rp) : list rp :=
  match rline_line_intersect_params pA pB pC pD with
  | (l_crossing, Some (X, s, t)) =>
      match classify_xpoint_type s, classify_xpoint_type t with
      | x_tip, x_tip => [X]
      | x_pfip, x_pfip | x_pfip, x_nfip => [X]
      | x_nfip, x_pfip | x_nfip, x_nfip => [pB; pC]
      | x_tip, _ | _, x_tip => [pB; pC]
      end
  | (l_overlapping, _) => [pB]
  | _ => []
  end.

(** polyline_offset.hpp:70-120: the loop of [untrimmed_offset]. *)
Fixpoint untrimmed_loop (left : bool) (offset : R) (B pA pB : rp) (rest : list rp) (res : list rp) : option (list rp) :=
  match rest with
  | [] => Some res
  | D :: rest' =>
      match side_shift left offset B D with
      | None => None
      | Some v =>
          let pC := rpadd B v in
          let pD := rpadd D v in
          let res1 := res ++ untrimmed_step pA pB pC pD in
          let res2 := match rest' with [] => res1 ++ [pD] | _ :: _ => res1 end in
          untrimmed_loop left offset D pC pD rest' res2
      end
  end.

(** polyline_offset.hpp:50-128, [untrimmed_offset]; [None]: assertion or zero side. *)
Definition untrimmed_offset (left : bool) (offset : R) (poly : list rp) : option (list rp) :=
  match poly with
  | A :: B :: rest =>
      match side_shift left offset A B with
      | None => None
      | Some v =>
          let pA := rpadd A v in
          let pB := rpadd B v in
          match rest with
          | [] => Some [pA; pB]
          | _ :: _ => untrimmed_loop left offset B pA pB rest [pA]
          end
      end
  | _ => None
  end.
