(** Curvature of planar polylines: algorithm/point_sequence/curvature.hpp.
    Coordinates are real numbers (the code takes square roots); a division by
    zero is [None] (with [double] it is a NaN or an infinity). *)
From Verif Require Import RBase.

(** Planar points and vectors with real coordinates. *)
Notation rp := (R * R)%type.
Definition rpsub (a b : rp) : rp := (fst a - fst b, snd a - snd b).
(** algebra/exterior_product.hpp, [exterior_product_area]. *)
Definition rpcross (a b : rp) : R := fst a * snd b - snd a * fst b.
(** algorithm/distance/point_point_distance.hpp, [point_point_distance_sqrd]. *)
Definition rpd2 (a b : rp) : R := (fst b - fst a) * (fst b - fst a) + (snd b - snd a) * (snd b - snd a).
Definition rdiv_opt (a b : R) : option R := if Reqb b 0 then None else Some (a / b).
(** point_sequence_traits::get_point; every use is in range. *)
Definition rpoint (poly : list rp) (i : nat) : rp := nth i poly (0, 0).

(** curvature.hpp:54-80, [polyline_signed_curvature_at_index]. *)
Definition polyline_signed_curvature_at_index (poly : list rp) (j : nat) : option R :=
  if (Nat.ltb 0 j && Nat.ltb (j + 1) (length poly))%bool then
    let i := (j - 1)%nat in
    let k := (j + 1)%nat in
    let dij := rpd2 (rpoint poly j) (rpoint poly i) in
    let djk := rpd2 (rpoint poly j) (rpoint poly k) in
    let dik := rpd2 (rpoint poly i) (rpoint poly k) in
    let v1 := rpsub (rpoint poly j) (rpoint poly i) in
    let v2 := rpsub (rpoint poly k) (rpoint poly j) in
    rdiv_opt (2 * rpcross v1 v2) (sqrt (dij * djk * dik))
  else Some 0.

(** curvature.hpp:82-110, [polyline_total_curvature_over_index]. *)
Definition polyline_total_curvature_over_index (poly : list rp) (j : nat) : option R :=
  if (Nat.ltb 0 j && Nat.ltb (j + 1) (length poly))%bool then
    let i := (j - 1)%nat in
    let k := (j + 1)%nat in
    let dij := rpd2 (rpoint poly j) (rpoint poly i) in
    let djk := rpd2 (rpoint poly j) (rpoint poly k) in
    let dik := rpd2 (rpoint poly i) (rpoint poly k) in
    let v1 := rpsub (rpoint poly j) (rpoint poly i) in
    let v2 := rpsub (rpoint poly k) (rpoint poly j) in
    match rdiv_opt (2 * Rabs (rpcross v1 v2)) (sqrt (dij * djk * dik)) with
    | None => None
    | Some kappa => Some (1 / 2 * (sqrt dij + sqrt djk) * kappa)
    end
  else Some 0.

(** curvature.hpp:126-143 and 162-179: the loop shared by
    [polyline_total_curvature] ([f] the identity) and
    [polyline_total_absolute_curvature] ([f] the absolute value); [n] counts the
    remaining rounds. *)
Fixpoint curvature_loop (f : R -> R) (poly : list rp) (n i j k : nat) (dij : R) (v1 : rp) (sum : R) : option R :=
  match n with
  | O => Some sum
  | S n' =>
      let djk := rpd2 (rpoint poly j) (rpoint poly k) in
      let dik := rpd2 (rpoint poly i) (rpoint poly k) in
      let v2 := rpsub (rpoint poly k) (rpoint poly j) in
      match rdiv_opt (2 * f (rpcross v1 v2)) (sqrt (dij * djk * dik)) with
      | None => None
      | Some curvature =>
          curvature_loop f poly n' (S i) (S j) (S k) djk v2
            (sum + 1 / 2 * (sqrt dij + sqrt djk) * curvature)
      end
  end.
Definition total_curvature_by (f : R -> R) (poly : list rp) : option R :=
  let size := length poly in
  if Nat.ltb 2 size then
    curvature_loop f poly (size - 2) 0 1 2
      (rpd2 (rpoint poly 1) (rpoint poly 0)) (rpsub (rpoint poly 1) (rpoint poly 0)) 0
  else Some 0.
(** curvature.hpp:112-145. *)
Definition polyline_total_curvature : list rp -> option R := total_curvature_by (fun x => x).
(** curvature.hpp:147-181. *)
Definition polyline_total_absolute_curvature : list rp -> option R := total_curvature_by Rabs.

(** utility/utilities.hpp:855-859, [sign]: zero counts as positive. *)
Definition rsign (v : R) : Z := if Rleb 0 v then 1%Z else (-1)%Z.

(** curvature.hpp:183-203, [inflection_points]: the loop from index [i], [n]
    rounds. *)
Fixpoint inflection_loop (poly : list rp) (n i : nat) (cSign : Z) (results : list nat) : option (list nat) :=
  match n with
  | O => Some results
  | S n' =>
      match polyline_signed_curvature_at_index poly i with
      | None => None
      | Some k =>
          let nSign := rsign k in
          if Z.eqb nSign cSign then inflection_loop poly n' (S i) cSign results
          else inflection_loop poly n' (S i) nSign (results ++ [i])
      end
  end.
Definition inflection_points (poly : list rp) : option (list nat) :=
  match polyline_signed_curvature_at_index poly 0 with
  | None => None
  | Some k => inflection_loop poly (length poly - 1) 1 (rsign k) []
  end.

(** curvature.hpp:205-233, [split_polyline_by_inflection_points].  The moved-from
    vector is empty (guaranteed for [std::vector]).  An empty polyline is read
    out of range (line 210). *)
Fixpoint split_inflection_loop (poly : list rp) (n i : nat) (cSign : Z) (current : list rp) (results : list (list rp))
    : option (list (list rp)) :=
  match n with
  | O => Some (if Nat.ltb 1 (length current) then results ++ [current] else results)
  | S n' =>
      match polyline_signed_curvature_at_index poly i with
      | None => None
      | Some k =>
          let nSign := rsign k in
          let current := current ++ [rpoint poly i] in
          if Z.eqb nSign cSign then split_inflection_loop poly n' (S i) cSign current results
          else if Nat.ltb 1 (length current)
          then split_inflection_loop poly n' (S i) nSign [rpoint poly i] (results ++ [current])
          else split_inflection_loop poly n' (S i) nSign current results
      end
  end.
Definition split_polyline_by_inflection_points (poly : list rp) : option (list (list rp)) :=
  match poly with
  | [] => None
  | p :: _ =>
      match polyline_signed_curvature_at_index poly 0 with
      | None => None
      | Some k => split_inflection_loop poly (length poly - 1) 1 (rsign k) [p] []
      end
  end.

(** curvature.hpp:235-266, [split_by_total_curvature]. *)
Fixpoint split_total_loop (poly : list rp) (ksplit : R) (n i : nat) (ktot : R) (current : list rp) (results : list (list rp))
    : option (list (list rp)) :=
  match n with
  | O => Some (if Nat.ltb 1 (length current) then results ++ [current] else results)
  | S n' =>
      match polyline_total_curvature_over_index poly i with
      | None => None
      | Some k =>
          let ktot := ktot + k in
          let current := current ++ [rpoint poly i] in
          if Rltb ksplit ktot then
            if Nat.ltb 1 (length current)
            then split_total_loop poly ksplit n' (S i) 0 [rpoint poly i] (results ++ [current])
            else split_total_loop poly ksplit n' (S i) 0 current results
          else split_total_loop poly ksplit n' (S i) ktot current results
      end
  end.
Definition split_by_total_curvature (poly : list rp) (ksplit : R) : option (list (list rp)) :=
  match poly with
  | [] => None
  | p :: _ => split_total_loop poly ksplit (length poly - 1) 1 0 [p] []
  end.
