(** The stretch of a polygon's border around a point, over the reals, in any dimension.  Models
    polygon_subsequence of algorithm/point_sequence/find_subsequence.hpp. *)
From Verif Require Import RBase PathModel.

(** find_subsequence.hpp:86-110. *)
Inductive winding := clockwise | counterclockwise.
Definition polygon_incrementer (w : winding) (size i : nat) : nat :=
  match w with clockwise => (i + size - 1) mod size | counterclockwise => (i + 1) mod size end.

(** find_subsequence.hpp:118-136.  [None]: the fuel is used up, or a point out of range. *)
Fixpoint half_loop (fuel : nat) (w : winding) (P : list rvec) (currentP : rvec) (extent : R) (j : nat) (result : list rvec) : option (list rvec) :=
  match fuel with
  | O => None
  | S fuel' =>
    if Rltb 0 extent then
      match nth_error P j with
      | None => None
      | Some pointj =>
        let length_ := rdist currentP pointj in
        let j' := polygon_incrementer w (length P) j in
        if Rleb length_ extent then half_loop fuel' w P pointj (extent - length_) j' (result ++ [pointj])
        else
          let q := radd currentP (rscale extent (rnormalize (rsub pointj currentP))) in
          half_loop fuel' w P q 0 j' (result ++ [q])
      end
    else Some result
  end.
(** find_subsequence.hpp:112-139. *)
Definition polygon_subsequence_half (fuel : nat) (w : winding) (P : list rvec) (p : rvec) (extent : R) (startIndex : nat) : option (list rvec) :=
  half_loop fuel w P p extent (polygon_incrementer w (length P) startIndex) [p].

(** find_subsequence.hpp:142-154; [startIndex] is the answer of the search of lines 62-83. *)
Definition polygon_subsequence (fuel : nat) (P : list rvec) (p : rvec) (extent : R) (startIndex : nat) : option (list rvec) :=
  match polygon_subsequence_half fuel clockwise P p extent (startIndex + 1), polygon_subsequence_half fuel counterclockwise P p extent startIndex with
  | Some result1, Some result2 => Some (rev (tl result1) ++ tl result2)
  | _, _ => None
  end.
