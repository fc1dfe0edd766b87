(** Polylines measured by arc length, over the reals, in any dimension.  Models
    algorithm/point_sequence/{polyline_split,polyline_mid_point,clip_polyline_ends,length}.hpp and
    algorithm/split_segment.hpp. *)
From Verif Require Import RBase.

(** algorithm/distance/point_point_distance.hpp:37-43 (exact up to dimension 4, see C47). *)
Definition rdist (p q : rvec) : R := rnorm (rsub q p).

(** point_sequence/length.hpp:26-40, [polyline_length]. *)
Fixpoint polyline_length_from (length : R) (p : rvec) (ps : list rvec) : R :=
  match ps with
  | [] => length
  | q :: ps' => polyline_length_from (length + rdist p q) q ps'
  end.
Definition polyline_length (poly : list rvec) : R :=
  match poly with [] => 0 | p :: ps => polyline_length_from 0 p ps end.

(** point_sequence/length.hpp:42-56, [polygon_length]: i runs over the indices, j over the next
    ones; j starts at 1 and is out of range for a single point ([None]). *)
Definition polygon_length (poly : list rvec) : option R :=
  match poly with
  | [] => Some 0
  | [_] => None
  | p :: ps => Some (polyline_length_from 0 p (ps ++ [p]))
  end.

(** The point at distance [l] from [q] toward [p] (all the headers below write
    [q + l * normalize(p - q)]); [None]: division by zero. *)
Definition back_from (p q : rvec) (l : R) : option rvec :=
  let v := rsub p q in
  if Reqb (rnorm v) 0 then None else Some (radd q (rscale l (rnormalize v))).

(** What a loop can end in. *)
Inductive outcome (A : Type) : Type := Value (a : A) | Undefined.
Arguments Value {A} _.
Arguments Undefined {A}.

(** point_sequence/polyline_split.hpp:43-68, [polyline_point_at_position]: the loop, with the
    index of the last edge seen in [i]. *)
Fixpoint position_loop (pos : R) (length : R) (i : nat) (p : rvec) (ps : list rvec) : outcome (nat * option rvec) :=
  match ps with
  | [] => Value (i - 1, None)%nat
  | q :: ps' =>
    let d := rdist p q in
    let length := length + d in
    if Rltb pos length then
      let l := length - pos in
      if Rltb l d then
        match back_from p q l with Some m => Value (i, Some m) | None => Undefined end
      else Value (i, None)
    else position_loop pos length (S i) q ps'
  end.
Definition polyline_point_at_position (poly : list rvec) (pos : R) : outcome (nat * option rvec) :=
  match poly with
  | [] => Value (0%nat, None)
  | p :: ps => position_loop pos 0 0 p ps
  end.

(** point_sequence/polyline_split.hpp:89-121, [polyline_split].  [a] is the first part so far, in
    reverse.  After the loop [b] takes the last point of [a] (undefined if [a] is empty) and the
    points from j on. *)
Definition split_finish (a : list rvec) (rest : list rvec) : outcome (list rvec * list rvec) :=
  match a with
  | [] => Undefined
  | m :: _ => Value (rev a, m :: rest)
  end.
Fixpoint split_loop (pos : R) (length : R) (a : list rvec) (p : rvec) (ps : list rvec) : outcome (list rvec * list rvec) :=
  match ps with
  | [] => split_finish a []
  | q :: ps' =>
    let d := rdist p q in
    let length := length + d in
    let a := p :: a in
    if Rltb pos length then
      let l := length - pos in
      if Rltb l d then
        match back_from p q l with Some m => split_finish (m :: a) (q :: ps') | None => Undefined end
      else split_finish a (q :: ps')
    else split_loop pos length a q ps'
  end.
Definition polyline_split (poly : list rvec) (pos : R) : outcome (list rvec * list rvec) :=
  match poly with
  | [] => Undefined
  | p :: ps => split_loop pos 0 [] p ps
  end.

(** point_sequence/clip_polyline_ends.hpp:23-40, [polyline_segment_lengths]. *)
Fixpoint segment_lengths_from (length : R) (p : rvec) (ps : list rvec) : list R :=
  match ps with
  | [] => []
  | q :: ps' => let length := length + rdist p q in length :: segment_lengths_from length q ps'
  end.
Definition polyline_segment_lengths (poly : list rvec) : list R :=
  match poly with [] => [] | p :: ps => segment_lengths_from 0 p ps end.
(** clip_polyline_ends.hpp:42-81: both overloads with a cutoff. *)
Fixpoint segment_lengths_upto (cutoff length : R) (p : rvec) (ps : list rvec) : list R :=
  match ps with
  | [] => []
  | q :: ps' =>
    let length := length + rdist p q in
    length :: (if Rltb cutoff length then [] else segment_lengths_upto cutoff length q ps')
  end.
Definition polyline_segment_lengths_cutoff (poly : list rvec) (cutoff : R) : list R :=
  match poly with [] => [] | p :: ps => segment_lengths_upto cutoff 0 p ps end.

(** [std::lower_bound] on an ascending sequence: the index and value of the first element that
    is not less than [v]. *)
Fixpoint lower_bound_at (i : nat) (l : list R) (v : R) : option (nat * R) :=
  match l with
  | [] => None
  | x :: l' => if Rltb x v then lower_bound_at (S i) l' v else Some (i, x)
  end.

(** [numeric_sequence_equals] (C03). *)
Fixpoint rvec_equals (cmp : rpolicy) (a b : rvec) : bool :=
  match a, b with x :: a', y :: b' => req cmp x y && rvec_equals cmp a' b' | _, _ => true end.

(** clip_polyline_ends.hpp:83-149: both overloads of [clip_polyline_front]. *)
Definition clip_polyline_front (cmp : rpolicy) (poly : list rvec) (l : R) : outcome (list rvec) :=
  match lower_bound_at 0 (polyline_segment_lengths_cutoff poly l) l with
  | None => Value []
  | Some (index, v) =>
    let l := v - l in
    match nth_error poly index, skipn (index + 1) poly with
    | Some p, q :: rest =>
      if rgt cmp l 0 then
        match back_from p q l with
        | None => Undefined
        | Some m => Value (if rvec_equals cmp m q then q :: rest else m :: q :: rest)
        end
      else match rest with [] => Value [] | _ => Value (q :: rest) end
    | _, _ => Undefined
    end
  end.
(** clip_polyline_ends.hpp:151-158. *)
Definition clip_polyline_back (cmp : rpolicy) (poly : list rvec) (l : R) : outcome (list rvec) :=
  match clip_polyline_front cmp (rev poly) l with Value r => Value (rev r) | Undefined => Undefined end.
(** clip_polyline_ends.hpp:160-164. *)
Definition clip_polyline_ends (cmp : rpolicy) (poly : list rvec) (l : R) : outcome (list rvec) :=
  match clip_polyline_front cmp poly l with Value r => clip_polyline_back cmp r l | Undefined => Undefined end.

(** point_sequence/polyline_mid_point.hpp:23-48.  [*it] of an end iterator is undefined. *)
Definition polyline_mid_point (poly : list rvec) : outcome rvec :=
  let lengths := polyline_segment_lengths poly in
  let total := last lengths 0 in
  let pos := total * (1 / 2) in
  match lower_bound_at 0 lengths pos with
  | None => Undefined
  | Some (index, v) =>
    match nth_error poly index, nth_error poly (index + 1) with
    | Some p, Some q => match back_from p q (v - pos) with Some m => Value m | None => Undefined end
    | _, _ => Undefined
    end
  end.

(** algorithm/split_segment.hpp:22-46; [None]: the recursion is deeper than the fuel. *)
Fixpoint split_segment_rec (fuel : nat) (max2 : R) (s e : rvec) : option (list (rvec * rvec)) :=
  match fuel with
  | O => None
  | S fuel' =>
    if Rltb max2 (rdot (rsub e s) (rsub e s)) then
      let mid := radd s (rscale (1 / 2) (rsub e s)) in
      match split_segment_rec fuel' max2 s mid, split_segment_rec fuel' max2 mid e with
      | Some a, Some b => Some (a ++ b)
      | _, _ => None
      end
    else Some [(s, e)]
  end.
Definition split_segment (fuel : nat) (s e : rvec) (maxSize : R) : option (list (rvec * rvec)) :=
  split_segment_rec fuel (maxSize * maxSize) s e.
