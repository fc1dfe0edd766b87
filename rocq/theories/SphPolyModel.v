(** A sphere against a polyline.  Models
    algorithm/intersection/sphere_polyline_intersection.hpp. *)
From Verif Require Import RBase SphereModel.

(** A call of the visitor: the index of the first point of the edge and the outputs of
    segment_sphere_intersection (the flags, both parameters and both points). *)
Record sp_call : Type := mkspcall { sp_edge : nat; sp_hits : two_hits }.
(** The result and the calls in order; [SpUndefined]: division by zero on an edge of length zero. *)
Inductive sp_result : Type := SpDone (intersected : bool) (calls : list sp_call) | SpUndefined.

(** sphere_polyline_intersection.hpp:34-46, from the edge that starts at point [i], the first of [pl]; [calls] are
    the calls made, the last one first.  The visitor answers a call from all the calls so far, this one first. *)
Fixpoint sp_loop (stop : list sp_call -> bool) (s : ball) (i : nat) (pl : list rvec) (calls : list sp_call) : sp_result :=
  match pl with
  | a :: ((b :: _) as rest) =>
    match segment_sphere_two a b s with
    | NotANumber => SpUndefined
    | Miss => sp_loop stop s (S i) rest calls
    | Hit h =>
      if th_in0 h || th_in1 h then
        let calls := mkspcall i h :: calls in
        if stop calls then SpDone true (rev calls) else sp_loop stop s (S i) rest calls
      else sp_loop stop s (S i) rest calls
    end
  | _ => SpDone (negb (Nat.eqb (length calls) 0)) (rev calls)
  end.
(** sphere_polyline_intersection.hpp:24-49. *)
Definition sphere_polyline_intersect (stop : list sp_call -> bool) (s : ball) (pl : list rvec) : sp_result := sp_loop stop s 0 pl [].
