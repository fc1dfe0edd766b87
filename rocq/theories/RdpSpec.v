(** Specification vocabulary for polyline simplification. *)
From Coq Require Import Sorted.
From Verif Require Import Base.

Definition lerp_at (A B : pt) (t : Q) : pt := vadd A (vscale t (vsub B A)).
(** Some point of the line through A and B is at most eps away from P. *)
Definition near_line (eps : Q) (A B P : pt) : Prop :=
  exists t, dot (vsub P (lerp_at A B t)) (vsub P (lerp_at A B t)) <= eps * eps.
(** Some point of the segment from A to B is at most eps away from P. *)
Definition near_segment (eps : Q) (A B P : pt) : Prop :=
  exists t, 0 <= t <= 1 /\ dot (vsub P (lerp_at A B t)) (vsub P (lerp_at A B t)) <= eps * eps.
Definition near_polyline (eps : Q) (ps : list pt) (P : pt) : Prop :=
  exists i A B, nth_error ps i = Some A /\ nth_error ps (S i) = Some B /\ near_segment eps A B P.
(** [idx] is an increasing list of indices. *)
Definition increasing (idx : list nat) : Prop := StronglySorted lt idx.
(** c follows a in the list. *)
Definition neighbours (idx : list nat) (a c : nat) : Prop := exists l1 l2, idx = l1 ++ a :: c :: l2.
(** The points a, ..., b all exist and those strictly between are near the line through a and b. *)
Definition flat_between (eps : Q) (ps : list pt) (a b : nat) : Prop :=
  forall k A B P, (a < k < b)%nat -> nth_error ps a = Some A -> nth_error ps b = Some B -> nth_error ps k = Some P ->
    near_line eps A B P.
Definition picked (ps : list pt) (idx : list nat) (out : list pt) : Prop :=
  Forall2 (fun i p => nth_error ps i = Some p) idx out.
Definition all_different (ps : list pt) : Prop :=
  forall i j A B, nth_error ps i = Some A -> nth_error ps j = Some B -> A =p= B -> i = j.
