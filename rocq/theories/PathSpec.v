(** Specification of polylines measured by arc length. *)
From Verif Require Import RBase.

(** All points have [n] coordinates. *)
Definition same_dim (n : nat) (ps : list rvec) : Prop := Forall (fun p => length p = n) ps.
(** The Euclidean distance and the length of a polyline. *)
Definition euclid (p q : rvec) : R := sqrt (rdot (rsub q p) (rsub q p)).
Fixpoint path_length (ps : list rvec) : R :=
  match ps with
  | a :: (b :: _) as t => euclid a b + path_length t
  | _ => 0
  end.
(** The point that divides the segment from [p] to [q] in the ratio t : 1 - t. *)
Definition on_the_way (p q : rvec) (t : R) : rvec := radd p (rscale t (rsub q p)).
(** [m] is the point of the polyline at arc length [s] from its start. *)
Definition point_at (ps : list rvec) (s : R) (m : rvec) : Prop :=
  exists pre p q post t, ps = pre ++ p :: q :: post /\ 0 <= t <= 1 /\
    s = path_length (pre ++ [p]) + t * euclid p q /\ m = on_the_way p q t.
(** The pieces of a segment cut into [n] equal parts, in order. *)
Definition equal_parts (s e : rvec) (n : nat) : list (rvec * rvec) :=
  map (fun i => (on_the_way s e (INR i / INR n), on_the_way s e (INR (S i) / INR n))) (seq 0 n).
