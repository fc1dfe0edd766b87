(** Specification vocabulary for walks along the border of a polygon. *)
From Verif Require Import RBase PathSpec StretchModel.

(** The vertex indices met on a walk from index [j] on: k of them. *)
Fixpoint walk (w : winding) (n j k : nat) : list nat :=
  match k with
  | O => []
  | S k' => j :: walk w n (match w with clockwise => (j + n - 1) mod n | counterclockwise => (j + 1) mod n end) k'
  end.
(** Two neighbouring vertices of the polygon. *)
Definition border_side (P : list rvec) (A B : rvec) : Prop :=
  exists i, nth_error P i = Some A /\ nth_error P (S i mod length P) = Some B.
(** Not all vertices are equal. *)
Definition has_length (P : list rvec) : Prop := exists A B, border_side P A B /\ 0 < euclid A B.
Definition on_side (A B X : rvec) : Prop := exists t, 0 <= t <= 1 /\ X = on_the_way A B t.
Definition on_border (P : list rvec) (X : rvec) : Prop := exists A B, border_side P A B /\ on_side A B X.
(** A stretch of the border of length [extent]: from [p] through the vertices j, next, next, ... in the given direction,
    to a last point on the way to the vertex after those. *)
Definition stretch (w : winding) (P : list rvec) (p : rvec) (extent : R) (j : nat) (pts : list rvec) : Prop :=
  exists k vs last_ target, pts = p :: vs ++ [last_] /\
    Forall2 (fun i v => nth_error P i = Some v) (walk w (length P) j (S k)) (vs ++ [target]) /\
    on_side (List.last vs p) target last_ /\
    path_length pts = extent.
