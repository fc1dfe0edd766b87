(** Specification of polar coordinates in any dimension. *)
From Verif Require Import RBase.

(** The product of the sines of some angles. *)
Fixpoint sines (angles : list R) : R :=
  match angles with [] => 1 | a :: angles => sin a * sines angles end.
(** Coordinate [k] of the point with polar coordinates r, t1, ..., t(D-1): r cos t1 sin t2 ... sin
    t(D-1) and r sin t1 sin t2 ... sin t(D-1) for the first two, r cos tk sin t(k+1) ... sin t(D-1)
    for the others.  (In dimension 2: r cos t, r sin t; in dimension 3 t2 is the angle from the
    third axis.) *)
Definition coordinate (p : list R) (k : nat) : R :=
  let r := nth 0 p 0 in
  match k with
  | 0%nat => r * cos (nth 1 p 0) * sines (skipn 2 p)
  | 1%nat => r * sin (nth 1 p 0) * sines (skipn 2 p)
  | _ => r * cos (nth k p 0) * sines (skipn (S k) p)
  end.
(** [p] are polar coordinates of the point [x]. *)
Definition polar_of (p x : list R) : Prop :=
  length p = length x /\ forall k, (k < length x)%nat -> nth k x 0 = coordinate p k.
(** The usual ranges: radius not negative, first angle in (-pi, pi], the others in [0, pi]; an
    angle that does not matter (the radius of its plane is 0) is 0. *)
Definition canonical (p : list R) : Prop :=
  0 <= nth 0 p 0 /\ - PI < nth 1 p 0 <= PI /\
  (forall k, (2 <= k < length p)%nat -> 0 <= nth k p 0 <= PI) /\
  (forall k, (1 <= k < length p)%nat -> nth 0 p 0 * sines (skipn (S k) p) = 0 -> nth k p 0 = 0).
