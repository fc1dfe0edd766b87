(** Specification for doubles: the real number that a double stands for. *)
From Coq Require Import Reals Floats ZArith.
From Verif Require Import FloatModel.
Local Open Scope R_scope.

Definition finite (x : float) : Prop := PrimFloat.is_finite x = true.
(** A finite double is a signed integer times a power of two. *)
Definition val (x : float) : R :=
  match Prim2SF x with
  | S754_finite s m e => (if s then - IZR (Zpos m) else IZR (Zpos m)) * powerRZ 2 e
  | _ => 0
  end.
(** The answers of a policy on two numbers fit together: one of less, equal and greater holds, and the
    other two answers are their combinations. *)
Definition fits (cmp : fpolicy) (u v : float) : Prop :=
  (f_lt cmp u v = true \/ f_eq cmp u v = true \/ f_gt cmp u v = true) /\
  ~ (f_lt cmp u v = true /\ f_eq cmp u v = true) /\ ~ (f_eq cmp u v = true /\ f_gt cmp u v = true) /\ ~ (f_lt cmp u v = true /\ f_gt cmp u v = true) /\
  f_le cmp u v = (f_lt cmp u v || f_eq cmp u v)%bool /\ f_ge cmp u v = (f_gt cmp u v || f_eq cmp u v)%bool.
(** Exchanging the numbers exchanges the answers. *)
Definition mirrored (cmp : fpolicy) (u v : float) : Prop :=
  f_eq cmp v u = f_eq cmp u v /\ f_lt cmp v u = f_gt cmp u v /\ f_gt cmp v u = f_lt cmp u v /\
  f_le cmp v u = f_ge cmp u v /\ f_ge cmp v u = f_le cmp u v.
(** The orientation of two vectors with real coordinates. *)
Definition real_orientation (ax ay bx b_y : R) (o : forientation) : Prop :=
  match o with
  | F_left => ax * b_y - ay * bx > 0
  | F_right => ax * b_y - ay * bx < 0
  | F_collinear => ax * b_y - ay * bx = 0
  end.
Definition turned (o : forientation) : forientation :=
  match o with F_left => F_right | F_right => F_left | F_collinear => F_collinear end.
(** The direct policy, or an absolute one with a finite tolerance that is not negative. *)
Definition usual (cmp : fpolicy) : Prop := cmp = fdirect \/ exists tol, finite tol /\ 0 <= val tol /\ cmp = fabsolute tol.
(** A double that is an integer. *)
Definition whole (x : float) (n : Z) : Prop := finite x /\ val x = IZR n.
