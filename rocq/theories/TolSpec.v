(** Parameters of points of a segment, up to a tolerance. *)
From Coq Require Import QArith.
Local Open Scope Q_scope.

(** At most the tolerance beyond the ends; more than the tolerance away from the ends, between them. *)
Definition within (tol s : Q) : Prop := - tol <= s <= 1 + tol.
Definition well_within (tol s : Q) : Prop := tol < s < 1 - tol.
