(** Specification of congruence: a rotation about the origin followed by a translation. *)
From Verif Require Import Base DistSpec.

Record motion := mkmotion { m_cos : Q; m_sin : Q; m_shift : pt }.
Definition is_rigid (m : motion) : Prop := m_cos m * m_cos m + m_sin m * m_sin m == 1.
Definition move (m : motion) (p : pt) : pt :=
  mkpt (m_cos m * px p - m_sin m * py p + px (m_shift m)) (m_sin m * px p + m_cos m * py p + py (m_shift m)).
(** The second sequence is the first one, moved. *)
Definition superposable (ps qs : list pt) : Prop :=
  exists m, is_rigid m /\ Forall2 (fun p q => q =p= move m p) ps qs.
(** No point equals the one before it. *)
Definition no_repeats (ps : list pt) : Prop := forall i A B, polyline_edge ps i A B -> ~ A =p= B.
