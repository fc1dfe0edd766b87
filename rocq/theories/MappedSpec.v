(** Specification of the choice of a policy by type. *)
From Verif Require Import Base CmpModel CmpSpec MappedModel.
From Coq Require Import List.

(** The policy that is meant for a type: the one registered for it, the default if there is none. *)
Definition meant_for (m : mapped) (t : ntype) (c : policy) : Prop :=
  In (t, c) (m_map m) \/ ((forall d, ~ In (t, d) (m_map m)) /\ c = m_default m).
(** No type is registered twice. *)
Definition distinct_keys (m : mapped) : Prop := NoDup (map fst (m_map m)).
(** All five answers are those of policy [c] on the values. *)
Definition answers_as (m : mapped) (c : policy) (u v : tnum) : Prop :=
  m_equals m u v = Some (equals c (snd u) (snd v)) /\ m_less_than m u v = Some (less_than c (snd u) (snd v)) /\
  m_less_than_or_equal m u v = Some (less_than_or_equal c (snd u) (snd v)) /\ m_greater_than m u v = Some (greater_than c (snd u) (snd v)) /\
  m_greater_than_or_equal m u v = Some (greater_than_or_equal c (snd u) (snd v)).
(** The types of one unit; plain numbers are dimensionless. *)
Definition unit_of (t : ntype) : nat := match t with Plain _ => 0%nat | Quantity u _ => u end.
