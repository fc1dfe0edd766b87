(** A comparison policy chosen by the type of the numbers.  Models numeric/number_comparison_policy.hpp:553-725.
    Numbers are rationals with a type; the conversions between fundamental types are taken as exact. *)
From Verif Require Import Base CmpModel.
From Coq Require Import List Bool PeanoNat.
Import ListNotations.

(** Fundamental arithmetic types, and quantities of a unit over one of them.  Unit 0 is dimensionless. *)
Inductive rep := Rint | Rfloat | Rdouble.
Inductive ntype := Plain (r : rep) | Quantity (u : nat) (r : rep).
Definition rep_eqb (a b : rep) : bool := match a, b with Rint, Rint | Rfloat, Rfloat | Rdouble, Rdouble => true | _, _ => false end.
Definition ntype_eqb (a b : ntype) : bool :=
  match a, b with Plain r, Plain s => rep_eqb r s | Quantity u r, Quantity v s => Nat.eqb u v && rep_eqb r s | _, _ => false end.
(** A number of a type; [get_underlying_value], lines 649-653, is the second component. *)
Definition tnum : Type := (ntype * Q)%type.

(** number_comparison_policy.hpp:610-631, [are_comparable].  Fundamental types convert into each other. *)
Definition are_comparable (a b : ntype) : bool :=
  match a, b with
  | Plain _, Plain _ => true
  | Quantity u _, Quantity v _ => Nat.eqb u v
  | Quantity u _, Plain _ => Nat.eqb u 0
  | Plain _, Quantity v _ => Nat.eqb v 0
  end.
(** number_comparison_policy.hpp:644-716, [mapped_tolerance_comparison_policy]: the default and the map.
    boost::fusion::map has distinct keys. *)
Record mapped : Type := mkmapped { m_default : policy; m_map : list (ntype * policy) }.
(** number_comparison_policy.hpp:554-574, [policy_resolver]. *)
Definition resolve (m : mapped) (t : ntype) : policy :=
  match find (fun e => ntype_eqb (fst e) t) (m_map m) with Some e => snd e | None => m_default m end.
(** number_comparison_policy.hpp:657-666: every policy is constructed from the same tolerance; [kd] and
    [kinds] are the constructors. *)
Definition from_tolerance (kd : Q -> policy) (kinds : list (ntype * (Q -> policy))) (n : Q) : mapped :=
  mkmapped (kd n) (map (fun e => (fst e, snd e n)) kinds).
(** number_comparison_policy.hpp:673-707, the five comparisons; [None]: the static assertion fails. *)
Definition mapped_compare (answer : policy -> Q -> Q -> bool) (m : mapped) (u v : tnum) : option bool :=
  if are_comparable (fst u) (fst v) then Some (answer (resolve m (fst u)) (snd u) (snd v)) else None.
Definition m_equals := mapped_compare equals.
Definition m_less_than := mapped_compare less_than.
Definition m_less_than_or_equal := mapped_compare less_than_or_equal.
Definition m_greater_than := mapped_compare greater_than.
Definition m_greater_than_or_equal := mapped_compare greater_than_or_equal.
