(** Specification of memoization. *)
From Coq Require Import List Bool Arith.
From Verif Require Import MemoModel.
Import ListNotations.

Section Spec.
Variables K V : Type.
(** A strict total order, the requirement of [std::map] on its comparison with equivalent keys
    equal. *)
Definition total_order (lt : K -> K -> bool) : Prop :=
  (forall a, lt a a = false) /\ (forall a b c, lt a b = true -> lt b c = true -> lt a c = true) /\
  (forall a b, lt a b = false -> lt b a = false -> a = b).
(** The value of a program whose questions are answered by [f]. *)
Fixpoint value (f : K -> V) (p : prog K V) : V :=
  match p with Ret v => v | Ask k rest => value f (rest (f k)) end.
(** Every question it asks (when answered by [f]) is about an argument of rank below [n]. *)
Fixpoint asks_below (f : K -> V) (rank : K -> nat) (n : nat) (p : prog K V) : Prop :=
  match p with Ret _ => True | Ask k rest => rank k < n /\ asks_below f rank n (rest (f k)) end.
(** The wrapped function computes [f] by a recursion that ends. *)
Definition computes (f : K -> V) (rank : K -> nat) (fn : K -> prog K V) : Prop :=
  forall k, value f (fn k) = f k /\ asks_below f rank (rank k) (fn k).
(** A map in order whose entries are values of [f]. *)
Fixpoint ascending (lt : K -> K -> bool) (c : list (K * V)) : Prop :=
  match c with [] => True | e :: c' => (forall e', In e' c' -> lt (fst e) (fst e') = true) /\ ascending lt c' end.
Definition faithful (lt : K -> K -> bool) (f : K -> V) (c : list (K * V)) : Prop :=
  ascending lt c /\ forall k v, In (k, v) c -> v = f k.
End Spec.
Arguments total_order {K} _.
Arguments value {K V} _ _.
Arguments asks_below {K V} _ _ _ _.
Arguments computes {K V} _ _ _.
Arguments ascending {K V} _ _.
Arguments faithful {K V} _ _ _.
