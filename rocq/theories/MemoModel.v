(** Model of utility/memoize.hpp. *)
From Coq Require Import List Bool Arith Lia Sorting.Permutation.
Import ListNotations.

(** A function under memoization may itself call the memoized function (this is what
    memoization is for): its body asks for the values of further arguments, one after the other,
    before it returns. *)
Inductive prog (K V : Type) : Type :=
| Ret (v : V)
| Ask (k : K) (rest : V -> prog K V).
Arguments Ret {K V} _.
Arguments Ask {K V} _ _.

Section Memo.
Variables K V : Type.
(** [key_comp()] of the cache, a [std::map]. *)
Variable lt : K -> K -> bool.
(** The wrapped function [fn]. *)
Variable fn : K -> prog K V.

(** The cache: the entries of a [std::map] in ascending order of keys. *)
Definition cache : Type := list (K * V).
(** [cache.lower_bound(key)]: the entries before it and from it on. *)
Fixpoint lower_bound (c : cache) (key : K) : cache * cache :=
  match c with
  | [] => ([], [])
  | e :: c' => if lt (fst e) key then let (a, b) := lower_bound c' key in (e :: a, b) else ([], c)
  end.
(** [cache.insert(hint, pair)]: the entry goes where the order wants it, if no equivalent key is
    present; the hint has no influence on the result. *)
Definition insert_entry (c : cache) (key : K) (v : V) : cache :=
  match lower_bound c key with
  | (a, []) => a ++ [(key, v)]
  | (a, e :: b) => if lt key (fst e) then a ++ (key, v) :: e :: b else c
  end.

(** The cache, and the arguments for which the wrapped function was called, latest first. *)
Definition state : Type := cache * list K.

(** The wrapped function running: its nested calls go through [call]. *)
Fixpoint run (call : K -> state -> option (V * state)) (p : prog K V) (st : state) : option (V * state) :=
  match p with
  | Ret v => Some (v, st)
  | Ask k rest => match call k st with Some (v, st') => run call (rest v) st' | None => None end
  end.
(** memoize.hpp:37-46: one call of the memoized function.  [None]: the recursion is deeper than
    the fuel. *)
Fixpoint memo_call (fuel : nat) (key : K) (st : state) : option (V * state) :=
  match fuel with
  | O => None
  | S fuel' =>
    let miss :=
      match run (memo_call fuel') (fn key) (fst st, key :: snd st) with
      | Some (ret, (c, calls)) => Some (ret, (insert_entry c key ret, calls))
      | None => None
      end in
    match snd (lower_bound (fst st) key) with
    | [] => miss
    | e :: _ => if negb (lt key (fst e)) then Some (snd e, st) else miss
    end
  end.
(** A sequence of calls. *)
Fixpoint memo_calls (fuel : nat) (ks : list K) (st : state) : option (list V * state) :=
  match ks with
  | [] => Some ([], st)
  | k :: ks' =>
    match memo_call fuel k st with
    | Some (v, st') => match memo_calls fuel ks' st' with Some (vs, st'') => Some (v :: vs, st'') | None => None end
    | None => None
    end
  end.
End Memo.
