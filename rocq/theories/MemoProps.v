(** C44: the property theorem about memoization. *)
From Coq Require Import List Bool Arith Lia.
From Verif Require Import MemoModel MemoSpec MemoProof.
Import ListNotations.

(** C44: let the wrapped function compute [f] by any recursion that ends and whose nested calls
    go through the memoized function, and let the cache hold any values of [f] to begin with.  Then
    for every sequence of calls every answer is the value of [f]; the wrapped function is called
    at most once for each argument, never for an argument in the cache at the start, and exactly
    for those added to the cache; and the cache ends up in order, holding values of [f] only and
    all arguments asked for. *)
Theorem C44_memoize : forall (K V : Type) (lt : K -> K -> bool) (fn : K -> prog K V) (f : K -> V) (rank : K -> nat),
  total_order lt -> computes f rank fn ->
  forall fuel ks st, (forall k, In k ks -> rank k < fuel) -> faithful lt f (fst st) ->
  exists c new, memo_calls K V lt fn fuel ks st = Some (map f ks, (c, new ++ snd st)) /\
    faithful lt f c /\ NoDup new /\
    (forall k, In k new -> ~ In k (map fst (fst st))) /\ (forall k, In k ks -> In k (map fst c)) /\
    (forall k, In k (map fst c) <-> In k (map fst (fst st)) \/ In k new).
Proof. exact calls_ok. Qed.

(** The Fibonacci numbers by the usual double recursion. *)
Definition fib_body (k : nat) : prog nat nat :=
  match k with
  | S (S k') => Ask (S k') (fun a => Ask k' (fun b => Ret (a + b)))
  | _ => Ret k
  end.
Fixpoint fib2 (k : nat) : nat * nat := match k with O => (0, 1) | S k' => let (a, b) := fib2 k' in (b, a + b) end.
Definition fib (k : nat) : nat := fst (fib2 k).
Example C44_witness : total_order Nat.ltb /\ computes fib (fun k => k) fib_body /\
  memo_calls nat nat Nat.ltb fib_body 20 [10; 7; 12] ([], []) =
    Some ([55; 13; 144],
          ([(0, 0); (1, 1); (2, 1); (3, 2); (4, 3); (5, 5); (6, 8); (7, 13); (8, 21); (9, 34); (10, 55); (11, 89); (12, 144)],
           [11; 12; 0; 1; 2; 3; 4; 5; 6; 7; 8; 9; 10])).
Proof.
  split; [|split; [|vm_compute; reflexivity]].
  - split; [intro a; apply Nat.ltb_irrefl|]. split.
    + intros a b c H1 H2. apply Nat.ltb_lt in H1. apply Nat.ltb_lt in H2. apply Nat.ltb_lt. lia.
    + intros a b H1 H2. apply Nat.ltb_ge in H1. apply Nat.ltb_ge in H2. lia.
  - intros [|[|k]]; [split; reflexivity|split; reflexivity|]. split.
    + cbn [fib_body value]. unfold fib. cbn [fib2]. destruct (fib2 k) as [a b]. cbn. lia.
    + cbn [fib_body asks_below]. repeat split; lia.
Qed.

Print Assumptions C44_memoize.
