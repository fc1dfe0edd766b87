(** LUP decomposition and solving: algebra/lup_decomposition.hpp (run-time loops) and
    algebra/detail/preprocessed/lup_decomposition.hpp (the loops unrolled for sizes 2 to 6, the
    default), over exact rationals. *)
From Verif Require Import Base.

(** matrix<T, N, N> and boost::array: indices from 0; only those below N are used. *)
Definition mat := nat -> nat -> Q.
Definition arr (A : Type) := nat -> A.
Definition set_arr {A} (a : arr A) (i : nat) (v : A) : arr A := fun i' => if Nat.eqb i' i then v else a i'.
Definition set_mat (m : mat) (i j : nat) (v : Q) : mat := fun i' j' => if Nat.eqb i' i && Nat.eqb j' j then v else m i' j'.
(** for( i = start; count times; ++i ) body *)
Fixpoint loop {S : Type} (count start : nat) (body : nat -> S -> S) (s : S) : S :=
  match count with O => s | Datatypes.S c => loop c (Datatypes.S start) body (body start s) end.

(** lup_decomposition.hpp:36-45: the row of the largest entry of column k from row k on. *)
Definition pivot (N k : nat) (m : mat) : Q * nat :=
  loop (N - k) k (fun i s => let '(p, k_) := s in if Qltb p (qabs (m i k)) then (qabs (m i k), i) else (p, k_)) (0, 0%nat).
(** lup_decomposition.hpp:49. *)
Definition swap_arr {A} (a : arr A) (i j : nat) : arr A :=
  let x := a i in let y := a j in set_arr (set_arr a i y) j x.
(** lup_decomposition.hpp:50-51. *)
Definition swap_rows (N k k_ : nat) (m : mat) : mat :=
  loop N 0 (fun i m => let x := m k i in let y := m k_ i in set_mat (set_mat m k i y) k_ i x) m.
(** lup_decomposition.hpp:52-57. *)
Definition eliminate_row (N k i : nat) (m : mat) : mat :=
  let m := set_mat m i k (m i k / m k k) in
  loop (N - S k) (S k) (fun j m => set_mat m i j (m i j - m i k * m k j)) m.
Definition eliminate (N k : nat) (m : mat) : mat :=
  loop (N - S k) (S k) (fun i m => eliminate_row N k i m) m.
(** lup_decomposition.hpp:34-58: one pass of the outer loop; [None] when it throws. *)
Definition lup_step (N k : nat) (s : mat * arr nat) : option (mat * arr nat) :=
  let '(m, pi) := s in
  let '(p, k_) := pivot N k m in
  if Qeqb p 0 then None
  else Some (eliminate N k (swap_rows N k k_ m), swap_arr pi k k_).
Fixpoint lup_steps (N count k : nat) (s : mat * arr nat) : option (mat * arr nat) :=
  match count with
  | O => Some s
  | S c => match lup_step N k s with Some s' => lup_steps N c (S k) s' | None => None end
  end.
(** The unrolled version: k = 0 .. N-1. *)
Definition lup_decomposition (N : nat) (m : mat) : option (mat * arr nat) := lup_steps N N 0 (m, fun i => i).
(** The run-time version, lup_decomposition.hpp:26-59: k = 0 .. N-2. *)
Definition lup_decomposition_run_time (N : nat) (m : mat) : option (mat * arr nat) := lup_steps N (N - 1) 0 (m, fun i => i).

(** lup_decomposition.hpp:64-71. *)
Definition solve_y (N : nat) (lu : mat) (pi : arr nat) (b : arr Q) : arr Q :=
  loop N 0 (fun i y =>
    let sum := loop i 0 (fun j sum => sum + lu i j * y j) 0 in
    set_arr y i (b (pi i) - sum)) (fun _ => 0).
(** lup_decomposition.hpp:72-82: i = N-1 down to 0; [None]: division by zero. *)
Definition solve_x (N : nat) (lu : mat) (y : arr Q) : option (arr Q) :=
  loop N 0 (fun n r =>
    match r with
    | None => None
    | Some x =>
      let i := (N - 1 - n)%nat in
      let sum := loop (N - S i) (S i) (fun j sum => sum + lu i j * x j) 0 in
      if Qeqb (lu i i) 0 then None else Some (set_arr x i ((y i - sum) / lu i i))
    end) (Some (fun _ => 0)).
(** lup_decomposition.hpp:61-85.  Simplified: uninitialised array entries (never read) are 0. *)
Definition lup_solve (N : nat) (lu : mat) (pi : arr nat) (b : arr Q) : option (arr Q) := solve_x N lu (solve_y N lu pi b).
