(** Digits of pi by a spigot.  Models numeric/integral_constant_pi_calculator.hpp, with T a type of
    exact fractions (boost::rational of big integers). *)
From Coq Require Import ZArith QArith List Bool.
Import ListNotations.
Open Scope Z_scope.

(** The type int: a result above its largest value is undefined ([None]).  No value below is ever
    negative. *)
Definition int_max : Z := 2147483647.
Definition int_op (z : Z) : option Z := if z <=? int_max then Some z else None.

(** Lines 65-77, the inner loop.  The vector f is the list of its values at the indices b, b-1, ...,
    1; [g] is 2 b at the start of each turn.  The new values and the last d. *)
Fixpoint pass (a b d : Z) (f : list Z) : option (list Z * Z) :=
  match f with
  | [] => Some ([], d)
  | fb :: f =>
    match int_op (fb * a) with
    | None => None
    | Some m =>
      match int_op (d + m) with
      | None => None
      | Some d =>
        let g := 2 * b - 1 in
        let r := d mod g in
        let d := d / g in
        let b' := b - 1 in
        match (if b' =? 0 then Some d else int_op (d * b')) with
        | None => None
        | Some d =>
          match pass a b' d f with None => None | Some (f', d') => Some (r :: f', d') end
        end
      end
    end
  end.

(** Lines 80-92. *)
Definition pad (x : Z) : Z :=
  let x := if x <? 10 then x * 1000 else x in
  let x := if x <? 100 then x * 100 else x in
  if x <? 1000 then x * 10 else x.

(** The variables of the outer loop. *)
Record state : Type := mkst { s_f : list Z; s_c : Z; s_e : Z; s_num : Z; s_den : Z; s_digits : Z; s_first : bool }.

(** Lines 93-118: what one turn does with the new digits. *)
Definition store (st : state) (x : Z) : Z * Z * Z * bool :=
  if 4 <=? s_digits st then
    (s_num st * 10000 + x, if s_first st then s_den st * 1000 else s_den st * 10000, s_digits st - 4, false)
  else if 0 <? s_digits st then
    let z := 10 ^ s_digits st in
    (s_num st * z + x / 1000, s_den st * z, 0, s_first st)
  else (s_num st, s_den st, s_digits st, s_first st).

(** Lines 62-122, one turn of the outer loop. *)
Definition turn (st : state) : option state :=
  match pass 10000 (s_c st) 0 (s_f st) with
  | None => None
  | Some (f, d) =>
    let x := pad (s_e st + d / 10000) in
    let '(num, den, digits, first) := store st x in
    Some (mkst (skipn 14 f) (s_c st - 14) (d mod 10000) num den digits first)
  end.

(** Lines 60-122.  Each turn lowers the number of digits by 1 at least, so that as many turns as
    digits are enough. *)
Fixpoint turns (fuel : nat) (st : state) : option state :=
  match fuel with
  | O => Some st
  | S fuel =>
    if (0 <? s_c st) && (0 <? s_digits st) then
      match turn st with None => None | Some st => turns fuel st end
    else Some st
  end.

(** Lines 38-59: [size], and f filled with a / 5 except for its last value. *)
Definition size (precision : nat) : nat := (precision * 14 / 4)%nat.
Definition start (precision : nat) : state :=
  mkst (0 :: repeat 2000 (size precision - 1)) (Z.of_nat (size precision)) 0 0 1 (Z.of_nat precision) true.

(** Lines 28-125, and 128-180 for the precisions 1 to 6.  [None]: undefined. *)
Definition calculate_pi (precision : nat) : option Q :=
  match precision with
  | 1%nat => Some (3 # 1)
  | 2%nat => Some (31 # 10)
  | 3%nat => Some (314 # 100)
  | 4%nat => Some (3141 # 1000)
  | 5%nat => Some (31415 # 10000)
  | 6%nat => Some (314159 # 100000)
  | _ =>
    match turns precision (start precision) with
    | None => None
    | Some st => Some (inject_Z (s_num st) / inject_Z (s_den st))%Q
    end
  end.
