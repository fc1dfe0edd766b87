(** Specification of the scored choice. *)
From Verif Require Import Base CmpModel BspModel BspSpec.

(** What the line of [s] does to the segment [e], by the sides of the ends of [e]. *)
Definition cuts (s e : seg) : bool := Qltb (side s (fst e) * side s (snd e)) 0.
Definition leaves_behind (s e : seg) : bool := negb (cuts s e) && (Qltb (side s (fst e)) 0 || Qltb (side s (snd e)) 0).
Definition leaves_in_front (s e : seg) : bool := negb (cuts s e) && negb (leaves_behind s e).

(** How many segments other than the one at position [i] satisfy [f]. *)
Definition how_many (f : seg -> bool) (i : nat) (r : list seg) : Z :=
  Z.of_nat (length (filter (fun j => match nth_error r j with Some e => negb (Nat.eqb i j) && f e | None => false end) (seq 0 (length r)))).

(** The weighted cost: four parts cuts and one part imbalance. *)
Definition cost (front behind cut : Z) : Q := (4 # 5) * inject_Z cut + (1 # 5) * inject_Z (Z.abs (front - behind)).
(** The cost of splitting by the line of the segment [s] at position [i]: what the choice is for. *)
Definition cost_of_split (r : list seg) (i : nat) (s : seg) : Q :=
  cost (how_many (leaves_in_front s) i r) (how_many (leaves_behind s) i r) (how_many (cuts s) i r).
(** The cost the other way round: what the lines of the other segments do to [s]. *)
Definition cost_suffered (r : list seg) (i : nat) (s : seg) : Q :=
  cost (how_many (fun e => leaves_in_front e s) i r) (how_many (fun e => leaves_behind e s) i r) (how_many (fun e => cuts e s) i r).
