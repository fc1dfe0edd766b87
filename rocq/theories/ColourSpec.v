(** Specification of colours from hue, saturation and value. *)
From Verif Require Import Base.
From Coq Require Import ZArith Qround Qminmax.

(** The remainder of a division by 6, from 0 (included) to 6 (excluded). *)
Definition rem6 (x k : Q) : Prop := 0 <= k < 6 /\ exists c : Z, x == k + 6 * inject_Z c.
(** A channel of the colour with hue [h] (one turn is 1), saturation [s] and value [v], by the usual formula
    v - v s max(0, min(k, 4 - k, 1)) with k = (n + 6 h) mod 6; n is 5 for red, 3 for green and 1 for blue. *)
Definition channel (n : Z) (h s v c : Q) : Prop :=
  exists k, rem6 (inject_Z n + 6 * h) k /\ c == v - v * s * Qmax 0 (Qmin k (Qmin (4 - k) 1)).
(** The colour value in 0..255: the channel times 255, rounded down. *)
Definition level (c : Q) (x : Z) : Prop := inject_Z x <= c * 255 < inject_Z x + 1.
