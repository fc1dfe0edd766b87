(** Specification for the distance between point sequences. *)
From Verif Require Import Base CmpModel BoxModel BoxSpec OrientSpec DistModel DistSpec PolyDistModel.
From Coq Require Import Permutation.

(** The contract of a priority queue: it gives nothing only when empty, and otherwise
    an item that no remaining item is below. *)
Definition heap_pop (pop : list item -> option (item * list item)) : Prop :=
  pop [] = None /\
  forall q, q <> [] -> exists x r, pop q = Some (x, r) /\ Permutation q (x :: r) /\
    forall y, In y r -> it_d2 x <= it_d2 y.

(** All coordinates lie within the range of the coordinate type. *)
Definition in_type_range (HI LO : Q) (ps : list pt) : Prop :=
  forall p, In p ps -> LO <= px p <= HI /\ LO <= py p <= HI.

(** The reported pair: c1 is the point with parameter s on edge i1 of the first
    sequence, c2 that with parameter t on edge i2 of the second. *)
Definition pair_on (E1 E2 : nat -> pt -> pt -> Prop) (h : pair_hit) : Prop :=
  let '(i1, i2, r) := h in
  exists A1 B1 A2 B2, E1 i1 A1 B1 /\ E2 i2 A2 B2 /\
    0 <= ss_s r <= 1 /\ 0 <= ss_t r <= 1 /\
    ss_c1 r =p= lerp A1 B1 (ss_s r) /\ ss_c2 r =p= lerp A2 B2 (ss_t r).
