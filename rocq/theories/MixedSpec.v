(** Specification of the mixed operations: the number that a stored number stands for. *)
From Verif Require Import Base FixedModel FixedSpec MixedModel.
Definition number (x : fnum) : Q := value (fscale x) (fmant x).
Definition in_format (f : format) (x : fnum) : Prop := representable f (fmant x).
(** [b] is the answer to the question whether [P] in_format. *)
Definition answers (b : bool) (P : Prop) : Prop := b = true <-> P.
(** An integer of type [t] (its wide type [wt]) can be converted: scaled it fits the format, and also
    its own type and the wide type. *)
Definition convertible (s : scaling) (wt t f : format) (v : Z) : Prop :=
  representable wt (v * factor s) /\ representable t (v * factor s) /\ representable f (v * factor s).
(** The outcome [r] is the number of scale [s] and format [f] that satisfies [P], if there is one. *)
Definition the_number (s : scaling) (f : format) (P : Z -> Prop) (r : result fnum) : Prop :=
  match r with
  | Ok z => fscale z = s /\ in_format f z /\ P (fmant z)
  | _ => ~ exists m, representable f m /\ P m
  end.
(** [e] exactly. *)
Definition exactly (s : scaling) (e : Q) (m : Z) : Prop := value s m == e.
