(** Specification of the order of points and of boxes of doubles. *)
From Coq Require Import Reals Floats List Bool.
From Verif Require Import FloatModel FloatSpec FloatIntervalSpec FloatOrderModel.
Import ListNotations.
Local Open Scope float_scope.

(** Points of the same dimension without NaNs. *)
Definition comparable (a b : list float) : Prop := length a = length b /\ Forall number a /\ Forall number b.
(** [a] comes before [b]: smaller in the first coordinate in which they differ. *)
Definition comes_before (a b : list float) : Prop :=
  exists p x s q y t, a = p ++ x :: s /\ b = q ++ y :: t /\ Forall2 (fun u v => (u =? v) = true) p q /\ (x <? y) = true.
(** Equal in all coordinates (zero and minus zero are equal). *)
Definition same_point (a b : list float) : Prop := Forall2 (fun u v => (u =? v) = true) a b.

(** A box of dimension [d] whose bounds are numbers in order. *)
Definition good_box (d : nat) (b : fbox) : Prop :=
  length (flow b) = d /\ Forall number (flow b) /\ Forall number (fhigh b) /\ Forall2 (fun l h => (l <=? h) = true) (flow b) (fhigh b).
(** The point lies in the closed box. *)
Definition in_fbox (b : fbox) (p : list float) : Prop :=
  Forall2 (fun l x => (l <=? x) = true) (flow b) p /\ Forall2 (fun x h => (x <=? h) = true) p (fhigh b).
