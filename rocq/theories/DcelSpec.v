(** Specification of the chains recovered from segments. *)
From Verif Require Import Base.
From Coq Require Import Permutation.

Definition same_seg (a b : pt * pt) : Prop := fst a =p= fst b /\ snd a =p= snd b.
(** The directed sides of an open and of a closed chain. *)
Definition open_sides {A : Type} (l : list A) : list (A * A) := combine l (tl l).
Definition closed_sides {A : Type} (l : list A) : list (A * A) :=
  match l with [] => [] | a :: r => combine l (r ++ [a]) end.
(** No two places of the list hold the same point. *)
Definition distinct_points (l : list pt) : Prop :=
  forall i j p q, nth_error l i = Some p -> nth_error l j = Some q -> p =p= q -> i = j.
(** The open and closed chains are the segments joined end to start: their sides are the segments,
    each once, and no point is passed twice. *)
Definition joined (segs : list (pt * pt)) (open closed : list (list pt)) : Prop :=
  (exists segs', Forall2 same_seg segs segs' /\ Permutation segs' (flat_map open_sides open ++ flat_map closed_sides closed)) /\
  distinct_points (concat open ++ concat closed) /\
  (forall l, In l open -> (2 <= length l)%nat) /\ (forall l, In l closed -> (1 <= length l)%nat).
(** No two segments start at the same point, no two end at the same point. *)
Definition chainable (segs : list (pt * pt)) : Prop :=
  (forall i j a b, nth_error segs i = Some a -> nth_error segs j = Some b -> fst a =p= fst b -> i = j) /\
  (forall i j a b, nth_error segs i = Some a -> nth_error segs j = Some b -> snd a =p= snd b -> i = j).
