(** Specification of the walk along a segment. *)
From Verif Require Import Base GridModel GridSpec FloodSpec.

(** The part of the segment in the region. *)
Definition reaches (xmin xmax ymin ymax : Q) (s t : pt) : Prop := exists u, 0 <= u <= 1 /\ in_region xmin xmax ymin ymax (lerp s t u).
(** Every point of the segment in the region is in some visited cell (with its border). *)
Definition covers_segment (xmin xmax ymin ymax w : Q) (s t : pt) (l : list key) : Prop :=
  forall u, 0 <= u <= 1 -> in_region xmin xmax ymin ymax (lerp s t u) ->
    exists c, In c l /\ in_closed_cell xmin ymin w (fst c) (snd c) (lerp s t u).
(** Every visited cell (with its border) has a point of the segment in the region. *)
Definition touches_segment (xmin xmax ymin ymax w : Q) (s t : pt) (l : list key) : Prop :=
  forall c, In c l -> exists u, 0 <= u <= 1 /\ in_region xmin xmax ymin ymax (lerp s t u) /\
    in_closed_cell xmin ymin w (fst c) (snd c) (lerp s t u).
(** Successive cells share an edge. *)
Definition edge_chain (l : list key) : Prop :=
  forall n a b, nth_error l n = Some a -> nth_error l (S n) = Some b -> neighbours a b.
(** The n-th cell is n edge steps away from the first: the walk never turns back. *)
Definition never_turns_back (l : list key) : Prop :=
  forall n a c, nth_error l 0 = Some a -> nth_error l n = Some c ->
    (Z.abs (fst c - fst a) + Z.abs (snd c - snd a) = Z.of_nat n)%Z.
(** The calls made to a visitor that may ask to stop: the longest start of [l] before it does. *)
Inductive until_stop (keep : list key -> bool) : list key -> list key -> list key -> Prop :=
| until_end : forall calls, until_stop keep calls [] (rev calls)
| until_stopped : forall calls c l, keep (c :: calls) = false -> until_stop keep calls (c :: l) (rev (c :: calls))
| until_more : forall calls c l r, keep (c :: calls) = true -> until_stop keep (c :: calls) l r -> until_stop keep calls (c :: l) r.
(** The walk starts in the cell of the first point of the segment in the region. *)
Definition starts_at_entry (xmin xmax ymin ymax w : Q) (s t : pt) (l : list key) : Prop :=
  exists c u, nth_error l 0 = Some c /\ 0 <= u <= 1 /\ in_region xmin xmax ymin ymax (lerp s t u) /\
    in_cell xmin ymin w (fst c) (snd c) (lerp s t u) /\
    forall u', 0 <= u' <= 1 -> in_region xmin xmax ymin ymax (lerp s t u') -> u <= u'.
Definition good_walk (xmin xmax ymin ymax w : Q) (nx ny : Z) (s t : pt) (l : list key) : Prop :=
  covers_segment xmin xmax ymin ymax w s t l /\ touches_segment xmin xmax ymin ymax w s t l /\
  edge_chain l /\ never_turns_back l /\ (forall c, In c l -> in_grid nx ny c) /\
  starts_at_entry xmin xmax ymin ymax w s t l.
