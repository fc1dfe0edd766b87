(** Specification of the partition trees. *)
From Verif Require Import Base CmpModel OrientSpec PolygonSpec BspModel.

Definition proper (s : seg) : Prop := nonzero (vsub (snd s) (fst s)).
(** The point is on one of the segments. *)
Definition on_any (l : list seg) (X : pt) : Prop := exists s, In s l /\ on_segment (fst s) (snd s) X.
(** A rule that picks one of the segments. *)
Definition selects (selector : list seg -> seg) : Prop := forall l, l <> [] -> In (selector l) l.
(** All segments stored in a tree. *)
Fixpoint stored (t : bsp) : list seg :=
  match t with Null => [] | Node _ edges pos neg => edges ++ stored pos ++ stored neg end.
(** The side of the directed line of a segment. *)
Definition side (s : seg) (X : pt) : Q := tri2 (fst s) (snd s) X.
(** At every node the edges are on the line of the splitting segment, those below on its two
    sides. *)
Fixpoint partitioned (t : bsp) : Prop :=
  match t with
  | Null => True
  | Node s edges pos neg =>
    proper s /\
    (forall e X, In e edges -> on_segment (fst e) (snd e) X -> side s X == 0) /\
    (forall e X, In e (stored pos) -> on_segment (fst e) (snd e) X -> 0 <= side s X) /\
    (forall e X, In e (stored neg) -> on_segment (fst e) (snd e) X -> side s X <= 0) /\
    partitioned pos /\ partitioned neg
  end.
(** [e] is a piece of [s], in the same direction. *)
Definition piece_of (e s : seg) : Prop :=
  exists u v, 0 <= u /\ u < v /\ v <= 1 /\ fst e =p= lerp (fst s) (snd s) u /\ snd e =p= lerp (fst s) (snd s) v.
(** The set [S] is to the left of its boundary segments: whoever leaves the boundary at an inner
    point of a segment and does not meet it again is in S if they left to the left, and not in S
    if they left to the right. *)
Definition left_of_boundary (segs : list seg) (S : pt -> Prop) : Prop :=
  forall s P Y, In s segs -> inside_segment (fst s) (snd s) P ->
    (forall t, 0 < t <= 1 -> ~ on_any segs (lerp P Y t)) ->
    (0 < side s Y -> S Y) /\ (side s Y < 0 -> ~ S Y).
(** The edges of a polygon. *)
Definition polygon_edges (p : list pt) : list seg := map (fun i => (pnth p i, pnth p (S i mod length p))) (seq 0 (length p)).
(** Nothing of [e1] hides anything of [e2] from [P]: no point of e1 is strictly between P and a
    point of e2. *)
Definition before (P : pt) (e1 e2 : seg) : Prop :=
  forall X Y, on_segment (fst e1) (snd e1) X -> on_segment (fst e2) (snd e2) Y -> ~ inside_segment P Y X.
(** The trees that can be made of segments of positive length by construction and insertion, with
    the segments given so far.  The selector may differ from call to call. *)
Inductive made : bsp -> list seg -> Prop :=
  | made_build : forall sel fuel range t, selects sel -> range <> [] -> (forall s, In s range -> proper s) -> (length range <= fuel)%nat ->
      build direct sel fuel range = Some t -> made t range
  | made_insert : forall sel fuel t range new t', made t range -> selects sel -> (forall s, In s new -> proper s) -> (length new <= fuel)%nat ->
      insert direct sel fuel t new = Some t' -> made t' (range ++ new).
