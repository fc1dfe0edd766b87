(** Specification vocabulary for sets of collinear segments. *)
From Verif Require Import Base OrientSpec CollinearModel.

(** The segment has two different end points. *)
Definition real_segment (s : iseg) : Prop := nonzero (vsub (snd s) (fst s)).
(** Both end points are on the line through A and B. *)
Definition lies_on (A B : pt) (s : iseg) : Prop := on_line A B (fst s) /\ on_line A B (snd s).
(** X is a point of some segment of the set. *)
Definition covered (l : list iseg) (X : pt) : Prop := exists s, In s l /\ on_segment (fst s) (snd s) X.
(** No two members of the set share a point, not even an end point. *)
Definition apart_set (l : list iseg) : Prop :=
  forall i j s t X, (i < j)%nat -> nth_error l i = Some s -> nth_error l j = Some t ->
    ~ (on_segment (fst s) (snd s) X /\ on_segment (fst t) (snd t) X).

(** Dictionary order of points: by x, then by y. *)
Definition precedes (P Q : pt) : Prop := px P < px Q \/ (px P == px Q /\ py P < py Q).
(** Members are stored in order along the line: every point of an earlier member
    precedes every point of a later one. *)
Definition in_order (l : list iseg) : Prop :=
  forall i j s t P Q, (i < j)%nat -> nth_error l i = Some s -> nth_error l j = Some t ->
    on_segment (fst s) (snd s) P -> on_segment (fst t) (snd t) Q -> precedes P Q.

(** The points that are drawn after a history of additions and removals: what
    was drawn before or belongs to the added segment; what was drawn before and
    does not belong to the removed segment. *)
Definition drawn_after (drawn : pt -> Prop) (e : interval_edit) (X : pt) : Prop :=
  match e with
  | Add s => drawn X \/ on_segment (fst s) (snd s) X
  | Remove s => drawn X /\ ~ on_segment (fst s) (snd s) X
  end.
Definition drawn (es : list interval_edit) : pt -> Prop := fold_left drawn_after es (fun _ => False).

(** X is no end point of a removed segment. *)
Definition no_cut_end (es : list interval_edit) (X : pt) : Prop :=
  forall s, In (Remove s) es -> ~ X =p= fst s /\ ~ X =p= snd s.
