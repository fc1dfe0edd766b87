(** Specification of the side of a polyline. *)
From Verif Require Import Base CmpModel OrientModel OrientSpec DistModel DistSpec PolygonSpec.

(** The side of the line from [A] to [B]. *)
Definition line_side (A B p : pt) (o : orientation_type) : Prop :=
  match o with
  | oriented_left => 0 < tri2 A B p
  | oriented_right => tri2 A B p < 0
  | oriented_collinear => tri2 A B p == 0
  end.
(** Around a corner [A], [B], [C] the left side is what is left of both sides when the corner turns left, and
    what is left of one of them at least when it turns right; the rest is the right side.  Without a turn it
    is the side of the line. *)
Definition corner_side (A B C p : pt) (o : orientation_type) : Prop :=
  let left_of_both := 0 < tri2 A B p /\ 0 < tri2 B C p in
  let left_of_one := 0 < tri2 A B p \/ 0 < tri2 B C p in
  (0 < tri2 A B C -> (o = oriented_left /\ left_of_both) \/ (o = oriented_right /\ ~ left_of_both)) /\
  (tri2 A B C < 0 -> (o = oriented_left /\ left_of_one) \/ (o = oriented_right /\ ~ left_of_one)) /\
  (tri2 A B C == 0 -> line_side A B p o).
(** [c] is a point of the polyline nearest to [p]. *)
Definition nearest_on (ps : list pt) (p c : pt) : Prop :=
  on_polyline ps c /\ forall X, on_polyline ps X -> dist2 p c <= dist2 p X.
