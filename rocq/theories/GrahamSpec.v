(** Specification of convex hulls. *)
From Verif Require Import Base PolygonSpec.

(** [o] is lower than [x], or as low and to the right of it. *)
Definition below (o x : pt) : Prop := py o < py x \/ (py o == py x /\ px x < px o).
(** B follows A in the closed chain [h]. *)
Definition follows (h : list pt) (A B : pt) : Prop :=
  (exists l1 l2, h = l1 ++ A :: B :: l2) \/ (exists l, h = B :: l ++ [A]).
(** The clockwise chain [h] bounds the convex hull of [points]: its vertices are among the points,
    no point is outside of any of its edges, and every point is in the hull of its vertices. *)
Definition bounds_clockwise (h points : list pt) : Prop :=
  (forall v, In v h -> In v points) /\
  (forall A B x, follows h A B -> In x points -> tri2 A B x <= 0) /\
  (forall x, In x points -> in_hull h x).
