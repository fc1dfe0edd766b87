(** Specification for the intersection of two convex polygons. *)
From Verif Require Import Base OrientSpec PolygonModel PolygonSpec.

(** A convex polygon with an area, its points in counter-clockwise order. *)
Definition convex_polygon (ps : list pt) : Prop := convex_ccw ps /\ (3 <= length ps)%nat.
(** The points of both polygons. *)
Definition common_point (P Q : list pt) (X : pt) : Prop := in_hull P X /\ in_hull Q X.
