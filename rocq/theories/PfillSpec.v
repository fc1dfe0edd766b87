(** Specification of filling a polygon on a grid. *)
From Verif Require Import Base OrientSpec DistSpec PolygonSpec GridModel GridSpec FloodSpec CvxSpec.

(** Convex with an area, in either order of its points. *)
Definition convex_either (ps : list pt) : Prop := convex_polygon ps \/ convex_polygon (rev ps).
(** Inside the polygon, and not on its boundary. *)
Definition inside_polygon (ps : list pt) (X : pt) : Prop := in_hull ps X /\ ~ on_polygon ps X.
(** The polygon with its boundary, less the insides of the holes. *)
Definition solid (ps : list pt) (holes : list (list pt)) (X : pt) : Prop :=
  in_hull ps X /\ forall h, In h holes -> ~ inside_polygon h X.
(** The cell, with its border, has a point of the set. *)
Definition meets_cell (xmin ymin w : Q) (S : pt -> Prop) (c : key) : Prop := exists X, S X /\ in_closed_cell xmin ymin w (fst c) (snd c) X.
(** Every point of the set is in one of the cells, with their borders. *)
Definition covered (xmin ymin w : Q) (S : pt -> Prop) (cells : list key) : Prop :=
  forall X, S X -> exists c, In c cells /\ in_closed_cell xmin ymin w (fst c) (snd c) X.
Definition within_region (xmin xmax ymin ymax : Q) (ps : list pt) : Prop := forall v, In v ps -> in_region xmin xmax ymin ymax v.
