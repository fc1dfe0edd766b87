(** Specification vocabulary for polygons. *)
From Verif Require Import Base CmpModel OrientModel OrientSpec DistSpec PolygonModel.

(** Twice the signed area of the triangle o a b. *)
Definition tri2 (o a b : pt) : Q := cross (vsub a o) (vsub b o).
(** The sum over the edges of a polygon, edge i joining point i to point i+1 (cyclically). *)
Fixpoint qsum (f : nat -> Q) (n : nat) : Q := match n with O => 0 | S n' => qsum f n' + f n' end.
Definition pnth (ps : list pt) (i : nat) : pt := nth i ps (mkpt 0 0).
Definition edge_sum (g : pt -> pt -> Q) (ps : list pt) : Q :=
  qsum (fun i => g (pnth ps i) (pnth ps (S i mod length ps))) (length ps).

(** The closed triangle: convex combinations of its corners. *)
Definition in_triangle (A B C p : pt) : Prop :=
  exists a b c, 0 <= a /\ 0 <= b /\ 0 <= c /\ a + b + c == 1 /\
    p =p= vadd (vscale a A) (vadd (vscale b B) (vscale c C)).
Definition in_triangle3 (A B C p : pt3) : Prop :=
  exists a b c, 0 <= a /\ 0 <= b /\ 0 <= c /\ a + b + c == 1 /\
    pt3eq p (vadd3 (vscale3 a A) (vadd3 (vscale3 b B) (vscale3 c C))).
Definition coplanar3 (A B C p : pt3) : Prop :=
  exists a b c, a + b + c == 1 /\ pt3eq p (vadd3 (vscale3 a A) (vadd3 (vscale3 b B) (vscale3 c C))).
(** p lies in the convex hull of the points. *)
Definition in_hull (ps : list pt) (p : pt) : Prop :=
  exists A B C, In A ps /\ In B ps /\ In C ps /\ in_triangle A B C p.

(** Strictly convex, counter-clockwise: every three points taken in order turn left. *)
Definition convex_ccw (ps : list pt) : Prop :=
  forall i j k A B C, (i < j < k)%nat -> nth_error ps i = Some A -> nth_error ps j = Some B -> nth_error ps k = Some C ->
    0 < tri2 A B C.
(** Strictly inside: strictly left of every edge. *)
Definition strictly_inside (ps : list pt) (p : pt) : Prop :=
  forall i A B, polygon_edge ps i A B -> 0 < tri2 A B p.

(** The segment AB misses the edge uv. *)
Definition misses (A B u v : pt) : Prop := forall X, on_segment A B X -> ~ on_segment u v X.
(** AB and uv cross properly: the ends of each lie strictly on opposite sides of the other. *)
Definition crosses (A B u v : pt) : Prop := tri2 A B u * tri2 A B v < 0 /\ tri2 u v A * tri2 u v B < 0.
(** The point lies outside the bounding box of the polygon. *)
Definition outside_box (ps : list pt) (A : pt) : Prop :=
  (forall v, In v ps -> px v < px A) \/ (forall v, In v ps -> px A < px v) \/
  (forall v, In v ps -> py v < py A) \/ (forall v, In v ps -> py A < py v).
(** A path through the given points none of whose segments meets the polygon. *)
Fixpoint avoiding_path (ps : list pt) (A : pt) (path : list pt) : Prop :=
  match path with
  | [] => True
  | B :: path' => (forall i u v, polygon_edge ps i u v -> misses A B u v) /\ avoiding_path ps B path'
  end.
(** How many of the indices below n satisfy f. *)
Definition count_below (f : nat -> bool) (n : nat) : nat := length (filter f (seq 0 n)).
