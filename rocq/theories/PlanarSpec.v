(** Specification vocabulary for segments, polylines and polygons meeting each other. *)
From Verif Require Import Base CmpModel OrientModel OrientSpec DistSpec LinIntModel LinIntSpec PolygonModel PolygonSpec PlanarModel.
From Coq Require Import Sorting.Sorted.

(** The segments AB and CD have a point in common. *)
Definition meet (A B C D : pt) : Prop := exists X, on_segment A B X /\ on_segment C D X.

(** The type and the points say which points AB and CD have in common: one interior to both, one
    that is an end of one of them, or the segment between the two points given. *)
Definition describes (A B C D : pt) (ty : itype) (pts : list pt) : Prop :=
  let common := both (on_segment A B) (on_segment C D) in
  match ty with
  | e_crossing => exists X, pts = [X] /\ is_single_point common X /\ inside_segment A B X /\ inside_segment C D X
  | e_endpoint => exists X, pts = [X] /\ is_single_point common X /\ (X =p= A \/ X =p= B \/ X =p= C \/ X =p= D)
  | e_overlapping => exists X Y, pts = [X; Y] /\ is_segment_set common X Y /\ parallel (vsub B A) (vsub D C)
  | _ => False
  end.

(** No side has length zero. *)
Definition proper_polyline (ps : list pt) : Prop := forall i A B, polyline_edge ps i A B -> nonzero (vsub B A).
Definition proper_polygon (ps : list pt) : Prop := forall i A B, polygon_edge ps i A B -> nonzero (vsub B A).

(** Sides i and j of a polygon of n sides are neighbours. *)
Definition neighbours (n i j : nat) : Prop := (S i mod n)%nat = j \/ (S j mod n)%nat = i.
(** Different sides have no point in common, but for the vertex where one ends and the next
    begins. *)
Definition simple_polygon (ps : list pt) : Prop :=
  (3 <= length ps)%nat /\ proper_polygon ps /\
  forall i j A B C D X, i <> j -> polygon_edge ps i A B -> polygon_edge ps j C D -> on_segment A B X -> on_segment C D X ->
    ((S i mod length ps)%nat = j /\ X =p= B) \/ ((S j mod length ps)%nat = i /\ X =p= A).

(** The ray from X to the right passes the side uv (of which the lower end does not belong to
    the ray's level, the upper one does). *)
Definition passes (X u v : pt) : Prop :=
  (py X < py u /\ py v <= py X \/ py X < py v /\ py u <= py X) /\ (exists Y, on_segment u v Y /\ py Y == py X /\ px X < px Y).
(** The even-odd rule: the ray passes an odd number of sides. *)
Definition even_odd (ps : list pt) (X : pt) : Prop :=
  exists cr : nat -> bool, (forall i u v, polygon_edge ps i u v -> (cr i = true <-> passes X u v)) /\
    Nat.odd (count_below cr (length ps)) = true.
(** The closed region of a polygon: its border, and the points inside by the even-odd rule. *)
Definition in_region (ps : list pt) (X : pt) : Prop := on_polygon ps X \/ even_odd ps X.

(** The hits of a visit of the sides of [ps], whatever the visitor [stop] says. *)
Definition visits (A B : pt) (edge : nat -> pt -> pt -> Prop) (succ : nat -> nat) (all : list hit) : Prop :=
  (forall h, In h all -> h_j h = succ (h_i h) /\ exists C D, edge (h_i h) C D /\ describes A B C D (h_type h) (h_points h)) /\
  StronglySorted lt (map h_i all) /\
  (forall i C D, edge i C D -> (In i (map h_i all) <-> meet A B C D)).

(** Sides that are not neighbours have no point in common. *)
Definition far_sides_disjoint (ps : list pt) : Prop := forall i j A B C D, i <> j -> ~ neighbours (length ps) i j ->
  polygon_edge ps i A B -> polygon_edge ps j C D -> ~ meet A B C D.

(** Where the polygon does not double back at a vertex, that is simplicity. *)
Definition no_spikes (ps : list pt) : Prop := forall i A B D, polygon_edge ps i A B -> polygon_edge ps (S i mod length ps) B D ->
  ~ (tri2 A B D == 0 /\ dot (vsub B A) (vsub D B) < 0).

(** No two loops of the list have a border point in common. *)
Fixpoint loops_apart (l : list (list pt)) : Prop :=
  match l with [] => True | p :: l' => (forall q, In q l' -> forall X, ~ (on_polygon p X /\ on_polygon q X)) /\ loops_apart l' end.
