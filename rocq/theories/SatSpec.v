(** Specification for the separating axis tests. *)
From Verif Require Import Base DistModel PolygonSpec.

(** Strictly convex, clockwise: every three points taken in order turn right. *)
Definition convex_cw (ps : list pt) : Prop :=
  forall i j k A B C, (i < j < k)%nat -> nth_error ps i = Some A -> nth_error ps j = Some B -> nth_error ps k = Some C ->
    tri2 A B C < 0.
(** The two convex polygons have a common point. *)
Definition overlap (p q : list pt) : Prop := exists X, in_hull p X /\ in_hull q X.
(** The index of a point farthest in direction [d]. *)
Definition extreme (c : list pt) (d : pt) (i : nat) : Prop :=
  (i < length c)%nat /\ forall X, In X c -> dot d X <= dot d (nth i c (mkpt 0 0)).
(** A polygon or box after time [t] with velocity [v]. *)
Definition move (t : Q) (v : pt) (ps : list pt) : list pt := map (fun p => vadd p (vscale t v)) ps.
Definition move_obb (t : Q) (v : pt) (o : obb) : obb := mkobb (vadd (o_center o) (vscale t v)) (o_u o) (o_v o) (o_hu o) (o_hv o).
(** [t] is no later than the possibly infinite time [u]. *)
Definition no_later (t : Q) (u : option Q) : Prop := match u with Some v => t <= v | None => True end.
