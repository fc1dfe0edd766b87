(** Specification vocabulary for cutting a polyline into pieces. *)
From Verif Require Import Base CmpModel OrientModel OrientSpec DistSpec LinIntModel LinIntSpec PolygonModel PolygonSpec PlanarModel PlanarSpec.
From Coq Require Import Sorting.Sorted.

Definition qn (n : nat) : Q := inject_Z (Z.of_nat n).
(** Places on a polyline are numbers: i + t is the point that divides side i in the ratio
    t : 1 - t.  So vertex i is at the place i, and the last vertex at length - 1. *)
Definition on_side (ps : list pt) (i : nat) (u : Q) (X : pt) : Prop :=
  exists A B t, polyline_edge ps i A B /\ 0 <= t <= 1 /\ u == qn i + t /\ X =p= lerp A B t.
Definition at_place (ps : list pt) (u : Q) (X : pt) : Prop := exists i, on_side ps i u X.

(** [piece] runs along [ps] from the place u to the place v: the point at u, the vertices
    strictly between, the point at v. *)
Definition runs (ps : list pt) (u v : Q) (piece : list pt) : Prop :=
  u < v /\ exists X Y a k, at_place ps u X /\ at_place ps v Y /\
    Forall2 pteq piece (X :: map (pnth ps) (seq a k) ++ [Y]) /\
    forall i, u < qn i < v <-> (a <= i < a + k)%nat.
(** The pieces run one after the other between the places listed. *)
Fixpoint runs_through (ps : list pt) (places : list Q) (pieces : list (list pt)) : Prop :=
  match places, pieces with
  | [_], [] => True
  | u :: ((v :: _) as places'), p :: pieces' => runs ps u v p /\ runs_through ps places' pieces'
  | _, _ => False
  end.
(** u is, as a number, one of the places. *)
Definition listed (u : Q) (places : list Q) : Prop := exists w, In w places /\ w == u.
(** The places go up from the first vertex to the last. *)
Definition all_along (ps : list pt) (places : list Q) : Prop :=
  StronglySorted Qlt places /\ hd 0 places == 0 /\ last places 0 == qn (length ps - 1).

(** X lies on two different sides which are on one line. *)
Definition doubled (ps : list pt) (X : pt) : Prop := exists i j A B C D, (i < j)%nat /\ polyline_edge ps i A B /\ polyline_edge ps j C D /\
  parallel (vsub B A) (vsub D C) /\ on_segment A B X /\ on_segment C D X.
(** X is the first or the last point of the piece. *)
Definition end_of (piece : list pt) (X : pt) : Prop := X =p= hd (mkpt 0 0) piece \/ X =p= last piece (mkpt 0 0).
(** Sides that are not neighbours have no point in common and neighbours do not lie on one line. *)
Definition no_self_meeting (ps : list pt) : Prop := forall i j A B C D, (i < j)%nat -> polyline_edge ps i A B -> polyline_edge ps j C D ->
  (S i = j -> ~ parallel (vsub B A) (vsub D C)) /\ ((S i < j)%nat -> ~ meet A B C D).
(** The two polylines have a common point. *)
Definition polylines_meet (ps qs : list pt) : Prop := exists X, on_polyline ps X /\ on_polyline qs X.
(** The places are the ends and points where two sides meet (sides that are not neighbours, or
    lie on one line); every point the polyline comes back to is among them, but for points where
    it runs along itself. *)
Definition cut_at_meetings (ps : list pt) (places : list Q) : Prop :=
  (forall w, listed w places -> w == 0 \/ w == qn (length ps - 1) \/
     exists i j A B C D X, (i < j)%nat /\ polyline_edge ps i A B /\ polyline_edge ps j C D /\ on_segment A B X /\ on_segment C D X /\
       ((S i < j)%nat \/ parallel (vsub B A) (vsub D C)) /\ (on_side ps i w X \/ on_side ps j w X)) /\
  (forall u v X, u < v -> at_place ps u X -> at_place ps v X -> listed u places /\ listed v places \/ doubled ps X).
