(** Specification of intersections with boxes and discs. *)
From Verif Require Import Base BoxModel BoxSpec DistModel DistSpec OrientSpec LinIntModel LinIntSpec.

(** The closed disc / ball. *)
Definition in_disc (c : pt) (r : Q) (X : pt) : Prop := dist2 c X <= r * r.
Definition in_ball (c : pt3) (r : Q) (X : pt3) : Prop := dist2_3 c X <= r * r.
(** Two point sets meet. *)
Definition meet {T : Type} (S1 S2 : T -> Prop) : Prop := exists X, S1 X /\ S2 X.
(** The parameters for which the ray is in the box. *)
Definition ray_in_box (p d : pt) (b : box2) (t : Q) : Prop := 0 <= t /\ in2 b (vadd p (vscale t d)).
Definition least (S : Q -> Prop) (t : Q) : Prop := S t /\ forall u, S u -> t <= u.
Definition greatest (S : Q -> Prop) (t : Q) : Prop := S t /\ forall u, S u -> u <= t.
(** The plane with normal n at signed distance pd from the origin. *)
Definition on_plane (n : pt3) (pd : Q) (X : pt3) : Prop := dot3 n X == pd.
