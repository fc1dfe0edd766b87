(** Specification of distances: least squared distance over point sets. *)
From Verif Require Import Base CmpModel BoxSpec OrientSpec DistModel.

(** Edges of a point sequence read as a polyline or as a polygon (cyclically). *)
Definition polyline_edge (ps : list pt) (i : nat) (A B : pt) : Prop :=
  nth_error ps i = Some A /\ nth_error ps (S i) = Some B.
Definition polygon_edge (ps : list pt) (i : nat) (A B : pt) : Prop :=
  nth_error ps i = Some A /\ nth_error ps (S i mod length ps) = Some B.
Definition on_polyline (ps : list pt) (X : pt) : Prop := exists i A B, polyline_edge ps i A B /\ on_segment A B X.
Definition on_polygon (ps : list pt) (X : pt) : Prop := exists i A B, polygon_edge ps i A B /\ on_segment A B X.

(** n-dimensional points: A + t (B - A), squared distance. *)
Definition clerp (A B : coords) (t : Q) : coords := cadd A (cscale t (csub B A)).
Definition on_segment_n (A B X : coords) : Prop := exists t, 0 <= t <= 1 /\ Forall2 Qeq X (clerp A B t).
Definition cdist2 (p q : coords) : Q := cdot (csub q p) (csub q p).

(** The oriented box as a point set; unit orthogonal axes. *)
Definition in_obb (b : obb) (X : pt) : Prop :=
  exists s t, - o_hu b <= s <= o_hu b /\ - o_hv b <= t <= o_hv b /\
    X =p= vadd (o_center b) (vadd (vscale s (o_u b)) (vscale t (o_v b))).
Definition ok_obb (b : obb) : Prop :=
  dot (o_u b) (o_u b) == 1 /\ dot (o_v b) (o_v b) == 1 /\ dot (o_u b) (o_v b) == 0 /\
  0 <= o_hu b /\ 0 <= o_hv b.
(** The border of the oriented box: its four sides. *)
Definition on_obb_border (b : obb) (X : pt) : Prop :=
  exists s t, ((s == o_hu b \/ s == - o_hu b) /\ - o_hv b <= t <= o_hv b \/
               (t == o_hv b \/ t == - o_hv b) /\ - o_hu b <= s <= o_hu b) /\
    X =p= vadd (o_center b) (vadd (vscale s (o_u b)) (vscale t (o_v b))).
Definition on_line2 (l : line2) (X : pt) : Prop := exists t, X =p= vadd (l_ref l) (vscale t (l_dir l)).
