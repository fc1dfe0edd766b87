(** C145: polylines and polygons under an absolute tolerance. *)
From Verif Require Import Base CmpModel OrientModel OrientSpec OrientProof DistModel DistSpec LinIntModel LinIntSpec LinIntProof PolygonModel PolygonSpec PolygonProof PlanarModel PlanarSpec PlanarProof PlanarProof2 PlanarProof3 TolSpec TolProof TolPlanarProof.
From Coq Require Import Lia.

(** Whatever the visitor, a segment that has a point in common with a side of a polyline gets the answer true; a visitor that
    never stops is told every such side.  Sides of length zero are allowed. *)
Theorem C145_segment_polyline : forall tol stop A B ps, 0 <= tol -> exists b hits, segment_polyline_intersect (absolute tol) stop A B ps = Some (b, hits) /\
  forall i C D, polyline_edge ps i C D -> meet A B C D -> b = true /\ ((forall l, stop l = false) -> In i (map h_i hits)).
Proof. intros tol stop A B ps T. exact (segment_polyline_tol tol T stop A B ps). Qed.
Print Assumptions C145_segment_polyline.
Theorem C145_segment_border : forall tol stop A B ps, 0 <= tol -> (2 <= length ps)%nat -> exists b hits, segment_polygon_border_intersect (absolute tol) stop A B ps = Some (b, hits) /\
  forall i C D, polygon_edge ps i C D -> meet A B C D -> b = true /\ ((forall l, stop l = false) -> In i (map h_i hits)).
Proof. intros tol stop A B ps T. exact (segment_border_tol tol T stop A B ps). Qed.
Print Assumptions C145_segment_border.
(** Polylines with a common point get the answer true. *)
Theorem C145_polylines : forall tol stop A B, 0 <= tol -> exists b hits, polyline_polyline_intersect (absolute tol) stop A B = Some (b, hits) /\
  (forall X, on_polyline A X -> on_polyline B X -> b = true).
Proof. intros tol stop A B T. exact (polyline_polyline_tol tol T stop A B). Qed.
Print Assumptions C145_polylines.
(** Two sides of a polyline that do not follow each other and have a common point are reported. *)
Theorem C145_self : forall tol ps, 0 <= tol -> exists b l, polyline_self_intersection (absolute tol) ps = Some (b, l) /\ (b = true <-> l <> []) /\
  forall i j A B C D, (S i < j)%nat -> polyline_edge ps i A B -> polyline_edge ps j C D -> meet A B C D -> exists ty xs, In (i, j, ty, xs) l.
Proof. intros tol ps T. exact (self_tol tol T ps). Qed.
Print Assumptions C145_self.
(** A polygon that is answered to be simple has no two sides, other than neighbours, with a common point; for one with holes
    that holds of every loop, and no two loops have a common border point. *)
Theorem C145_simple : forall tol ps, 0 <= tol -> (2 <= length ps)%nat -> exists b, is_polygon_simple (absolute tol) ps = Some b /\ (b = true -> far_sides_disjoint ps).
Proof. intros tol ps T. exact (simple_tol tol T ps). Qed.
Print Assumptions C145_simple.
Theorem C145_simple_holes : forall tol outer holes, 0 <= tol -> (forall ps, In ps (outer :: holes) -> (3 <= length ps)%nat) -> exists b, is_polygon_with_holes_simple (absolute tol) outer holes = Some b /\
  (b = true -> (forall ps, In ps (outer :: holes) -> far_sides_disjoint ps) /\ loops_apart (outer :: holes)).
Proof. intros tol outer holes T. exact (holes_tol tol T outer holes). Qed.
Print Assumptions C145_simple_holes.
(** But a rectangle of any width [d] is answered not to be simple when its area is the tolerance. *)
Theorem C145_rectangle_refuted : forall tol d, 0 < tol -> 0 < d -> exists h, 0 < h /\ d * h == tol /\
  is_polygon_simple (absolute tol) [mkpt 0 0; mkpt 0 h; mkpt d h; mkpt d 0] = Some false /\
  forall X Y, on_segment (mkpt 0 0) (mkpt 0 h) X -> on_segment (mkpt d h) (mkpt d 0) Y -> px Y - px X == d.
Proof.
  intros tol d T P. assert (Q0 : 0 < tol / d) by (apply Qlt_shift_div_l; lra). assert (QD : d * (tol / d) == tol) by (field; lra).
  exists (tol / d). set (h := tol / d) in *. clearbody h. split; [exact Q0|]. split; [exact QD|].
  assert (B1 : is_between (absolute tol) (mkpt 0 0) (mkpt 0 h) (mkpt d h) true = true) by (apply is_between_true; unfold cross, vsub; cbn [px py]; [lra|intros _; left; lra|intro H; exfalso; lra]).
  assert (B2 : is_between (absolute tol) (mkpt 0 0) (mkpt 0 h) (mkpt d 0) true = true) by (apply is_between_true; unfold cross, vsub; cbn [px py]; [lra|intros _; left; lra|intro H; exfalso; lra]).
  assert (CO : is_collinear (absolute tol) (mkpt 0 0) (mkpt 0 h) (mkpt d h) = true) by (unfold is_collinear; cbn [equals absolute]; apply abs_leb; unfold cross, vsub; cbn [px py]; lra).
  assert (S0 : segment_segment_intersection (absolute tol) (mkpt 0 0) (mkpt 0 h) (mkpt d h) (mkpt d 0) = Some (e_overlapping, [mkpt d h; mkpt d 0])).
  { unfold segment_segment_intersection. cbv zeta. assert (E : equals (absolute tol) (xdenom (mkpt 0 0) (mkpt 0 h) (mkpt d h) (mkpt d 0)) 0 = true) by (cbn [equals absolute]; apply abs_leb; unfold xdenom; cbn [px py]; lra).
    rewrite E. unfold parallel_intersection. rewrite CO, B1, B2. reflexivity. }
  split.
  - unfold is_polygon_simple. cbn [length Nat.ltb Nat.leb]. change (simple_indices 4) with [(0, 2); (0, 3); (1, 3)]%nat. cbn [search]. unfold intersecting at 1, sides_meet at 1, next.
    cbn [nth_error Nat.modulo Nat.divmod Nat.eqb snd Nat.sub fst]. rewrite S0. reflexivity.
  - intros X Y (s & _ & [X1 _]) (t & _ & [Y1 _]). unfold lerp, vadd, vscale, vsub in *. cbn [px py] in *. rewrite X1, Y1. ring.
Qed.
Print Assumptions C145_rectangle_refuted.
(** A segment across a unit square meets two of its sides; the square is simple, and the
    figure of eight is not, with tolerance 1/1000. *)
Example C145_witness :
  let sq := [mkpt 0 0; mkpt 1 0; mkpt 1 1; mkpt 0 1] in
  option_map (fun r => (fst r, map h_i (snd r))) (segment_polygon_border_intersect (absolute (1 # 1000)) (fun _ => false) (mkpt (1 # 2) (-1)) (mkpt (1 # 2) 2) sq) = Some (true, [0; 2]%nat) /\
  meet (mkpt (1 # 2) (-1)) (mkpt (1 # 2) 2) (mkpt 0 0) (mkpt 1 0) /\
  is_polygon_simple (absolute (1 # 1000)) sq = Some true /\ is_polygon_simple (absolute (1 # 1000)) [mkpt 0 0; mkpt 1 1; mkpt 1 0; mkpt 0 1] = Some false /\
  is_polygon_with_holes_simple (absolute (1 # 1000)) [mkpt (-1) (-1); mkpt 2 (-1); mkpt 2 2; mkpt (-1) 2] [sq] = Some true.
Proof.
  split; [vm_compute; reflexivity|]. split; [|vm_compute; repeat split; reflexivity]. exists (mkpt (1 # 2) 0).
  split; [exists (1 # 3)|exists (1 # 2)]; (split; [split; vm_compute; congruence|split; vm_compute; reflexivity]).
Qed.
