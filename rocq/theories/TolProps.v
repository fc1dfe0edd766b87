(** C144: intersections of segments, lines and rays under an absolute tolerance. *)
From Verif Require Import Base CmpModel OrientModel OrientSpec OrientProof DistModel LinIntModel LinIntSpec LinIntProof TolSpec TolProof.

(** A common point of two segments is never missed, whatever the tolerance and however the segments lie, a point for a
    segment included. *)
Theorem C144_segments_not_missed : forall tol A B C D X, 0 <= tol -> on_segment A B X -> on_segment C D X ->
  exists ty pts, segment_segment_intersection (absolute tol) A B C D = Some (ty, pts) /\ (ty = e_crossing \/ ty = e_endpoint \/ ty = e_overlapping).
Proof. exact segments_not_missed. Qed.
(** For segments that are not nearly parallel a reported point is a point of both lines.  It is at most the tolerance, as a
    part of each segment, beyond its ends; and crossing means more than the tolerance away from all ends. *)
Theorem C144_segments_meaning : forall tol A B C D, 0 <= tol -> tol < qabs (cross (vsub B A) (vsub D C)) ->
  exists ty pts, segment_segment_intersection (absolute tol) A B C D = Some (ty, pts) /\
  match ty with
  | e_non_crossing => pts = [] /\ is_empty_set (both (on_segment A B) (on_segment C D))
  | e_crossing => exists X s t, pts = [X] /\ X =p= lerp A B s /\ X =p= lerp C D t /\ well_within tol s /\ well_within tol t
  | e_endpoint => exists X s t, pts = [X] /\ X =p= lerp A B s /\ X =p= lerp C D t /\ within tol s /\ within tol t /\ ~ (well_within tol s /\ well_within tol t)
  | _ => False
  end.
Proof.
  intros tol A B C D T H. apply segments_tolerance; [exact T|]. pose proof (xdenom_cross A B C D) as E. destruct (Qlt_le_dec tol (qabs (xdenom A B C D))) as [L|L]; [exact L|]. exfalso.
  apply abs_le in L. assert (qabs (cross (vsub B A) (vsub D C)) <= tol) by (apply abs_le; lra). lra.
Qed.
(** But segments as far apart as one likes can be reported as overlapping: the test of three points on a line compares an
    area with the tolerance. *)
Theorem C144_overlap_far_refuted : forall tol d, 0 < tol -> 0 < d -> exists A B C D, nonzero (vsub B A) /\ nonzero (vsub D C) /\
  segment_segment_intersection (absolute tol) A B C D = Some (e_overlapping, [C; D]) /\
  forall X Y, on_segment A B X -> on_segment C D Y -> px Y - px X == d.
Proof.
  intros tol d T P. assert (Q0 : 0 < tol / d) by (apply Qlt_shift_div_l; lra). assert (QD : d * (tol / d) == tol) by (field; lra).
  exists (mkpt 0 0), (mkpt 0 (tol / d)), (mkpt d 0), (mkpt d (tol / d)). set (h := tol / d) in *. clearbody h.
  split; [intros [_ H]; cbn in H; lra|]. split; [intros [_ H]; cbn in H; lra|].
  assert (B1 : is_between (absolute tol) (mkpt 0 0) (mkpt 0 h) (mkpt d 0) true = true) by (apply is_between_true; unfold cross, vsub; cbn [px py]; [lra|intros _; left; lra|intro H; exfalso; lra]).
  assert (B2 : is_between (absolute tol) (mkpt 0 0) (mkpt 0 h) (mkpt d h) true = true) by (apply is_between_true; unfold cross, vsub; cbn [px py]; [lra|intros _; left; lra|intro H; exfalso; lra]).
  assert (CO : is_collinear (absolute tol) (mkpt 0 0) (mkpt 0 h) (mkpt d 0) = true) by (unfold is_collinear; cbn [equals absolute]; apply abs_leb; unfold cross, vsub; cbn [px py]; lra).
  split.
  - unfold segment_segment_intersection. cbv zeta. assert (E : equals (absolute tol) (xdenom (mkpt 0 0) (mkpt 0 h) (mkpt d 0) (mkpt d h)) 0 = true) by (cbn [equals absolute]; apply abs_leb; unfold xdenom; cbn [px py]; lra).
    rewrite E. unfold parallel_intersection. rewrite CO, B1, B2. reflexivity.
  - intros X Y (s & _ & [X1 _]) (t & _ & [Y1 _]). unfold lerp, vadd, vscale, vsub in *. cbn [px py] in *. rewrite X1, Y1. ring.
Qed.

(** A common point of a line and a segment is not missed either, and a reported point is one of both lines, at most the
    tolerance beyond the ends of the segment. *)
Theorem C144_line_segment_not_missed : forall tol A B C D X, 0 <= tol -> on_line A B X -> on_segment C D X ->
  exists ty o, line_segment_intersect (absolute tol) A B C D = Some (ty, o) /\ ty <> e_non_crossing.
Proof. exact line_segment_not_missed. Qed.
Theorem C144_line_segment_point : forall tol A B C D ty X, 0 <= tol -> line_segment_intersect (absolute tol) A B C D = Some (ty, Some X) ->
  exists s t, X =p= lerp A B s /\ X =p= lerp C D t /\ within tol t /\ (ty = e_crossing <-> well_within tol t).
Proof. exact line_segment_point. Qed.

(** The same for a ray, and a segment not nearly parallel to it. *)
Theorem C144_ray_segment_meaning : forall tol O v A B, 0 <= tol -> tol < qabs (cross v (vsub B A)) ->
  exists ty ot pts, ray_segment_intersection (absolute tol) O v A B = Some (ty, ot, pts) /\
  match ty with
  | e_non_crossing => pts = [] /\ is_empty_set (both (on_ray O v) (on_segment A B))
  | e_crossing => exists X t r, ot = Some t /\ pts = [X] /\ X =p= vadd O (vscale t v) /\ X =p= lerp A B r /\ - tol <= t /\ well_within tol r
  | e_endpoint => exists X t r, ot = Some t /\ pts = [X] /\ X =p= vadd O (vscale t v) /\ X =p= lerp A B r /\ - tol <= t /\ within tol r /\ ~ well_within tol r
  | _ => False
  end.
Proof. exact ray_segment_tolerance. Qed.
(** But with a tolerance a ray can miss a segment that it crosses in its middle. *)
Theorem C144_ray_missed_refuted : exists tol O v A B X, 0 < tol /\ dot v v == 1 /\ on_ray O v X /\ inside_segment A B X /\
  ray_segment_intersection (absolute tol) O v A B = Some (e_non_crossing, None, []).
Proof.
  exists (1 # 100), (mkpt (-(1)) 0), (mkpt 1 0), (mkpt 0 (- (1 # 200))), (mkpt 1 (1 # 200)), (mkpt (1 # 2) 0).
  split; [reflexivity|]. split; [reflexivity|]. split; [exists (3 # 2); split; [discriminate|split; reflexivity]|]. split; [exists (1 # 2); split; [split; reflexivity|split; reflexivity]|]. vm_compute. reflexivity.
Qed.
Example C144_witness : on_segment (mkpt 0 0) (mkpt 4 4) (mkpt 2 2) /\ on_segment (mkpt 0 4) (mkpt 2 2) (mkpt 2 2) /\
  (1 # 100) < qabs (cross (vsub (mkpt 4 4) (mkpt 0 0)) (vsub (mkpt 2 2) (mkpt 0 4))) /\
  exists X, segment_segment_intersection (absolute (1 # 100)) (mkpt 0 0) (mkpt 4 4) (mkpt 0 4) (mkpt 2 2) = Some (e_endpoint, [X]) /\ X =p= mkpt 2 2.
Proof.
  split; [exists (1 # 2); split; [split; discriminate|split; reflexivity]|]. split; [exists 1; split; [split; discriminate|split; reflexivity]|]. split; [reflexivity|].
  eexists. split; [vm_compute; reflexivity|split; vm_compute; reflexivity].
Qed.
Print Assumptions C144_segments_not_missed.
Print Assumptions C144_segments_meaning.
Print Assumptions C144_overlap_far_refuted.
Print Assumptions C144_line_segment_not_missed.
Print Assumptions C144_line_segment_point.
Print Assumptions C144_ray_segment_meaning.
Print Assumptions C144_ray_missed_refuted.
