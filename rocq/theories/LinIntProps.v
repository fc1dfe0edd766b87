(** Property theorems: intersections of segments, lines and rays (C18, C19, C20, C56, C57). *)
From Verif Require Import Base CmpModel OrientModel OrientSpec OrientProof DistModel DistSpec DistProof LinIntModel LinIntSpec LinIntProof LinInt3Proof RayProof.

(** C18: for segments with distinct end points the reported type and points describe the
    common points exactly. *)
Theorem C18_segment_intersection_exact : forall A B C D, nonzero (vsub B A) -> nonzero (vsub D C) -> exists ty pts,
  segment_segment_intersection direct A B C D = Some (ty, pts) /\
  let common := both (on_segment A B) (on_segment C D) in
  match ty with
  | e_invalid_intersection => False
  | e_non_crossing => pts = [] /\ is_empty_set common
  | e_crossing => exists X, pts = [X] /\ is_single_point common X /\ inside_segment A B X /\ inside_segment C D X
  | e_endpoint => exists X, pts = [X] /\ is_single_point common X /\ (X =p= A \/ X =p= B \/ X =p= C \/ X =p= D) /\
      ~ parallel (vsub B A) (vsub D C)
  | e_overlapping => exists X Y, pts = [X; Y] /\ is_segment_set common X Y /\ parallel (vsub B A) (vsub D C)
  end.
Proof. exact segseg_ok. Qed.
Print Assumptions C18_segment_intersection_exact.

(** The segments are reported apart exactly when they have no common point. *)
Theorem C18_non_crossing_iff_disjoint : forall A B C D, nonzero (vsub B A) -> nonzero (vsub D C) ->
  (segment_segment_intersection direct A B C D = Some (e_non_crossing, []) <->
   forall X, ~ (on_segment A B X /\ on_segment C D X)).
Proof.
  intros A B C D N1 N2. destruct (segseg_ok A B C D N1 N2) as (ty & pts & R & S). rewrite R. cbv zeta in S. split.
  - intro E. assert (ty = e_non_crossing) by congruence. subst ty. exact (proj2 S).
  - intro H. destruct ty; [destruct S|destruct S as [S _]; subst; reflexivity| | | ]; exfalso.
    + destruct S as (X & _ & S & _). apply (H X). apply S. apply pteq_refl.
    + destruct S as (X & Y & _ & S & _). apply (H X). apply S. apply on_segment_ends.
    + destruct S as (X & _ & S & _). apply (H X). apply S. apply pteq_refl.
Qed.
Print Assumptions C18_non_crossing_iff_disjoint.

(** A proper crossing is reported exactly when the single common point is interior to both. *)
Theorem C18_crossing_iff_interior_point : forall A B C D, nonzero (vsub B A) -> nonzero (vsub D C) ->
  ((exists X, segment_segment_intersection direct A B C D = Some (e_crossing, [X])) <->
   exists X, inside_segment A B X /\ inside_segment C D X /\ forall Z, on_segment A B Z /\ on_segment C D Z <-> Z =p= X).
Proof.
  intros A B C D N1 N2. destruct (segseg_ok A B C D N1 N2) as (ty & pts & R & S). rewrite R. cbv zeta in S. split.
  - intros (X & E). assert (ty = e_crossing) by congruence. subst ty. destruct S as (X' & E1 & S1 & S2 & S3).
    exists X'. split; [exact S2|]. split; [exact S3|exact S1].
  - intros (X & I1 & I2 & U).
    assert (NP : ~ cross (vsub B A) (vsub D C) == 0) by (intro EP; exact (interior_overlap A B C D X N1 N2 EP I1 I2 U)).
    assert (EX : both (on_segment A B) (on_segment C D) X) by (apply U; apply pteq_refl).
    destruct ty; [destruct S| | | | ].
    + destruct (proj2 S X EX).
    + destruct S as (X' & E1 & _). exists X'. congruence.
    + destruct S as (X' & Y' & _ & _ & P). apply parallel_cross in P; [contradiction|assumption|assumption].
    + destruct S as (X' & _ & S1 & S2 & _). exfalso. apply S1 in EX.
      assert (EE : forall P Q Y, nonzero (vsub Q P) -> inside_segment P Q Y -> Y =p= P \/ Y =p= Q -> False).
      { intros P Q Y N (t & Ht & Et) [G|G].
        - assert (t == 0); [|lra]. apply (lerp_inj P Q); [exact N|]. eapply pteq_trans; [apply pteq_sym; exact Et|].
          eapply pteq_trans; [exact G|apply lerp_0].
        - assert (t == 1); [|lra]. apply (lerp_inj P Q); [exact N|]. eapply pteq_trans; [apply pteq_sym; exact Et|].
          eapply pteq_trans; [exact G|apply lerp_1]. }
      destruct S2 as [G|[G|[G|G]]].
      * apply (EE A B X N1 I1); left; eapply pteq_trans; eassumption.
      * apply (EE A B X N1 I1); right; eapply pteq_trans; eassumption.
      * apply (EE C D X N2 I2); left; eapply pteq_trans; eassumption.
      * apply (EE C D X N2 I2); right; eapply pteq_trans; eassumption.
Qed.
Print Assumptions C18_crossing_iff_interior_point.

Example C18_witness : exists X,
  segment_segment_intersection direct (mkpt 0 0) (mkpt 4 4) (mkpt 0 4) (mkpt 4 0) = Some (e_crossing, [X]) /\ X =p= mkpt 2 2.
Proof. eexists; split; [reflexivity|split; reflexivity]. Qed.
Example C18_witness_endpoint : exists X,
  segment_segment_intersection direct (mkpt 0 0) (mkpt 4 0) (mkpt 2 0) (mkpt 2 5) = Some (e_endpoint, [X]) /\ X =p= mkpt 2 0.
Proof. eexists; split; [reflexivity|split; reflexivity]. Qed.
Example C18_witness_overlap :
  segment_segment_intersection direct (mkpt 0 0) (mkpt 4 0) (mkpt 6 0) (mkpt 2 0) = Some (e_overlapping, [mkpt 2 0; mkpt 4 0]).
Proof. reflexivity. Qed.

(** Collinear segments that touch at one end point are reported as overlapping, with that
    point twice. *)
Theorem C18_collinear_touch_reported_endpoint_refuted : ~ (forall A B C D, nonzero (vsub B A) -> nonzero (vsub D C) ->
  (exists X, is_single_point (both (on_segment A B) (on_segment C D)) X /\ (X =p= B /\ X =p= C)) ->
  exists X, segment_segment_intersection direct A B C D = Some (e_endpoint, [X])).
Proof.
  intro H. destruct (H (mkpt 0 0) (mkpt 1 0) (mkpt 1 0) (mkpt 2 0)) as (X & E).
  - intros [G _]; unfold vsub in G; simpl in G; lra.
  - intros [G _]; unfold vsub in G; simpl in G; lra.
  - exists (mkpt 1 0). split; [|split; split; reflexivity].
    intro Z; split.
    + intros [(s & Hs & E1 & E2) (t & Ht & E3 & E4)]. unfold lerp, vadd, vscale, vsub in *; simpl in *. split; simpl; lra.
    + intros [E1 E2]; simpl in *. split; [exists 1|exists 0]; (split; [lra|]); split; unfold lerp, vadd, vscale, vsub; simpl; lra.
  - discriminate E.
Qed.
Print Assumptions C18_collinear_touch_reported_endpoint_refuted.

(** With a degenerate first segment the answer is wrong: the point (0,0) is reported to
    overlap the segment from (5,0) to (9,0). *)
Theorem C18_degenerate_segment_refuted : ~ (forall A B C D, nonzero (vsub D C) ->
  (forall X, ~ (on_segment A B X /\ on_segment C D X)) ->
  segment_segment_intersection direct A B C D = Some (e_non_crossing, [])).
Proof.
  intro H. assert (E := H (mkpt 0 0) (mkpt 0 0) (mkpt 5 0) (mkpt 9 0)).
  discriminate E; clear E H.
  - intros [G _]; unfold vsub in G; simpl in G; lra.
  - intros X [(s & Hs & E1 & E2) (t & Ht & E3 & E4)]. unfold lerp, vadd, vscale, vsub in *; simpl in *. lra.
Qed.
Print Assumptions C18_degenerate_segment_refuted.

(** C19: two lines through pairs of distinct points meet in one point, coincide or are
    apart, and that is what is reported; the overload with parameters returns the
    parameters of the point on both lines. *)
Theorem C19_line_line_with_parameters : forall A B C D, nonzero (vsub B A) -> nonzero (vsub D C) ->
  (exists X s t, line_line_intersect_params direct A B C D = Some (e_crossing, Some (X, s, t)) /\
     X =p= lerp A B s /\ X =p= lerp C D t /\ is_single_point (both (on_line A B) (on_line C D)) X) \/
  (line_line_intersect_params direct A B C D = Some (e_overlapping, None) /\ forall X, on_line A B X <-> on_line C D X) \/
  (line_line_intersect_params direct A B C D = Some (e_non_crossing, None) /\ is_empty_set (both (on_line A B) (on_line C D))).
Proof. exact line_line_params_ok. Qed.
Print Assumptions C19_line_line_with_parameters.

Theorem C19_line_line : forall A B C D, nonzero (vsub B A) -> nonzero (vsub D C) ->
  (exists X, line_line_intersect direct A B C D = Some (e_crossing, Some X) /\
     is_single_point (both (on_line A B) (on_line C D)) X) \/
  (line_line_intersect direct A B C D = Some (e_overlapping, None) /\ forall X, on_line A B X <-> on_line C D X) \/
  (line_line_intersect direct A B C D = Some (e_non_crossing, None) /\ is_empty_set (both (on_line A B) (on_line C D))).
Proof. exact line_line_ok. Qed.
Print Assumptions C19_line_line.

(** The line is A B, the segment C D. *)
Theorem C19_line_segment : forall A B C D, nonzero (vsub B A) -> nonzero (vsub D C) -> exists ty o,
  line_segment_intersect direct A B C D = Some (ty, o) /\
  let common := both (on_line A B) (on_segment C D) in
  match ty with
  | e_invalid_intersection => False
  | e_non_crossing => o = None /\ is_empty_set common
  | e_crossing => exists X, o = Some X /\ is_single_point common X /\ inside_segment C D X
  | e_endpoint => exists X, o = Some X /\ is_single_point common X /\ (X =p= C \/ X =p= D)
  | e_overlapping => o = None /\ forall X, on_segment C D X -> on_line A B X
  end.
Proof. exact line_segment_ok. Qed.
Print Assumptions C19_line_segment.

Example C19_witness :
  (exists X s t, line_line_intersect_params direct (mkpt 0 0) (mkpt 1 1) (mkpt 0 4) (mkpt 1 3) = Some (e_crossing, Some (X, s, t)) /\
    X =p= mkpt 2 2 /\ s == 2 /\ t == 2) /\
  line_line_intersect direct (mkpt 0 0) (mkpt 1 1) (mkpt 0 1) (mkpt 3 4) = Some (e_non_crossing, None) /\
  line_line_intersect direct (mkpt 0 0) (mkpt 1 1) (mkpt 3 3) (mkpt 2 2) = Some (e_overlapping, None) /\
  (exists X, line_segment_intersect direct (mkpt 0 0) (mkpt 1 1) (mkpt 0 4) (mkpt 8 (-4)) = Some (e_crossing, Some X) /\ X =p= mkpt 2 2) /\
  (exists X, line_segment_intersect direct (mkpt 0 0) (mkpt 1 1) (mkpt 3 3) (mkpt 8 (-4)) = Some (e_endpoint, Some X) /\ X =p= mkpt 3 3) /\
  line_segment_intersect direct (mkpt 0 0) (mkpt 1 1) (mkpt 3 4) (mkpt 8 19) = Some (e_non_crossing, None).
Proof.
  split; [eexists; eexists; eexists; split; [reflexivity|]; split; [split; reflexivity|split; reflexivity]|].
  split; [reflexivity|]. split; [reflexivity|]. split; [eexists; split; [reflexivity|split; reflexivity]|].
  split; [eexists; split; [reflexivity|split; reflexivity]|reflexivity].
Qed.

(** C20: a ray with unit direction against a segment with distinct end points.  The
    parameter t is the distance along the ray of the first common point. *)
Theorem C20_ray_segment : forall O v A B, dot v v == 1 -> nonzero (vsub B A) -> exists ty ot pts,
  ray_segment_intersection direct O v A B = Some (ty, ot, pts) /\
  let common := both (on_ray O v) (on_segment A B) in
  let first t := 0 <= t /\ on_segment A B (vadd O (vscale t v)) /\
                 forall t', 0 <= t' -> on_segment A B (vadd O (vscale t' v)) -> t <= t' in
  match ty with
  | e_invalid_intersection => False
  | e_non_crossing => ot = None /\ pts = [] /\ is_empty_set common
  | e_crossing => exists t X, ot = Some t /\ pts = [X] /\ X =p= vadd O (vscale t v) /\ first t /\
      is_single_point common X /\ inside_segment A B X
  | e_endpoint => exists t X, ot = Some t /\ pts = [X] /\ X =p= vadd O (vscale t v) /\ first t /\
      is_single_point common X /\ (X =p= A \/ X =p= B)
  | e_overlapping => exists t X Y, ot = Some t /\ pts = [X; Y] /\ X =p= vadd O (vscale t v) /\ first t /\
      is_segment_set common X Y /\ parallel v (vsub B A)
  end.
Proof. exact ray_segment_ok. Qed.
Print Assumptions C20_ray_segment.

Theorem C20_non_crossing_iff_disjoint : forall O v A B, dot v v == 1 -> nonzero (vsub B A) ->
  (ray_segment_intersection direct O v A B = Some (e_non_crossing, None, []) <->
   forall X, ~ (on_ray O v X /\ on_segment A B X)).
Proof.
  intros O v A B U N. destruct (ray_segment_ok O v A B U N) as (ty & ot & pts & R & S). rewrite R. cbv zeta in S. split.
  - intro E. assert (ty = e_non_crossing) by congruence. subst ty. exact (proj2 (proj2 S)).
  - intro H. destruct ty; [destruct S|destruct S as (S1 & S2 & _); subst; reflexivity| | | ]; exfalso;
    [destruct S as (t & X & _ & _ & _ & S & _)|destruct S as (t & X & Y & _ & _ & _ & S & _)|destruct S as (t & X & _ & _ & _ & S & _)];
    destruct S as (S1 & S2 & _); (apply (H (vadd O (vscale t v))); split; [exists t; split; [exact S1|apply pteq_refl]|exact S2]).
Qed.
Print Assumptions C20_non_crossing_iff_disjoint.

(** The overload without outputs returns the same type, unless the segment is parallel to
    the ray and off its line. *)
Theorem C20_ray_segment_type_agrees : forall O v A B, dot v v == 1 -> nonzero (vsub B A) ->
  ~ (cross v (vsub B A) == 0 /\ ~ on_line A B O) ->
  exists ty ot pts, ray_segment_intersection direct O v A B = Some (ty, ot, pts) /\
    ray_segment_intersection_type direct O v A B = Some ty.
Proof. intros O v A B U N H. destruct (ray_segment_type_agrees O v A B U N) as [G|G]; [contradiction|exact G]. Qed.
Print Assumptions C20_ray_segment_type_agrees.

(** In the excluded case it reports an overlap although the sets are disjoint. *)
Theorem C20_ray_segment_type_refuted : ~ (forall O v A B, dot v v == 1 -> nonzero (vsub B A) ->
  (forall X, ~ (on_ray O v X /\ on_segment A B X)) -> ray_segment_intersection_type direct O v A B = Some e_non_crossing).
Proof.
  intro H. assert (E := H (mkpt 0 0) (mkpt 1 0) (mkpt 1 1) (mkpt 2 1)). discriminate E; clear E H.
  - reflexivity.
  - intros [G _]; unfold vsub in G; simpl in G; lra.
  - intros X [(s & Hs & E1 & E2) (t & Ht & E3 & E4)]. unfold lerp, vadd, vscale, vsub in *; simpl in *. lra.
Qed.
Print Assumptions C20_ray_segment_type_refuted.

Example C20_witness : dot (mkpt (3#5) (4#5)) (mkpt (3#5) (4#5)) == 1 /\
  (exists t X, ray_segment_intersection direct (mkpt 0 0) (mkpt (3#5) (4#5)) (mkpt 0 4) (mkpt 6 4) = Some (e_crossing, Some t, [X]) /\ t == 5 /\ X =p= mkpt 3 4) /\
  (exists t X, ray_segment_intersection direct (mkpt 0 0) (mkpt (3#5) (4#5)) (mkpt 3 4) (mkpt 6 4) = Some (e_endpoint, Some t, [X]) /\ t == 5 /\ X =p= mkpt 3 4) /\
  (exists t, ray_segment_intersection direct (mkpt 0 0) (mkpt (3#5) (4#5)) (mkpt 6 8) (mkpt 3 4) = Some (e_overlapping, Some t, [mkpt 3 4; mkpt 6 8]) /\ t == 5) /\
  ray_segment_intersection direct (mkpt 0 0) (mkpt (3#5) (4#5)) (mkpt (-6) (-8)) (mkpt (-3) (-4)) = Some (e_non_crossing, None, []).
Proof.
  split; [reflexivity|]. split; [eexists; eexists; split; [reflexivity|]; split; [reflexivity|split; reflexivity]|].
  split; [eexists; eexists; split; [reflexivity|]; split; [reflexivity|split; reflexivity]|].
  split; [eexists; split; [reflexivity|]; reflexivity|reflexivity].
Qed.

(** C56: a ray against a line given by a point and a direction.  When they are not
    parallel, the ray parameter and the point are those of the single common point of
    the two carrier lines, and the intersection is reported when this point lies on the
    ray and on the half of the line ahead of its reference point. *)
Theorem C56_ray_line_nonparallel : forall O v l, ~ cross v (l_dir l) == 0 ->
  exists t r, vadd O (vscale t v) =p= vadd (l_ref l) (vscale r (l_dir l)) /\
    (forall t' r', vadd O (vscale t' v) =p= vadd (l_ref l) (vscale r' (l_dir l)) -> t' == t /\ r' == r) /\
    (exists x : bool, ray_line_intersection direct O v l = Some (x, false, Some t, if x then Some (vadd O (vscale t v)) else None) /\
     (x = true <-> 0 <= t /\ 0 <= r)).
Proof. exact ray_line_ok. Qed.
Print Assumptions C56_ray_line_nonparallel.

(** The answer for every ray with nonzero direction and every line: parallel lines are
    always called overlapping, others intersect exactly when the ray meets the part of
    the line ahead of its reference point, and then parameter and point are exact. *)
Theorem C56_ray_line_exact : forall O v l, nonzero v -> nonzero (l_dir l) ->
  exists hit over t X, ray_line_intersection direct O v l = Some (hit, over, t, X) /\
    (over = true <-> exists k, l_dir l =p= vscale k v) /\
    (hit = true <-> over = true \/
       exists a b, 0 <= a /\ 0 <= b /\ vadd O (vscale a v) =p= vadd (l_ref l) (vscale b (l_dir l))) /\
    (hit = true -> over = false -> exists a P, t = Some a /\ X = Some P /\ 0 <= a /\ P =p= vadd O (vscale a v) /\
       exists b, P =p= vadd (l_ref l) (vscale b (l_dir l))).
Proof.
  intros O v l Hv Hl. destruct (Qeq_dec (cross v (l_dir l)) 0) as [Z|NZ].
  - assert (K : exists k, l_dir l =p= vscale k v).
    { exists (dot v (l_dir l) / dot v v). pose proof (nz_dot v Hv) as W. unfold cross in Z.
      assert (X1 : px (l_dir l) * dot v v == dot v (l_dir l) * px v - py v * (px v * py (l_dir l) - py v * px (l_dir l)))
        by (unfold dot; ring).
      assert (X2 : py (l_dir l) * dot v v == dot v (l_dir l) * py v + px v * (px v * py (l_dir l) - py v * px (l_dir l)))
        by (unfold dot; ring).
      rewrite Z in X1, X2. set (D := dot v (l_dir l)) in *. set (n := dot v v) in *.
      split; unfold vscale; simpl.
      - setoid_replace (D / n * px v) with ((D * px v - py v * 0) / n) by (field; lra). rewrite <- X1. field; lra.
      - setoid_replace (D / n * py v) with ((D * py v + px v * 0) / n) by (field; lra). rewrite <- X2. field; lra. }
    exists true, true, None, None. split.
    + unfold ray_line_intersection; simpl. unfold left_normal, dot; simpl.
      destruct (Qeqb_spec (px (l_dir l) * - py v + py (l_dir l) * px v) 0) as [_|N];
        [|exfalso; apply N; unfold cross in Z; lra].
      unfold get_orientation_v, orientation; simpl. unfold cross in Z.
      destruct (Qltb_spec (px v * py (l_dir l)) (py v * px (l_dir l))); [exfalso; lra|].
      unfold Qgtb. destruct (Qltb_spec (py v * px (l_dir l)) (px v * py (l_dir l))); [exfalso; lra|]. reflexivity.
    + split; [tauto|]. split; [tauto|]. discriminate.
  - destruct (ray_line_ok O v l NZ) as (t & r & E & U & x & R & Hx).
    exists x, false, (Some t), (if x then Some (vadd O (vscale t v)) else None). split; [exact R|]. split.
    + split; [discriminate|]. intros [k [K1 K2]]. exfalso. apply NZ. unfold cross, vscale in *; simpl in *. rewrite K1, K2. ring.
    + split.
      * rewrite Hx. split.
        -- intros [H1 H2]. right. exists t, r. auto.
        -- intros [D|(a & b & Ha & Hb & P)]; [discriminate|]. destruct (U a b P) as [E1 E2]. split; lra.
      * intros Hh _. subst x. exists t, (vadd O (vscale t v)). split; [reflexivity|]. split; [reflexivity|].
        split; [apply Hx; reflexivity|]. split; [apply pteq_refl|]. exists r. exact E.
Qed.
Print Assumptions C56_ray_line_exact.

(** The full statement would say: reported exactly when ray and line have a common point.
    It fails behind the reference point of the line ... *)
Theorem C56_ray_line_behind_reference_refuted : ~ (forall O v l, dot v v == 1 -> nonzero (l_dir l) ->
  ((exists o t p, ray_line_intersection direct O v l = Some (true, o, t, p)) <->
   exists X, on_ray O v X /\ exists r, X =p= vadd (l_ref l) (vscale r (l_dir l)))).
Proof.
  intro H. destruct (H (mkpt 0 0) (mkpt 1 0) (mkline (mkpt 1 1) (mkpt 0 1))) as [_ E].
  - reflexivity.
  - intros [_ G]; simpl in G; lra.
  - destruct E as (o & t & p & E).
    + exists (mkpt 1 0). split; [exists 1|exists (-1)]; [split; [lra|]|]; split; simpl; reflexivity.
    + discriminate E.
Qed.
Print Assumptions C56_ray_line_behind_reference_refuted.

(** ... and for parallel disjoint lines, which are reported as overlapping. *)
Theorem C56_parallel_line_refuted : ~ (forall O v l, dot v v == 1 -> nonzero (l_dir l) ->
  (forall t r, ~ vadd O (vscale t v) =p= vadd (l_ref l) (vscale r (l_dir l))) ->
  exists t p, ray_line_intersection direct O v l = Some (false, false, t, p)).
Proof.
  intro H. destruct (H (mkpt 0 0) (mkpt 1 0) (mkline (mkpt 0 1) (mkpt 1 0))) as (t & p & E).
  - reflexivity.
  - intros [G _]; simpl in G; lra.
  - intros t r [E1 E2]; simpl in *; lra.
  - discriminate E.
Qed.
Print Assumptions C56_parallel_line_refuted.

Example C56_witness : exists t X, ray_line_intersection direct (mkpt 0 0) (mkpt (3#5) (4#5)) (mkline (mkpt 0 4) (mkpt 1 0)) = Some (true, false, Some t, Some X) /\
  t == 5 /\ X =p= mkpt 3 4.
Proof. eexists; eexists; split; [reflexivity|]; split; [reflexivity|split; reflexivity]. Qed.

(** C57: segments in space. *)
Theorem C57_segment_intersection_in_space : forall p1 p2 p3 p4, nonzero3 (vsub3 p2 p1) -> nonzero3 (vsub3 p4 p3) -> exists ty pts,
  segment_segment_intersection3 direct p1 p2 p3 p4 = Some (ty, pts) /\
  match ty with
  | e_invalid_intersection => False
  | e_non_crossing => pts = [] /\ forall Z, ~ common3 p1 p2 p3 p4 Z
  | e_crossing => exists X, pts = [X] /\ (forall Z, common3 p1 p2 p3 p4 Z <-> pt3eq Z X) /\
      inside_segment3 p3 p4 X /\ ~ parallel3 (vsub3 p2 p1) (vsub3 p4 p3)
  | e_endpoint => exists X, pts = [X] /\ (forall Z, common3 p1 p2 p3 p4 Z <-> pt3eq Z X) /\ (pt3eq X p3 \/ pt3eq X p4)
  | e_overlapping => exists X Y, pts = [X; Y] /\ (forall Z, common3 p1 p2 p3 p4 Z <-> on_segment3 X Y Z) /\
      ~ pt3eq X Y /\ parallel3 (vsub3 p2 p1) (vsub3 p4 p3)
  end.
Proof. exact segseg3_ok. Qed.
Print Assumptions C57_segment_intersection_in_space.

(** Whether segments meet at all is always reported correctly. *)
Theorem C57_non_crossing_iff_disjoint : forall p1 p2 p3 p4, nonzero3 (vsub3 p2 p1) -> nonzero3 (vsub3 p4 p3) ->
  (segment_segment_intersection3 direct p1 p2 p3 p4 = Some (e_non_crossing, []) <->
   forall X, ~ (on_segment3 p1 p2 X /\ on_segment3 p3 p4 X)).
Proof.
  intros A B C D N1 N2. destruct (segseg3_ok A B C D N1 N2) as (ty & pts & R & S). rewrite R. split.
  - intro E. assert (ty = e_non_crossing) by congruence. subst ty. exact (proj2 S).
  - intro H. destruct ty; [destruct S|destruct S as [S _]; subst; reflexivity| | | ]; exfalso.
    + destruct S as (X & _ & S & _). apply (H X). apply S. apply pt3eq_refl.
    + destruct S as (X & Y & _ & S & _). apply (H X). apply S. exists 0; split; [lra|].
      unfold lerp3, vadd3, vscale3, pt3eq; simpl. repeat split; ring.
    + destruct S as (X & _ & S & _). apply (H X). apply S. apply pt3eq_refl.
Qed.
Print Assumptions C57_non_crossing_iff_disjoint.

(** What is missing: a contact at an end point of the first segment is reported as a
    crossing, unlike the planar version. *)
Theorem C57_crossing_is_interior_refuted : ~ (forall p1 p2 p3 p4 X, nonzero3 (vsub3 p2 p1) -> nonzero3 (vsub3 p4 p3) ->
  segment_segment_intersection3 direct p1 p2 p3 p4 = Some (e_crossing, [X]) -> inside_segment3 p1 p2 X).
Proof.
  intro H. edestruct (H (mkpt3 0 0 0) (mkpt3 0 1 0) (mkpt3 (-1) 0 0) (mkpt3 1 0 0)) as (t & Ht & E1 & E2 & E3).
  - intros (_ & E & _); unfold vsub3 in E; simpl in E; lra.
  - intros (E & _); unfold vsub3 in E; simpl in E; lra.
  - reflexivity.
  - unfold lerp3 in E2. cbn [y3 vadd3 vscale3 vsub3] in E2. 
    match type of E2 with ?l == _ => assert (Z : l == 0) by reflexivity; rewrite Z in E2 end. lra.
Qed.
Print Assumptions C57_crossing_is_interior_refuted.

(** A degenerate first segment always divides by zero. *)
Theorem C57_degenerate_segment_undefined : forall p p3 p4,
  segment_segment_intersection3 direct p p p3 p4 = None.
Proof.
  intros p p3 p4. unfold segment_segment_intersection3, is_coplanar. simpl equals. simpl greater_than.
  destruct (Qeqb_spec (dot3 (vsub3 p3 p) (cross3 (vsub3 p p) (vsub3 p4 p3))) 0) as [E|E]; cbn [negb].
  2:{ exfalso; apply E. unfold dot3, cross3, vsub3; simpl. ring. }
  match goal with |- context [Qgtb ?d 0] => destruct (Qgtb_spec d 0) as [G|G] end.
  { exfalso. revert G. unfold dist2_3, dot3, vsub3; simpl. intro G. nra. }
  match goal with |- context [negb ?b] => replace b with true end.
  2:{ symmetry. rewrite !andb_true_iff, !Qeqb_eq. unfold cross3, vsub3; simpl. repeat split; ring. }
  cbn [negb]. unfold qdiv_opt at 1.
  destruct (Qeqb_spec (dot3 (vsub3 p p) (vsub3 p p)) 0) as [Z|Z]; [reflexivity|].
  exfalso; apply Z. unfold dot3, vsub3; simpl. ring.
Qed.
Print Assumptions C57_degenerate_segment_undefined.

Example C57_witness : (exists X, segment_segment_intersection3 direct (mkpt3 0 0 0) (mkpt3 2 2 2) (mkpt3 0 2 1) (mkpt3 2 0 1) = Some (e_crossing, [X]) /\ pt3eq X (mkpt3 1 1 1)) /\
  segment_segment_intersection3 direct (mkpt3 0 0 0) (mkpt3 2 2 2) (mkpt3 0 2 5) (mkpt3 2 0 1) = Some (e_non_crossing, []).
Proof. split; [eexists; split; [reflexivity|repeat split; reflexivity]|reflexivity]. Qed.

(** C18: under a tolerance the segment intersection is still defined for all segments, it is never the invalid type, and
    the number of points written is that of the type. *)
Definition points_of_type (ty : itype) (pts : list pt) : Prop :=
  match ty with
  | e_invalid_intersection => False
  | e_non_crossing => pts = []
  | e_crossing | e_endpoint => exists X, pts = [X]
  | e_overlapping => exists X Y, pts = [X; Y]
  end.
Theorem C18_never_invalid : forall cmp tol A B C D, 0 <= tol -> (cmp = direct \/ cmp = absolute tol \/ cmp = relative tol) ->
  exists ty pts, segment_segment_intersection cmp A B C D = Some (ty, pts) /\ points_of_type ty pts.
Proof.
  intros cmp tol A B C D T H.
  assert (Z : forall d, equals cmp d 0 = false -> ~ d == 0).
  { intros d E K. assert (equals cmp d 0 = true); [|congruence]. assert (N : 0 <= rel_bound tol d 0).
    { unfold rel_bound. apply Qmult_le_0_compat; [exact T|]. pose proof (qabs_nonneg d). pose proof (qabs_nonneg 0). lra. }
    assert (Q0 : qabs (d - 0) == 0) by (unfold qabs; destruct (Qltb_spec (d - 0) 0); lra).
    destruct H as [ ->|[ ->| ->] ]; cbn; [apply Qeqb_eq, K|apply Qleb_le; lra|apply Qleb_le; lra]. }
  assert (TRI : forall u v, less_than cmp u v = false -> greater_than cmp u v = false -> equals cmp u v = true).
  { assert (AB : forall d, Qleb (qabs d) 0 = true -> d == 0) by (intros d E; apply Qleb_le in E; revert E; unfold qabs; destruct (Qltb_spec d 0); lra).
    intros u v. destruct H as [ ->|[ ->| ->] ]; cbn; intros L G.
    - apply Qeqb_eq. destruct (Qltb_spec u v), (Qgtb_spec u v); try discriminate. lra.
    - apply Qleb_le. destruct (Qltb_spec (u - v) (- tol)), (Qgtb_spec (u - v) tol); try discriminate. unfold qabs. destruct (Qltb_spec (u - v) 0); lra.
    - apply Qleb_le. destruct (Qltb_spec (u - v) (- rel_bound tol u v)), (Qgtb_spec (u - v) (rel_bound tol u v)); try discriminate. unfold qabs at 1. destruct (Qltb_spec (u - v) 0); lra. }
  unfold segment_segment_intersection. cbv zeta. destruct (equals cmp (xdenom A B C D) 0) eqn:E.
  - eexists _, _. split; [rewrite (surjective_pairing (parallel_intersection cmp A B C D)); reflexivity|].
    unfold parallel_intersection. repeat match goal with |- context [if ?b then _ else _] => destruct b end; cbn; eauto.
  - pose proof (Z _ E) as NZ. unfold qdiv_opt. destruct (Qeqb_spec (xdenom A B C D) 0) as [K|_]; [contradiction|].
    set (s := xnum_s A B C D / xdenom A B C D). set (t := xnum_t A B C D / xdenom A B C D). clearbody s t.
    destruct (less_than cmp 0 s && less_than cmp s 1 && less_than cmp 0 t && less_than cmp t 1) eqn:E1; [eexists _, _; split; [reflexivity|cbn; eauto]|].
    destruct (greater_than cmp 0 s || greater_than cmp s 1 || greater_than cmp 0 t || greater_than cmp t 1) eqn:E2; [eexists _, _; split; [reflexivity|reflexivity]|].
    apply orb_false_iff in E2. destruct E2 as [E2 G4]. apply orb_false_iff in E2. destruct E2 as [E2 G3]. apply orb_false_iff in E2. destruct E2 as [G1 G2].
    assert (Q : (equals cmp 0 s || equals cmp s 1 || equals cmp 0 t || equals cmp t 1) = true).
    { destruct (less_than cmp 0 s) eqn:L1; [|rewrite (TRI _ _ L1 G1); reflexivity].
      destruct (less_than cmp s 1) eqn:L2; [|rewrite (TRI _ _ L2 G2), !orb_true_r; reflexivity].
      destruct (less_than cmp 0 t) eqn:L3; [|rewrite (TRI _ _ L3 G3), !orb_true_r; reflexivity].
      destruct (less_than cmp t 1) eqn:L4; [discriminate E1|rewrite (TRI _ _ L4 G4), !orb_true_r; reflexivity]. }
    rewrite Q, andb_true_r. eexists _, _. split; [reflexivity|].
    repeat match goal with |- context [if ?b || ?c then _ else _] => destruct (b || c) end; cbn; eauto.
Qed.
Example C18_never_invalid_witness : exists X, segment_segment_intersection (absolute (1 # 100)) (mkpt 0 0) (mkpt 2 0) (mkpt 1 (1 # 200)) (mkpt 1 1) = Some (e_endpoint, [X]).
Proof. eexists. vm_compute. reflexivity. Qed.
Print Assumptions C18_never_invalid.

(** C19: the test of a line against a segment does report the invalid type under a tolerance, although it writes the
    point: the line crosses the segment so close to an end point that the parameter is the tolerance from 0, but the
    numerator, an area, is not. *)
Theorem C19_invalid_type_refuted : exists tol A B C D X, 0 < tol /\ nonzero (vsub B A) /\ nonzero (vsub D C) /\
  line_segment_intersect (absolute tol) A B C D = Some (e_invalid_intersection, Some X) /\ on_segment C D X /\ on_line A B X.
Proof.
  exists (1 # 100), (mkpt 0 0), (mkpt 1000 0), (mkpt 5 (- (1 # 200))), (mkpt 5 10). eexists.
  split; [reflexivity|]. split; [intros [H _]; vm_compute in H; discriminate|]. split; [intros [_ H]; vm_compute in H; discriminate|]. split; [vm_compute; reflexivity|].
  split; [exists (1 # 2001); split; [split; vm_compute; discriminate|split; vm_compute; reflexivity]|].
  exists (1 # 200). split; vm_compute; reflexivity.
Qed.
Print Assumptions C19_invalid_type_refuted.
