(** Properties of angles, rotations, bisectors and interpolated directions. *)
From Verif Require Import RBase AngleModel AngleSpec AngleProof AngleProof2.

(** C43: normalising an angle keeps its direction. *)
Theorem C43_range_0_2pi : forall a, let r := normalize_angle_0_2pi a in
  0 <= r <= 2 * PI /\ same_angle a r /\ (0 <= a <= 2 * PI -> r = a) /\ (~ 0 <= a <= 2 * PI -> r < 2 * PI).
Proof. exact norm_0_2pi_ok. Qed.
Theorem C43_range_minus_pi_to_pi : forall a, let r := normalize_angle_minus_pi_to_pi a in
  - PI < r <= PI /\ same_angle a r.
Proof. exact norm_pi_ok. Qed.
Theorem C43_heading : forall a, heading (normalize_angle_0_2pi a) = heading a /\ heading (normalize_angle_minus_pi_to_pi a) = heading a.
Proof.
  assert (H : forall a b, same_angle a b -> heading b = heading a).
  { intros a b (k & ->). unfold heading. f_equal.
    - destruct k as [|p|p].
      + f_equal; ring.
      + rewrite <- (positive_nat_Z p), <- INR_IZR_INZ. replace (a + INR (Pos.to_nat p) * (2 * PI)) with (a + 2 * INR (Pos.to_nat p) * PI) by ring. apply cos_period.
      + replace (IZR (Z.neg p)) with (- INR (Pos.to_nat p)) by (rewrite INR_IZR_INZ, positive_nat_Z; reflexivity).
        rewrite <- (cos_period (a + - INR (Pos.to_nat p) * (2 * PI)) (Pos.to_nat p)). f_equal; ring.
    - destruct k as [|p|p].
      + f_equal; ring.
      + rewrite <- (positive_nat_Z p), <- INR_IZR_INZ. replace (a + INR (Pos.to_nat p) * (2 * PI)) with (a + 2 * INR (Pos.to_nat p) * PI) by ring. apply sin_period.
      + replace (IZR (Z.neg p)) with (- INR (Pos.to_nat p)) by (rewrite INR_IZR_INZ, positive_nat_Z; reflexivity).
        rewrite <- (sin_period (a + - INR (Pos.to_nat p) * (2 * PI)) (Pos.to_nat p)). f_equal; ring. }
  intro a. split; apply H; [apply norm_0_2pi_ok|apply norm_pi_ok].
Qed.
Example C43_witness : normalize_angle_0_2pi (- PI) = PI /\ normalize_angle_minus_pi_to_pi (3 * PI / 2) = - (PI / 2).
Proof.
  pose proof PI_RGT_0 as P. split.
  - destruct (norm_0_2pi_ok (- PI)) as (B & (k & K) & _ & C). cbv zeta in *. rewrite K in *.
    assert (X : - PI + IZR k * (2 * PI) < 2 * PI) by (apply C; lra).
    assert (K1 : (0 < k)%Z) by (apply lt_IZR; nra). assert (K2 : (k < 2)%Z) by (apply lt_IZR; nra).
    replace k with 1%Z by lia. lra.
  - destruct (norm_pi_ok (3 * PI / 2)) as (B & (k & K)). cbv zeta in *. rewrite K in *.
    assert (K1 : (-2 < k)%Z) by (apply lt_IZR; nra). assert (K2 : (k < 0)%Z) by (apply lt_IZR; nra).
    replace k with (-1)%Z by lia. lra.
Qed.

(** C75: the angle of a vector is its polar angle. *)
Theorem C75_vector_angle : forall v, v <> (0, 0) ->
  - PI < vector_angle v <= PI /\ v = p_scale (p_norm v) (heading (vector_angle v)) /\
  forall a r, - PI < a <= PI -> 0 < r -> v = p_scale r (heading a) -> a = vector_angle v.
Proof. exact vector_angle_ok. Qed.
Theorem C75_angle_between_points : forall A B, A <> B ->
  - PI < angle_from_a_to_b A B <= PI /\
  B = p_add A (p_scale (p_dist B A) (heading (angle_from_a_to_b A B))).
Proof.
  intros A B N. change (angle_from_a_to_b A B) with (vector_angle (p_sub B A)).
  destruct (vector_angle_ok (p_sub B A)) as (R & E & _).
  - intro X. apply N. destruct A as [x y], B as [z w]. unfold p_sub in X; cbn [fst snd] in X. injection X as X1 X2. f_equal; lra.
  - split; [exact R|]. unfold p_dist. rewrite <- E. destruct A as [x y], B as [z w]. unfold p_add, p_sub; cbn [fst snd]. f_equal; ring.
Qed.
Example C75_witness : vector_angle (-1, 0) = PI /\ angle_from_a_to_b (1, 1) (1, 3) = PI / 2.
Proof.
  pose proof PI_RGT_0 as P. split.
  - symmetry. apply (proj2 (proj2 (vector_angle_ok (-1, 0) ltac:(intro X; injection X as X; lra))) PI 1); [lra|lra|].
    unfold p_scale, heading; cbn [fst snd]. rewrite cos_PI, sin_PI. f_equal; ring.
  - symmetry. change (angle_from_a_to_b (1, 1) (1, 3)) with (vector_angle (1 - 1, 3 - 1)).
    apply (proj2 (proj2 (vector_angle_ok (1 - 1, 3 - 1) ltac:(intro X; injection X as X; lra))) (PI / 2) 2); [lra|lra|].
    unfold p_scale, heading; cbn [fst snd]. rewrite cos_PI2, sin_PI2. f_equal; ring.
Qed.

(** C76: the rotation from one unit vector to another turns everything by the angle between them
    and moves points rigidly. *)
Theorem C76_rotation_turns : forall a b c r,
  rotate_vector (p_scale r (heading c)) (make_rotation_matrix (heading a) (heading (a + b))) = p_scale r (heading (c + b)).
Proof. exact rotation_heading. Qed.
Theorem C76_rotation_maps : forall v1 v2, unit v1 -> rotate_vector v1 (make_rotation_matrix v1 v2) = v2.
Proof. exact rotate_to. Qed.
Theorem C76_rotation_rigid : forall v1 v2 origin, unit v1 -> unit v2 ->
  rigid (fun p => rotate_point p (make_rotation_matrix v1 v2) origin) /\
  rotate_point origin (make_rotation_matrix v1 v2) origin = origin.
Proof.
  intros v1 v2 o H1 H2. split; [apply rotate_points_rigid; assumption|].
  unfold rotate_point, mat_vec, make_rotation_matrix, p_sub, p_dot, p_add; destruct o; cbn [fst snd]. f_equal; ring.
Qed.
(** The lists are transformed point by point, in order, by one rigid motion. *)
Theorem C76_rotation_lists : forall poly v1 v2 origin translation, unit v1 -> unit v2 ->
  rotate_points poly v1 v2 origin = map (fun p => rotate_point p (make_rotation_matrix v1 v2) origin) poly /\
  exists f, rigid f /\ f origin = p_add origin translation /\
    rotate_translate_points poly (make_rotation_matrix v1 v2) translation origin = map f poly.
Proof.
  intros poly v1 v2 o t H1 H2. split; [reflexivity|]. eexists. split; [apply (rotate_rigid v1 v2 o t H1 H2)|]. split; [|reflexivity].
  unfold mat_vec, make_rotation_matrix, p_sub, p_dot, p_add; destruct o; cbn [fst snd]. f_equal; ring.
Qed.
(** The vectors must be unit vectors: the matrix scales by the product of their lengths. *)
Theorem C76_rotation_lengths_refuted :
  ~ forall v1 v2 origin, v1 <> (0, 0) -> v2 <> (0, 0) -> rigid (fun p => rotate_point p (make_rotation_matrix v1 v2) origin).
Proof.
  intro H. destruct (H (2, 0) (1, 0) (0, 0)) as [_ T]; [intro X; injection X as X; lra..|].
  specialize (T (0, 0) (1, 0) (0, 1)).
  unfold turn, rotate_point, mat_vec, make_rotation_matrix, p_cross, p_dot, p_add, p_sub in T; cbn [fst snd] in T. lra.
Qed.
Example C76_witness : rotate_points [(2, 1); (1, 1)] (1, 0) (0, 1) (1, 1) = [(1, 2); (1, 1)].
Proof. unfold rotate_points, make_rotation_matrix, p_add, mat_vec, p_dot, p_cross, p_sub; cbn [map fst snd]. f_equal; [|f_equal]; f_equal; ring. Qed.

(** C77: the bisector of the counter-clockwise angle from one unit vector to another. *)
Theorem C77_bisect : forall a al, 0 < al <= 2 * PI -> bisect (heading a) (heading (a + al)) = heading (a + al / 2).
Proof. exact bisect_ok. Qed.
Theorem C77_bisect_not_antiparallel : forall a al, 0 < al < 2 * PI -> al <> PI ->
  bisect_not_antiparallel (heading a) (heading (a + al)) = heading (a + al / 2).
Proof. exact half_open. Qed.
(** The bisector of vectors of different lengths is not in the middle. *)
Theorem C77_lengths_refuted :
  ~ forall a al r s, 0 < r -> 0 < s -> 0 < al <= 2 * PI ->
      bisect (p_scale r (heading a)) (p_scale s (heading (a + al))) = heading (a + al / 2).
Proof.
  intro H. pose proof PI_RGT_0 as P. apply bisect_lengths.
  specialize (H 0 (PI / 2) 1 2 ltac:(lra) ltac:(lra) ltac:(lra)).
  replace (p_scale 1 (heading 0)) with (1, 0) in H by (unfold p_scale, heading; cbn [fst snd]; rewrite cos_0, sin_0; f_equal; ring).
  replace (p_scale 2 (heading (0 + PI / 2))) with (0, 2) in H
    by (unfold p_scale, heading; cbn [fst snd]; rewrite Rplus_0_l, cos_PI2, sin_PI2; f_equal; ring).
  rewrite H. f_equal. field.
Qed.
Example C77_witness : bisect (1, 0) (0, -1) = heading (3 * PI / 4).
Proof.
  pose proof PI_RGT_0 as P. rewrite <- (Rplus_0_l (3 * PI / 4)).
  replace (3 * PI / 4) with (3 * (PI / 2) / 2) by field. rewrite <- bisect_ok by lra. f_equal.
  - unfold heading. rewrite cos_0, sin_0. reflexivity.
  - unfold heading. rewrite Rplus_0_l. rewrite cos_3PI2, sin_3PI2. reflexivity.
Qed.

(** C78: interpolated directions. *)
Theorem C78_slerp : forall u v t, length u = length v -> rdot u u = 1 -> rdot v v = 1 -> -1 < rdot u v < 1 ->
  exists w, slerp u v t = Some w /\ length w = length u /\ rdot w w = 1 /\
    rdot u w = cos (t * acos (rdot u v)) /\ rdot v w = cos ((1 - t) * acos (rdot u v)).
Proof. exact slerp_ok. Qed.
Theorem C78_slerp_ends : forall u v, length u = length v -> -1 < rdot u v < 1 ->
  slerp u v 0 = Some u /\ slerp u v 1 = Some v.
Proof. exact slerp_ends. Qed.
Theorem C78_slerp_same : forall u t, rdot u u = 1 -> slerp u u t = Some u.
Proof. exact slerp_same. Qed.
(** Opposite directions divide by zero. *)
Theorem C78_slerp_opposite_refuted : forall u t, rdot u u = 1 -> slerp u (rscale (-1) u) t = None.
Proof. exact slerp_opposite. Qed.
Theorem C78_lerp : forall u v t, let w := radd u (rscale t (rsub v u)) in rdot w w <> 0 ->
  rdot (vector_lerp u v t) (vector_lerp u v t) = 1 /\ exists k, 0 < k /\ vector_lerp u v t = rscale k w.
Proof. exact lerp_ok. Qed.
Theorem C78_is_antiparallel : forall u v, length u = length v -> rdot u u <> 0 -> rdot v v <> 0 ->
  (is_antiparallel rdirect u v = true <-> exists k, 0 < k /\ v = rscale (- k) u).
Proof. exact antiparallel_ok. Qed.
Example C78_witness : let u := [1; 0; 0] in let v := [0; 1; 0] in
  length u = length v /\ rdot u u = 1 /\ rdot v v = 1 /\ -1 < rdot u v < 1 /\
  is_antiparallel rdirect [1; 2] [-2; -4] = true.
Proof.
  cbv zeta. split; [reflexivity|]. cbn [rdot]. do 2 (split; [lra|]). split; [split; lra|].
  apply (proj2 (antiparallel_ok [1; 2] [-2; -4] eq_refl ltac:(cbn [rdot]; lra) ltac:(cbn [rdot]; lra))). exists 2. split; [lra|]. unfold rscale. cbn [map]. f_equal; [|f_equal]; ring.
Qed.

Print Assumptions C43_range_0_2pi.
Print Assumptions C43_range_minus_pi_to_pi.
Print Assumptions C43_heading.
Print Assumptions C75_vector_angle.
Print Assumptions C75_angle_between_points.
Print Assumptions C76_rotation_turns.
Print Assumptions C76_rotation_lists.
Print Assumptions C77_bisect.
Print Assumptions C77_lengths_refuted.
Print Assumptions C78_slerp.
Print Assumptions C78_is_antiparallel.
