From Verif Require Import RBase AngleModel AngleSpec.

Lemma two_pi_pos : 0 < 2 * PI.
Proof. pose proof PI_RGT_0; lra. Qed.

Lemma floor_div : forall a, let n := IZR (Int_part (a / (2 * PI))) in 0 <= a - 2 * PI * n < 2 * PI.
Proof.
  intros a n. pose proof two_pi_pos as P. pose proof (base_Int_part (a / (2 * PI))) as [B1 B2]. fold n in B1, B2.
  assert (E : a = 2 * PI * (a / (2 * PI))) by (field; lra).
  split.
  - assert (2 * PI * n <= 2 * PI * (a / (2 * PI))) by (apply Rmult_le_compat_l; lra). lra.
  - assert (2 * PI * (a / (2 * PI)) < 2 * PI * (n + 1)) by (apply Rmult_lt_compat_l; lra). lra.
Qed.

Lemma norm_0_2pi_ok : forall a, let r := normalize_angle_0_2pi a in
  0 <= r <= 2 * PI /\ same_angle a r /\ (0 <= a <= 2 * PI -> r = a) /\ (~ 0 <= a <= 2 * PI -> r < 2 * PI).
Proof.
  intros a r. unfold r, normalize_angle_0_2pi. cbv zeta. pose proof two_pi_pos as P. pose proof (floor_div a) as F. cbv zeta in F.
  assert (S0 : same_angle a a) by (exists 0%Z; lra).
  destruct (Rltb_spec (2 * PI) a) as [H1|H1]; cbn [orb].
  2: destruct (Rltb_spec a 0) as [H2|H2].
  3: { split; [lra|]. split; [exact S0|]. split; [reflexivity|]. intro N; exfalso; apply N; lra. }
  all: destruct (Reqb_spec (IZR (Int_part (a / (2 * PI)))) 0) as [E|E]; cbn [negb];
    [rewrite E in F; exfalso; lra|];
    set (n := Int_part (a / (2 * PI))) in *;
    destruct (Rltb_spec (2 * PI) (a - 2 * PI * IZR n)); [exfalso; lra|];
    destruct (Rltb_spec (a - 2 * PI * IZR n) 0); [exfalso; lra|];
    (split; [lra|]); (split; [exists (- n)%Z; rewrite opp_IZR; lra|]); split; intros; lra.
Qed.

Lemma norm_pi_ok : forall a, let r := normalize_angle_minus_pi_to_pi a in - PI < r <= PI /\ same_angle a r.
Proof.
  intros a r. unfold r, normalize_angle_minus_pi_to_pi. cbv zeta. pose proof two_pi_pos as P.
  destruct (norm_0_2pi_ok a) as (B & (k & K) & _). cbv zeta in *. set (b := normalize_angle_0_2pi a) in *.
  destruct (Rltb_spec PI b).
  - split; [lra|]. exists (k - 1)%Z. rewrite minus_IZR. lra.
  - destruct (Rleb_spec b (- PI)); [exfalso; lra|]. split; [lra|]. exists k. exact K.
Qed.

(** ** atan2 *)
Lemma norm_as : forall x y k, 0 < k -> x * x + y * y = k * k -> sqrt (x * x + y * y) = k.
Proof. intros x y k Hk E. rewrite E. apply sqrt_square; lra. Qed.

Lemma atan2_ok : forall v, v <> (0, 0) ->
  - PI < vector_angle v <= PI /\ v = p_scale (p_norm v) (heading (vector_angle v)).
Proof.
  intros [x y] Hv. unfold vector_angle, atan2, p_norm, p_dot, p_scale, heading; cbn [fst snd].
  pose proof PI_RGT_0 as P.
  assert (A : forall t, - PI / 2 < atan t < PI / 2) by (intro t; apply atan_bound).
  assert (S1 : forall t, 0 < sqrt (1 + t²)).
  { intro t. apply sqrt_lt_R0. pose proof (Rle_0_sqr t); lra. }
  assert (S2 : forall t, sqrt (1 + t²) * sqrt (1 + t²) = 1 + t * t).
  { intro t. rewrite sqrt_sqrt; [reflexivity|]. pose proof (Rle_0_sqr t); lra. }
  destruct (Rltb_spec 0 x) as [Hx|Hx].
  - specialize (S1 (y / x)). specialize (S2 (y / x)). specialize (A (y / x)).
    rewrite (norm_as x y (x * sqrt (1 + (y / x)²))); [|apply Rmult_lt_0_compat; lra|].
    + split; [lra|]. rewrite cos_atan, sin_atan. f_equal; field; lra.
    + replace (x * sqrt (1 + (y / x)²) * (x * sqrt (1 + (y / x)²))) with (x * x * (sqrt (1 + (y / x)²) * sqrt (1 + (y / x)²))) by ring.
      rewrite S2. field; lra.
  - destruct (Rltb_spec x 0) as [Hx'|Hx'].
    + assert (E : sqrt (x * x + y * y) = - x * sqrt (1 + (y / x)²)).
      { specialize (S1 (y / x)). specialize (S2 (y / x)).
        apply norm_as; [apply Rmult_lt_0_compat; lra|].
        replace (- x * sqrt (1 + (y / x)²) * (- x * sqrt (1 + (y / x)²))) with (x * x * (sqrt (1 + (y / x)²) * sqrt (1 + (y / x)²))) by ring.
        rewrite S2. field; lra. }
      rewrite E. specialize (S1 (y / x)).
      destruct (Rleb_spec 0 y) as [Hy|Hy].
      * split.
        -- assert (atan (y / x) <= 0).
           { rewrite <- atan_0. destruct (Req_dec (y / x) 0) as [->|N]; [lra|]. left. apply atan_increasing.
             assert (y / x <= 0); [|lra]. unfold Rdiv. assert (/ x < 0) by (apply Rinv_lt_0_compat; lra). nra. }
           specialize (A (y / x)). lra.
        -- rewrite neg_cos, neg_sin, cos_atan, sin_atan. f_equal; field; lra.
      * split.
        -- assert (0 < atan (y / x)).
           { rewrite <- atan_0. apply atan_increasing.
             unfold Rdiv. assert (/ x < 0) by (apply Rinv_lt_0_compat; lra). nra. }
           specialize (A (y / x)). lra.
        -- rewrite cos_minus, sin_minus, cos_PI, sin_PI, cos_atan, sin_atan. f_equal; field; lra.
    + assert (x = 0) by lra. subst x.
      destruct (Rltb_spec 0 y) as [Hy|Hy].
      * split; [lra|]. rewrite (norm_as 0 y y) by (lra || ring). rewrite cos_PI2, sin_PI2. f_equal; ring.
      * destruct (Rltb_spec y 0) as [Hy'|Hy'].
        -- split; [lra|]. rewrite (norm_as 0 y (- y)) by (lra || ring). rewrite cos_neg, sin_neg, cos_PI2, sin_PI2. f_equal; ring.
        -- exfalso. apply Hv. f_equal; lra.
Qed.

Lemma cos_one_zero : forall d, - (2 * PI) < d < 2 * PI -> cos d = 1 -> d = 0.
Proof.
  intros d B C. pose proof PI_RGT_0 as P.
  assert (S : sin (d / 2) = 0).
  { pose proof (cos_2a_sin (d / 2)) as E. replace (2 * (d / 2)) with d in E by field. rewrite C in E.
    assert (sin (d / 2) * sin (d / 2) = 0) by lra. apply Rmult_integral in H. tauto. }
  destruct (Rtotal_order d 0) as [H|[H|H]]; [|exact H|].
  - exfalso. assert (0 < sin (- (d / 2))) by (apply sin_gt_0; lra). rewrite sin_neg in H0. lra.
  - exfalso. assert (0 < sin (d / 2)) by (apply sin_gt_0; lra). lra.
Qed.

Lemma heading_unique : forall v a b r s, 0 < r -> 0 < s -> - PI < a <= PI -> - PI < b <= PI ->
  v = p_scale r (heading a) -> v = p_scale s (heading b) -> a = b.
Proof.
  intros [x y] a b r s Hr Hs Ha Hb E1 E2. unfold p_scale, heading in *; cbn [fst snd] in *.
  injection E1 as X1 Y1. injection E2 as X2 Y2.
  assert (N1 : x * x + y * y = r * r).
  { rewrite X1, Y1. pose proof (sin2_cos2 a) as T. unfold Rsqr in T. replace (r * cos a * (r * cos a) + r * sin a * (r * sin a)) with (r * r * (sin a * sin a + cos a * cos a)) by ring. rewrite T; ring. }
  assert (N2 : x * x + y * y = s * s).
  { rewrite X2, Y2. pose proof (sin2_cos2 b) as T. unfold Rsqr in T. replace (s * cos b * (s * cos b) + s * sin b * (s * sin b)) with (s * s * (sin b * sin b + cos b * cos b)) by ring. rewrite T; ring. }
  assert (r = s) by nra. subst s.
  assert (C : cos a = cos b) by (apply (Rmult_eq_reg_l r); lra).
  assert (S : sin a = sin b) by (apply (Rmult_eq_reg_l r); lra).
  assert (D : a - b = 0); [|lra]. apply cos_one_zero; [lra|].
  rewrite cos_minus, C, S. pose proof (sin2_cos2 b) as T. unfold Rsqr in T. lra.
Qed.

Lemma norm_pos : forall v, v <> (0, 0) -> 0 < p_norm v.
Proof.
  intros [x y] H. unfold p_norm, p_dot; cbn [fst snd]. apply sqrt_lt_R0.
  destruct (Req_dec x 0) as [->|Hx]; [destruct (Req_dec y 0) as [->|Hy]; [congruence|]|]; nra.
Qed.

Lemma vector_angle_ok : forall v, v <> (0, 0) ->
  - PI < vector_angle v <= PI /\ v = p_scale (p_norm v) (heading (vector_angle v)) /\
  forall a r, - PI < a <= PI -> 0 < r -> v = p_scale r (heading a) -> a = vector_angle v.
Proof.
  intros v H. destruct (atan2_ok v H) as [B E]. split; [exact B|]. split; [exact E|].
  intros a r Ha Hr Ev. apply (heading_unique v a (vector_angle v) r (p_norm v)); auto. apply norm_pos, H.
Qed.

(** ** Rotation *)
Lemma rotation_heading : forall a b c r,
  rotate_vector (p_scale r (heading c)) (make_rotation_matrix (heading a) (heading (a + b))) = p_scale r (heading (c + b)).
Proof.
  intros. unfold rotate_vector, make_rotation_matrix, mat_vec, p_dot, p_cross, p_scale, heading; cbn [fst snd].
  assert (Cb : cos a * cos (a + b) + sin a * sin (a + b) = cos b).
  { rewrite <- cos_minus. rewrite <- cos_neg. f_equal. ring. }
  assert (Sb : cos a * sin (a + b) - sin a * cos (a + b) = sin b).
  { replace b with ((a + b) - a) at 3 by ring. rewrite sin_minus. ring. }
  rewrite Cb, Sb, cos_plus, sin_plus. f_equal; ring.
Qed.

Lemma rot_cs : forall v1 v2, unit v1 -> unit v2 ->
  p_dot v1 v2 * p_dot v1 v2 + p_cross v1 v2 * p_cross v1 v2 = 1.
Proof.
  unfold unit. intros v1 v2 H1 H2.
  replace (p_dot v1 v2 * p_dot v1 v2 + p_cross v1 v2 * p_cross v1 v2) with (p_dot v1 v1 * p_dot v2 v2) by (unfold p_dot, p_cross; ring).
  rewrite H1, H2; ring.
Qed.

Lemma rotate_to : forall v1 v2, unit v1 -> rotate_vector v1 (make_rotation_matrix v1 v2) = v2.
Proof.
  unfold unit, rotate_vector, make_rotation_matrix, mat_vec, p_dot, p_cross. intros [a b] [c d] H; cbn [fst snd] in *.
  f_equal.
  - transitivity ((a * a + b * b) * c); [ring|rewrite H; ring].
  - transitivity ((a * a + b * b) * d); [ring|rewrite H; ring].
Qed.

Lemma rotate_rigid : forall v1 v2 origin translation, unit v1 -> unit v2 ->
  rigid (fun p => p_add (p_add (mat_vec (make_rotation_matrix v1 v2) (p_sub p origin)) origin) translation).
Proof.
  intros v1 v2 o t H1 H2. pose proof (rot_cs v1 v2 H1 H2) as E.
  unfold make_rotation_matrix, mat_vec. set (c := p_dot v1 v2) in *. set (s := p_cross v1 v2) in *. clearbody c s.
  split.
  - intros a b. unfold p_dist, p_norm. f_equal. unfold p_dot, p_add, p_sub; cbn [fst snd].
    transitivity ((c * c + s * s) * ((fst a - fst b) * (fst a - fst b) + (snd a - snd b) * (snd a - snd b))); [ring|rewrite E; ring].
  - intros a b d. unfold turn, p_cross, p_dot, p_add, p_sub; cbn [fst snd].
    transitivity ((c * c + s * s) * ((fst b - fst a) * (snd d - snd a) - (snd b - snd a) * (fst d - fst a))); [ring|rewrite E; ring].
Qed.

Lemma p_add_0 : forall a : plane, p_add a (0, 0) = a.
Proof. intros [x y]. unfold p_add; cbn [fst snd]. f_equal; ring. Qed.

Lemma rotate_points_rigid : forall v1 v2 origin, unit v1 -> unit v2 ->
  rigid (fun p => rotate_point p (make_rotation_matrix v1 v2) origin).
Proof.
  intros v1 v2 o H1 H2. destruct (rotate_rigid v1 v2 o (0, 0) H1 H2) as [A B]. unfold rotate_point.
  split.
  - intros a b. specialize (A a b). rewrite !p_add_0 in A. exact A.
  - intros a b c. specialize (B a b c). rewrite !p_add_0 in B. exact B.
Qed.

(** ** Bisection *)
Lemma heading_unit : forall a, unit (heading a).
Proof. intro a. unfold unit, p_dot, heading; cbn [fst snd]. pose proof (sin2_cos2 a) as T. unfold Rsqr in T. lra. Qed.
Lemma normalize_heading : forall k a, 0 < k -> p_normalize (p_scale k (heading a)) = heading a.
Proof.
  intros k a Hk. unfold p_normalize.
  assert (N : p_norm (p_scale k (heading a)) = k).
  { unfold p_norm. replace (p_dot (p_scale k (heading a)) (p_scale k (heading a))) with (k * k * p_dot (heading a) (heading a)) by (unfold p_dot, p_scale; cbn [fst snd]; ring).
    rewrite heading_unit. rewrite Rmult_1_r. apply sqrt_square; lra. }
  rewrite N. unfold p_scale, heading; cbn [fst snd]. f_equal; field; lra.
Qed.
Lemma normalize_heading1 : forall a, p_normalize (heading a) = heading a.
Proof.
  intro a. rewrite <- (normalize_heading 1 a) at 2 by lra. f_equal. unfold p_scale, heading; cbn [fst snd]. f_equal; ring.
Qed.
Lemma heading_sum : forall a al, p_add (heading a) (heading (a + al)) = p_scale (2 * cos (al / 2)) (heading (a + al / 2)).
Proof.
  intros a al. unfold p_add, p_scale, heading; cbn [fst snd].
  replace (cos a) with (cos ((a + al / 2) - al / 2)) by (f_equal; field).
  replace (cos (a + al)) with (cos ((a + al / 2) + al / 2)) by (f_equal; field).
  replace (sin a) with (sin ((a + al / 2) - al / 2)) by (f_equal; field).
  replace (sin (a + al)) with (sin ((a + al / 2) + al / 2)) by (f_equal; field).
  generalize (a + al / 2). intro b. generalize (al / 2). intro h. rewrite cos_minus, cos_plus, sin_minus, sin_plus. f_equal; ring.
Qed.
Lemma heading_dot : forall a al, p_dot (heading a) (heading (a + al)) = cos al.
Proof.
  intros. unfold p_dot, heading; cbn [fst snd]. rewrite <- cos_minus. rewrite <- (cos_neg al). f_equal; ring.
Qed.
Lemma heading_cross : forall a al, p_cross (heading a) (heading (a + al)) = sin al.
Proof.
  intros. unfold p_cross, heading; cbn [fst snd]. replace al with ((a + al) - a) at 3 by ring. rewrite sin_minus. ring.
Qed.

Lemma half_open : forall a al, 0 < al < 2 * PI -> al <> PI ->
  (if negb (Rltb (p_cross (heading a) (heading (a + al))) 0)
   then p_normalize (p_scale (1 / 2) (p_add (heading a) (heading (a + al))))
   else p_normalize (p_scale (1 / 2) (p_sub (p_neg (heading a)) (heading (a + al))))) = heading (a + al / 2).
Proof.
  intros a al B N. pose proof PI_RGT_0 as P. rewrite heading_cross.
  assert (SC : forall k h, p_scale (1 / 2) (p_scale (2 * k) h) = p_scale k h).
  { intros k [x y]. unfold p_scale; cbn [fst snd]. f_equal; field. }
  destruct (Rtotal_order al PI) as [L|[L|L]]; [|contradiction|].
  - assert (0 < sin al) by (apply sin_gt_0; lra).
    destruct (Rltb_spec (sin al) 0); [exfalso; lra|]. cbn [negb].
    rewrite heading_sum, SC. apply normalize_heading. apply cos_gt_0; lra.
  - assert (sin al < 0) by (apply sin_lt_0; lra).
    destruct (Rltb_spec (sin al) 0); [|exfalso; lra]. cbn [negb].
    replace (p_sub (p_neg (heading a)) (heading (a + al))) with (p_neg (p_add (heading a) (heading (a + al))))
      by (unfold p_sub, p_neg, p_add, heading; cbn [fst snd]; f_equal; ring).
    rewrite heading_sum.
    replace (p_neg (p_scale (2 * cos (al / 2)) (heading (a + al / 2)))) with (p_scale (2 * - cos (al / 2)) (heading (a + al / 2)))
      by (unfold p_neg, p_scale, heading; cbn [fst snd]; f_equal; ring).
    rewrite SC. apply normalize_heading.
    assert (cos (al / 2) < 0) by (apply cos_lt_0; lra). lra.
Qed.

Lemma cos_inside : forall al, 0 < al < 2 * PI -> al <> PI -> -1 < cos al < 1.
Proof.
  intros al B N. pose proof PI_RGT_0 as P. pose proof (COS_bound al) as [C1 C2].
  split.
  - destruct (Req_dec (cos al) (-1)) as [E|E]; [|lra]. exfalso. apply N.
    assert (al - PI = 0); [|lra]. apply cos_one_zero; [lra|].
    rewrite cos_minus, cos_PI, sin_PI, E. ring.
  - destruct (Req_dec (cos al) 1) as [E|E]; [|lra]. exfalso.
    assert (al = 0); [|lra]. apply cos_one_zero; [lra|exact E].
Qed.

Lemma bisect_ok : forall a al, 0 < al <= 2 * PI -> bisect (heading a) (heading (a + al)) = heading (a + al / 2).
Proof.
  intros a al B. pose proof PI_RGT_0 as P. unfold bisect. cbv zeta. rewrite !normalize_heading1, heading_dot.
  destruct (Req_dec al PI) as [->|N1].
  - rewrite cos_PI. destruct (Rltb_spec (-1) (-1)); [exfalso; lra|]. cbn [andb].
    destruct (Reqb_spec (-1) (-1)); [|contradiction]. unfold right_normal, heading; cbn [fst snd].
    rewrite neg_cos, neg_sin, cos_plus, sin_plus, cos_PI2, sin_PI2. f_equal; ring.
  - destruct (Req_dec al (2 * PI)) as [->|N2].
    + rewrite cos_2PI. destruct (Rltb_spec 1 1); [exfalso; lra|]. rewrite andb_false_r.
      destruct (Reqb_spec 1 (-1)); [exfalso; lra|].
      replace (a + 2 * PI / 2) with (a + PI) by field. unfold p_neg, heading; cbn [fst snd].
      rewrite neg_cos, neg_sin. replace (a + 2 * PI) with (a + PI + PI) by ring. rewrite !neg_cos, !neg_sin. f_equal; ring.
    + destruct (cos_inside al ltac:(lra) N1) as [C1 C2].
      destruct (Rltb_spec (-1) (cos al)); [|contradiction]. destruct (Rltb_spec (cos al) 1); [|contradiction]. cbn [andb].
      apply half_open; [lra|exact N1].
Qed.

(** ** Interpolation of directions *)
Lemma slerp_ok : forall u v t, length u = length v -> rdot u u = 1 -> rdot v v = 1 -> -1 < rdot u v < 1 ->
  exists w, slerp u v t = Some w /\ length w = length u /\ rdot w w = 1 /\
    rdot u w = cos (t * acos (rdot u v)) /\ rdot v w = cos ((1 - t) * acos (rdot u v)).
Proof.
  intros u v t L U V D. unfold slerp. cbv zeta. set (d := rdot u v) in *. set (th := acos d).
  assert (C : cos th = d) by (apply cos_acos; lra).
  assert (S0 : 0 < sin th).
  { unfold th. rewrite sin_acos by lra. apply sqrt_lt_R0. unfold Rsqr. nra. }
  destruct (Rltb_spec d 1); [|exfalso; lra]. destruct (Reqb_spec (sin th) 0); [exfalso; lra|].
  eexists. split; [reflexivity|].
  set (p := sin ((1 - t) * th)). set (q := sin (t * th)). set (k := 1 / sin th).
  assert (LL : length (rscale p (rscale k u)) = length (rscale q (rscale k v))) by (rewrite !rscale_length; exact L).
  assert (P1 : p = sin th * cos (t * th) - cos th * sin (t * th)).
  { unfold p. replace ((1 - t) * th) with (th - t * th) by ring. apply sin_minus. }
  assert (S2 : sin th * sin th + cos th * cos th = 1) by (pose proof (sin2_cos2 th) as T; unfold Rsqr in T; lra).
  assert (S3 : q * q + cos (t * th) * cos (t * th) = 1) by (unfold q; pose proof (sin2_cos2 (t * th)) as T; unfold Rsqr in T; lra).
  assert (UW : rdot u (radd (rscale p (rscale k u)) (rscale q (rscale k v))) = k * (p + q * d)).
  { rewrite rdot_radd_r by (rewrite ?rscale_length; congruence). rewrite !rdot_rscale_r, U. fold d. ring. }
  assert (VW : rdot v (radd (rscale p (rscale k u)) (rscale q (rscale k v))) = k * (p * d + q)).
  { rewrite rdot_radd_r by (rewrite ?rscale_length; congruence). rewrite !rdot_rscale_r, V, (rdot_comm v u). fold d. ring. }
  split; [rewrite radd_length by exact LL; rewrite !rscale_length; reflexivity|].
  split; [|split].
  - rewrite rdot_radd_l by (rewrite ?radd_length by exact LL; rewrite ?rscale_length; congruence).
    rewrite !rdot_rscale_l, UW, VW. unfold k. rewrite P1. rewrite <- C.
    fold q. set (ct := cos (t * th)) in *. set (st := sin th) in *. set (co := cos th) in *.
    assert (st <> 0) by lra.
    transitivity ((st * st * ct * ct + (1 - co * co) * q * q) / (st * st)); [field; assumption|].
    replace (1 - co * co) with (st * st) by lra.
    transitivity (q * q + ct * ct); [field; assumption|exact S3].
  - rewrite UW. unfold k. rewrite P1. fold q. rewrite <- C. field. lra.
  - rewrite VW. unfold k. rewrite P1. fold q. replace ((1 - t) * th) with (th - t * th) by ring. rewrite cos_minus. fold q. rewrite <- C.
    transitivity ((sin th * cos th * cos (t * th) + (1 - cos th * cos th) * q) / sin th); [field; lra|].
    replace (1 - cos th * cos th) with (sin th * sin th) by lra. field. lra.
Qed.

Lemma rnormalize_unit : forall v, rdot v v <> 0 -> rdot (rnormalize v) (rnormalize v) = 1 /\ 0 < rnorm v.
Proof.
  intros v H. assert (P : 0 < rdot v v) by (pose proof (rdot_self_nonneg v); lra).
  assert (N : 0 < rnorm v) by (apply sqrt_lt_R0; exact P). split; [|exact N].
  unfold rnormalize. rewrite rdot_rscale_l, rdot_rscale_r.
  assert (E : rnorm v * rnorm v = rdot v v) by (apply sqrt_sqrt; lra).
  rewrite <- E. field. lra.
Qed.
