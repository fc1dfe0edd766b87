(** Angular order of [OrientSpec] in terms of real polar angles. *)
From Coq Require Import Reals Qreals Lra.
From Verif Require Import Base CmpModel OrientModel OrientSpec OrientProof.

(** [u] points in the direction at counter-clockwise angle [al] from the x axis. *)
Definition polar (u : pt) (al : R) : Prop :=
  exists rho : R, (0 < rho)%R /\ Q2R (px u) = (rho * cos al)%R /\ Q2R (py u) = (rho * sin al)%R.

Lemma Q2R_lt0 : forall q, 0 < q <-> (0 < Q2R q)%R.
Proof.
  intro q; split; intro H.
  - apply Qlt_Rlt in H. replace (Q2R 0) with 0%R in H; [exact H|]. unfold Q2R; simpl; Lra.lra.
  - apply Rlt_Qlt. replace (Q2R 0) with 0%R; [exact H|]. unfold Q2R; simpl; Lra.lra.
Qed.
Lemma Q2R_gt0 : forall q, q < 0 <-> (Q2R q < 0)%R.
Proof.
  intro q. assert (E : q < 0 <-> 0 < - q) by (split; intro; lra).
  rewrite E, Q2R_lt0, Q2R_opp. split; intro; Lra.lra.
Qed.

Lemma cross_polar : forall r u th al, polar r th -> polar u (th + al)%R ->
  exists k, (0 < k)%R /\ Q2R (cross r u) = (k * sin al)%R /\ Q2R (dot r u) = (k * cos al)%R.
Proof.
  intros r u th al (a & Ha & R1 & R2) (b & Hb & U1 & U2). exists (a * b)%R.
  split; [apply Rmult_lt_0_compat; assumption|]. unfold cross, dot.
  rewrite Q2R_minus, Q2R_plus, !Q2R_mult, R1, R2, U1, U2.
  assert (Es : sin al = (sin (th + al) * cos th - cos (th + al) * sin th)%R).
  { replace al with ((th + al) - th)%R at 1 by Lra.lra. rewrite sin_minus; Lra.lra. }
  assert (Ec : cos al = (cos (th + al) * cos th + sin (th + al) * sin th)%R).
  { replace al with ((th + al) - th)%R at 1 by Lra.lra. rewrite cos_minus; Lra.lra. }
  rewrite Es, Ec. split; ring.
Qed.

Lemma sector_polar : forall r u th al, polar r th -> polar u (th + al)%R -> (0 <= al < 2 * PI)%R ->
  (sector r u = 0%nat /\ al = 0%R) \/ (sector r u = 1%nat /\ (0 < al < PI)%R) \/
  (sector r u = 2%nat /\ al = PI) \/ (sector r u = 3%nat /\ (PI < al < 2 * PI)%R).
Proof.
  intros r u th al Hr Hu Hal. destruct (cross_polar _ _ _ _ Hr Hu) as (k & Hk & C & D).
  pose proof PI_RGT_0 as HPI. unfold sector.
  destruct (Rtotal_order al 0) as [H|[H|H]]; [Lra.lra| |].
  - left. subst al. rewrite sin_0 in C. rewrite cos_0 in D. split; [|reflexivity].
    assert (~ 0 < cross r u) by (rewrite Q2R_lt0; Lra.lra).
    assert (~ cross r u < 0) by (rewrite Q2R_gt0; Lra.lra).
    assert (~ dot r u < 0) by (rewrite Q2R_gt0; Lra.lra).
    repeat (qcase; [contradiction|]). reflexivity.
  - destruct (Rtotal_order al PI) as [H'|[H'|H']].
    + right; left. pose proof (sin_gt_0 al H H').
      assert (0 < cross r u) by (rewrite Q2R_lt0, C; apply Rmult_lt_0_compat; assumption).
      qcase; [split; auto|exfalso; lra].
    + right; right; left. subst al. rewrite sin_PI in C. rewrite cos_PI in D.
      assert (~ 0 < cross r u) by (rewrite Q2R_lt0; Lra.lra).
      assert (~ cross r u < 0) by (rewrite Q2R_gt0; Lra.lra).
      assert (dot r u < 0) by (rewrite Q2R_gt0; Lra.lra).
      repeat (qcase; try contradiction); [split; reflexivity|exfalso; lra].
    + right; right; right. pose proof (sin_lt_0 al H' ltac:(Lra.lra)) as Hs.
      assert (K : cross r u < 0).
      { rewrite Q2R_gt0, C. replace 0%R with (k * 0)%R by ring. apply Rmult_lt_compat_l; assumption. }
      destruct (Qltb_spec 0 (cross r u)); [exfalso; lra|].
      destruct (Qltb_spec (cross r u) 0); [split; auto; Lra.lra|exfalso; lra].
Qed.

Lemma angle_lt_polar : forall r u v th al be,
  polar r th -> polar u (th + al)%R -> polar v (th + be)%R ->
  (0 <= al < 2 * PI)%R -> (0 <= be < 2 * PI)%R ->
  (angle_lt r u v <-> (al < be)%R).
Proof.
  intros r u v th al be Hr Hu Hv Ha Hb. pose proof PI_RGT_0 as HPI.
  assert (CR : exists k, (0 < k)%R /\ Q2R (cross u v) = (k * sin (be - al))%R).
  { destruct (cross_polar u v (th + al) (be - al) Hu) as (k & Hk & C & _).
    - replace (th + al + (be - al))%R with (th + be)%R by ring. exact Hv.
    - exists k; split; assumption. }
  destruct CR as (k & Hk & C).
  assert (POS : (0 < be - al < PI)%R -> 0 < cross u v).
  { intros [H1 H2]. rewrite Q2R_lt0, C. apply Rmult_lt_0_compat; [exact Hk|apply sin_gt_0; assumption]. }
  assert (NEG : (- PI < be - al <= 0)%R -> ~ 0 < cross u v).
  { intros [H1 H2]. rewrite Q2R_lt0, C. intro G.
    assert (0 <= sin (al - be))%R by (apply sin_ge_0; Lra.lra).
    assert (E : sin (be - al) = (- sin (al - be))%R) by (rewrite <- sin_neg; f_equal; ring).
    rewrite E in G. assert (0 <= k * sin (al - be))%R by (apply Rmult_le_pos; Lra.lra). Lra.lra. }
  unfold angle_lt.
  destruct (sector_polar r u th al Hr Hu Ha) as [[S1 A]|[[S1 A]|[[S1 A]|[S1 A]]]];
  destruct (sector_polar r v th be Hr Hv Hb) as [[S2 B]|[[S2 B]|[[S2 B]|[S2 B]]]]; rewrite S1, S2;
  (split; [intros [G|[G1 G2]]; [try lia; Lra.lra|try discriminate G1;
            (destruct (Rlt_le_dec al be); [assumption|exfalso; apply NEG; [Lra.lra|exact G2]])]
          | intro G; try (left; lia); try (exfalso; Lra.lra); (right; split; [reflexivity|apply POS; Lra.lra])]).
Qed.

(** Every non-zero rational vector has a polar angle in [0, 2 pi). *)
Lemma polar_exists : forall u, nonzero u -> exists al, (0 <= al < 2 * PI)%R /\ polar u al.
Proof.
  intros u Hu. pose proof (nz_dot u Hu) as Hn. pose proof PI_RGT_0 as HPI.
  apply Q2R_lt0 in Hn. unfold dot in Hn. rewrite Q2R_plus, !Q2R_mult in Hn.
  set (x := Q2R (px u)) in *. set (y := Q2R (py u)) in *.
  set (rho := sqrt (x * x + y * y)).
  assert (Hr : (0 < rho)%R) by (apply sqrt_lt_R0; exact Hn).
  assert (Hrr : (rho * rho = x * x + y * y)%R) by (apply sqrt_sqrt; Lra.lra).
  assert (Hx : (-1 <= x / rho <= 1)%R).
  { assert (E : (x / rho * (x / rho) <= 1)%R).
    { replace (x / rho * (x / rho))%R with ((x * x) / (rho * rho))%R by (field; Lra.lra).
      apply (Rmult_le_reg_r (rho * rho)); [rewrite Hrr; Lra.lra|].
      replace (x * x / (rho * rho) * (rho * rho))%R with (x * x)%R by (field; Lra.lra).
      rewrite Rmult_1_l, Hrr. pose proof (Rle_0_sqr y) as S; unfold Rsqr in S; Lra.lra. }
    set (q := (x / rho)%R) in *. split; Lra.nra. }
  set (t := acos (x / rho)).
  assert (Ht : (0 <= t <= PI)%R) by apply acos_bound.
  assert (Hc : cos t = (x / rho)%R) by (apply cos_acos; exact Hx).
  assert (Hs : sin t = (Rabs y / rho)%R).
  { unfold t. rewrite sin_acos by exact Hx.
    assert (E : (1 - Rsqr (x / rho) = Rsqr (Rabs y / rho))%R).
    { unfold Rsqr. replace (Rabs y / rho * (Rabs y / rho))%R with ((Rabs y * Rabs y) / (rho * rho))%R by (field; Lra.lra).
      replace (x / rho * (x / rho))%R with ((x * x) / (rho * rho))%R by (field; Lra.lra).
      rewrite <- Rabs_mult, Rabs_right by (pose proof (Rle_0_sqr y) as S; unfold Rsqr in S; Lra.lra).
      rewrite Hrr. field. Lra.lra. }
    rewrite E. apply sqrt_Rsqr. apply Rmult_le_pos; [apply Rabs_pos|]. left; apply Rinv_0_lt_compat; exact Hr. }
  destruct (Rle_lt_dec 0 y) as [Hy|Hy].
  - exists t. split; [Lra.lra|]. exists rho. split; [exact Hr|]. fold x y.
    rewrite Hc, Hs, Rabs_right by Lra.lra. split; field; Lra.lra.
  - exists (2 * PI - t)%R. rewrite Rabs_left in Hs by exact Hy.
    assert (t <> 0%R).
    { intro E. rewrite E, sin_0 in Hs.
      assert (0 < - y / rho)%R by (apply Rmult_lt_0_compat; [Lra.lra|apply Rinv_0_lt_compat; exact Hr]). Lra.lra. }
    split; [Lra.lra|]. exists rho. split; [exact Hr|]. fold x y.
    replace (2 * PI - t)%R with (- t + 2 * PI)%R by ring.
    rewrite cos_plus, sin_plus, cos_2PI, sin_2PI, cos_neg, sin_neg, Hc, Hs. split; field; Lra.lra.
Qed.

Lemma polar_nonzero : forall u al, polar u al -> nonzero u.
Proof.
  intros u al (rho & Hr & H1 & H2) [G1 G2].
  apply Qeq_eqR in G1; apply Qeq_eqR in G2. rewrite H1 in G1; rewrite H2 in G2.
  assert (Z : Q2R 0 = 0%R) by (unfold Q2R; simpl; Lra.lra). rewrite Z in *.
  pose proof (sin2_cos2 al) as S. unfold Rsqr in S.
  apply Rmult_integral in G1; apply Rmult_integral in G2.
  destruct G1 as [G1|G1]; [Lra.lra|]. destruct G2 as [G2|G2]; [Lra.lra|]. rewrite G1, G2 in S. Lra.lra.
Qed.

Lemma angle_compare_polar : forall r u v th al be,
  polar r th -> polar u (th + al)%R -> polar v (th + be)%R ->
  (0 <= al < 2 * PI)%R -> (0 <= be < 2 * PI)%R ->
  (vector_angle_compare direct r u v = true <-> (al < be)%R).
Proof.
  intros r u v th al be Hr Hu Hv Ha Hb.
  rewrite vector_angle_compare_ok by (eapply polar_nonzero; eassumption).
  eapply angle_lt_polar; eassumption.
Qed.

Lemma same_direction_polar : forall r u v th al be, polar r th -> polar u (th + al)%R -> polar v (th + be)%R ->
  (0 <= al < 2 * PI)%R -> (0 <= be < 2 * PI)%R -> (same_direction u v <-> al = be).
Proof.
  intros r u v th al be Hr Hu Hv Ha Hb.
  rewrite <- (angle_incomparable r u v) by (eapply polar_nonzero; eassumption).
  rewrite (angle_lt_polar r u v th al be), (angle_lt_polar r v u th be al) by assumption.
  split; [intros [G1 G2]; Lra.lra|intros ->; Lra.lra].
Qed.

Lemma vector_between_polar : forall a b c th be ga,
  polar a th -> polar b (th + be)%R -> polar c (th + ga)%R ->
  (0 <= be < 2 * PI)%R -> (0 <= ga < 2 * PI)%R ->
  (is_vector_between direct a b c false = true <-> (0 < ga < be)%R).
Proof.
  intros a b c th be ga Ha Hb Hc Rb Rc. pose proof PI_RGT_0.
  rewrite is_vector_between_ok by (eapply polar_nonzero; eassumption).
  assert (Ha0 : polar a (th + 0)%R) by (replace (th + 0)%R with th by ring; exact Ha).
  rewrite (same_direction_polar a c a th ga 0), (same_direction_polar a c b th ga be), (angle_lt_polar a c b th ga be)
    by (assumption || Lra.lra).
  split.
  - intros [[_ G]|(G1 & G2 & G3)]; [discriminate|Lra.lra].
  - intro G; right; repeat split; Lra.lra.
Qed.

Lemma angle_compare_swo : forall r, nonzero r ->
  (forall u, nonzero u -> vector_angle_compare direct r u u = false) /\
  (forall u v w, nonzero u -> nonzero v -> nonzero w ->
     vector_angle_compare direct r u v = true -> vector_angle_compare direct r v w = true ->
     vector_angle_compare direct r u w = true) /\
  (forall u v, nonzero u -> nonzero v ->
     ((vector_angle_compare direct r u v = false /\ vector_angle_compare direct r v u = false) <-> same_direction u v)).
Proof.
  intros r Hr. split; [|split].
  - intros u Hu. apply not_true_iff_false. rewrite vector_angle_compare_ok by assumption. apply angle_lt_irrefl.
  - intros u v w Hu Hv Hw. rewrite !vector_angle_compare_ok by assumption. apply angle_lt_trans; assumption.
  - intros u v Hu Hv. rewrite <- !not_true_iff_false, !vector_angle_compare_ok by assumption.
    apply angle_incomparable; assumption.
Qed.

Lemma polar_x_axis : polar (mkpt 1 0) 0.
Proof. exists 1%R. rewrite cos_0, sin_0. unfold Q2R; simpl. repeat split; Lra.lra. Qed.

Lemma point_angle_compare_polar : forall o a b al be,
  polar (vsub a o) al -> polar (vsub b o) be -> (0 <= al < 2 * PI)%R -> (0 <= be < 2 * PI)%R ->
  (point_angle_compare direct o a b = true <-> (al < be)%R).
Proof.
  intros o a b al be Ha Hb Ra Rb. unfold point_angle_compare.
  apply (angle_compare_polar _ _ _ 0 al be polar_x_axis); try assumption; rewrite Rplus_0_l; assumption.
Qed.

Lemma pseudo_angle_polar : forall u v, nonzero u -> nonzero v ->
  exists a b, pseudo_angle u = Some a /\ pseudo_angle v = Some b /\ 0 <= a < 4 /\ 0 <= b < 4 /\
    forall al be, polar u al -> polar v be -> (0 <= al < 2 * PI)%R -> (0 <= be < 2 * PI)%R ->
      (a < b <-> (al < be)%R).
Proof.
  intros u v Hu Hv. destruct (pseudo_angle_some u Hu) as (a & Ea & Ra). destruct (pseudo_angle_some v Hv) as (b & Eb & Rb).
  exists a, b. repeat split; try assumption; try lra; try tauto.
  - intro G. rewrite (pseudo_angle_order u v a b Ea Eb) in G.
    apply (angle_lt_polar (mkpt 1 0) u v 0 al be) in G; try assumption; try rewrite Rplus_0_l; try assumption. apply polar_x_axis.
  - intro G. rewrite (pseudo_angle_order u v a b Ea Eb).
    apply (angle_lt_polar (mkpt 1 0) u v 0 al be); try assumption; try rewrite Rplus_0_l; try assumption. apply polar_x_axis.
Qed.

Lemma x_of_y_vertical : forall s e y, px s == px e -> x_of_y s e y = None.
Proof.
  intros s e y H. unfold x_of_y, get_slope. destruct (Qeqb_spec (px e - px s) 0) as [E|E]; [reflexivity|exfalso; apply E; lra].
Qed.
