From Verif Require Import Base CmpModel BoxSpec BoxProof OrientSpec OrientProof DistModel DistSpec DistProof EberlyModel.

Definition in01 (p : Q * Q) : Prop := 0 <= fst p <= 1 /\ 0 <= snd p <= 1.

Lemma qdiv_opt_some : forall x y, ~ y == 0 -> qdiv_opt x y = Some (x / y).
Proof. intros x y H. unfold qdiv_opt. destruct (Qeqb_spec y 0); [contradiction|reflexivity]. Qed.
Lemma div_01 : forall x y, 0 < y -> 0 <= x -> x <= y -> 0 <= x / y <= 1.
Proof.
  intros x y Hy H0 H1. split.
  - apply Qle_shift_div_l; [exact Hy|]. lra.
  - apply Qle_shift_div_r; [exact Hy|]. lra.
Qed.

Lemma on_s_one_01 : forall b c e, 0 < c -> exists p, on_s_one b c e = Some p /\ in01 p.
Proof.
  intros b c e Hc. unfold on_s_one. repeat qcase.
  - eexists; split; [reflexivity|]. split; cbn; lra.
  - eexists; split; [reflexivity|]. split; cbn; lra.
  - rewrite qdiv_opt_some by lra. eexists; split; [reflexivity|]. split; cbn; [lra|]. apply div_01; lra.
Qed.
Lemma on_t_one_01 : forall a b c d e, 0 < a -> 0 < c -> exists p, on_t_one a b c d e = Some p /\ in01 p.
Proof.
  intros a b c d e Ha Hc. unfold on_t_one. repeat qcase; rewrite ?qdiv_opt_some by lra;
    (eexists; split; [reflexivity|]; split; cbn; try lra); apply div_01; lra.
Qed.
Lemma crossing_01 : forall a b c d e det s t, 0 < a -> 0 < c -> ~ det == 0 ->
  exists p, crossing_params a b c d e det s t = Some p /\ in01 p.
Proof.
  intros a b c d e det s t Ha Hc Hd. unfold crossing_params.
  repeat qcase; try (apply on_s_one_01; assumption); try (apply on_t_one_01; assumption).
  assert (0 < det) by lra. rewrite qdiv_opt_some by lra. eexists; split; [reflexivity|].
  assert (E : forall x, x * (1 / det) == x / det) by (intro x; field; lra).
  split; cbn; rewrite E; apply div_01; lra.
Qed.

(** The squared distance at parameters s and t. *)
Definition gap (p1 p2 p3 p4 : pt) (s t : Q) : Q := dist2 (lerp p3 p4 t) (lerp p1 p2 s).

Lemma eberly_gap : forall p1 p2 p3 p4 s t,
  (if Qeqb (cross (vsub p2 p1) (vsub p4 p3)) 0
   then parallel_params (dist2 p1 p2) (dot (vneg (vsub p2 p1)) (vsub p4 p3)) (dot (vsub p2 p1) (vsub p1 p3))
   else crossing_params (dist2 p1 p2) (dot (vneg (vsub p2 p1)) (vsub p4 p3)) (dist2 p3 p4) (dot (vsub p2 p1) (vsub p1 p3))
          (dot (vneg (vsub p4 p3)) (vsub p1 p3)) (cross (vsub p2 p1) (vsub p4 p3))
          (dot (vneg (vsub p2 p1)) (vsub p4 p3) * dot (vneg (vsub p4 p3)) (vsub p1 p3) - dist2 p3 p4 * dot (vsub p2 p1) (vsub p1 p3))
          (dot (vneg (vsub p2 p1)) (vsub p4 p3) * dot (vsub p2 p1) (vsub p1 p3) - dist2 p1 p2 * dot (vneg (vsub p4 p3)) (vsub p1 p3)))
  = Some (s, t) -> eberly_segment_segment_distance_sqrd p1 p2 p3 p4 = Some (gap p1 p2 p3 p4 s t).
Proof. intros p1 p2 p3 p4 s t E. unfold eberly_segment_segment_distance_sqrd. cbv zeta. rewrite E. reflexivity. Qed.

Lemma sumsq0 : forall x y, x * x + y * y <= 0 -> x == 0 /\ y == 0.
Proof. intros x y H. split; nra. Qed.

Lemma cross_nonzero : forall u v, ~ cross u v == 0 -> 0 < dot u u /\ 0 < dot v v.
Proof.
  intros [ux uy] [vx vy] H. unfold cross, dot in *; cbn [px py] in *. split.
  - destruct (Qlt_le_dec 0 (ux * ux + uy * uy)) as [L|L]; [exact L|exfalso; apply H].
    assert (ux == 0) by nra. assert (uy == 0) by nra. rewrite H0, H1. ring.
  - destruct (Qlt_le_dec 0 (vx * vx + vy * vy)) as [L|L]; [exact L|exfalso; apply H].
    assert (vx == 0) by nra. assert (vy == 0) by nra. rewrite H0, H1. ring.
Qed.

Lemma lerp_on : forall A B t, 0 <= t <= 1 -> on_segment A B (lerp A B t).
Proof. intros A B t H. exists t. split; [exact H|apply pteq_refl]. Qed.

(** ** Parallel segments: the distance is that of numbers on a line *)
Definition slide (a b d s t : Q) : Q := d + a * s + b * t.

Lemma gap_parallel : forall p1 p2 p3 p4 s t, cross (vsub p2 p1) (vsub p4 p3) == 0 ->
  let v1 := vsub p2 p1 in let d := dot v1 (vsub p1 p3) in let b := dot (vneg v1) (vsub p4 p3) in
  dist2 p1 p2 * gap p1 p2 p3 p4 s t ==
  slide (dist2 p1 p2) b d s t * slide (dist2 p1 p2) b d s t + cross v1 (vsub p1 p3) * cross v1 (vsub p1 p3).
Proof.
  intros [x1 y1] [x2 y2] [x3 y3] [x4 y4] s t H. unfold gap, slide, dist2, lerp, vadd, vscale, vneg, vsub, dot, cross in *; cbn [px py] in *.
  set (ux := x2 - x1) in *. set (uy := y2 - y1) in *. set (vx := x4 - x3) in *. set (vy := y4 - y3) in *.
  set (wx := x1 - x3). set (wy := y1 - y3).
  assert (Ex : x1 + s * ux - (x3 + t * vx) == wx + s * ux - t * vx) by (unfold wx; ring).
  assert (Ey : y1 + s * uy - (y3 + t * vy) == wy + s * uy - t * vy) by (unfold wy; ring).
  rewrite Ex, Ey.
  transitivity ((ux * wx + uy * wy + (ux * ux + uy * uy) * s + (- ux * vx + - uy * vy) * t) *
                (ux * wx + uy * wy + (ux * ux + uy * uy) * s + (- ux * vx + - uy * vy) * t) +
                (ux * wy - uy * wx - t * (ux * vy - uy * vx)) * (ux * wy - uy * wx - t * (ux * vy - uy * vx))); [ring|].
  rewrite H. ring.
Qed.

Lemma slide_bound_ge : forall a b d s t, 0 <= a -> 0 <= b -> 0 <= d -> 0 <= s -> 0 <= t -> d <= slide a b d s t.
Proof. intros. unfold slide. assert (0 <= a * s) by (apply Qmult_le_0_compat; assumption). assert (0 <= b * t) by (apply Qmult_le_0_compat; assumption). lra. Qed.

Lemma mul_le1 : forall a s, 0 <= a -> s <= 1 -> a * s <= a.
Proof. intros a s Ha Hs. nra. Qed.

Lemma sq_le_pos : forall x y, 0 <= x -> x <= y -> x * x <= y * y.
Proof. intros; nra. Qed.
Lemma sq_le_neg : forall x y, x <= 0 -> y <= x -> x * x <= y * y.
Proof. intros; nra. Qed.
Lemma sq_zero_le : forall x y, x == 0 -> x * x <= y * y.
Proof. intros x y E. rewrite E. nra. Qed.

Lemma parallel_min : forall a b d, 0 < a -> 0 < b \/ d <= 0 ->
  exists p, parallel_params a b d = Some p /\ in01 p /\
  forall s t, 0 <= s <= 1 -> 0 <= t <= 1 -> slide a b d (fst p) (snd p) * slide a b d (fst p) (snd p) <= slide a b d s t * slide a b d s t.
Proof.
  intros a b d Ha H. unfold parallel_params.
  destruct (Qgtb_spec b 0) as [Hb|Hb].
  - destruct (Qgeb_spec d 0) as [H1|H1].
    { exists (0, 0). split; [reflexivity|]. split; [split; cbn; lra|]. intros s t Hs Ht. cbn [fst snd].
      apply sq_le_pos; [unfold slide; lra|]. pose proof (slide_bound_ge a b d s t). unfold slide in *. lra. }
    destruct (Qleb_spec (- d) a) as [H2|H2].
    { rewrite qdiv_opt_some by lra. eexists. split; [reflexivity|]. split; [split; cbn; [apply div_01; lra|lra]|].
      intros s t Hs Ht. cbn [fst snd]. apply sq_zero_le. unfold slide. field. lra. }
    destruct (Qgeb_spec (- (a + d)) b) as [H3|H3].
    { exists (1, 1). split; [reflexivity|]. split; [split; cbn; lra|]. intros s t Hs Ht. cbn [fst snd].
      apply sq_le_neg; unfold slide; [lra|]. pose proof (mul_le1 a s). pose proof (mul_le1 b t). lra. }
    rewrite qdiv_opt_some by lra. eexists. split; [reflexivity|]. split; [split; cbn; [lra|apply div_01; lra]|].
    intros s t Hs Ht. cbn [fst snd]. apply sq_zero_le. unfold slide. field. lra.
  - destruct H as [H|H]; [lra|].
    destruct (Qgeb_spec (- d) a) as [H1|H1].
    { exists (1, 0). split; [reflexivity|]. split; [split; cbn; lra|]. intros s t Hs Ht. cbn [fst snd].
      apply sq_le_neg; unfold slide; [lra|]. pose proof (mul_le1 a s). assert (b * t <= 0) by nra. lra. }
    destruct (Qleb_spec d 0) as [H2|H2]; [|lra].
    rewrite qdiv_opt_some by lra. eexists. split; [reflexivity|]. split; [split; cbn; [apply div_01; lra|lra]|].
    intros s t Hs Ht. cbn [fst snd]. apply sq_zero_le. unfold slide. field. lra.
Qed.

Lemma gap_compat : forall p1 p2 p3 p4 X Y s t, X =p= lerp p1 p2 s -> Y =p= lerp p3 p4 t -> dist2 X Y == gap p1 p2 p3 p4 s t.
Proof.
  intros p1 p2 p3 p4 X Y s t [E1 E2] [F1 F2]. unfold gap, dist2, dot, vsub; cbn [px py]. rewrite E1, E2, F1, F2. ring.
Qed.

Lemma parallel_exact : forall p1 p2 p3 p4, ~ p1 =p= p2 -> cross (vsub p2 p1) (vsub p4 p3) == 0 ->
  dot (vsub p2 p1) (vsub p4 p3) < 0 \/ dot (vsub p2 p1) (vsub p1 p3) <= 0 ->
  exists d, eberly_segment_segment_distance_sqrd p1 p2 p3 p4 = Some d /\
  least_dist2_sets (on_segment p1 p2) (on_segment p3 p4) d.
Proof.
  intros p1 p2 p3 p4 N C H.
  assert (Ha : 0 < dist2 p1 p2).
  { destruct (Qlt_le_dec 0 (dist2 p1 p2)) as [L|L]; [exact L|exfalso; apply N].
    unfold dist2, dot, vsub in L; cbn [px py] in L. apply sumsq0 in L. split; lra. }
  assert (B : dot (vneg (vsub p2 p1)) (vsub p4 p3) == - dot (vsub p2 p1) (vsub p4 p3)) by (unfold dot, vneg; cbn [px py]; ring).
  destruct (parallel_min (dist2 p1 p2) (dot (vneg (vsub p2 p1)) (vsub p4 p3)) (dot (vsub p2 p1) (vsub p1 p3)) Ha) as ([s t] & E & [I1 I2] & M).
  { destruct H as [H|H]; [left; lra|right; exact H]. }
  cbn [fst snd] in *. exists (gap p1 p2 p3 p4 s t). split.
  { apply eberly_gap. destruct (Qeqb_spec (cross (vsub p2 p1) (vsub p4 p3)) 0); [exact E|contradiction]. }
  split.
  - exists (lerp p1 p2 s), (lerp p3 p4 t). split; [apply lerp_on, I1|]. split; [apply lerp_on, I2|].
    rewrite (gap_compat p1 p2 p3 p4 _ _ s t); [reflexivity|apply pteq_refl|apply pteq_refl].
  - intros X Y (s' & Hs & EX) (t' & Ht & EY). rewrite (gap_compat p1 p2 p3 p4 X Y s' t' EX EY).
    assert (Q : dist2 p1 p2 * gap p1 p2 p3 p4 s t <= dist2 p1 p2 * gap p1 p2 p3 p4 s' t').
    { rewrite !gap_parallel by exact C. cbv zeta. specialize (M s' t' Hs Ht). lra. }
    apply Qmult_le_l in Q; assumption.
Qed.

Lemma eberly_attained : forall p1 p2 p3 p4,
  ~ (cross (vsub p2 p1) (vsub p4 p3) == 0 /\ 0 <= dot (vsub p2 p1) (vsub p4 p3) /\ 0 < dot (vsub p2 p1) (vsub p1 p3)) ->
  exists d X Y, eberly_segment_segment_distance_sqrd p1 p2 p3 p4 = Some d /\ on_segment p1 p2 X /\ on_segment p3 p4 Y /\ d == dist2 X Y.
Proof.
  intros p1 p2 p3 p4 H.
  set (P := if Qeqb (cross (vsub p2 p1) (vsub p4 p3)) 0
   then parallel_params (dist2 p1 p2) (dot (vneg (vsub p2 p1)) (vsub p4 p3)) (dot (vsub p2 p1) (vsub p1 p3))
   else crossing_params (dist2 p1 p2) (dot (vneg (vsub p2 p1)) (vsub p4 p3)) (dist2 p3 p4) (dot (vsub p2 p1) (vsub p1 p3))
          (dot (vneg (vsub p4 p3)) (vsub p1 p3)) (cross (vsub p2 p1) (vsub p4 p3))
          (dot (vneg (vsub p2 p1)) (vsub p4 p3) * dot (vneg (vsub p4 p3)) (vsub p1 p3) - dist2 p3 p4 * dot (vsub p2 p1) (vsub p1 p3))
          (dot (vneg (vsub p2 p1)) (vsub p4 p3) * dot (vsub p2 p1) (vsub p1 p3) - dist2 p1 p2 * dot (vneg (vsub p4 p3)) (vsub p1 p3))).
  assert (E : exists p, P = Some p /\ in01 p).
  { unfold P. destruct (Qeqb_spec (cross (vsub p2 p1) (vsub p4 p3)) 0) as [C|C].
    - assert (B : dot (vneg (vsub p2 p1)) (vsub p4 p3) == - dot (vsub p2 p1) (vsub p4 p3)) by (unfold dot, vneg; cbn [px py]; ring).
      destruct (Qlt_le_dec 0 (dist2 p1 p2)) as [Ha|Ha].
      + destruct (parallel_min (dist2 p1 p2) (dot (vneg (vsub p2 p1)) (vsub p4 p3)) (dot (vsub p2 p1) (vsub p1 p3)) Ha) as (p & E & I & _); [|exists p; split; assumption].
        destruct (Qlt_le_dec (dot (vsub p2 p1) (vsub p4 p3)) 0); [left; lra|].
        destruct (Qlt_le_dec 0 (dot (vsub p2 p1) (vsub p1 p3))); [exfalso; apply H; auto|right; assumption].
      + assert (Zx : px (vsub p2 p1) == 0) by (apply (proj1 (sumsq0 _ _ Ha))).
        assert (Zy : py (vsub p2 p1) == 0) by (apply (proj2 (sumsq0 _ _ Ha))).
        exists (1, 0). split; [|split; cbn; lra]. unfold parallel_params.
        assert (Z1 : dot (vneg (vsub p2 p1)) (vsub p4 p3) == 0) by (rewrite B; unfold dot; rewrite Zx, Zy; ring).
        assert (Z2 : dot (vsub p2 p1) (vsub p1 p3) == 0) by (unfold dot; rewrite Zx, Zy; ring).
        destruct (Qgtb_spec (dot (vneg (vsub p2 p1)) (vsub p4 p3)) 0); [lra|].
        destruct (Qgeb_spec (- dot (vsub p2 p1) (vsub p1 p3)) (dist2 p1 p2)); [reflexivity|lra].
    - destruct (cross_nonzero _ _ C) as [P1 P2]. apply crossing_01; assumption. }
  destruct E as ([s t] & E & [I1 I2]). exists (gap p1 p2 p3 p4 s t), (lerp p1 p2 s), (lerp p3 p4 t).
  split; [apply eberly_gap; exact E|]. split; [apply lerp_on, I1|]. split; [apply lerp_on, I2|].
  rewrite (gap_compat p1 p2 p3 p4 _ _ s t); [reflexivity|apply pteq_refl|apply pteq_refl].
Qed.
