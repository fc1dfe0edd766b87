From Verif Require Import RBase AngleModel AngleSpec AngleProof PolarModel PolarSpec.
From Coq Require Import Lia.

(** The coordinates from index 2 on, given the radius and the angles from index 2 on. *)
Fixpoint upper (r : R) (angles : list R) : rvec :=
  match angles with [] => [] | a :: t => r * sines t * cos a :: upper r t end.

Lemma sines_app : forall a b, sines (a ++ b) = sines a * sines b.
Proof. induction a as [|x a IH]; intro b; cbn; [ring|rewrite IH; ring]. Qed.

Lemma upper_snoc : forall angles r a, upper r (angles ++ [a]) = upper (r * sin a) angles ++ [r * cos a].
Proof.
  induction angles as [|x t IH]; intros r a; cbn.
  - f_equal. ring.
  - rewrite IH, sines_app. cbn. f_equal. ring.
Qed.
Lemma upper_length : forall t r, length (upper r t) = length t.
Proof. induction t as [|a t IH]; intro r; cbn; [reflexivity|rewrite IH; reflexivity]. Qed.

Lemma terms_prefix : forall n from from' sum, (forall k, (k < n + 2)%nat -> nth k from 0 = nth k from' 0) ->
  terms from n sum = terms from' n sum.
Proof.
  induction n as [|n IH]; intros from from' sum H; cbn [terms].
  - rewrite (H 1%nat) by lia. reflexivity.
  - rewrite (H (S (S n))) by lia. rewrite (IH from from'); [reflexivity|]. intros k Hk; apply H; lia.
Qed.

Lemma terms_upper : forall angles r t1 sum,
  terms (r :: t1 :: angles) (length angles) sum =
  [sum * sines angles * cos t1; sum * sines angles * sin t1] ++ upper sum angles.
Proof.
  induction angles as [|a angles IH] using rev_ind; intros r t1 sum; cbn.
  - f_equal; [ring|f_equal; ring].
  - rewrite app_length. cbn [length]. rewrite Nat.add_1_r. cbn [terms nth].
    rewrite (app_nth2 angles [a]) by lia. rewrite Nat.sub_diag. cbn [nth].
    rewrite (terms_prefix (length angles) (r :: t1 :: angles ++ [a]) (r :: t1 :: angles)).
    2: { intros k Hk. destruct k as [|[|k]]; [reflexivity|reflexivity|]. cbn. apply app_nth1. lia. }
    rewrite IH, upper_snoc, sines_app. cbn. f_equal; [ring|]. f_equal. ring.
Qed.

Lemma nth_upper : forall angles r k, (k < length angles)%nat ->
  nth k (upper r angles) 0 = r * cos (nth k angles 0) * sines (skipn (S k) angles).
Proof.
  induction angles as [|a t IH]; intros r k Hk; [cbn in Hk; lia|].
  destruct k as [|k]; cbn [upper nth skipn]; [destruct t; ring|]. cbn in Hk. rewrite IH by lia. reflexivity.
Qed.

Lemma to_cartesian_ok : forall p, (2 <= length p)%nat ->
  exists x, polar_to_cartesian p = Some x /\ polar_of p x.
Proof.
  intros [|r [|t1 angles]] H; cbn in H; try lia. eexists. unfold polar_to_cartesian. cbn [length nth]. split; [reflexivity|].
  rewrite terms_upper. split.
  - cbn. rewrite upper_length. reflexivity.
  - intros k Hk. cbn in Hk. rewrite upper_length in Hk. unfold coordinate. destruct k as [|[|k]]; cbn [app nth skipn]; [ring|ring|].
    rewrite nth_upper by lia. reflexivity.
Qed.

(** ** atan2 of the coordinates of a point of the upper half plane *)
Lemma atan2_polar : forall x y, sqrt (x * x + y * y) * cos (atan2 y x) = x /\ sqrt (x * x + y * y) * sin (atan2 y x) = y /\
  - PI < atan2 y x <= PI.
Proof.
  intros x y. destruct (Req_dec x 0) as [Hx|Hx].
  1: destruct (Req_dec y 0) as [Hy|Hy].
  1: { subst x y. unfold atan2. pose proof PI_RGT_0.
       destruct (Rltb_spec 0 0); [lra|]. rewrite Rmult_0_r, Rplus_0_r, sqrt_0. split; [ring|]. split; [ring|]. lra. }
  all: destruct (atan2_ok (x, y)) as [B E]; [intro C; injection C; lra|].
  all: unfold vector_angle, p_scale, p_norm, p_dot, heading in *; cbn [fst snd] in *; injection E as E1 E2; split; [symmetry; exact E1|]; split; [symmetry; exact E2|exact B].
Qed.

Lemma atan2_upper : forall x y, 0 <= y -> 0 <= atan2 y x <= PI.
Proof.
  intros x y Hy. destruct (atan2_polar x y) as (C & S & B). split; [|lra].
  destruct (Rle_lt_dec 0 (atan2 y x)) as [H|H]; [exact H|exfalso].
  pose proof PI_RGT_0 as P.
  assert (N : 0 < sin (- atan2 y x)) by (apply sin_gt_0; lra). rewrite sin_neg in N.
  destruct (Req_dec (sqrt (x * x + y * y)) 0) as [Z|Z].
  - assert (x * x + y * y = 0) by (apply sqrt_eq_0; [nra|exact Z]). assert (x = 0) by nra. assert (y = 0) by nra. subst.
    unfold atan2 in H. destruct (Rltb_spec 0 0); lra.
  - pose proof (sqrt_pos (x * x + y * y)). nra.
Qed.

Lemma atan2_of : forall L a, 0 <= L -> - PI < a <= PI -> (L = 0 -> a = 0) -> atan2 (L * sin a) (L * cos a) = a.
Proof.
  intros L a HL Ha Hz. destruct (Req_dec L 0) as [E|E].
  - rewrite (Hz E), E, !Rmult_0_l. unfold atan2. destruct (Rltb_spec 0 0); lra.
  - destruct (atan2_polar (L * cos a) (L * sin a)) as (C & S & B).
    assert (N : sqrt (L * cos a * (L * cos a) + L * sin a * (L * sin a)) = L).
    { apply norm_as; [lra|]. pose proof (sin2_cos2 a) as T. unfold Rsqr in T. replace (L * cos a * (L * cos a) + L * sin a * (L * sin a)) with (L * L * (sin a * sin a + cos a * cos a)) by ring. rewrite T; ring. }
    rewrite N in C, S. apply (heading_unique (L * cos a, L * sin a) _ a L L); try lra; unfold p_scale, heading; cbn [fst snd]; f_equal; lra.
Qed.

(** ** Cartesian to polar *)
Lemma upper_angles_ok : forall from sum angles r, 0 <= sum -> upper_angles sum from = (angles, r) ->
  length angles = length from /\ r * sines angles = sqrt sum /\ upper r angles = from /\ r = sqrt (sum + rdot from from) /\
  (forall k, (k < length angles)%nat -> 0 <= nth k angles 0 <= PI) /\
  (forall k, (k < length angles)%nat -> r * sines (skipn (S k) angles) = 0 -> nth k angles 0 = 0).
Proof.
  induction from as [|x from IH]; intros sum angles r Hs E; cbn in E.
  - injection E as <- <-. cbn. repeat split; try lia; try ring; try (f_equal; ring); intros; lia.
  - destruct (upper_angles (sum + x * x) from) as [angles' r'] eqn:E'. injection E as <- <-.
    apply IH in E'; [|nra]. destruct E' as (L & S & U & N & B & Z).
    assert (Q : sqrt sum * sqrt sum = sum) by (apply sqrt_sqrt; exact Hs).
    destruct (atan2_polar x (sqrt sum)) as (C1 & S1 & _).
    replace (x * x + sqrt sum * sqrt sum) with (sum + x * x) in C1, S1 by lra.
    split; [cbn; lia|]. split; [cbn; rewrite <- S1 at 2; rewrite <- S; ring|].
    split; [cbn; rewrite U, S, C1; reflexivity|].
    split; [rewrite N; cbn [rdot]; f_equal; ring|].
    split.
    + intros [|k] Hk; cbn [nth]; [apply atan2_upper, sqrt_pos|apply B; cbn in Hk; lia].
    + intros [|k] Hk Hz; cbn [nth]; cbn [skipn] in Hz; [|apply Z; [cbn in Hk; lia|exact Hz]].
      replace (skipn 0 angles') with angles' in Hz by (destruct angles'; reflexivity). rewrite S in Hz.
      assert (sum + x * x = 0) by (apply sqrt_eq_0; [nra|exact Hz]). assert (x = 0) by nra. assert (sum = 0) by nra. subst.
      rewrite sqrt_0. unfold atan2. destruct (Rltb_spec 0 0); lra.
Qed.

Lemma to_polar_ok : forall x, (2 <= length x)%nat ->
  exists p, cartesian_to_polar x = Some p /\ canonical p /\ polar_of p x /\ nth 0 p 0 = rnorm x /\ polar_to_cartesian p = Some x.
Proof.
  intros [|x [|y from]] H; cbn in H; try lia. unfold cartesian_to_polar.
  destruct (upper_angles (0 + x * x + y * y) from) as [angles r] eqn:E. eexists. split; [reflexivity|].
  apply upper_angles_ok in E; [|nra]. destruct E as (L & S & U & N & B & Z).
  destruct (atan2_polar x y) as (C1 & S1 & B1).
  assert (T : polar_to_cartesian (r :: atan2 y x :: angles) = Some (x :: y :: from)).
  { unfold polar_to_cartesian. cbn [length nth]. rewrite terms_upper, U, S, Rplus_0_l, C1, S1. reflexivity. }
  split; [|split; [|split; [|exact T]]].
  - split; [cbn; rewrite N; apply sqrt_pos|]. split; [exact B1|]. split.
    + intros [|[|k]] Hk; try lia. cbn in *. apply B. lia.
    + intros [|[|k]] Hk Hz; try lia; cbn [nth skipn] in *.
      * rewrite S, Rplus_0_l in Hz. assert (Q : x * x + y * y = 0) by (apply sqrt_eq_0; [nra|exact Hz]).
        assert (x = 0) by nra. assert (y = 0) by nra. subst. unfold atan2. destruct (Rltb_spec 0 0); lra.
      * apply Z; [cbn in Hk; lia|exact Hz].
  - destruct (to_cartesian_ok (r :: atan2 y x :: angles)) as (x' & E1 & E2); [cbn; lia|]. rewrite T in E1. injection E1 as <-. exact E2.
  - cbn [nth]. rewrite N. unfold rnorm. cbn [rdot]. f_equal. ring.
Qed.

Lemma upper_angles_back : forall angles r, 0 <= r ->
  (forall k, (k < length angles)%nat -> 0 <= nth k angles 0 <= PI) ->
  (forall k, (k < length angles)%nat -> r * sines (skipn (S k) angles) = 0 -> nth k angles 0 = 0) ->
  0 <= r * sines angles /\ upper_angles (r * sines angles * (r * sines angles)) (upper r angles) = (angles, r).
Proof.
  induction angles as [|a t IH]; intros r Hr B Z.
  - cbn. rewrite Rmult_1_r. split; [exact Hr|]. rewrite sqrt_square by exact Hr. reflexivity.
  - destruct (IH r Hr) as [P E].
    { intros k Hk. apply (B (S k)). cbn; lia. }
    { intros k Hk. apply (Z (S k)). cbn; lia. }
    pose proof (B 0%nat ltac:(cbn; lia)) as B0. cbn [nth] in B0.
    pose proof (Z 0%nat ltac:(cbn; lia)) as Z0. cbn [nth skipn] in Z0.
    pose proof PI_RGT_0 as PP. pose proof (sin_ge_0 a (proj1 B0) (proj2 B0)) as SA.
    cbn [sines upper upper_angles]. set (L := r * sines t) in *.
    replace (r * (sin a * sines t)) with (L * sin a) by (unfold L; ring).
    assert (0 <= L * sin a) by nra. split; [assumption|].
    rewrite sqrt_square by assumption.
    assert (Q : L * sin a * (L * sin a) + L * cos a * (L * cos a) = L * L).
    { pose proof (sin2_cos2 a) as T. unfold Rsqr in T. replace (L * sin a * (L * sin a) + L * cos a * (L * cos a)) with (L * L * (sin a * sin a + cos a * cos a)) by ring. rewrite T; ring. }
    rewrite Q, E. rewrite atan2_of; [reflexivity|exact P|lra|].
    intro EL. apply Z0. destruct t; exact EL.
Qed.

Lemma polar_back : forall p x, (2 <= length p)%nat -> canonical p -> polar_to_cartesian p = Some x -> cartesian_to_polar x = Some p.
Proof.
  intros [|r [|t1 angles]] x H (C1 & C2 & C3 & C4) E; cbn in H; try lia.
  unfold polar_to_cartesian in E. cbn [length nth] in *. rewrite terms_upper in E. injection E as <-. cbn [app cartesian_to_polar].
  destruct (upper_angles_back angles r C1) as [P E].
  { intros k Hk. apply (C3 (S (S k))). lia. }
  { intros k Hk. apply (C4 (S (S k))). lia. }
  set (L := r * sines angles) in *.
  replace (0 + L * cos t1 * (L * cos t1) + L * sin t1 * (L * sin t1)) with (L * L).
  2: { pose proof (sin2_cos2 t1) as T. unfold Rsqr in T. replace (0 + L * cos t1 * (L * cos t1) + L * sin t1 * (L * sin t1)) with (L * L * (sin t1 * sin t1 + cos t1 * cos t1)) by ring. rewrite T; ring. }
  rewrite E. rewrite atan2_of; [reflexivity|exact P|lra|].
  intro EL. apply (C4 1%nat); [lia|exact EL].
Qed.

Lemma polar_of_unique : forall p x, (2 <= length p)%nat -> polar_of p x -> polar_to_cartesian p = Some x.
Proof.
  intros p x H [L E]. destruct (to_cartesian_ok p H) as (y & E1 & L2 & E2). rewrite E1. f_equal.
  apply nth_ext with (d := 0) (d' := 0); [congruence|]. intros k Hk. rewrite E2, E by lia. reflexivity.
Qed.
