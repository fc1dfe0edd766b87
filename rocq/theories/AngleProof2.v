From Verif Require Import RBase AngleModel AngleSpec AngleProof.

Lemma sum_zero : forall a b, length a = length b -> rdot (radd a b) (radd a b) = 0 -> b = rscale (-1) a.
Proof.
  induction a as [|x a IH]; intros [|y b] L H; try discriminate; [reflexivity|].
  cbn in L, H. change (rscale (-1) (x :: a)) with ((-1 * x) :: rscale (-1) a).
  pose proof (rdot_self_nonneg (radd a b)) as P.
  change ((x + y) * (x + y) + rdot (radd a b) (radd a b) = 0) in H.
  pose proof (Rle_0_sqr (x + y)) as Q. unfold Rsqr in Q.
  assert ((x + y) * (x + y) = 0) by lra. apply Rmult_integral in H0.
  f_equal; [lra|]. apply IH; [lia|]. lra.
Qed.
Lemma rscale_rscale : forall j k a, rscale j (rscale k a) = rscale (j * k) a.
Proof. induction a as [|x a IH]; [reflexivity|]. unfold rscale in *. cbn [map]. rewrite IH. f_equal. ring. Qed.
Lemma rscale_1 : forall a, rscale 1 a = a.
Proof. induction a as [|x a IH]; [reflexivity|]. unfold rscale in *. cbn [map]. rewrite IH. f_equal. ring. Qed.

Lemma antiparallel_ok : forall u v, length u = length v -> rdot u u <> 0 -> rdot v v <> 0 ->
  (is_antiparallel rdirect u v = true <-> exists k, 0 < k /\ v = rscale (- k) u).
Proof.
  intros u v L U V. destruct (rnormalize_unit u U) as [U1 U2]. destruct (rnormalize_unit v V) as [V1 V2].
  unfold is_antiparallel. cbn [rdirect req].
  destruct (Reqb_spec (rdot (rnormalize u) (rnormalize v)) (-1)) as [E|E].
  - split; [|reflexivity || (intros _; reflexivity)]. intros _.
    assert (LL : length (rnormalize u) = length (rnormalize v)) by (unfold rnormalize; rewrite !rscale_length; exact L).
    assert (Z : rnormalize v = rscale (-1) (rnormalize u)).
    { apply sum_zero; [exact LL|]. rewrite rdot_radd_l by (rewrite ?radd_length; congruence).
      rewrite !rdot_radd_r by congruence. rewrite U1, V1, E, (rdot_comm (rnormalize v)), E. ring. }
    exists (rnorm v / rnorm u). split; [apply Rdiv_lt_0_compat; assumption|].
    assert (Ev : v = rscale (rnorm v) (rnormalize v)).
    { unfold rnormalize. rewrite rscale_rscale. rewrite <- (rscale_1 v) at 1. f_equal. field. lra. }
    rewrite Ev at 1. rewrite Z. unfold rnormalize. rewrite !rscale_rscale. f_equal. field. lra.
  - split; [discriminate|]. intros (k & K & ->). exfalso. apply E.
    assert (N : rnorm (rscale (- k) u) = k * rnorm u).
    { unfold rnorm. rewrite rdot_rscale_l, rdot_rscale_r. replace (- k * (- k * rdot u u)) with ((k * k) * rdot u u) by ring.
      rewrite sqrt_mult by (pose proof (rdot_self_nonneg u); nra). rewrite sqrt_square by lra. reflexivity. }
    unfold rnormalize in *. rewrite !rdot_rscale_r, !rdot_rscale_l, N in *. 
    assert (E2 : rnorm u * rnorm u = rdot u u) by (apply sqrt_sqrt, rdot_self_nonneg).
    rewrite <- E2. field. lra.
Qed.

Lemma lerp_ok : forall u v t, let w := radd u (rscale t (rsub v u)) in rdot w w <> 0 ->
  rdot (vector_lerp u v t) (vector_lerp u v t) = 1 /\ exists k, 0 < k /\ vector_lerp u v t = rscale k w.
Proof.
  intros u v t w H. destruct (rnormalize_unit w H) as [A B]. split; [exact A|].
  exists (1 / rnorm w). split; [apply Rdiv_lt_0_compat; lra|]. reflexivity.
Qed.

Lemma radd_zero_l : forall u v, length u = length v -> radd (rscale 0 u) v = v.
Proof. induction u as [|x u IH]; intros [|y v] L; try discriminate; [reflexivity|]. cbn in *. f_equal; [ring|]. apply IH. lia. Qed.
Lemma radd_zero_r : forall u v, length u = length v -> radd u (rscale 0 v) = u.
Proof. induction u as [|x u IH]; intros [|y v] L; try discriminate; [reflexivity|]. cbn in *. f_equal; [ring|]. apply IH. lia. Qed.

Lemma slerp_ends : forall u v, length u = length v -> -1 < rdot u v < 1 ->
  slerp u v 0 = Some u /\ slerp u v 1 = Some v.
Proof.
  intros u v L D. unfold slerp. cbv zeta. set (th := acos (rdot u v)).
  assert (S0 : 0 < sin th).
  { unfold th. rewrite sin_acos by lra. apply sqrt_lt_R0. unfold Rsqr. nra. }
  destruct (Rltb_spec (rdot u v) 1); [|exfalso; lra]. destruct (Reqb_spec (sin th) 0); [exfalso; lra|].
  replace ((1 - 0) * th) with th by ring. replace ((1 - 1) * th) with 0 by ring. rewrite !Rmult_0_l, !Rmult_1_l, sin_0.
  split; f_equal.
  - rewrite radd_zero_r by (rewrite !rscale_length; exact L). rewrite rscale_rscale. rewrite <- (rscale_1 u) at 2. f_equal. field. lra.
  - rewrite radd_zero_l by (rewrite !rscale_length; exact L). rewrite rscale_rscale. rewrite <- (rscale_1 v) at 2. f_equal. field. lra.
Qed.
Lemma rsub_self : forall u t, radd u (rscale t (rsub u u)) = u.
Proof. induction u as [|x u IH]; intro t; [reflexivity|]. cbn. f_equal; [ring|]. apply IH. Qed.
Lemma slerp_same : forall u t, rdot u u = 1 -> slerp u u t = Some u.
Proof.
  intros u t U. unfold slerp. cbv zeta. rewrite U. destruct (Rltb_spec 1 1); [exfalso; lra|].
  rewrite rsub_self. f_equal. unfold rnormalize, rnorm. rewrite U, sqrt_1. rewrite <- (rscale_1 u) at 2. f_equal. field.
Qed.
Lemma slerp_opposite : forall u t, rdot u u = 1 -> slerp u (rscale (-1) u) t = None.
Proof.
  intros u t U. unfold slerp. cbv zeta. rewrite rdot_rscale_r, U. destruct (Rltb_spec (-1 * 1) 1); [|exfalso; lra].
  assert (E : sin (acos (-1 * 1)) = 0).
  { replace (-1 * 1) with (-1) by ring. rewrite sin_acos by lra. replace (1 - (-1)²) with 0 by (unfold Rsqr; ring). apply sqrt_0. }
  rewrite E. destruct (Reqb_spec 0 0); [reflexivity|lra].
Qed.

(** Bisection of vectors of unequal length. *)
Lemma bisect_lengths : bisect (1, 0) (0, 2) <> heading (PI / 4).
Proof.
  assert (N0 : p_norm (1, 0) = 1) by (unfold p_norm, p_dot; cbn [fst snd]; replace (1 * 1 + 0 * 0) with (1 * 1) by ring; apply sqrt_square; lra).
  assert (N2 : p_norm (0, 2) = 2) by (unfold p_norm, p_dot; cbn [fst snd]; replace (0 * 0 + 2 * 2) with (2 * 2) by ring; apply sqrt_square; lra).
  assert (D : p_dot (p_normalize (1, 0)) (p_normalize (0, 2)) = 0).
  { unfold p_normalize. rewrite N0, N2. unfold p_dot, p_scale; cbn [fst snd]; field. }
  unfold bisect. cbv zeta. rewrite D.
  destruct (Rltb_spec (-1) 0); [|exfalso; lra]. destruct (Rltb_spec 0 1); [|exfalso; lra]. cbn [andb].
  replace (p_cross (1, 0) (0, 2)) with 2 by (unfold p_cross; cbn [fst snd]; ring).
  destruct (Rltb_spec 2 0); [exfalso; lra|]. cbn [negb].
  intro E. assert (F : snd (p_normalize (p_scale (1 / 2) (p_add (1, 0) (0, 2)))) = fst (p_normalize (p_scale (1 / 2) (p_add (1, 0) (0, 2))))).
  { rewrite E. unfold heading; cbn [fst snd]. rewrite cos_PI4, sin_PI4. reflexivity. }
  unfold p_normalize, p_scale at 1 3, p_add in F; cbn [fst snd] in F.
  set (nn := p_norm _) in F.
  assert (P : 0 < nn). { unfold nn. apply norm_pos. intro X. unfold p_scale in X; cbn [fst snd] in X. injection X as X1 X2. lra. }
  assert (1 / nn > 0) by (apply Rdiv_lt_0_compat; lra).
  unfold p_scale in F; cbn [fst snd] in F. nra.
Qed.
