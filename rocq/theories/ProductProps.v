(** C129: products of vectors. *)
From Verif Require Import RBase ProductModel ProductSpec.

Lemma sq_pos : forall x, 0 <= x * x. Proof. intros x; pose proof (Rle_0_sqr x) as H; unfold Rsqr in H; exact H. Qed.

Lemma rsub_scale_dot : forall k v1 v2, length v1 = length v2 ->
  rdot (rsub v1 (rscale k v2)) v2 = rdot v1 v2 - k * rdot v2 v2.
Proof.
  intros k v1 v2 H. rewrite rdot_rsub_l, rdot_rscale_l; [reflexivity| |]; rewrite ?rscale_length; auto.
Qed.
Lemma rscale_scale : forall a b v, rscale a (rscale b v) = rscale (a * b) v.
Proof. intros; unfold rscale; rewrite map_map. apply map_ext; intros; ring. Qed.
Lemma rnorm_zero : forall v, rnorm v = 0 <-> Forall (fun x => x = 0) v.
Proof.
  intros v. unfold rnorm. split.
  - intros H. apply sqrt_eq_0 in H; [|apply rdot_self_nonneg].
    induction v as [|x v IH]; constructor; cbn [rdot] in H; pose proof (sq_pos x); pose proof (rdot_self_nonneg v).
    + nra.
    + apply IH; nra.
  - intros H. assert (E : rdot v v = 0) by (induction H as [|x v Hx _ IH]; cbn [rdot]; [reflexivity|rewrite IH, Hx; ring]).
    rewrite E; apply sqrt_0.
Qed.

(** The projection of v1 onto v2: a multiple of v2, what is left of v1 is perpendicular to v2, and no
    multiple of v2 is nearer to v1.  In every dimension. *)
Theorem C129_projection : forall v1 v2, length v1 = length v2 -> ~ Forall (fun x => x = 0) v2 ->
  exists p, vector_projection v1 v2 = Some p /\
    (exists k, p = rscale k v2 /\ k * rdot v2 v2 = rdot v1 v2) /\
    rdot (rsub v1 p) v2 = 0 /\
    (forall k, rnorm (rsub v1 p) <= rnorm (rsub v1 (rscale k v2))).
Proof.
  intros v1 v2 Hl Hz. unfold vector_projection.
  assert (Hn : rnorm v2 <> 0) by (rewrite rnorm_zero; exact Hz).
  destruct (Reqb_spec (rnorm v2) 0) as [E|_]; [contradiction|].
  set (n := rnorm v2) in *. assert (Hnn : n * n = rdot v2 v2) by (apply sqrt_sqrt, rdot_self_nonneg).
  unfold rnormalize; fold n. rewrite rdot_rscale_r, rscale_scale.
  set (k0 := 1 / n * rdot v1 v2 * (1 / n)).
  assert (Hk : k0 * rdot v2 v2 = rdot v1 v2) by (unfold k0; rewrite <- Hnn; field; exact Hn).
  eexists; split; [reflexivity|]. split; [exists k0; split; [reflexivity|exact Hk]|]. split.
  - rewrite rsub_scale_dot by exact Hl. rewrite Hk; ring.
  - intros k. apply sqrt_le_1_alt.
    assert (Q : forall t, rdot (rsub v1 (rscale t v2)) (rsub v1 (rscale t v2)) = rdot v1 v1 - 2 * t * rdot v1 v2 + t * t * rdot v2 v2).
    { intros t. assert (L : length (rscale t v2) = length v1) by (rewrite rscale_length; auto).
      rewrite rdot_rsub_r; [|rewrite rsub_length; auto|auto].
      rewrite !rdot_rsub_l by (rewrite ?L; auto). repeat (rewrite rdot_rscale_r || rewrite rdot_rscale_l); rewrite (rdot_comm v2 v1); ring. }
    rewrite !Q. assert (P : 0 <= rdot v2 v2) by apply rdot_self_nonneg.
    rewrite <- Hk. pose proof (Rmult_le_pos _ _ P (sq_pos (k - k0))) as S1. nra.
Qed.

(** Projecting onto the zero vector is undefined. *)
Theorem C129_projection_zero : forall v1 v2, vector_projection v1 v2 = None <-> Forall (fun x => x = 0) v2.
Proof.
  intros v1 v2. unfold vector_projection. rewrite <- rnorm_zero.
  destruct (Reqb_spec (rnorm v2) 0) as [E|E]; split; intros H; first [assumption|reflexivity|discriminate H|contradiction].
Qed.

(** In the plane [exterior_product_area] is the signed area of the parallelogram: its square is the
    squared area, it changes sign with the order, is zero on parallel vectors only, and positive
    when the second vector is a left turn from the first. *)
Theorem C129_area_plane : forall A B,
  exterior_product_area2 A B * exterior_product_area2 A B = area2_sqr A B /\
  exterior_product_area2 B A = - exterior_product_area2 A B /\
  (exterior_product_area2 A B = 0 <-> parallel2 A B) /\
  (0 < fst A * fst A + snd A * snd A -> exterior_product_area2 A (- snd A, fst A) > 0).
Proof.
  intros [a0 a1] [b0 b1]; unfold exterior_product_area2, area2_sqr, parallel2; cbn [fst snd].
  split; [ring|]. split; [ring|]. split; [split|intros; lra].
  - intros H. destruct (Req_dec a0 0) as [E0|E0]; [destruct (Req_dec a1 0) as [E1|E1]|].
    + exists 1, 0; repeat split; [intros [K _]; lra|subst; ring|subst; ring].
    + exists b1, (- a1); repeat split; [intros [_ K]; lra| |ring]. subst; lra.
    + exists b0, (- a0); repeat split; [intros [_ K]; lra|ring|lra].
  - intros (a & b & N & H1 & H2).
    assert (Ka : a * (a0 * b1 - a1 * b0) = 0).
    { replace (a * (a0 * b1 - a1 * b0)) with ((a * a0 + b * b0) * b1 - (a * a1 + b * b1) * b0) by ring. rewrite H1, H2; ring. }
    assert (Kb : b * (a0 * b1 - a1 * b0) = 0).
    { replace (b * (a0 * b1 - a1 * b0)) with (a0 * (a * a1 + b * b1) - a1 * (a * a0 + b * b0)) by ring. rewrite H1, H2; ring. }
    apply Rmult_integral in Ka, Kb. destruct Ka as [Ka|Ka]; [|exact Ka]. destruct Kb as [Kb|Kb]; [|exact Kb]. exfalso; apply N; auto.
Qed.

(** The cross product is what it should be: perpendicular to both, with the area as its length. *)
Theorem C129_cross : forall A B,
  dot_product (cross_product A B) A = 0 /\ dot_product (cross_product A B) B = 0 /\
  v3_len (cross_product A B) = sqrt (area3_sqr A B) /\
  cross_product B A = v3_scale (-1) (cross_product A B).
Proof.
  intros [a0 a1 a2] [b0 b1 b2]; unfold dot_product, cross_product, v3_len, area3_sqr, dot_product, v3_scale; cbn [g0 g1 g2].
  split; [ring|]. split; [ring|]. split; [f_equal; ring|f_equal; ring].
Qed.

(** In space [exterior_product_area], documented as "the magnitude of the cross product", is the sum
    of the coordinates of the cross product instead.  It is zero on parallel vectors and within
    sqrt 3 times the area, ... *)
Theorem C129_area_space : forall A B,
  (parallel3 A B -> exterior_product_area3 A B = 0) /\
  exterior_product_area3 B A = - exterior_product_area3 A B /\
  Rabs (exterior_product_area3 A B) <= sqrt 3 * v3_len (cross_product A B).
Proof.
  intros [a0 a1 a2] [b0 b1 b2]; unfold parallel3, exterior_product_area3, v3_len, cross_product, v3_add, v3_scale, v3_zero; cbn [g0 g1 g2].
  split; [|split; [ring|]].
  - intros (a & b & N & H). injection H as H0 H1 H2.
    set (s := a1 * b2 - a2 * b1 - (a0 * b2 - a2 * b0) + (a0 * b1 - a1 * b0)).
    assert (Ka : a * s = 0).
    { unfold s. replace (a * (a1 * b2 - a2 * b1 - (a0 * b2 - a2 * b0) + (a0 * b1 - a1 * b0)))
        with ((a * a1 + b * b1) * b2 - (a * a2 + b * b2) * b1 - ((a * a0 + b * b0) * b2 - (a * a2 + b * b2) * b0) + ((a * a0 + b * b0) * b1 - (a * a1 + b * b1) * b0)) by ring.
      rewrite H0, H1, H2; ring. }
    assert (Kb : b * s = 0).
    { unfold s. replace (b * (a1 * b2 - a2 * b1 - (a0 * b2 - a2 * b0) + (a0 * b1 - a1 * b0)))
        with (a1 * (a * a2 + b * b2) - a2 * (a * a1 + b * b1) - (a0 * (a * a2 + b * b2) - a2 * (a * a0 + b * b0)) + (a0 * (a * a1 + b * b1) - a1 * (a * a0 + b * b0))) by ring.
      rewrite H0, H1, H2; ring. }
    apply Rmult_integral in Ka, Kb. destruct Ka as [Ka|Ka]; [|exact Ka]. destruct Kb as [Kb|Kb]; [|exact Kb]. exfalso; apply N; auto.
  - set (x := a1 * b2 - a2 * b1). set (y := a2 * b0 - a0 * b2). set (z := a0 * b1 - a1 * b0).
    replace (a0 * b2 - a2 * b0) with (- y) by (unfold y; ring). rewrite <- sqrt_mult_alt by lra.
    rewrite <- sqrt_Rsqr_abs. apply sqrt_le_1_alt. unfold Rsqr.
    pose proof (sq_pos (x - y)); pose proof (sq_pos (y - z)); pose proof (sq_pos (x - z)). nra.
Qed.
(** ... but it is not the magnitude, and it is zero on vectors that are perpendicular to each other. *)
Theorem C129_area_space_refuted : exists A B,
  exterior_product_area3 A B = 0 /\ dot_product A B = 0 /\ ~ parallel3 A B /\ v3_len (cross_product A B) = sqrt 2.
Proof.
  exists (mkv3 0 0 1), (mkv3 1 1 0). unfold exterior_product_area3, dot_product, parallel3, v3_len, cross_product, v3_add, v3_scale, v3_zero; cbn [g0 g1 g2].
  split; [ring|]. split; [ring|]. split; [|f_equal; ring].
  intros (a & b & N & H). injection H as H0 H1 H2. apply N; lra.
Qed.

Lemma cramer : forall A B C X,
  v3_scale (exterior_product_volume A B C) X =
  v3_add (v3_scale (exterior_product_volume X B C) A) (v3_add (v3_scale (exterior_product_volume A X C) B) (v3_scale (exterior_product_volume A B X) C)).
Proof.
  intros [a0 a1 a2] [b0 b1 b2] [c0 c1 c2] [x0 x1 x2].
  unfold v3_scale, v3_add, exterior_product_volume, dot_product, cross_product; cbn [g0 g1 g2]. f_equal; ring.
Qed.
Lemma v3_scale_0 : forall X, v3_scale 0 X = v3_zero.
Proof. intros [x y z]; unfold v3_scale, v3_zero; cbn [g0 g1 g2]; f_equal; ring. Qed.

(** [exterior_product_volume] is the signed volume of the box spanned by three vectors: one on the
    unit box, linear in every argument, with the sign of the order, and zero exactly when the three
    are in one plane. *)
Theorem C129_volume : forall A B C,
  exterior_product_volume (mkv3 1 0 0) (mkv3 0 1 0) (mkv3 0 0 1) = 1 /\
  (forall k D, exterior_product_volume (v3_add A (v3_scale k D)) B C = exterior_product_volume A B C + k * exterior_product_volume D B C) /\
  exterior_product_volume B A C = - exterior_product_volume A B C /\
  exterior_product_volume A C B = - exterior_product_volume A B C /\
  (exterior_product_volume A B C = 0 <-> coplanar A B C).
Proof.
  intros A B C. split; [unfold exterior_product_volume, dot_product, cross_product; cbn [g0 g1 g2]; ring|].
  split; [intros k D; destruct A as [a0 a1 a2], B as [b0 b1 b2], C as [c0 c1 c2], D as [d0 d1 d2]; unfold exterior_product_volume, dot_product, cross_product, v3_add, v3_scale; cbn [g0 g1 g2]; ring|].
  split; [destruct A as [a0 a1 a2], B as [b0 b1 b2], C as [c0 c1 c2]; unfold exterior_product_volume, dot_product, cross_product; cbn [g0 g1 g2]; ring|].
  split; [destruct A as [a0 a1 a2], B as [b0 b1 b2], C as [c0 c1 c2]; unfold exterior_product_volume, dot_product, cross_product; cbn [g0 g1 g2]; ring|].
  split.
  - intros H.
    assert (Kx : forall X, exterior_product_volume A B X <> 0 -> coplanar A B C).
    { intros X N. exists (exterior_product_volume X B C), (exterior_product_volume A X C), (exterior_product_volume A B X).
      split; [intros (_ & _ & K); contradiction|]. rewrite <- cramer, H. apply v3_scale_0. }
    destruct (Req_dec (exterior_product_volume A B (mkv3 1 0 0)) 0) as [Z0|N]; [|apply (Kx _ N)].
    destruct (Req_dec (exterior_product_volume A B (mkv3 0 1 0)) 0) as [Z1|N]; [|apply (Kx _ N)].
    destruct (Req_dec (exterior_product_volume A B (mkv3 0 0 1)) 0) as [Z2|N]; [|apply (Kx _ N)].
    clear Kx H. destruct A as [a0 a1 a2], B as [b0 b1 b2], C as [c0 c1 c2].
    unfold exterior_product_volume, dot_product, cross_product in Z0, Z1, Z2; cbn [g0 g1 g2] in Z0, Z1, Z2.
    unfold coplanar, v3_add, v3_scale, v3_zero; cbn [g0 g1 g2].
    destruct (Req_dec a0 0) as [E0|E0]; [destruct (Req_dec a1 0) as [E1|E1]; [destruct (Req_dec a2 0) as [E2|E2]|]|].
    + exists 1, 0, 0. split; [intros (K & _); lra|]. subst; f_equal; ring.
    + exists b2, (- a2), 0. split; [intros (_ & K & _); lra|]. f_equal; lra.
    + exists b1, (- a1), 0. split; [intros (_ & K & _); lra|]. f_equal; lra.
    + exists b0, (- a0), 0. split; [intros (_ & K & _); lra|]. f_equal; lra.
  - intros (a & b & c & N & H).
    set (v := exterior_product_volume A B C).
    destruct A as [a0 a1 a2], B as [b0 b1 b2], C as [c0 c1 c2].
    unfold v3_add, v3_scale, v3_zero in H; cbn [g0 g1 g2] in H. injection H as H0 H1 H2.
    unfold exterior_product_volume, dot_product, cross_product in v; cbn [g0 g1 g2] in v.
    assert (Ka : a * v = 0).
    { unfold v. transitivity ((a * a0 + (b * b0 + c * c0)) * (b1 * c2 - b2 * c1) + (a * a1 + (b * b1 + c * c1)) * (b2 * c0 - b0 * c2) + (a * a2 + (b * b2 + c * c2)) * (b0 * c1 - b1 * c0)); [ring|].
      rewrite H0, H1, H2; ring. }
    assert (Kb : b * v = 0).
    { unfold v. transitivity ((a * a0 + (b * b0 + c * c0)) * (c1 * a2 - c2 * a1) + (a * a1 + (b * b1 + c * c1)) * (c2 * a0 - c0 * a2) + (a * a2 + (b * b2 + c * c2)) * (c0 * a1 - c1 * a0)); [ring|].
      rewrite H0, H1, H2; ring. }
    assert (Kc : c * v = 0).
    { unfold v. transitivity ((a * a0 + (b * b0 + c * c0)) * (a1 * b2 - a2 * b1) + (a * a1 + (b * b1 + c * c1)) * (a2 * b0 - a0 * b2) + (a * a2 + (b * b2 + c * c2)) * (a0 * b1 - a1 * b0)); [ring|].
      rewrite H0, H1, H2; ring. }
    apply Rmult_integral in Ka, Kb, Kc.
    destruct Ka as [Ka|Ka]; [|exact Ka]. destruct Kb as [Kb|Kb]; [|exact Kb]. destruct Kc as [Kc|Kc]; [|exact Kc].
    exfalso; apply N; auto.
Qed.

Example C129_witness :
  (exists p, vector_projection [3; 4; 5] [0; 2; 0] = Some p) /\ ~ Forall (fun x => x = 0) [0; 2; 0] /\
  exterior_product_area2 (2, 0) (1, 3) = 6 /\
  exterior_product_area3 (mkv3 1 0 0) (mkv3 0 1 0) = 1 /\
  exterior_product_volume (mkv3 2 0 0) (mkv3 0 2 0) (mkv3 1 1 2) = 8 /\
  coplanar (mkv3 1 0 0) (mkv3 0 1 0) (mkv3 1 1 0).
Proof.
  assert (N : ~ Forall (fun x => x = 0) [0; 2; 0]).
  { intros H. inversion H as [|? ? _ H1]; subst. inversion H1 as [|? ? H2 _]; lra. }
  split; [destruct (C129_projection [3; 4; 5] [0; 2; 0] eq_refl N) as (p & Hp & _); exists p; exact Hp|].
  split; [exact N|].
  unfold exterior_product_area2, exterior_product_area3, exterior_product_volume, dot_product, cross_product; cbn [fst snd g0 g1 g2].
  repeat split; try ring. exists 1, 1, (-1). split; [intros (K & _); lra|].
  unfold v3_add, v3_scale, v3_zero; cbn [g0 g1 g2]; f_equal; ring.
Qed.

Print Assumptions C129_projection.
Print Assumptions C129_projection_zero.
Print Assumptions C129_area_plane.
Print Assumptions C129_cross.
Print Assumptions C129_area_space.
Print Assumptions C129_area_space_refuted.
Print Assumptions C129_volume.
