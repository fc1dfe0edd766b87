From Verif Require Import Base CmpModel CmpProof IntervalModel BoxSpec BoxProof OrientSpec OrientProof DistModel DistSpec.

(** ** A quadratic on [0,1] *)

Definition quad (g e f t : Q) : Q := g - 2 * t * e + t * t * f.

Lemma quad_min : forall g e f, 0 <= f -> (f == 0 -> e == 0) -> forall t, 0 <= t <= 1 ->
  (e <= 0 -> g <= quad g e f t) /\
  (f <= e -> quad g e f 1 <= quad g e f t) /\
  (0 < e -> e < f -> g - e * e / f <= quad g e f t).
Proof.
  intros g e f Hf H0 t Ht; unfold quad. split; [|split].
  - intro He. assert (0 <= t * (- e)) by nra. assert (0 <= t * t * f) by (pose proof (sq_nonneg t); nra). lra.
  - intro He. assert (0 <= (1 - t) * (e - f)) by nra.
    assert (0 <= (1 - t) * (1 - t) * f) by (pose proof (sq_nonneg (1 - t)); nra). lra.
  - intros He1 He2. assert (F : 0 < f) by lra.
    assert (E : g - 2 * t * e + t * t * f - (g - e * e / f) == (t * f - e) * (t * f - e) / f) by (field; lra).
    assert (0 <= (t * f - e) * (t * f - e) / f) by (apply Qle_shift_div_l; [exact F|]; pose proof (sq_nonneg (t * f - e)); lra).
    lra.
Qed.

(** ** Point to segment, plane *)

Lemma dist2_lerp : forall p A B t,
  dist2 p (lerp A B t) == quad (dot (vsub p A) (vsub p A)) (dot (vsub p A) (vsub B A)) (dot (vsub B A) (vsub B A)) t.
Proof. intros; unfold dist2, lerp, quad, dot, vsub, vadd, vscale; simpl; ring. Qed.

Lemma dot_self_nonneg : forall v, 0 <= dot v v.
Proof. intro v; unfold dot. pose proof (sq_nonneg (px v)); pose proof (sq_nonneg (py v)); lra. Qed.
Lemma dot_self_zero : forall v, dot v v == 0 -> px v == 0 /\ py v == 0.
Proof.
  intros v H; unfold dot in H. pose proof (sq_nonneg (px v)); pose proof (sq_nonneg (py v)).
  split; apply sq_zero; lra.
Qed.
Lemma dot_zero_l : forall u v, dot v v == 0 -> dot u v == 0.
Proof. intros u v H. apply dot_self_zero in H as [H1 H2]. unfold dot; rewrite H1, H2; ring. Qed.

Lemma dist2_compat : forall p q p' q', p =p= p' -> q =p= q' -> dist2 p q == dist2 p' q'.
Proof. intros p q p' q' [H1 H2] [H3 H4]; unfold dist2, dot, vsub; simpl. rewrite H1, H2, H3, H4; reflexivity. Qed.

Lemma on_segment_ends : forall A B, on_segment A B A /\ on_segment A B B.
Proof.
  intros A B; split; [exists 0|exists 1]; (split; [lra|]); split; unfold lerp, vadd, vscale, vsub; simpl; ring.
Qed.

Lemma closest_seg_ok : forall p A B,
  let c := point_segment_closest_point_seg p A B in
  on_segment A B c /\ point_segment_distance_sqrd p A B == dist2 p c /\
  forall X, on_segment A B X -> point_segment_distance_sqrd p A B <= dist2 p X.
Proof.
  intros p A B c.
  pose proof (dot_self_nonneg (vsub B A)) as Hf.
  pose proof (dot_zero_l (vsub p A) (vsub B A)) as H0.
  unfold c, point_segment_closest_point_seg, point_segment_distance_sqrd. clear c.
  set (e := dot (vsub p A) (vsub B A)) in *. set (f := dot (vsub B A) (vsub B A)) in *.
  set (g := dot (vsub p A) (vsub p A)).
  assert (L : forall X, on_segment A B X -> exists t, 0 <= t <= 1 /\ dist2 p X == quad g e f t).
  { intros X (t & Ht & E). exists t; split; [exact Ht|]. rewrite (dist2_compat p X p (lerp A B t)); [apply dist2_lerp|apply pteq_refl|exact E]. }
  destruct (Qleb_spec e 0) as [H1|H1]; [|destruct (Qgeb_spec e f) as [H2|H2]].
  - split; [apply on_segment_ends|]. split; [unfold g, dist2, dot, vsub; simpl; ring|].
    intros X HX. destruct (L X HX) as (t & Ht & E). rewrite E. destruct (quad_min g e f Hf H0 t Ht) as (Q1 & _ & _). auto.
  - split; [apply on_segment_ends|]. split; [unfold dist2, dot, vsub; simpl; ring|].
    intros X HX. destruct (L X HX) as (t & Ht & E). rewrite E. destruct (quad_min g e f Hf H0 t Ht) as (_ & Q2 & _).
    assert (E1 : dot (vsub p B) (vsub p B) == quad g e f 1) by (unfold g, e, f, quad, dot, vsub; simpl; ring).
    rewrite E1. auto.
  - assert (F : ~ f == 0) by lra.
    split; [|split].
    + exists (e / f). split; [split; [apply Qle_shift_div_l; lra|apply Qle_shift_div_r; lra]|apply pteq_refl].
    + change (vadd A (vscale (e / f) (vsub B A))) with (lerp A B (e / f)). rewrite dist2_lerp. fold e f g.
      unfold quad. field. exact F.
    + intros X HX. destruct (L X HX) as (t & Ht & E). rewrite E. destruct (quad_min g e f Hf H0 t Ht) as (_ & _ & Q3). auto.
Qed.

Lemma point_segment_least : forall p A B, least_dist2 p (on_segment A B) (point_segment_distance_sqrd p A B).
Proof.
  intros p A B. destruct (closest_seg_ok p A B) as (H1 & H2 & H3). split; [|exact H3].
  eexists; split; [exact H1|]. symmetry; exact H2.
Qed.

Lemma seg_point_unique : forall p A B, 
  (exists c t, point_segment_closest_point_and_param p A B = Some (c, t)) <-> ~ A =p= B.
Proof.
  intros p A B; unfold point_segment_closest_point_and_param.
  destruct (Qeqb_spec (dot (vsub B A) (vsub B A)) 0) as [E|E].
  - split; [intros (c & t & H); discriminate|]. intro N; exfalso; apply N.
    apply dot_self_zero in E as [E1 E2]; unfold vsub in *; simpl in *; split; lra.
  - split; [|intros _; eexists; eexists; reflexivity].
    intros _ [H1 H2]. apply E. unfold dot, vsub; simpl. rewrite H1, H2; ring.
Qed.

Lemma closest_param_ok : forall p A B c t, point_segment_closest_point_and_param p A B = Some (c, t) ->
  c =p= point_segment_closest_point_seg p A B /\
  (0 <= t <= 1 -> c =p= lerp A B t) /\ (t <= 0 -> c = A) /\ (1 <= t -> c = B) /\
  dot (vsub p (lerp A B t)) (vsub B A) == 0.
Proof.
  intros p A B c t; unfold point_segment_closest_point_and_param, point_segment_closest_point_seg.
  set (f := dot (vsub B A) (vsub B A)). set (e := dot (vsub p A) (vsub B A)).
  destruct (Qeqb_spec f 0) as [E|E]; [discriminate|]. intro H.
  assert (Ht : t = e / f) by congruence.
  assert (Hc : c = if Qleb (e / f) 0 then A else if Qgeb (e / f) 1 then B else vadd A (vscale (e / f) (vsub B A))) by congruence.
  clear H. assert (F : 0 < f) by (pose proof (dot_self_nonneg (vsub B A)); fold f in H; lra).
  assert (EF : e / f * f == e) by (field; lra).
  assert (P : dot (vsub p (lerp A B t)) (vsub B A) == 0).
  { rewrite Ht. assert (X : dot (vsub p (lerp A B (e / f))) (vsub B A) == e - e / f * f)
      by (unfold e, f, lerp, dot, vsub, vadd, vscale; simpl; ring). rewrite X, EF; ring. }
  rewrite Hc, <- Ht. rewrite <- Ht in EF. clear Hc Ht.
  destruct (Qleb_spec t 0) as [T1|T1].
  - assert (e <= 0) by nra. destruct (Qleb_spec e 0); [|exfalso; lra].
    repeat split; try reflexivity; auto; try (intros [? ?]; try lra); try (intro; exfalso; lra).
    + assert (Et : t == 0) by lra. unfold lerp, vadd, vscale, vsub; simpl. rewrite Et; ring.
    + assert (Et : t == 0) by lra. unfold lerp, vadd, vscale, vsub; simpl. rewrite Et; ring.
  - assert (~ e <= 0) by nra. destruct (Qleb_spec e 0); [exfalso; lra|].
    destruct (Qgeb_spec t 1) as [T2|T2].
    + assert (f <= e) by nra. destruct (Qgeb_spec e f); [|exfalso; lra].
      repeat split; try reflexivity; auto; try (intros [? ?]; try lra); try (intro; exfalso; lra).
      * assert (Et : t == 1) by lra. unfold lerp, vadd, vscale, vsub; simpl. rewrite Et; ring.
      * assert (Et : t == 1) by lra. unfold lerp, vadd, vscale, vsub; simpl. rewrite Et; ring.
    + assert (~ f <= e) by nra. destruct (Qgeb_spec e f); [exfalso; lra|].
      assert (ET : t == e / f) by (rewrite <- EF; field; lra).
      split; [split; unfold vadd, vscale, vsub; simpl; rewrite ET; reflexivity|].
      repeat split; try (intro; exfalso; lra); auto; unfold lerp; apply Qeq_refl.
Qed.

(** ** Point to segment, any dimension *)

Lemma cdot_self_nonneg : forall v, 0 <= cdot v v.
Proof. induction v as [|x v IH]; simpl; [lra|]. pose proof (sq_nonneg x); lra. Qed.
Lemma cdot_zero : forall u v, length u = length v -> cdot v v == 0 -> cdot u v == 0.
Proof.
  induction u as [|x u IH]; destruct v as [|y v]; simpl; intros L H; try discriminate; try reflexivity.
  pose proof (cdot_self_nonneg v). pose proof (sq_nonneg y).
  assert (y == 0) by (apply sq_zero; lra). rewrite (IH v); [|congruence|lra]. rewrite H2; ring.
Qed.
Lemma csub_length : forall a b, length a = length b -> length (csub a b) = length a.
Proof. induction a as [|x a IH]; destruct b; simpl; intros L; try discriminate; auto. Qed.

Lemma cdist2_clerp : forall p A B t, length A = length p -> length B = length p ->
  cdist2 p (clerp A B t) == quad (cdot (csub p A) (csub p A)) (cdot (csub p A) (csub B A)) (cdot (csub B A) (csub B A)) t.
Proof.
  unfold cdist2, clerp, quad.
  induction p as [|x p IH]; destruct A as [|a A]; destruct B as [|b B]; simpl; intros t L1 L2; try discriminate; [ring|].
  specialize (IH A B t ltac:(congruence) ltac:(congruence)). unfold cscale in *. rewrite IH. ring.
Qed.

Lemma csub_compat_l : forall a a' b, Forall2 Qeq a a' -> Forall2 Qeq (csub a b) (csub a' b).
Proof.
  intros a a' b H; revert b; induction H as [|x y a a' E H IH]; intros [|z b]; simpl; constructor; auto. rewrite E; reflexivity.
Qed.
Lemma cdot_compat : forall a a' b b', Forall2 Qeq a a' -> Forall2 Qeq b b' -> cdot a b == cdot a' b'.
Proof.
  intros a a' b b' H; revert b b'; induction H as [|x y a a' E H IH]; intros b b' Hb; destruct Hb; simpl; try reflexivity.
  rewrite E, H0, (IH l l' Hb); reflexivity.
Qed.
Lemma cdist2_compat : forall p q q', Forall2 Qeq q q' -> cdist2 p q == cdist2 p q'.
Proof. intros p q q' H; unfold cdist2. apply cdot_compat; apply csub_compat_l; exact H. Qed.

Lemma clerp_0 : forall A B, length A = length B -> Forall2 Qeq A (clerp A B 0).
Proof. unfold clerp, cscale; induction A as [|a A IH]; destruct B as [|b B]; simpl; intro L; try discriminate; constructor; auto. ring. Qed.
Lemma clerp_1 : forall A B, length A = length B -> Forall2 Qeq B (clerp A B 1).
Proof. unfold clerp, cscale; induction A as [|a A IH]; destruct B as [|b B]; simpl; intro L; try discriminate; constructor; auto. ring. Qed.
Lemma Forall2_Qeq_refl : forall a, Forall2 Qeq a a.
Proof. induction a; constructor; auto; reflexivity. Qed.

Lemma cdist2_flip : forall p q, cdot (csub p q) (csub p q) == cdist2 p q.
Proof. unfold cdist2; induction p as [|x p IH]; destruct q as [|y q]; simpl; try reflexivity. rewrite IH; ring. Qed.

Lemma closest_n_ok : forall p A B, length A = length p -> length B = length p ->
  let c := point_segment_closest_point_n p A B in
  on_segment_n A B c /\ point_segment_distance_sqrd_n p A B == cdist2 p c /\
  forall X, on_segment_n A B X -> point_segment_distance_sqrd_n p A B <= cdist2 p X.
Proof.
  intros p A B LA LB c.
  pose proof (cdot_self_nonneg (csub B A)) as Hf.
  pose proof (cdot_zero (csub p A) (csub B A)) as H0.
  rewrite !csub_length in H0 by congruence. specialize (H0 ltac:(congruence)).
  pose proof (cdist2_clerp p A B 1 LA LB) as Q1.
  assert (D1 : cdot (csub p B) (csub p B) == cdist2 p (clerp A B 1)).
  { rewrite cdist2_flip. apply cdist2_compat, clerp_1; congruence. }
  rewrite <- D1 in Q1. clear D1.
  unfold c, point_segment_closest_point_n, point_segment_distance_sqrd_n. clear c.
  assert (L : forall X, on_segment_n A B X -> exists t, 0 <= t <= 1 /\ cdist2 p X ==
     quad (cdot (csub p A) (csub p A)) (cdot (csub p A) (csub B A)) (cdot (csub B A) (csub B A)) t).
  { intros X (t & Ht & E). exists t; split; [exact Ht|]. rewrite (cdist2_compat p X _ E). apply cdist2_clerp; assumption. }
  pose proof (cdist2_flip p A) as FA. pose proof (cdist2_flip p B) as FB.
  set (e := cdot (csub p A) (csub B A)) in *. set (f := cdot (csub B A) (csub B A)) in *.
  set (g := cdot (csub p A) (csub p A)) in *.
  destruct (Qleb_spec e 0) as [H1|H1]; [|destruct (Qgeb_spec e f) as [H2|H2]].
  - split; [exists 0; split; [lra|apply clerp_0; congruence]|]. split; [exact FA|].
    intros X HX. destruct (L X HX) as (t & Ht & E). rewrite E. destruct (quad_min g e f Hf H0 t Ht) as (G1 & _ & _). auto.
  - split; [exists 1; split; [lra|apply clerp_1; congruence]|]. split; [exact FB|].
    intros X HX. destruct (L X HX) as (t & Ht & E). rewrite E, Q1. destruct (quad_min g e f Hf H0 t Ht) as (_ & G2 & _). auto.
  - assert (F : ~ f == 0) by lra.
    split; [|split].
    + exists (e / f). split; [split; [apply Qle_shift_div_l; lra|apply Qle_shift_div_r; lra]|]. apply Forall2_Qeq_refl.
    + change (cadd A (cscale (e / f) (csub B A))) with (clerp A B (e / f)). rewrite cdist2_clerp by assumption. fold e f g.
      unfold quad. field. exact F.
    + intros X HX. destruct (L X HX) as (t & Ht & E). rewrite E. destruct (quad_min g e f Hf H0 t Ht) as (_ & _ & G3). auto.
Qed.

(** ** Segment to segment *)

(** |p1 + s d1 - p2 - t d2|^2 as a quadratic form. *)
Definition form (g a b c e f s t : Q) : Q := g + s * s * a - 2 * s * t * b + t * t * e + 2 * s * c - 2 * t * f.

Lemma form_ok : forall p1 q1 p2 q2 s t,
  let d1 := vsub q1 p1 in let d2 := vsub q2 p2 in let r := vsub p1 p2 in
  dist2 (lerp p1 q1 s) (lerp p2 q2 t) == form (dot r r) (dot d1 d1) (dot d1 d2) (dot d1 r) (dot d2 d2) (dot d2 r) s t.
Proof. intros; unfold d1, d2, r, form, dist2, lerp, dot, vsub, vadd, vscale; simpl; ring. Qed.

(** First-order optimality on the unit square suffices. *)
Lemma kkt : forall g a b c e f s t,
  (forall x y, 0 <= x * x * a - 2 * x * y * b + y * y * e) ->
  (forall s', 0 <= s' <= 1 -> 0 <= (a * s - b * t + c) * (s' - s)) ->
  (forall t', 0 <= t' <= 1 -> 0 <= (e * t - b * s - f) * (t' - t)) ->
  forall s' t', 0 <= s' <= 1 -> 0 <= t' <= 1 -> form g a b c e f s t <= form g a b c e f s' t'.
Proof.
  intros g a b c e f s t PSD K1 K2 s' t' Hs Ht.
  specialize (PSD (s' - s) (t' - t)). specialize (K1 s' Hs). specialize (K2 t' Ht). unfold form. lra.
Qed.

Lemma clamp_01 : forall x, 0 <= clamp x 0 1 <= 1.
Proof. intro x; unfold clamp. destruct (Qltb_spec x 0); [lra|destruct (Qgtb_spec x 1); lra]. Qed.
Lemma clamp_var : forall x s', 0 <= s' <= 1 -> 0 <= (clamp x 0 1 - x) * (s' - clamp x 0 1).
Proof. intros x s' Hs; unfold clamp. destruct (Qltb_spec x 0); [nra|destruct (Qgtb_spec x 1); [nra|]]. nra. Qed.
Lemma clamp_grad : forall k x s', 0 < k -> 0 <= s' <= 1 -> 0 <= (k * clamp x 0 1 - k * x) * (s' - clamp x 0 1).
Proof. intros k x s' Hk Hs. pose proof (clamp_var x s' Hs). set (s := clamp x 0 1) in *. clearbody s.
  assert (E : (k * s - k * x) * (s' - s) == k * ((s - x) * (s' - s))) by ring. rewrite E. nra. Qed.

(** The step of the algorithm that recomputes s after clamping t keeps t optimal. *)
Lemma reclamp : forall b f s0 s1 x y m k, 0 <= k ->
  0 <= (s0 - x) * (s1 - s0) -> 0 <= (s1 - y) * (s0 - s1) ->
  m * (b * y + f) == k * (b * x + f) -> 0 < m ->
  b * s0 + f < 0 -> b * s1 + f <= 0.
Proof.
  intros b f s0 s1 x y m k Hk C0 C1 R Hm H0.
  destruct (Qlt_le_dec 0 (b * s1 + f)) as [H1|H1]; [exfalso|exact H1].
  set (S0 := b * s0 + f) in *. set (S1 := b * s1 + f) in *. set (X := b * x + f) in *. set (Y := b * y + f) in *.
  assert (B : 0 <= b * b) by apply sq_nonneg.
  assert (E0 : 0 <= (S0 - X) * (S1 - S0)).
  { assert (E : (S0 - X) * (S1 - S0) == b * b * ((s0 - x) * (s1 - s0))) by (unfold S0, S1, X; ring). rewrite E. nra. }
  assert (E1 : 0 <= (S1 - Y) * (S0 - S1)).
  { assert (E : (S1 - Y) * (S0 - S1) == b * b * ((s1 - y) * (s0 - s1))) by (unfold S0, S1, Y; ring). rewrite E. nra. }
  assert (X <= S0) by nra. assert (S1 <= Y) by nra.
  assert (0 < m * Y) by nra. assert (k * X <= 0) by nra. lra.
Qed.

Lemma params_ok : forall g a b c e f,
  0 <= a -> 0 <= e -> (forall x y, 0 <= x * x * a - 2 * x * y * b + y * y * e) ->
  (a == 0 -> b == 0 /\ c == 0) -> (e == 0 -> b == 0 /\ f == 0) ->
  (a * e - b * b == 0 -> c * e == b * f /\ a * f == b * c) ->
  exists s t, segment_segment_params direct a b c e f = Some (s, t) /\ 0 <= s <= 1 /\ 0 <= t <= 1 /\
    forall s' t', 0 <= s' <= 1 -> 0 <= t' <= 1 -> form g a b c e f s t <= form g a b c e f s' t'.
Proof.
  intros g a b c e f Ha He PSD Za Ze Zd.
  assert (CS : 0 <= a * e - b * b).
  { destruct (Qlt_le_dec 0 a) as [A|A].
    - specialize (PSD b a). assert (E : b * b * a - 2 * b * a * b + a * a * e == a * (a * e - b * b)) by ring.
      rewrite E in PSD. destruct (Qlt_le_dec (a * e - b * b) 0); [exfalso; nra|assumption].
    - assert (A0 : a == 0) by lra. destruct (Za A0) as [B0 _]. rewrite A0, B0; lra. }
  unfold segment_segment_params; simpl.
  destruct (Qleb_spec a 0) as [A|A]; destruct (Qleb_spec e 0) as [E|E]; simpl.
  - exists 0, 0. split; [reflexivity|]. split; [lra|]. split; [lra|].
    assert (A0 : a == 0) by lra. assert (E0 : e == 0) by lra.
    destruct (Za A0) as [B0 C0]; destruct (Ze E0) as [_ F0].
    intros s' t' Hs Ht. unfold form. rewrite A0, E0, B0, C0, F0. lra.
  - assert (A0 : a == 0) by lra. destruct (Za A0) as [B0 C0].
    unfold qdiv_opt. destruct (Qeqb_spec e 0); [exfalso; lra|].
    exists 0, (clamp (f / e) 0 1). split; [reflexivity|]. split; [lra|]. split; [apply clamp_01|].
    apply kkt; [exact PSD| |].
    + intros s' Hs. rewrite A0, B0, C0. lra.
    + intros t' Ht. pose proof (clamp_grad e (f / e) t' E Ht) as G.
      assert (X : e * (f / e) == f) by (field; lra). rewrite X in G. rewrite B0. set (u := clamp (f / e) 0 1) in *. lra.
  - assert (E0 : e == 0) by lra. destruct (Ze E0) as [B0 F0].
    unfold qdiv_opt. destruct (Qeqb_spec a 0); [exfalso; lra|].
    exists (clamp (- c / a) 0 1), 0. split; [reflexivity|]. split; [apply clamp_01|]. split; [lra|].
    apply kkt; [exact PSD| |].
    + intros s' Hs. pose proof (clamp_grad a (- c / a) s' A Hs) as G.
      assert (X : a * (- c / a) == - c) by (field; lra). rewrite X in G. rewrite B0. set (u := clamp (- c / a) 0 1) in *. lra.
    + intros t' Ht. rewrite E0, B0, F0. lra.
  - set (D := a * e - b * b) in *.
    set (s0 := if negb (Qeqb D 0) then clamp ((b * f - c * e) / D) 0 1 else 0).
    assert (S0 : exists x, 0 <= s0 <= 1 /\ (forall s', 0 <= s' <= 1 -> 0 <= (s0 - x) * (s' - s0)) /\ D * x == b * f - c * e /\
                 (D == 0 -> b * x + f == f)).
    { unfold s0. destruct (Qeqb_spec D 0) as [D0|D0]; simpl.
      - exists 0. split; [lra|]. split; [intros; lra|]. split; [destruct (Zd D0); lra|]. intros _; ring.
      - exists ((b * f - c * e) / D). split; [apply clamp_01|]. split; [intros; apply clamp_var; assumption|].
        split; [field; exact D0|]. intro; contradiction. }
    destruct S0 as (x & R0 & V0 & X0 & XD). clearbody s0.
    assert (KX : D * (b * x + f) == e * (a * f - b * c)).
    { assert (E1 : D * (b * x + f) == b * (D * x) + D * f) by ring. rewrite E1, X0. unfold D. ring. }
    destruct (Qltb_spec (b * s0 + f) 0) as [T1|T1]; [|destruct (Qgtb_spec (b * s0 + f) e) as [T2|T2]].
    + unfold qdiv_opt. destruct (Qeqb_spec a 0); [exfalso; lra|].
      exists (clamp (- c / a) 0 1), 0. split; [reflexivity|]. split; [apply clamp_01|]. split; [lra|].
      apply kkt; [exact PSD| |].
      * intros s' Hs. pose proof (clamp_grad a (- c / a) s' A Hs) as G.
        assert (X : a * (- c / a) == - c) by (field; lra). rewrite X in G. set (u := clamp (- c / a) 0 1) in *. lra.
      * intros t' Ht.
        assert (RC : b * clamp (- c / a) 0 1 + f <= 0).
        { apply (reclamp b f s0 (clamp (- c / a) 0 1) x (- c / a) (a * e) D); try assumption.
          - apply V0, clamp_01.
          - apply clamp_var; assumption.
          - rewrite KX. field. lra.
          - nra. }
        set (u := clamp (- c / a) 0 1) in *. nra.
    + unfold qdiv_opt. destruct (Qeqb_spec a 0); [exfalso; lra|].
      exists (clamp ((b - c) / a) 0 1), 1. split; [reflexivity|]. split; [apply clamp_01|]. split; [lra|].
      apply kkt; [exact PSD| |].
      * intros s' Hs. pose proof (clamp_grad a ((b - c) / a) s' A Hs) as G.
        assert (X : a * ((b - c) / a) == b - c) by (field; lra). rewrite X in G. set (u := clamp ((b - c) / a) 0 1) in *. lra.
      * intros t' Ht.
        assert (RC : (- b) * clamp ((b - c) / a) 0 1 + (e - f) <= 0).
        { apply (reclamp (- b) (e - f) s0 (clamp ((b - c) / a) 0 1) x ((b - c) / a) (a * e) D); try assumption.
          - apply V0, clamp_01.
          - apply clamp_var; assumption.
          - assert (E1 : D * (- b * x + (e - f)) == D * e - D * (b * x + f)) by ring. rewrite E1, KX. unfold D. field. lra.
          - nra.
          - lra. }
        set (u := clamp ((b - c) / a) 0 1) in *. nra.
    + unfold qdiv_opt. destruct (Qeqb_spec e 0); [exfalso; lra|].
      exists s0, ((b * s0 + f) / e). split; [reflexivity|]. split; [exact R0|].
      split; [split; [apply Qle_shift_div_l; lra|apply Qle_shift_div_r; lra]|].
      assert (TE : e * ((b * s0 + f) / e) == b * s0 + f) by (field; lra).
      apply kkt; [exact PSD| |].
      * intros s' Hs.
        assert (G : e * (a * s0 - b * ((b * s0 + f) / e) + c) == D * (s0 - x)).
        { assert (E1 : e * (a * s0 - b * ((b * s0 + f) / e) + c) == a * e * s0 - b * (e * ((b * s0 + f) / e)) + c * e) by ring.
          rewrite E1, TE. assert (E2 : D * (s0 - x) == D * s0 - D * x) by ring. rewrite E2, X0. unfold D; ring. }
        specialize (V0 s' Hs). set (G0 := a * s0 - b * ((b * s0 + f) / e) + c) in *.
        assert (G1 : e * (G0 * (s' - s0)) == D * ((s0 - x) * (s' - s0))).
        { assert (E1 : e * (G0 * (s' - s0)) == e * G0 * (s' - s0)) by ring. rewrite E1, G; ring. }
        assert (0 <= D * ((s0 - x) * (s' - s0))) by nra.
        destruct (Qlt_le_dec (G0 * (s' - s0)) 0); [exfalso; nra|assumption].
      * intros t' Ht. assert (Z : e * ((b * s0 + f) / e) - b * s0 - f == 0) by (rewrite TE; ring). rewrite Z. lra.
Qed.

Lemma closest_ok : forall p1 q1 p2 q2, exists r,
  segment_segment_closest_point direct p1 q1 p2 q2 = Some r /\
  0 <= ss_s r <= 1 /\ 0 <= ss_t r <= 1 /\ ss_c1 r =p= lerp p1 q1 (ss_s r) /\ ss_c2 r =p= lerp p2 q2 (ss_t r) /\
  ss_d2 r == dist2 (ss_c1 r) (ss_c2 r) /\
  forall X Y, on_segment p1 q1 X -> on_segment p2 q2 Y -> ss_d2 r <= dist2 X Y.
Proof.
  intros p1 q1 p2 q2. unfold segment_segment_closest_point.
  set (d1 := vsub q1 p1). set (d2 := vsub q2 p2). set (r := vsub p1 p2).
  destruct (params_ok (dot r r) (dot d1 d1) (dot d1 d2) (dot d1 r) (dot d2 d2) (dot d2 r)) as (s & t & EP & Hs & Ht & OPT).
  - apply dot_self_nonneg.
  - apply dot_self_nonneg.
  - intros x y. assert (E : x * x * dot d1 d1 - 2 * x * y * dot d1 d2 + y * y * dot d2 d2 ==
      dot (vsub (vscale x d1) (vscale y d2)) (vsub (vscale x d1) (vscale y d2))) by (unfold dot, vsub, vscale; simpl; ring).
    rewrite E. apply dot_self_nonneg.
  - intro Z. apply dot_self_zero in Z as [Z1 Z2]. split; unfold dot; rewrite Z1, Z2; ring.
  - intro Z. split; [apply dot_zero_l; exact Z|]. apply dot_self_zero in Z as [Z1 Z2]. unfold dot; rewrite Z1, Z2; ring.
  - intro Z.
    assert (LG : cross d1 d2 * cross d1 d2 == 0) by (pose proof (lagrange d1 d2) as L; lra).
    apply sq_zero in LG. unfold cross in LG.
    split; unfold dot.
    + assert (E : (px d1 * px r + py d1 * py r) * (px d2 * px d2 + py d2 * py d2) - (px d1 * px d2 + py d1 * py d2) * (px d2 * px r + py d2 * py r)
        == (px d1 * py d2 - py d1 * px d2) * (px r * py d2 - py r * px d2)) by ring.
      rewrite LG in E. lra.
    + assert (E : (px d1 * px d1 + py d1 * py d1) * (px d2 * px r + py d2 * py r) - (px d1 * px d2 + py d1 * py d2) * (px d1 * px r + py d1 * py r)
        == (px d1 * py d2 - py d1 * px d2) * (px d1 * py r - py d1 * px r)) by ring.
      rewrite LG in E. lra.
  - rewrite EP. eexists; split; [reflexivity|]. simpl. split; [exact Hs|]. split; [exact Ht|].
    split; [apply pteq_refl|]. split; [apply pteq_refl|]. split.
    + unfold dist2, dot, vsub; simpl; ring.
    + intros X Y (s' & Hs' & EX) (t' & Ht' & EY).
      rewrite (dist2_compat X Y _ _ EX EY). rewrite form_ok.
      assert (E : dot (vsub (vadd p1 (vscale s d1)) (vadd p2 (vscale t d2))) (vsub (vadd p1 (vscale s d1)) (vadd p2 (vscale t d2)))
        == form (dot r r) (dot d1 d1) (dot d1 d2) (dot d1 r) (dot d2 d2) (dot d2 r) s t)
        by (unfold form, r, dot, vsub, vadd, vscale; simpl; ring).
      rewrite E. apply OPT; assumption.
Qed.

Lemma segseg_least : forall p1 q1 p2 q2, exists d,
  segment_segment_distance_sqrd direct p1 q1 p2 q2 = Some d /\
  least_dist2_sets (on_segment p1 q1) (on_segment p2 q2) d.
Proof.
  intros p1 q1 p2 q2. destruct (closest_ok p1 q1 p2 q2) as (r & E & Hs & Ht & E1 & E2 & ED & L).
  exists (ss_d2 r). unfold segment_segment_distance_sqrd. rewrite E. split; [reflexivity|]. split; [|exact L].
  exists (ss_c1 r), (ss_c2 r). split; [exists (ss_s r); auto|]. split; [exists (ss_t r); auto|]. symmetry; exact ED.
Qed.

(** With a tolerance the points still lie on the segments, and the result is their
    squared distance. *)
Lemma closest_tol_ok : forall tol p1 q1 p2 q2, 0 <= tol -> exists r,
  segment_segment_closest_point (absolute tol) p1 q1 p2 q2 = Some r /\
  0 <= ss_s r <= 1 /\ 0 <= ss_t r <= 1 /\ ss_c1 r =p= lerp p1 q1 (ss_s r) /\ ss_c2 r =p= lerp p2 q2 (ss_t r) /\
  ss_d2 r == dist2 (ss_c1 r) (ss_c2 r).
Proof.
  intros tol p1 q1 p2 q2 Htol. unfold segment_segment_closest_point.
  set (a := dot _ _). set (b := dot _ _). set (c := dot _ _). set (e := dot _ _). set (f := dot _ _).
  assert (Hnz : forall v, less_than_or_equal (absolute tol) v 0 = false -> 0 < v).
  { intros v G; unfold absolute in G; simpl in G. destruct (Qlt_le_dec 0 v); [assumption|exfalso].
    destruct (Qleb_spec (v - 0) tol); [discriminate|lra]. }
  assert (P : exists s t, segment_segment_params (absolute tol) a b c e f = Some (s, t) /\ 0 <= s <= 1 /\ 0 <= t <= 1).
  { unfold segment_segment_params.
    destruct (less_than_or_equal (absolute tol) a 0) eqn:EA; destruct (less_than_or_equal (absolute tol) e 0) eqn:EE; simpl andb; cbv iota.
    - exists 0, 0; repeat split; lra.
    - apply Hnz in EE. unfold qdiv_opt. destruct (Qeqb_spec e 0); [exfalso; lra|].
      eexists; eexists; split; [reflexivity|]. split; [lra|apply clamp_01].
    - apply Hnz in EA. unfold qdiv_opt. destruct (Qeqb_spec a 0); [exfalso; lra|].
      eexists; eexists; split; [reflexivity|]. split; [apply clamp_01|lra].
    - apply Hnz in EE; apply Hnz in EA. unfold qdiv_opt.
      set (s := if negb (Qeqb (a * e - b * b) 0) then clamp ((b * f - c * e) / (a * e - b * b)) 0 1 else 0).
      assert (Hs : 0 <= s <= 1) by (unfold s; destruct (negb _); [apply clamp_01|lra]).
      destruct (Qeqb_spec a 0); [exfalso; lra|]. destruct (Qeqb_spec e 0); [exfalso; lra|].
      destruct (Qltb_spec (b * s + f) 0); [|destruct (Qgtb_spec (b * s + f) e)].
      + eexists; eexists; split; [reflexivity|]. split; [apply clamp_01|lra].
      + eexists; eexists; split; [reflexivity|]. split; [apply clamp_01|lra].
      + eexists; eexists; split; [reflexivity|]. split; [exact Hs|]. split; [apply Qle_shift_div_l; lra|apply Qle_shift_div_r; lra]. }
  destruct P as (s & t & EP & Hs & Ht). rewrite EP. eexists; split; [reflexivity|]. simpl.
  split; [exact Hs|]. split; [exact Ht|]. split; [apply pteq_refl|]. split; [apply pteq_refl|].
  unfold dist2, dot, vsub; simpl; ring.
Qed.

(** ** Edges of point sequences *)

Lemma in_cons_iff : forall (T : Type) (x a : T) l, In x (a :: l) <-> a = x \/ In x l.
Proof. intros; reflexivity. Qed.

Lemma polyline_edges_from_iff : forall ps i k A B,
  In (k, (A, B)) (polyline_edges_from i ps) <-> (i <= k)%nat /\ polyline_edge ps (k - i) A B.
Proof.
  unfold polyline_edge.
  induction ps as [|a ps IH]; intros i k A B.
  - simpl. split; [tauto|]. intros [_ [H _]]. destruct (k - i)%nat; discriminate H.
  - destruct ps as [|b ps].
    + simpl. split; [tauto|]. intros [_ [H1 H2]]. destruct (k - i)%nat as [|[|?]]; discriminate H2.
    + change (polyline_edges_from i (a :: b :: ps)) with ((i, (a, b)) :: polyline_edges_from (S i) (b :: ps)).
      rewrite in_cons_iff, IH. split.
      * intros [H|[H1 [H2 H3]]].
        -- assert (k = i) by congruence. assert (A = a) by congruence. assert (B = b) by congruence. subst.
           split; [lia|]. replace (i - i)%nat with 0%nat by lia. split; reflexivity.
        -- split; [lia|]. replace (k - i)%nat with (S (k - S i)) by lia. split; assumption.
      * intros [H1 [H2 H3]]. destruct (k - i)%nat as [|m] eqn:EK.
        -- left. simpl in H2, H3. assert (k = i) by lia. congruence.
        -- right. split; [lia|]. replace (k - S i)%nat with m by lia. split; assumption.
Qed.

Lemma polyline_edges_iff : forall ps k A B, In (k, (A, B)) (polyline_edges ps) <-> polyline_edge ps k A B.
Proof.
  intros ps k A B; unfold polyline_edges. rewrite polyline_edges_from_iff. replace (k - 0)%nat with k by lia.
  split; [tauto|]. intro; split; [lia|assumption].
Qed.

Lemma last_nth_error : forall (ps : list pt) d, ps <> [] -> nth_error ps (length ps - 1) = Some (last ps d).
Proof.
  induction ps as [|a ps IH]; intros d N; [congruence|]. destruct ps as [|b ps]; [reflexivity|].
  change (last (a :: b :: ps) d) with (last (b :: ps) d). rewrite <- IH by discriminate. simpl. rewrite Nat.sub_0_r. reflexivity.
Qed.

Lemma polygon_edges_iff : forall ps k A B, In (k, (A, B)) (polygon_edges ps) <-> polygon_edge ps k A B.
Proof.
  intros ps k A B; unfold polygon_edge. destruct ps as [|a ps].
  - simpl. split; [tauto|]. intros [H _]; destruct k; discriminate H.
  - set (l := a :: ps). assert (LL : (0 < length l)%nat) by (simpl; lia).
    change (polygon_edges l) with ((length l - 1, (last l a, a))%nat :: polyline_edges l).
    assert (HD : nth_error l 0 = Some a) by reflexivity.
    pose proof (last_nth_error l a ltac:(discriminate)) as LN.
    clearbody l. rewrite in_cons_iff, polyline_edges_iff. unfold polyline_edge. split.
    + intros [H|[H1 H2]].
      * assert (k = length l - 1)%nat by congruence. assert (A = last l a) by congruence. assert (B = a) by congruence. subst.
        split; [exact LN|]. replace (S (length l - 1)) with (length l) by lia. rewrite Nat.mod_same by lia. exact HD.
      * split; [exact H1|]. assert (S k < length l)%nat by (apply nth_error_Some; congruence). rewrite Nat.mod_small by assumption. exact H2.
    + intros [H1 H2]. assert (K : (k < length l)%nat) by (apply nth_error_Some; congruence).
      destruct (Nat.eq_dec k (length l - 1)) as [E|E].
      * left. subst k. replace (S (length l - 1)) with (length l) in H2 by lia. rewrite Nat.mod_same in H2 by lia. congruence.
      * right. rewrite Nat.mod_small in H2 by lia. split; assumption.
Qed.

(** ** Running minima *)

Lemma fold_take_min : forall (A : Type) (f : A -> Q) (l : list A) best,
  match fold_left (fun b x => take_min b (f x)) l best with
  | None => l = [] /\ best = None
  | Some d => ((exists x, In x l /\ f x = d) \/ best = Some d) /\ (forall x, In x l -> d <= f x) /\
              (forall b, best = Some b -> d <= b)
  end.
Proof.
  intros A f l. induction l as [|x l IH]; intro best; simpl.
  - destruct best as [b|]; [|auto]. split; [auto|]. split; [intros ? []|]. intros b0 E; assert (b0 = b) by congruence; subst; lra.
  - specialize (IH (take_min best (f x))).
    destruct (fold_left (fun b x => take_min b (f x)) l (take_min best (f x))) as [d|].
    + destruct IH as (H1 & H2 & H3). unfold take_min, less_inf in *. destruct best as [b|].
      * destruct (Qltb_spec (f x) b) as [G|G].
        -- specialize (H3 _ eq_refl). split; [|split].
           ++ destruct H1 as [(y & Hy & E)|E]; left; [exists y; auto|exists x; split; [auto|congruence]].
           ++ intros y [->|Hy]; [exact H3|auto].
           ++ intros b0 E; assert (b0 = b) by congruence; subst; lra.
        -- specialize (H3 _ eq_refl). split; [|split].
           ++ destruct H1 as [(y & Hy & E)|E]; [left; exists y; auto|right; auto].
           ++ intros y [->|Hy]; [lra|auto].
           ++ intros b0 E; assert (b0 = b) by congruence; subst; lra.
      * specialize (H3 _ eq_refl). split; [|split].
        -- destruct H1 as [(y & Hy & E)|E]; left; [exists y; auto|exists x; split; [auto|congruence]].
        -- intros y [->|Hy]; [exact H3|auto].
        -- intros b0 E; discriminate.
    + destruct IH as [-> H]. unfold take_min, less_inf in H. destruct best as [b|]; [destruct (Qltb (f x) b)|]; discriminate.
Qed.

Lemma dist_edges_least : forall p es (E : nat -> pt -> pt -> Prop),
  (forall k A B, In (k, (A, B)) es <-> E k A B) ->
  match fold_left (fun best e => take_min best (point_segment_distance_sqrd p (fst (snd e)) (snd (snd e)))) es None with
  | None => forall k A B, ~ E k A B
  | Some d => least_dist2 p (fun X => exists k A B, E k A B /\ on_segment A B X) d
  end.
Proof.
  intros p es E HE.
  pose proof (fold_take_min _ (fun e : nat * (pt * pt) => point_segment_distance_sqrd p (fst (snd e)) (snd (snd e))) es None) as F.
  destruct (fold_left _ es None) as [d|].
  - destruct F as (F1 & F2 & _). destruct F1 as [((k & A & B) & HI & ED)|F1]; [|discriminate]. simpl in ED.
    destruct (point_segment_least p A B) as [(q & Hq & Eq) _]. split.
    + exists q. split; [exists k, A, B; split; [apply HE; exact HI|exact Hq]|]. rewrite Eq, ED; reflexivity.
    + intros X (k' & A' & B' & HE' & HX). apply HE in HE'. specialize (F2 _ HE'). simpl in F2.
      destruct (point_segment_least p A' B') as [_ L]. specialize (L X HX). lra.
  - destruct F as [-> _]. intros k A B H. apply HE in H. exact H.
Qed.

Definition edge_inv (p : pt) (done : list (nat * (pt * pt))) (best : option (Q * (pt * pt))) : Prop :=
  match best with
  | None => done = []
  | Some (d, (A, B)) => d = point_segment_distance_sqrd p A B /\ (exists k, In (k, (A, B)) done) /\
      forall k A' B', In (k, (A', B')) done -> d <= point_segment_distance_sqrd p A' B'
  end.

Lemma take_edge_inv : forall p done best e, edge_inv p done best -> edge_inv p (done ++ [e]) (take_edge p best e).
Proof.
  intros p done best [k [A B]] H. unfold take_edge; simpl.
  destruct best as [[d [A0 B0]]|]; simpl in *.
  - destruct H as (H1 & (k0 & H2) & H3). destruct (Qltb_spec (point_segment_distance_sqrd p A B) d) as [G|G]; simpl.
    + split; [reflexivity|]. split; [exists k; apply in_or_app; right; left; reflexivity|].
      intros k1 A' B' HI. apply in_app_or in HI as [HI|[HI|[]]]; [specialize (H3 _ _ _ HI); lra|].
      assert (A' = A) by congruence. assert (B' = B) by congruence. subst; lra.
    + split; [exact H1|]. split; [exists k0; apply in_or_app; auto|].
      intros k1 A' B' HI. apply in_app_or in HI as [HI|[HI|[]]]; [exact (H3 _ _ _ HI)|].
      assert (A' = A) by congruence. assert (B' = B) by congruence. subst; exact G.
  - subst done. split; [reflexivity|]. split; [exists k; left; reflexivity|].
    intros k1 A' B' [HI|[]]. assert (A' = A) by congruence. assert (B' = B) by congruence. subst; lra.
Qed.

Lemma fold_edge_inv : forall p es done best, edge_inv p done best -> edge_inv p (done ++ es) (fold_left (take_edge p) es best).
Proof.
  intros p es; induction es as [|e es IH]; intros done best H; simpl.
  - rewrite app_nil_r; exact H.
  - replace (done ++ e :: es) with ((done ++ [e]) ++ es) by (rewrite <- app_assoc; reflexivity).
    apply IH, take_edge_inv, H.
Qed.

Lemma closest_edges_ok : forall p es (E : nat -> pt -> pt -> Prop),
  (forall k A B, In (k, (A, B)) es <-> E k A B) -> es <> [] -> (forall k A B, E k A B -> ~ A =p= B) ->
  exists c, closest_of_edges p es = Some c /\
    (exists k A B, E k A B /\ on_segment A B c) /\
    forall X, (exists k A B, E k A B /\ on_segment A B X) -> dist2 p c <= dist2 p X.
Proof.
  intros p es E HE NE ND. unfold closest_of_edges.
  pose proof (fold_edge_inv p es [] None eq_refl) as INV. simpl in INV.
  destruct (fold_left (take_edge p) es None) as [[d [A B]]|]; [|simpl in INV; contradiction].
  destruct INV as (H1 & (k & H2) & H3).
  assert (EK : E k A B) by (apply HE; exact H2).
  destruct (proj2 (seg_point_unique p A B) (ND _ _ _ EK)) as (c & t & EC).
  unfold point_segment_closest_point. rewrite EC. exists c; split; [reflexivity|].
  destruct (closest_param_ok p A B c t EC) as (C1 & _).
  destruct (closest_seg_ok p A B) as (S1 & S2 & S3). cbv zeta in *.
  split.
  - exists k, A, B. split; [exact EK|]. destruct S1 as (u & Hu & EU). exists u; split; [exact Hu|].
    eapply pteq_trans; [exact C1|exact EU].
  - intros X (k' & A' & B' & EK' & HX). apply HE in EK'. specialize (H3 _ _ _ EK').
    destruct (point_segment_least p A' B') as [_ L]. specialize (L X HX).
    rewrite (dist2_compat p c p _ (pteq_refl p) C1), <- S2. subst d. lra.
Qed.

(** ** Segment to polyline / polygon *)

Lemma segment_edges_distance_ok : forall p1 p2 es best, exists res,
  segment_edges_distance direct p1 p2 best es = Some res /\
  match res with
  | None => es = [] /\ best = None
  | Some d =>
    ((exists k A B, In (k, (A, B)) es /\ segment_segment_distance_sqrd direct p1 p2 A B = Some d) \/ best = Some d) /\
    (forall k A B d', In (k, (A, B)) es -> segment_segment_distance_sqrd direct p1 p2 A B = Some d' -> d <= d') /\
    (forall b, best = Some b -> d <= b)
  end.
Proof.
  intros p1 p2 es; induction es as [|[k [A B]] es IH]; intro best; simpl.
  - exists best; split; [reflexivity|]. destruct best as [b|]; [|auto].
    split; [auto|]. split; [intros ? ? ? ? []|]. intros b0 E; assert (b0 = b) by congruence; subst; lra.
  - destruct (segseg_least p1 p2 A B) as (d0 & E0 & _). rewrite E0.
    destruct (IH (take_min best d0)) as (res & ER & HR). exists res; split; [exact ER|].
    destruct res as [d|].
    + destruct HR as (H1 & H2 & H3). unfold take_min, less_inf in H1, H3. destruct best as [b|].
      * destruct (Qltb_spec d0 b) as [G|G]; specialize (H3 _ eq_refl).
        -- split; [|split].
           ++ left. destruct H1 as [(k' & A' & B' & HI & E)|E]; [exists k', A', B'; auto|exists k, A, B; split; [auto|congruence]].
           ++ intros k' A' B' d' [HI|HI] E; [|eauto]. assert (A' = A) by congruence. assert (B' = B) by congruence. subst.
              assert (d' = d0) by congruence. subst; exact H3.
           ++ intros b0 E; assert (b0 = b) by congruence; subst; lra.
        -- split; [|split].
           ++ destruct H1 as [(k' & A' & B' & HI & E)|E]; [left; exists k', A', B'; auto|right; exact E].
           ++ intros k' A' B' d' [HI|HI] E; [|eauto]. assert (A' = A) by congruence. assert (B' = B) by congruence. subst.
              assert (d' = d0) by congruence. subst; lra.
           ++ intros b0 E; assert (b0 = b) by congruence; subst; lra.
      * specialize (H3 _ eq_refl). split; [|split].
        -- left. destruct H1 as [(k' & A' & B' & HI & E)|E]; [exists k', A', B'; auto|exists k, A, B; split; [auto|congruence]].
        -- intros k' A' B' d' [HI|HI] E; [|eauto]. assert (A' = A) by congruence. assert (B' = B) by congruence. subst.
           assert (d' = d0) by congruence. subst; exact H3.
        -- intros b0 E; discriminate.
    + destruct HR as [_ H]. unfold take_min, less_inf in H. destruct best as [b|]; [destruct (Qltb d0 b)|]; discriminate.
Qed.

Lemma segment_edges_least : forall p1 p2 es (E : nat -> pt -> pt -> Prop),
  (forall k A B, In (k, (A, B)) es <-> E k A B) -> es <> [] ->
  exists d, segment_edges_distance direct p1 p2 None es = Some (Some d) /\
    least_dist2_sets (on_segment p1 p2) (fun X => exists k A B, E k A B /\ on_segment A B X) d.
Proof.
  intros p1 p2 es E HE NE. destruct (segment_edges_distance_ok p1 p2 es None) as (res & ER & HR).
  destruct res as [d|]; [|destruct HR; contradiction]. exists d; split; [exact ER|].
  destruct HR as ([(k & A & B & HI & ED)|H1] & H2 & _); [|discriminate].
  destruct (segseg_least p1 p2 A B) as (d0 & E0 & [(x & y & Hx & Hy & Exy) _]).
  assert (d0 = d) by congruence. subst d0. split.
  - exists x, y. split; [exact Hx|]. split; [|exact Exy]. exists k, A, B; split; [apply HE; exact HI|exact Hy].
  - intros x' y' Hx' (k' & A' & B' & EK & Hy'). apply HE in EK.
    destruct (segseg_least p1 p2 A' B') as (d1 & E1 & [_ L]). specialize (H2 _ _ _ _ EK E1). specialize (L _ _ Hx' Hy'). lra.
Qed.

(** The version with outputs: the edge index, and the first best edge wins. *)
Lemma segment_edges_closest_ok : forall p1 p2 es done best,
  (match best with None => done = [] | Some (k, r) =>
     (exists A B, In (k, (A, B)) done /\ segment_segment_closest_point direct p1 p2 A B = Some r) /\
     forall k' A' B' r', In (k', (A', B')) done -> segment_segment_closest_point direct p1 p2 A' B' = Some r' -> ss_d2 r <= ss_d2 r' end) ->
  exists res, segment_edges_closest direct p1 p2 best es = Some res /\
  match res with None => done ++ es = [] | Some (k, r) =>
     (exists A B, In (k, (A, B)) (done ++ es) /\ segment_segment_closest_point direct p1 p2 A B = Some r) /\
     forall k' A' B' r', In (k', (A', B')) (done ++ es) -> segment_segment_closest_point direct p1 p2 A' B' = Some r' -> ss_d2 r <= ss_d2 r' end.
Proof.
  intros p1 p2 es; induction es as [|[k [A B]] es IH]; intros done best INV; simpl.
  - exists best; split; [reflexivity|]. rewrite app_nil_r. exact INV.
  - destruct (closest_ok p1 p2 A B) as (r & ER & _). rewrite ER.
    replace (done ++ (k, (A, B)) :: es) with ((done ++ [(k, (A, B))]) ++ es) by (rewrite <- app_assoc; reflexivity).
    apply IH. destruct best as [[k0 r0]|]; simpl less_inf.
    + destruct INV as [(A0 & B0 & HI & E0) L0]. destruct (Qltb_spec (ss_d2 r) (ss_d2 r0)) as [G|G].
      * split; [exists A, B; split; [apply in_or_app; right; left; reflexivity|exact ER]|].
        intros k' A' B' r' HI' E'. apply in_app_or in HI' as [HI'|[HI'|[]]]; [specialize (L0 _ _ _ _ HI' E'); lra|].
        assert (A' = A) by congruence. assert (B' = B) by congruence. subst. assert (r' = r) by congruence. subst; lra.
      * split; [exists A0, B0; split; [apply in_or_app; auto|exact E0]|].
        intros k' A' B' r' HI' E'. apply in_app_or in HI' as [HI'|[HI'|[]]]; [exact (L0 _ _ _ _ HI' E')|].
        assert (A' = A) by congruence. assert (B' = B) by congruence. subst. assert (r' = r) by congruence. subst; exact G.
    + subst done. simpl. split; [exists A, B; split; [left; reflexivity|exact ER]|].
      intros k' A' B' r' [HI'|[]] E'.
      assert (A' = A) by congruence. assert (B' = B) by congruence. subst. assert (r' = r) by congruence. subst; lra.
Qed.

Lemma segment_edges_closest_least : forall p1 p2 es (E : nat -> pt -> pt -> Prop),
  (forall k A B, In (k, (A, B)) es <-> E k A B) -> es <> [] ->
  exists k r A B, segment_edges_closest direct p1 p2 None es = Some (Some (k, r)) /\
    E k A B /\ 0 <= ss_s r <= 1 /\ 0 <= ss_t r <= 1 /\ ss_c1 r =p= lerp p1 p2 (ss_s r) /\ ss_c2 r =p= lerp A B (ss_t r) /\
    ss_d2 r == dist2 (ss_c1 r) (ss_c2 r) /\
    forall X Y, on_segment p1 p2 X -> (exists k' A' B', E k' A' B' /\ on_segment A' B' Y) -> ss_d2 r <= dist2 X Y.
Proof.
  intros p1 p2 es E HE NE. destruct (segment_edges_closest_ok p1 p2 es [] None eq_refl) as (res & ER & HR).
  simpl app in HR. destruct res as [[k r]|]; [|contradiction].
  destruct HR as [(A & B & HI & EC) L].
  destruct (closest_ok p1 p2 A B) as (r0 & E0 & Hs & Ht & C1 & C2 & CD & _).
  assert (r0 = r) by congruence. subst r0.
  exists k, r, A, B. split; [exact ER|]. split; [apply HE; exact HI|]. do 5 (split; [assumption|]).
  intros X Y HX (k' & A' & B' & EK & HY). apply HE in EK.
  destruct (closest_ok p1 p2 A' B') as (r' & E' & _ & _ & _ & _ & _ & L').
  specialize (L _ _ _ _ EK E'). specialize (L' X Y HX HY). lra.
Qed.

(** ** Lines and oriented boxes *)

Lemma left_normal_unit : forall v, dot (left_normal v) (left_normal v) == dot v v.
Proof. intros; unfold dot, left_normal; simpl; ring. Qed.

Lemma point_line_ok : forall p l, dot (l_dir l) (l_dir l) == 1 ->
  least_dist2 p (on_line2 l) (point_line_distance p l * point_line_distance p l) /\
  0 <= point_line_distance p l /\
  (0 < signed_point_line_distance p l <-> left_of (l_ref l) (vadd (l_ref l) (l_dir l)) p).
Proof.
  intros p l HU. unfold point_line_distance.
  set (sd := signed_point_line_distance p l).
  assert (SQ : qabs sd * qabs sd == sd * sd) by (unfold qabs; qcase; ring).
  set (t0 := dot (vsub p (l_ref l)) (l_dir l)).
  assert (X : forall t, dist2 p (vadd (l_ref l) (vscale t (l_dir l))) == sd * sd + (t - t0) * (t - t0)).
  { intro t.
    assert (E : dist2 p (vadd (l_ref l) (vscale t (l_dir l))) ==
       (dot (vsub p (l_ref l)) (vsub p (l_ref l))) - 2 * t * t0 + t * t * dot (l_dir l) (l_dir l))
      by (unfold t0, dist2, dot, vsub, vadd, vscale; simpl; ring).
    assert (F : sd * sd + t0 * t0 == dot (vsub p (l_ref l)) (vsub p (l_ref l)) * dot (l_dir l) (l_dir l))
      by (unfold sd, t0, signed_point_line_distance, l_normal, dot, left_normal, vsub; simpl; ring).
    rewrite HU in E, F. rewrite E. lra. }
  split; [split|split].
  - exists (vadd (l_ref l) (vscale t0 (l_dir l))). split; [exists t0; apply pteq_refl|]. rewrite X, SQ; ring.
  - intros q (t & Et). rewrite (dist2_compat p q p _ (pteq_refl p) Et), X, SQ. pose proof (sq_nonneg (t - t0)). lra.
  - destruct (qabs_spec sd); assumption.
  - assert (ND : nonzero (vsub (vadd (l_ref l) (l_dir l)) (l_ref l))).
    { intros [G1 G2]. unfold vsub, vadd in G1, G2; simpl in G1, G2.
      assert (Z : dot (l_dir l) (l_dir l) == 0).
      { assert (Z1 : px (l_dir l) == 0) by lra. assert (Z2 : py (l_dir l) == 0) by lra. unfold dot; rewrite Z1, Z2; ring. } lra. }
    destruct (orientation_sides _ _ p ND) as (S1 & _ & _). destruct (orientation_direct (l_ref l) (vadd (l_ref l) (l_dir l)) p) as (O1 & _ & _).
    rewrite <- S1, O1.
    assert (E : cross (vsub (vadd (l_ref l) (l_dir l)) (l_ref l)) (vsub p (l_ref l)) == sd).
    { unfold sd, signed_point_line_distance, l_normal, cross, dot, left_normal, vsub, vadd; simpl; ring. }
    rewrite E; reflexivity.
Qed.

Lemma obb_frame : forall b X, ok_obb b ->
  X =p= vadd (o_center b) (vadd (vscale (dot (vsub X (o_center b)) (o_u b)) (o_u b)) (vscale (dot (vsub X (o_center b)) (o_v b)) (o_v b))).
Proof.
  intros b X (U & V & O & _ & _). destruct b as [[cx cy] [ux uy] [vx vy] hu hv]; destruct X as [x y].
  unfold dot, vsub, vadd, vscale, pteq in *; simpl in *.
  (* |u|=|v|=1, u.v=0 in the plane: v = +-(-uy, ux); so ux^2+vx^2 = 1, ux uy + vx vy = 0, uy^2+vy^2=1 *)
  assert (K : (ux * vy - uy * vx) * (ux * vy - uy * vx) == 1).
  { assert (E : (ux * vy - uy * vx) * (ux * vy - uy * vx) == (ux * ux + uy * uy) * (vx * vx + vy * vy) - (ux * vx + uy * vy) * (ux * vx + uy * vy)) by ring.
    rewrite U, V, O in E. rewrite E; ring. }
  set (D := ux * vy - uy * vx) in *.
  assert (V1 : vx == - D * uy).
  { assert (E : - D * uy == vx * (ux * ux + uy * uy) - ux * (ux * vx + uy * vy)) by (unfold D; ring). rewrite U, O in E. rewrite E; ring. }
  assert (V2 : vy == D * ux).
  { assert (E : D * ux == vy * (ux * ux + uy * uy) - uy * (ux * vx + uy * vy)) by (unfold D; ring). rewrite U, O in E. rewrite E; ring. }
  clearbody D.
  set (a := x - cx). set (c := y - cy).
  assert (Ex : x == cx + a) by (unfold a; ring). assert (Ey : y == cy + c) by (unfold c; ring).
  clearbody a c.
  split.
  - rewrite Ex, V1, V2.
    assert (E : cx + ((a * ux + c * uy) * ux + (a * (- D * uy) + c * (D * ux)) * (- D * uy)) ==
       cx + a * (ux * ux + uy * uy) + (D * D - 1) * (a * uy * uy - c * ux * uy)) by ring.
    rewrite E, K, U. ring.
  - rewrite Ey, V1, V2.
    assert (E : cy + ((a * ux + c * uy) * uy + (a * (- D * uy) + c * (D * ux)) * (D * ux)) ==
       cy + c * (ux * ux + uy * uy) + (D * D - 1) * (c * ux * ux - a * ux * uy)) by ring.
    rewrite E, K, U. ring.
Qed.

Lemma obb_dist : forall b p s t, ok_obb b ->
  let v := vsub p (o_center b) in
  dist2 p (vadd (o_center b) (vadd (vscale s (o_u b)) (vscale t (o_v b)))) ==
  (dot v (o_u b) - s) * (dot v (o_u b) - s) + (dot v (o_v b) - t) * (dot v (o_v b) - t).
Proof.
  intros b p s t OK v. pose proof (obb_frame b p OK) as F. destruct OK as (U & V & O & _ & _).
  fold v in F. set (x := dot v (o_u b)) in *. set (y := dot v (o_v b)) in *.
  rewrite (dist2_compat p _ _ _ F (pteq_refl _)). clearbody x y. clear F v p.
  assert (E : dist2 (vadd (o_center b) (vadd (vscale x (o_u b)) (vscale y (o_v b)))) (vadd (o_center b) (vadd (vscale s (o_u b)) (vscale t (o_v b))))
    == (x - s) * (x - s) * dot (o_u b) (o_u b) + (y - t) * (y - t) * dot (o_v b) (o_v b) + 2 * (x - s) * (y - t) * dot (o_u b) (o_v b))
    by (unfold dist2, dot, vsub, vadd, vscale; simpl; ring).
  rewrite E, U, V, O. ring.
Qed.

Lemma obb_clamp_ok : forall d h, 0 <= h -> - h <= obb_clamp d h <= h /\
  obb_excess d h * obb_excess d h == (d - obb_clamp d h) * (d - obb_clamp d h) /\
  forall s, - h <= s <= h -> (d - obb_clamp d h) * (d - obb_clamp d h) <= (d - s) * (d - s).
Proof.
  intros d h Hh; unfold obb_clamp, obb_excess.
  destruct (Qgtb_spec d h) as [G|G].
  - destruct (Qltb_spec h (- h)) as [G'|G']; [exfalso; lra|]. destruct (Qltb_spec d (- h)); [exfalso; lra|].
    split; [lra|]. split; [ring|]. intros s Hs. nra.
  - destruct (Qltb_spec d (- h)) as [G'|G'].
    + split; [lra|]. split; [ring|]. intros s Hs. nra.
    + split; [lra|]. split; [ring|]. intros s Hs. pose proof (sq_nonneg (d - s)). assert (E : (d - d) * (d - d) == 0) by ring. rewrite E; assumption.
Qed.

Lemma point_obb_ok : forall p b, ok_obb b ->
  least_dist2 p (in_obb b) (point_obb_distance_sqrd p b) /\
  in_obb b (point_obb_closest_point p b) /\ dist2 p (point_obb_closest_point p b) == point_obb_distance_sqrd p b.
Proof.
  intros p b OK. pose proof OK as (U & V & O & HU & HV).
  set (v := vsub p (o_center b)).
  destruct (obb_clamp_ok (dot v (o_u b)) (o_hu b) HU) as (A1 & A2 & A3).
  destruct (obb_clamp_ok (dot v (o_v b)) (o_hv b) HV) as (B1 & B2 & B3).
  assert (C : point_obb_closest_point p b =p= vadd (o_center b) (vadd (vscale (obb_clamp (dot v (o_u b)) (o_hu b)) (o_u b)) (vscale (obb_clamp (dot v (o_v b)) (o_hv b)) (o_v b)))).
  { unfold point_obb_closest_point, pteq, vadd, vscale; simpl. fold v. split; ring. }
  assert (IN : in_obb b (point_obb_closest_point p b)).
  { eexists; eexists; split; [exact A1|]. split; [exact B1|]. exact C. }
  assert (D : dist2 p (point_obb_closest_point p b) == point_obb_distance_sqrd p b).
  { rewrite (dist2_compat p _ p _ (pteq_refl p) C), (obb_dist b p _ _ OK). unfold point_obb_distance_sqrd. fold v. lra. }
  split; [|split; assumption]. split; [eexists; split; [exact IN|exact D]|].
  intros q (s & t & Hs & Ht & E). rewrite (dist2_compat p q p _ (pteq_refl p) E), (obb_dist b p _ _ OK).
  specialize (A3 s Hs). specialize (B3 t Ht). unfold point_obb_distance_sqrd. fold v. fold v in A3, B3. lra.
Qed.
