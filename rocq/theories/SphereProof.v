(** Proofs about balls and moving balls. *)
From Coq Require Import Reals Lra Psatz.
From Verif Require Import RBase SphereModel SphereSpec.

(** ** Vectors *)

Lemma rsub_along : forall p d c t, length p = length d -> length p = length c ->
  rsub (along p d t) c = radd (rsub p c) (rscale t d).
Proof.
  unfold along. induction p as [|x p IH]; intros [|y d] [|z c] t H1 H2; simpl in *; try discriminate; auto.
  rewrite <- IH by lia. simpl. f_equal. unfold rscale; simpl. ring.
Qed.
Lemma dot_radd_scale : forall m d t, length m = length d ->
  rdot (radd m (rscale t d)) (radd m (rscale t d)) = rdot d d * t * t + 2 * rdot m d * t + rdot m m.
Proof.
  intros m d t H.
  assert (Hs : length (rscale t d) = length m) by (rewrite rscale_length; congruence).
  rewrite rdot_radd_l by (rewrite ?radd_length; congruence).
  rewrite rdot_radd_r by congruence. rewrite rdot_radd_r by congruence.
  rewrite !rdot_rscale_l, !rdot_rscale_r, (rdot_comm d m). ring.
Qed.
Lemma rdist2_along : forall p d c t, length p = length d -> length p = length c ->
  rdist2 (along p d t) c = rdot d d * t * t + 2 * rdot (rsub p c) d * t + rdist2 p c.
Proof.
  intros p d c t H1 H2. unfold rdist2. rewrite rsub_along by assumption.
  apply dot_radd_scale. rewrite rsub_length by congruence. congruence.
Qed.
Lemma rdist2_nonneg : forall a b, 0 <= rdist2 a b.
Proof. intros; apply rdot_self_nonneg. Qed.
Lemma rdot_self_zero : forall a b, length a = length b -> rdot a a = 0 -> rdot a b = 0.
Proof.
  induction a as [|x a IH]; intros [|y b] L H; simpl in *; try discriminate; auto.
  pose proof (rdot_self_nonneg a). pose proof (Rle_0_sqr x) as Hx; unfold Rsqr in Hx.
  assert (x * x = 0) by lra. assert (x = 0) by nra. rewrite IH; [subst; ring|lia|lra].
Qed.
Lemma cauchy_schwarz : forall a b, length a = length b -> rdot a b * rdot a b <= rdot a a * rdot b b.
Proof.
  intros a b L. pose proof (rdot_self_nonneg b) as Hb. pose proof (rdot_self_nonneg a) as Ha.
  destruct (Req_dec (rdot a a) 0) as [Z|NZ].
  - rewrite (rdot_self_zero a b L Z). nra.
  - assert (H : 0 <= rdot (radd b (rscale (- (rdot a b / rdot a a)) a)) (radd b (rscale (- (rdot a b / rdot a a)) a)))
      by apply rdot_self_nonneg.
    rewrite dot_radd_scale in H by congruence. rewrite (rdot_comm b a) in H.
    assert (E : rdot a a * - (rdot a b / rdot a a) * - (rdot a b / rdot a a) + 2 * rdot a b * - (rdot a b / rdot a a) + rdot b b
       = rdot b b - rdot a b * rdot a b / rdot a a) by (field; exact NZ).
    rewrite E in H. assert (0 < rdot a a) by lra.
    assert (rdot a b * rdot a b / rdot a a * rdot a a <= rdot b b * rdot a a) by (apply Rmult_le_compat_r; lra).
    replace (rdot a b * rdot a b / rdot a a * rdot a a) with (rdot a b * rdot a b) in H1 by (field; exact NZ). lra.
Qed.
Lemma sqrt_sq_le : forall x y, 0 <= x -> 0 <= y -> x * x <= y * y -> x <= y.
Proof. intros x y Hx Hy H. destruct (Rle_or_lt x y); [assumption|nra]. Qed.

(** ** The quadratic a t^2 + 2 b t + c *)

Definition quadr (a b c t : R) : R := a * t * t + 2 * b * t + c.
Lemma quad_shift : forall a b c t, a * quadr a b c t = (a * t + b) * (a * t + b) - (b * b - a * c).
Proof. intros; unfold quadr; ring. Qed.
Lemma quad_none_discr : forall a b c t, 0 < a -> b * b - a * c < 0 -> 0 < quadr a b c t.
Proof.
  intros a b c t Ha H. pose proof (quad_shift a b c t) as E. pose proof (Rle_0_sqr (a * t + b)) as S; unfold Rsqr in S.
  assert (0 < a * quadr a b c t) by lra. destruct (Rle_or_lt (quadr a b c t) 0); [nra|assumption].
Qed.
Lemma quad_none_away : forall a b c t, 0 < a -> 0 < c -> 0 <= b -> 0 <= t -> 0 < quadr a b c t.
Proof. intros a b c t Ha Hc Hb Ht; unfold quadr. assert (0 <= a * t * t) by nra. assert (0 <= b * t) by nra. lra. Qed.
Lemma quad_root : forall a b c s, 0 < a -> s * s = b * b - a * c -> quadr a b c ((- b - s) / a) = 0.
Proof.
  intros a b c s Ha H. apply Rmult_eq_reg_l with a; [|lra]. rewrite quad_shift, Rmult_0_r.
  replace (a * ((- b - s) / a) + b) with (- s) by (field; lra). lra.
Qed.
Lemma quad_below : forall a b c s t, 0 < a -> 0 <= s -> s * s = b * b - a * c -> quadr a b c t <= 0 -> (- b - s) / a <= t <= (- b + s) / a.
Proof.
  intros a b c s t Ha Hs H Q. pose proof (quad_shift a b c t) as E.
  assert (H1 : (a * t + b) * (a * t + b) <= s * s) by nra.
  assert (- s <= a * t + b <= s) by (split; nra).
  split; apply Rmult_le_reg_l with a; try lra.
  - replace (a * ((- b - s) / a)) with (- b - s) by (field; lra). lra.
  - replace (a * ((- b + s) / a)) with (- b + s) by (field; lra). lra.
Qed.
(** The clamped smaller root is the first non-negative time at which the quadratic is
    not positive. *)
Lemma quad_first : forall a b c s, 0 < a -> 0 <= s -> s * s = b * b - a * c -> ~ (0 < c /\ 0 < b) ->
  let t := (- b - s) / a in
  first_time (fun t => quadr a b c t <= 0) (if Rltb t 0 then 0 else t).
Proof.
  intros a b c s Ha Hs H NA t. unfold first_time.
  destruct (Rltb_spec t 0) as [L|L].
  - split; [lra|]. split; [|intros; lra].
    unfold quadr. replace (a * 0 * 0 + 2 * b * 0 + c) with c by ring.
    destruct (Rle_or_lt c 0) as [C|C]; [exact C|exfalso].
    assert (B : b <= 0) by (destruct (Rle_or_lt b 0); [assumption|exfalso; apply NA; split; assumption]).
    assert (- b - s < 0).
    { apply Rmult_lt_reg_l with (/ a); [apply Rinv_0_lt_compat; lra|]. rewrite Rmult_0_r.
      replace (/ a * (- b - s)) with t by (unfold t; field; lra). exact L. }
    assert (s * s < b * b) by nra. nra.
  - split; [lra|]. split.
    + unfold t. rewrite quad_root by assumption. lra.
    + intros t' Ht' Q. apply (quad_below a b c s t' Ha Hs H Q).
Qed.

(** ** Ray against ball *)

Lemma ball_quad : forall p d s t, length p = length d -> length p = length (b_center s) ->
  (in_rball s (along p d t) <->
   quadr (rdot d d) (rdot (rsub p (b_center s)) d) (rdist2 p (b_center s) - b_radius s * b_radius s) t <= 0).
Proof.
  intros p d s t H1 H2. unfold in_rball, quadr. rewrite rdist2_along by assumption. split; intro; lra.
Qed.

Lemma ray_sphere_ok : forall p d s, length p = length d -> length p = length (b_center s) -> rdot d d = 1 ->
  match ray_sphere_intersection rdirect p d s with
  | Hit (t, q) => first_time (fun t => in_rball s (along p d t)) t /\ q = along p d t
  | Miss => forall t, 0 <= t -> ~ in_rball s (along p d t)
  | NotANumber => False
  end.
Proof.
  intros p d s L1 L2 U. unfold ray_sphere_intersection; simpl. fold (rdist2 p (b_center s)).
  pose proof (ball_quad p d s) as BQ. rewrite U in BQ.
  set (b := rdot (rsub p (b_center s)) d) in *. set (c := rdist2 p (b_center s) - b_radius s * b_radius s) in *.
  destruct (Rltb_spec 0 c) as [C|C]; destruct (Rltb_spec 0 b) as [B|B]; simpl.
  { intros t Ht I. apply BQ in I; auto. pose proof (quad_none_away 1 b c t). lra. }
  all: destruct (Rltb_spec (b * b - c) 0) as [D|D];
    [intros t Ht I; apply BQ in I; auto; pose proof (quad_none_discr 1 b c t); lra|].
  all: unfold rsqrt_opt; destruct (Rltb_spec (b * b - c) 0) as [D'|_]; [lra|].
  all: split; [|reflexivity].
  all: assert (Q : first_time (fun t => quadr 1 b c t <= 0) (if Rltb (- b - sqrt (b * b - c)) 0 then 0 else - b - sqrt (b * b - c)))
    by (replace (- b - sqrt (b * b - c)) with ((- b - sqrt (b * b - c)) / 1) by field;
        apply quad_first; [lra|apply sqrt_pos|rewrite sqrt_def by lra; ring|intros [? ?]; lra]).
  all: destruct Q as (Q1 & Q2 & Q3); split; [exact Q1|split; [apply BQ; auto|]].
  all: intros t' Ht' I; apply Q3; [exact Ht'|apply BQ; auto].
Qed.

(** ** Segment against ball *)

Lemma rscale_scale : forall k l a, rscale k (rscale l a) = rscale (k * l) a.
Proof. intros; unfold rscale; rewrite map_map. apply map_ext; intro; ring. Qed.
Lemma unit_dir : forall d len, 0 < len -> len * len = rdot d d -> rdot (rscale (/ len) d) (rscale (/ len) d) = 1.
Proof. intros d len H E. rewrite rdot_rscale_l, rdot_rscale_r, <- E. field; lra. Qed.

Lemma segment_sphere_first_ok : forall sa d len s, length sa = length d -> length sa = length (b_center s) ->
  0 <= len -> len * len = rdot d d ->
  match segment_sphere_first rdirect sa d len s with
  | Hit (t, q) => first_time (fun t => t <= 1 /\ in_rball s (along sa d t)) t /\
                  q = (if Reqb len 0 then None else Some (along sa d t))
  | Miss => forall t, 0 <= t <= 1 -> ~ in_rball s (along sa d t)
  | NotANumber => False
  end.
Proof.
  intros sa d len s L1 L2 Hl El. unfold segment_sphere_first; simpl. fold (rdist2 sa (b_center s)).
  destruct (Reqb_spec len 0) as [Z|NZ].
  - assert (Q : forall t, in_rball s (along sa d t) <-> rdist2 sa (b_center s) - b_radius s * b_radius s <= 0).
    { intro t. rewrite ball_quad by assumption. unfold quadr. rewrite <- El, Z.
      assert (R0 : rdot (rsub sa (b_center s)) d = 0).
      { rewrite rdot_comm. apply rdot_self_zero; [rewrite rsub_length; congruence|]. rewrite <- El, Z; ring. }
      rewrite R0. split; intro; lra. }
    destruct (Rleb_spec (rdist2 sa (b_center s) - b_radius s * b_radius s) 0) as [C|C]; simpl.
    + split; [|reflexivity]. split; [lra|]. split; [split; [lra|apply Q; exact C]|intros; lra].
    + intros t _ I. apply Q in I. contradiction.
  - assert (Hp : 0 < len) by lra. set (u := rscale (/ len) d).
    assert (Lu : length sa = length u) by (unfold u; rewrite rscale_length; exact L1).
    pose proof (ray_sphere_ok sa u s Lu L2 (unit_dir d len Hp El)) as RS.
    unfold ray_sphere_intersection in RS; simpl in RS. fold (rdist2 sa (b_center s)) in RS. fold u.
    set (b := rdot (rsub sa (b_center s)) u) in *. set (c := rdist2 sa (b_center s) - b_radius s * b_radius s) in *.
    assert (AL : forall t, along sa u t = along sa d (t / len)).
    { intro t. unfold along, u. rewrite rscale_scale. reflexivity. }
    assert (AL' : forall t, along sa d t = along sa u (t * len)).
    { intro t. rewrite AL. f_equal. field; lra. }
    destruct (Rltb 0 c && Rltb 0 b).
    { intros t Ht. rewrite AL'. apply RS. nra. }
    destruct (Rltb (b * b - c) 0).
    { intros t Ht. rewrite AL'. apply RS. nra. }
    destruct (rsqrt_opt (b * b - c)) as [q|]; [|exact RS].
    destruct RS as [(R1 & R2 & R3) _].
    set (t0 := - b - q) in *.
    destruct (Rltb_spec len t0) as [G|G].
    + intros t Ht. rewrite AL'. intro I. assert (K : 0 <= t * len) by nra. specialize (R3 _ K I).
      destruct (Rltb_spec t0 0) as [N|N]; nra.
    + set (t1 := if Rltb t0 0 then 0 else t0) in *.
      assert (T1 : 0 <= t1 <= len) by (unfold t1; destruct (Rltb_spec t0 0); lra).
      assert (D1 : 0 <= t1 / len).
      { unfold Rdiv; apply Rmult_le_pos; [lra|]. left; apply Rinv_0_lt_compat; exact Hp. }
      split; [|f_equal; apply AL]. split; [exact D1|]. split.
      * split; [|rewrite <- AL; exact R2]. apply Rmult_le_reg_r with len; [exact Hp|].
        replace (t1 / len * len) with t1 by (field; lra). lra.
      * intros t' Ht' [_ I]. rewrite AL' in I. assert (K : 0 <= t' * len) by nra. specialize (R3 _ K I).
        apply Rmult_le_reg_r with len; [exact Hp|]. replace (t1 / len * len) with t1 by (field; lra). exact R3.
Qed.

Lemma segment_sphere_two_ok : forall p0 p1 s, length p0 = length p1 -> length p0 = length (b_center s) ->
  let d := rsub p1 p0 in
  (rdot d d = 0 -> segment_sphere_two p0 p1 s = NotANumber) /\
  (rdot d d <> 0 ->
   match segment_sphere_two p0 p1 s with
   | Hit h => (forall t, on_rsphere s (along p0 d t) <-> t = th_t0 h \/ t = th_t1 h) /\ th_t0 h <= th_t1 h /\
              (th_in0 h = true <-> 0 <= th_t0 h <= 1) /\ (th_in1 h = true <-> 0 <= th_t1 h <= 1) /\
              th_q0 h = along p0 d (th_t0 h) /\ th_q1 h = along p0 d (th_t1 h)
   | Miss => forall t, ~ on_rsphere s (along p0 d t)
   | NotANumber => False
   end).
Proof.
  intros p0 p1 s L1 L2 d. unfold segment_sphere_two. fold d. fold (rdist2 p0 (b_center s)).
  assert (Ld : length d = length p0) by (unfold d; rewrite rsub_length; congruence).
  set (a := rdot d d). set (b := rdot (rsub p0 (b_center s)) d). set (c := rdist2 p0 (b_center s) - b_radius s * b_radius s).
  split.
  - intro Z. assert (Zb : b = 0).
    { unfold b. rewrite rdot_comm. apply rdot_self_zero; [rewrite rsub_length; congruence|exact Z]. }
    rewrite Z, Zb. destruct (Rltb_spec (2 * 0 * (2 * 0) - 4 * 0 * c) 0) as [H|H]; [lra|].
    destruct (Reqb_spec (2 * 0) 0) as [_|N]; [reflexivity|lra].
  - intro NZ. assert (Ha : 0 < a) by (pose proof (rdot_self_nonneg d); unfold a in *; lra).
    assert (BQ : forall t, on_rsphere s (along p0 d t) <-> quadr a b c t = 0).
    { intro t. unfold on_rsphere, quadr. rewrite rdist2_along by congruence. fold a b. unfold c. split; intro; lra. }
    destruct (Rltb_spec (2 * b * (2 * b) - 4 * a * c) 0) as [H|H].
    + intros t I. apply BQ in I. pose proof (quad_none_discr a b c t Ha). lra.
    + destruct (Reqb_spec (2 * a) 0) as [N|_]; [lra|]. simpl.
      set (q := sqrt (2 * b * (2 * b) - 4 * a * c)).
      assert (Hq : 0 <= q) by apply sqrt_pos.
      assert (Eq : q * q = 2 * b * (2 * b) - 4 * a * c) by (apply sqrt_def; lra).
      assert (I0 : forall t, quadr a b c t = 0 <-> t = (- (2 * b) - q) / (2 * a) \/ t = (- (2 * b) + q) / (2 * a)).
      { intro t. assert (E : 4 * a * quadr a b c t = (2 * a * t + 2 * b - q) * (2 * a * t + 2 * b + q)) by (unfold quadr; nra).
        split.
        - intro Z. rewrite Z, Rmult_0_r in E. symmetry in E. apply Rmult_integral in E as [E|E]; [right|left];
          apply Rmult_eq_reg_l with (2 * a); try lra; field_simplify; lra.
        - intros [->| ->].
          + assert (4 * a * quadr a b c ((- (2 * b) - q) / (2 * a)) = 0).
            { rewrite E. replace (2 * a * ((- (2 * b) - q) / (2 * a))) with (- (2 * b) - q) by (field; lra). ring. }
            apply Rmult_integral in H0 as [H0|H0]; lra.
          + assert (4 * a * quadr a b c ((- (2 * b) + q) / (2 * a)) = 0).
            { rewrite E. replace (2 * a * ((- (2 * b) + q) / (2 * a))) with (- (2 * b) + q) by (field; lra). ring. }
            apply Rmult_integral in H0 as [H0|H0]; lra. }
      assert (BB : forall t, (Rleb 0 t && Rleb t 1 = true <-> 0 <= t <= 1)).
      { intro t. destruct (Rleb_spec 0 t); destruct (Rleb_spec t 1); simpl; split; intro; try discriminate; try lra; auto. }
      split; [intro t; rewrite BQ; apply I0|]. split.
      { unfold Rdiv; apply Rmult_le_compat_r; [left; apply Rinv_0_lt_compat; lra|lra]. }
      split; [apply BB|]. split; [apply BB|]. split; reflexivity.
Qed.

(** ** Two circles *)

Lemma list2 : forall v : rvec, length v = 2%nat -> exists x y, v = [x; y].
Proof. intros [|x [|y [|]]] H; try discriminate H. exists x, y; reflexivity. Qed.

Lemma triangle_sq : forall a b ra rb, length a = length b -> 0 <= ra -> 0 <= rb ->
  rdot a a <= ra * ra -> rdot b b <= rb * rb -> rdot (rsub a b) (rsub a b) <= (ra + rb) * (ra + rb).
Proof.
  intros a b ra rb L Ha Hb H1 H2.
  rewrite rdot_rsub_l by (rewrite ?rsub_length; congruence).
  rewrite !rdot_rsub_r by congruence. rewrite (rdot_comm b a).
  pose proof (cauchy_schwarz a b L) as CS. pose proof (rdot_self_nonneg a). pose proof (rdot_self_nonneg b).
  assert (- (ra * rb) <= rdot a b).
  { destruct (Rle_or_lt (- (ra * rb)) (rdot a b)) as [K|K]; [exact K|exfalso].
    assert (rdot a b * rdot a b <= (ra * rb) * (ra * rb)).
    { apply Rle_trans with (rdot a a * rdot b b); [exact CS|].
      replace (ra * rb * (ra * rb)) with ((ra * ra) * (rb * rb)) by ring.
      apply Rmult_le_compat; lra. }
    assert (0 <= ra * rb) by nra. nra. }
  nra.
Qed.

Lemma sum_sq_zero : forall x y, x * x + y * y = 0 -> x = 0 /\ y = 0.
Proof. intros x y H. split; nra. Qed.
Lemma sqrt_def' : forall x, 0 <= x -> sqrt x * sqrt x = x.
Proof. intros; apply sqrt_def; assumption. Qed.

Lemma circle_common : forall ax ay vx vy ra rb d h x y, 0 < d -> d * d = vx * vx + vy * vy ->
  let a := (ra * ra - rb * rb + d * d) / (2 * d) in
  h * h = ra * ra - a * a ->
  ((x - ax) * (x - ax) + (y - ay) * (y - ay) = ra * ra /\
   (x - (ax + vx)) * (x - (ax + vx)) + (y - (ay + vy)) * (y - (ay + vy)) = rb * rb <->
   (x = ax + a / d * vx + h / d * vy /\ y = ay + a / d * vy - h / d * vx) \/
   (x = ax + a / d * vx - h / d * vy /\ y = ay + a / d * vy + h / d * vx)).
Proof.
  intros ax ay vx vy ra rb d h x y Hd Ed a Eh.
  assert (Ea : 2 * d * a = ra * ra - rb * rb + d * d) by (unfold a; field; lra).
  assert (Hd2 : 0 < d * d) by nra.
  assert (N : d * d <> 0) by lra.
  clearbody a.
  set (ux := x - ax). set (uy := y - ay).
  assert (X1 : x = ax + ux) by (unfold ux; ring). assert (Y1 : y = ay + uy) by (unfold uy; ring).
  assert (SX : d * d * ux = (ux * vx + uy * vy) * vx + (ux * vy - uy * vx) * vy) by (rewrite Ed; ring).
  assert (SY : d * d * uy = (ux * vx + uy * vy) * vy - (ux * vy - uy * vx) * vx) by (rewrite Ed; ring).
  split.
  - intros [E1 E2]. replace (x - (ax + vx)) with (ux - vx) in E2 by (unfold ux; ring).
    replace (y - (ay + vy)) with (uy - vy) in E2 by (unfold uy; ring).
    assert (P : ux * vx + uy * vy = a * d) by nra.
    assert (C : (ux * vy - uy * vx) * (ux * vy - uy * vx) = (d * h) * (d * h)).
    { assert (L : (ux * vx + uy * vy) * (ux * vx + uy * vy) + (ux * vy - uy * vx) * (ux * vy - uy * vx)
                  = (ux * ux + uy * uy) * (vx * vx + vy * vy)) by ring.
      rewrite P, E1, <- Ed in L.
      replace (d * h * (d * h)) with (d * d * (h * h)) by ring. rewrite Eh. lra. }
    assert (C' : (ux * vy - uy * vx - d * h) * (ux * vy - uy * vx + d * h) = 0) by lra.
    rewrite P in SX, SY.
    apply Rmult_integral in C' as [C'|C'].
    + left. assert (K : ux * vy - uy * vx = d * h) by lra. rewrite K in SX, SY.
      split; [rewrite X1|rewrite Y1]; apply Rmult_eq_reg_l with (d * d); try exact N; field_simplify; lra.
    + right. assert (K : ux * vy - uy * vx = - (d * h)) by lra. rewrite K in SX, SY.
      split; [rewrite X1|rewrite Y1]; apply Rmult_eq_reg_l with (d * d); try exact N; field_simplify; lra.
  - assert (KEY : forall k, k * k = h * h -> ux = a / d * vx + k / d * vy -> uy = a / d * vy - k / d * vx ->
      ux * ux + uy * uy = ra * ra /\ (ux - vx) * (ux - vx) + (uy - vy) * (uy - vy) = rb * rb).
    { intros k Ek EX EY.
      assert (U2 : ux * ux + uy * uy = ra * ra).
      { rewrite EX, EY.
        replace ((a / d * vx + k / d * vy) * (a / d * vx + k / d * vy) + (a / d * vy - k / d * vx) * (a / d * vy - k / d * vx))
          with ((a * a + k * k) * (vx * vx + vy * vy) / (d * d)) by (field; lra).
        rewrite <- Ed, Ek, Eh. field; lra. }
      assert (UV : ux * vx + uy * vy = a * d).
      { rewrite EX, EY. replace ((a / d * vx + k / d * vy) * vx + (a / d * vy - k / d * vx) * vy) with (a * (vx * vx + vy * vy) / d) by (field; lra).
        rewrite <- Ed. field; lra. }
      split; [exact U2|].
      replace ((ux - vx) * (ux - vx) + (uy - vy) * (uy - vy)) with (ux * ux + uy * uy - 2 * (ux * vx + uy * vy) + (vx * vx + vy * vy)) by ring.
      rewrite U2, UV, <- Ed. lra. }
    replace (x - (ax + vx)) with (ux - vx) by (unfold ux; ring).
    replace (y - (ay + vy)) with (uy - vy) by (unfold uy; ring).
    intros [[E1 E2]|[E1 E2]].
    + apply (KEY h); [reflexivity| |]; unfold ux, uy; lra.
    + apply (KEY (- h)); [ring| |]; unfold ux, uy; rewrite ?E1, ?E2; field; lra.
Qed.

(** The two circles and what the query reports about them. *)
Lemma circle_circle_ok : forall A B, length (b_center A) = 2%nat -> length (b_center B) = 2%nat ->
  0 < b_radius A -> 0 < b_radius B ->
  match circle_circle_intersection rdirect A B with
  | circles_disjoint => forall X, length X = 2%nat -> ~ (in_rball A X /\ in_rball B X)
  | circles_circumscribed => (forall X, length X = 2%nat -> in_rball A X -> in_rball B X /\ ~ on_rsphere B X) \/
                             (forall X, length X = 2%nat -> in_rball B X -> in_rball A X /\ ~ on_rsphere A X)
  | circles_coincident => A = B
  | circles_one p => forall X, length X = 2%nat -> (on_rsphere A X /\ on_rsphere B X <-> X = p)
  | circles_two p q => p <> q /\ forall X, length X = 2%nat -> (on_rsphere A X /\ on_rsphere B X <-> X = p \/ X = q)
  | circles_nan => False
  end.
Proof.
  intros [ca ra] [cb rb] LA LB HA HB; simpl in *.
  destruct (list2 _ LA) as (ax & ay & ->). destruct (list2 _ LB) as (bx & b_y & ->). clear LA LB.
  unfold circle_circle_intersection; simpl. unfold rnorm. simpl.
  set (v2 := (bx - ax) * (bx - ax) + ((b_y - ay) * (b_y - ay) + 0)).
  assert (V2 : v2 = (bx - ax) * (bx - ax) + (b_y - ay) * (b_y - ay)) by (unfold v2; ring).
  assert (V0 : 0 <= v2) by (rewrite V2; pose proof (Rle_0_sqr (bx - ax)) as K1; pose proof (Rle_0_sqr (b_y - ay)) as K2; unfold Rsqr in *; lra).
  set (d := sqrt v2). assert (D0 : 0 <= d) by apply sqrt_pos.
  assert (DD : d * d = v2) by (apply sqrt_def; exact V0).
  assert (TRI : forall x y r1 r2, 0 <= r1 -> 0 <= r2 -> (x - ax) * (x - ax) + (y - ay) * (y - ay) <= r1 * r1 ->
    (x - bx) * (x - bx) + (y - b_y) * (y - b_y) <= r2 * r2 -> d <= r1 + r2).
  { intros x y r1 r2 P1 P2 H1 H2. apply sqrt_sq_le; [exact D0|lra|]. rewrite DD, V2.
    pose proof (triangle_sq [x - ax; y - ay] [x - bx; y - b_y] r1 r2 eq_refl P1 P2) as T. simpl in T.
    assert (G : (bx - ax) * (bx - ax) + (b_y - ay) * (b_y - ay) =
      (x - ax - (x - bx)) * (x - ax - (x - bx)) + ((y - ay - (y - b_y)) * (y - ay - (y - b_y)) + 0)) by ring.
    rewrite G. apply T; lra. }
  clearbody d.
  unfold in_rball, on_rsphere, rdist2; simpl.
  destruct (Rltb_spec (ra + rb) d) as [G|G].
  { intros X LX [I1 I2]. destruct (list2 _ LX) as (x & y & ->). simpl in *.
    pose proof (TRI x y ra rb). lra. }
  destruct (Rltb_spec d (Rabs (ra - rb))) as [S|S].
  { destruct (Rle_or_lt ra rb) as [O|O].
    - left. rewrite Rabs_left1 in S by lra. intros X LX I. destruct (list2 _ LX) as (x & y & ->). simpl in *.
      assert (T : (x - bx) * (x - bx) + (y - b_y) * (y - b_y) <= (ra + d) * (ra + d)).
      { pose proof (triangle_sq [x - ax; y - ay] [bx - ax; b_y - ay] ra d eq_refl) as T. simpl in T.
        replace ((x - bx) * (x - bx) + (y - b_y) * (y - b_y)) with
          ((x - ax - (bx - ax)) * (x - ax - (bx - ax)) + ((y - ay - (b_y - ay)) * (y - ay - (b_y - ay)) + 0)) by ring.
        apply T; lra. }
      assert ((ra + d) * (ra + d) < rb * rb) by (clear - HA D0 S; nra).
      split; lra.
    - right. rewrite Rabs_right in S by lra. intros X LX I. destruct (list2 _ LX) as (x & y & ->). simpl in *.
      assert (T : (x - ax) * (x - ax) + (y - ay) * (y - ay) <= (rb + d) * (rb + d)).
      { pose proof (triangle_sq [x - bx; y - b_y] [ax - bx; ay - b_y] rb d eq_refl) as T. simpl in T.
        replace ((x - ax) * (x - ax) + (y - ay) * (y - ay)) with
          ((x - bx - (ax - bx)) * (x - bx - (ax - bx)) + ((y - b_y - (ay - b_y)) * (y - b_y - (ay - b_y)) + 0)) by ring.
        apply T; lra. }
      assert ((rb + d) * (rb + d) < ra * ra) by (clear - HB D0 S; nra).
      split; lra. }
  destruct (Reqb_spec d 0) as [Z|NZ].
  { rewrite Z in *. assert (ra = rb) by (destruct (Req_dec ra rb); [assumption|exfalso; apply S; apply Rabs_pos_lt; lra]).
    assert (SS : (bx - ax) * (bx - ax) + (b_y - ay) * (b_y - ay) = 0) by lra.
    destruct (sum_sq_zero _ _ SS). f_equal; [f_equal; [lra|f_equal; lra]|assumption]. }
  assert (Hd : 0 < d) by lra.
  assert (RR : - d <= ra - rb <= d).
  { unfold Rabs in S; destruct (Rcase_abs (ra - rb)); lra. }
  set (a := (ra * ra - rb * rb + d * d) / (2 * d)).
  assert (Ea : 2 * d * a = ra * ra - rb * rb + d * d) by (unfold a; field; lra).
  assert (NN : 0 <= ra * ra - a * a).
  { assert (F : 4 * (d * d) * (ra * ra - a * a) = ((rb - ra + d) * (ra + d - rb)) * ((rb + ra - d) * (ra + d + rb))).
    { transitivity (4 * (d * d) * (ra * ra) - (2 * d * a) * (2 * d * a)); [ring|rewrite Ea; ring]. }
    assert (0 <= (rb - ra + d) * (ra + d - rb)) by (apply Rmult_le_pos; lra).
    assert (0 <= (rb + ra - d) * (ra + d + rb)) by (apply Rmult_le_pos; lra).
    assert (0 <= 4 * (d * d) * (ra * ra - a * a)) by (rewrite F; apply Rmult_le_pos; assumption).
    assert (0 < 4 * (d * d)) by nra.
    destruct (Rle_or_lt 0 (ra * ra - a * a)); [assumption|nra]. }
  unfold rsqrt_opt. destruct (Rltb_spec (ra * ra - a * a) 0) as [W|_]; [lra|].
  set (h := sqrt (ra * ra - a * a)). assert (Hh : h * h = ra * ra - a * a) by (apply sqrt_def; exact NN).
  clearbody h.
  assert (COM : forall x y,
    (x - ax) * (x - ax) + ((y - ay) * (y - ay) + 0) = ra * ra /\ (x - bx) * (x - bx) + ((y - b_y) * (y - b_y) + 0) = rb * rb <->
    [x; y] = [ax + a * (1 / d) * (bx - ax) + h * (1 / d) * (b_y - ay); ay + a * (1 / d) * (b_y - ay) + h * (1 / d) * - (bx - ax)] \/
    [x; y] = [ax + a * (1 / d) * (bx - ax) + h * (1 / d) * - (b_y - ay); ay + a * (1 / d) * (b_y - ay) + h * (1 / d) * (bx - ax)]).
  { intros x y. pose proof (circle_common ax ay (bx - ax) (b_y - ay) ra rb d h x y Hd ltac:(lra)) as CC.
    cbv zeta in CC. fold a in CC. specialize (CC Hh).
    replace (ax + (bx - ax)) with bx in CC by ring. replace (ay + (b_y - ay)) with b_y in CC by ring.
    rewrite !Rplus_0_r. rewrite CC. unfold Rdiv. split; (intros [H|H]; [left|right]).
    - destruct H as [-> ->]; f_equal; [ring|f_equal; ring].
    - destruct H as [-> ->]; f_equal; [ring|f_equal; ring].
    - injection H as E1 E2. rewrite E1, E2. split; ring.
    - injection H as E1 E2. rewrite E1, E2. split; ring. }
  destruct (Reqb_spec h 0) as [Z|NZh].
  - intros X LX. destruct (list2 _ LX) as (x & y & ->). simpl. rewrite COM. rewrite Z. split.
    + intros [E|E]; [exact E|rewrite E; f_equal; [ring|f_equal; ring]].
    + intro E; left; exact E.
  - split.
    + intro E. assert (E1 : ax + a * (1 / d) * (bx - ax) + h * (1 / d) * (b_y - ay) = ax + a * (1 / d) * (bx - ax) + h * (1 / d) * - (b_y - ay)) by congruence.
      assert (E2 : ay + a * (1 / d) * (b_y - ay) + h * (1 / d) * - (bx - ax) = ay + a * (1 / d) * (b_y - ay) + h * (1 / d) * (bx - ax)) by congruence.
      assert (F : h * (1 / d) <> 0) by (apply Rmult_integral_contrapositive; split; [exact NZh|unfold Rdiv; rewrite Rmult_1_l; apply Rinv_neq_0_compat; exact NZ]).
      assert (h * (1 / d) * (b_y - ay) = 0) by lra. assert (h * (1 / d) * (bx - ax) = 0) by lra.
      apply Rmult_integral in H as [H|H]; [contradiction|]. apply Rmult_integral in H0 as [H0|H0]; [contradiction|].
      rewrite H, H0 in V2. apply NZ. nra.
    + intros X LX. destruct (list2 _ LX) as (x & y & ->). simpl. apply COM.
Qed.

(** ** Two moving balls *)

Lemma rsub_along2 : forall p1 p0 v1 v0 t, length p1 = length p0 -> length v1 = length p1 -> length v0 = length p0 ->
  rsub (along p1 v1 t) (along p0 v0 t) = along (rsub p1 p0) (rsub v1 v0) t.
Proof.
  unfold along. induction p1 as [|x p1 IH]; intros [|y p0] [|z v1] [|w v0] t H1 H2 H3; simpl in *; try discriminate; auto.
  rewrite <- IH by lia. f_equal. ring.
Qed.
Lemma moved_meet_quad : forall s0 s1 v0 v1 t,
  length (b_center s1) = length (b_center s0) -> length v1 = length (b_center s1) -> length v0 = length (b_center s0) ->
  let s := rsub (b_center s1) (b_center s0) in let v := rsub v1 v0 in
  rdist2 (b_center (moved s1 v1 t)) (b_center (moved s0 v0 t)) =
  quadr (rdot v v) (rdot v s) (rdot s s) t.
Proof.
  intros s0 s1 v0 v1 t L1 L2 L3 s v. unfold rdist2; simpl. rewrite rsub_along2 by assumption. fold s v.
  unfold along. rewrite dot_radd_scale.
  - unfold quadr. rewrite (rdot_comm s v). reflexivity.
  - unfold s, v. rewrite !rsub_length by congruence. congruence.
Qed.
Lemma rnorm_nonneg : forall a, 0 <= rnorm a.
Proof. intro; apply sqrt_pos. Qed.
Lemma rnorm_sq : forall a, rnorm a * rnorm a = rdot a a.
Proof. intro; apply sqrt_def, rdot_self_nonneg. Qed.
(** The point at distance r0 from c0 towards c1, when the centres are r0 + r1 apart. *)
Lemma contact_point : forall c0 c1 r0 r1, length c1 = length c0 -> 0 < r0 + r1 -> 
  rdist2 c1 c0 = (r0 + r1) * (r0 + r1) ->
  let q := radd c0 (rscale r0 (rnormalize (rsub c1 c0))) in
  rdist2 q c0 = r0 * r0 /\ rdist2 q c1 = r1 * r1.
Proof.
  intros c0 c1 r0 r1 L P E q. set (u := rsub c1 c0) in *.
  assert (Lu : length u = length c0) by (unfold u; rewrite rsub_length; congruence).
  assert (EN : rnorm u = r0 + r1).
  { unfold rnorm. unfold rdist2 in E. fold u in E. rewrite E. rewrite sqrt_square; lra. }
  assert (Q : q = along c0 u (r0 * (1 / (r0 + r1)))).
  { unfold q, rnormalize, along. rewrite rscale_scale, EN. reflexivity. }
  rewrite Q. unfold rdist2 in E; fold u in E.
  split.
  - rewrite rdist2_along by congruence. rewrite E.
    assert (Z : rsub c0 c0 = rscale 0 c0).
    { clear. induction c0 as [|x c0 IH]; simpl; auto. f_equal; [ring|exact IH]. }
    unfold rdist2. rewrite Z, !rdot_rscale_l. field. lra.
  - rewrite rdist2_along by congruence. rewrite E.
    assert (N : rsub c0 c1 = rscale (-1) u).
    { unfold u. clear - L. revert c1 L. induction c0 as [|x c0 IH]; intros [|y c1] L; simpl in *; try discriminate; auto.
      f_equal; [ring|apply IH; lia]. }
    unfold rdist2. rewrite N, !rdot_rscale_l, !rdot_rscale_r, E. field. lra.
Qed.

Lemma moving_sphere_sphere_ok : forall s0 s1 v0 v1,
  length (b_center s1) = length (b_center s0) -> length v1 = length (b_center s1) -> length v0 = length (b_center s0) ->
  0 <= b_radius s0 -> 0 <= b_radius s1 -> 0 < b_radius s0 + b_radius s1 ->
  let s := rsub (b_center s1) (b_center s0) in let v := rsub v1 v0 in
  ~ (rdot s s = (b_radius s0 + b_radius s1) * (b_radius s0 + b_radius s1) /\ 0 <= rdot v s) ->
  match moving_sphere_sphere_intersection rdirect s0 s1 v0 v1 with
  | Hit (t, q) => first_time (fun t => balls_meet (moved s0 v0 t) (moved s1 v1 t)) t /\
      match q with
      | Some X => on_rsphere (moved s0 v0 t) X /\ on_rsphere (moved s1 v1 t) X
      | None => rdot s s < (b_radius s0 + b_radius s1) * (b_radius s0 + b_radius s1)
      end
  | Miss => forall t, 0 <= t -> ~ balls_meet (moved s0 v0 t) (moved s1 v1 t)
  | NotANumber => False
  end.
Proof.
  intros s0 s1 v0 v1 L1 L2 L3 R0 R1 RP s v NT. unfold moving_sphere_sphere_intersection; simpl. fold s v.
  set (r := b_radius s0 + b_radius s1) in *.
  replace (b_radius s1 + b_radius s0) with r by (unfold r; ring).
  assert (Lv : length v = length s) by (unfold v, s; rewrite !rsub_length by congruence; congruence).
  assert (MQ : forall t, balls_meet (moved s0 v0 t) (moved s1 v1 t) <-> quadr (rdot v v) (rdot v s) (rdot s s - r * r) t <= 0).
  { intro t. unfold balls_meet. rewrite moved_meet_quad by assumption. simpl b_radius. fold r s v.
    unfold quadr. split; intro; lra. }
  set (a := rdot v v) in *. set (b := rdot v s) in *. set (c := rdot s s - r * r) in *.
  assert (A0 : 0 <= a) by apply rdot_self_nonneg.
  destruct (Rltb_spec c 0) as [C|C].
  { split.
    - split; [lra|]. split; [apply MQ; unfold quadr; lra|intros; lra].
    - unfold c in C. lra. }
  destruct (Rltb_spec a 0) as [A|_]; [lra|].
  destruct (Rleb_spec 0 b) as [B|B].
  { assert (CP : 0 < c) by (unfold c in *; destruct (Req_dec (rdot s s) (r * r)); [exfalso; apply NT; split; assumption|lra]).
    intros t Ht I. apply MQ in I. unfold quadr in I. assert (0 <= a * t * t) by nra. assert (0 <= b * t) by nra. lra. }
  assert (AP : 0 < a).
  { destruct (Req_dec a 0) as [Z|]; [|lra]. exfalso. apply B. unfold b. rewrite (rdot_self_zero v s Lv Z). lra. }
  destruct (Rltb_spec (b * b - a * c) 0) as [D|D].
  { intros t Ht I. apply MQ in I. pose proof (quad_none_discr a b c t AP D). lra. }
  destruct (Reqb_spec a 0) as [Z|_]; [lra|].
  set (q := sqrt (b * b - a * c)). assert (Hq : 0 <= q) by apply sqrt_pos.
  assert (Eq : q * q = b * b - a * c) by (apply sqrt_def; lra).
  set (t := (- b - q) / a).
  assert (T0 : 0 <= t).
  { unfold t, Rdiv. apply Rmult_le_pos; [|left; apply Rinv_0_lt_compat; exact AP]. assert (q <= - b); [|lra].
    apply sqrt_sq_le; try lra. assert (0 <= a * c) by (apply Rmult_le_pos; lra). lra. }
  assert (TR : quadr a b c t = 0) by (apply quad_root; assumption).
  split.
  - split; [exact T0|]. split; [apply MQ; lra|]. intros t' H' I. apply MQ in I. apply (quad_below a b c q t' AP Hq Eq I).
  - pose proof (contact_point (b_center (moved s0 v0 t)) (b_center (moved s1 v1 t)) (b_radius s0) (b_radius s1)) as CP.
    cbv zeta in CP. simpl b_center in CP. unfold on_rsphere; simpl. apply CP.
    + unfold along. rewrite !radd_length; rewrite ?rscale_length; congruence.
    + exact RP.
    + fold r. pose proof (moved_meet_quad s0 s1 v0 v1 t L1 L2 L3) as M. cbv zeta in M. simpl b_center in M. rewrite M.
      fold s v a b. unfold quadr in *. unfold c in TR. lra.
Qed.
Lemma moving_sphere_sphere_touching_missed : forall s0 s1 v0 v1,
  let s := rsub (b_center s1) (b_center s0) in let v := rsub v1 v0 in
  rdot s s = (b_radius s0 + b_radius s1) * (b_radius s0 + b_radius s1) -> 0 <= rdot v s ->
  moving_sphere_sphere_intersection rdirect s0 s1 v0 v1 = Miss.
Proof.
  intros s0 s1 v0 v1 s v H1 H2. unfold moving_sphere_sphere_intersection; simpl. fold s v.
  destruct (Rltb_spec (rdot s s - (b_radius s1 + b_radius s0) * (b_radius s1 + b_radius s0)) 0) as [C|C]; [exfalso; nra|].
  destruct (Rltb_spec (rdot v v) 0); [reflexivity|]. destruct (Rleb_spec 0 (rdot v s)); [reflexivity|contradiction].
Qed.

(** ** Moving ball against plane *)

Lemma rdot_along : forall p d n t, length p = length d -> length p = length n -> rdot (along p d t) n = rdot p n + t * rdot d n.
Proof.
  intros p d n t H1 H2. unfold along. rewrite rdot_radd_l by (rewrite ?rscale_length; congruence).
  rewrite rdot_rscale_l. reflexivity.
Qed.
Lemma along_length : forall p d t, length p = length d -> length (along p d t) = length p.
Proof. intros; unfold along; rewrite radd_length; rewrite ?rscale_length; congruence. Qed.
(** Going from X against the normal by k. *)
Lemma rsub_scale_dist : forall X n k, length X = length n -> rdist2 (rsub X (rscale k n)) X = k * k * rdot n n.
Proof.
  intros X n k L. unfold rdist2.
  replace (rsub (rsub X (rscale k n)) X) with (rscale (- k) n).
  - rewrite rdot_rscale_l, rdot_rscale_r. ring.
  - clear - L. revert n L. induction X as [|x X IH]; intros [|y n] L; simpl in *; try discriminate; auto.
    f_equal; [ring|apply IH; lia].
Qed.
Lemma ball_meets_plane : forall c r p, length c = length (pl_normal p) -> rdot (pl_normal p) (pl_normal p) = 1 -> 0 <= r ->
  (ball_meets (mkball c r) (on_rplane p) <-> Rabs (rdot c (pl_normal p) - pl_dist p) <= r).
Proof.
  intros c r p L U R0. set (n := pl_normal p) in *. unfold ball_meets, on_rplane, in_rball; simpl. fold n. split.
  - intros (X & LX & E & I).
    pose proof (cauchy_schwarz (rsub X c) n) as CS. rewrite rsub_length in CS by congruence. specialize (CS ltac:(congruence)).
    rewrite U in CS. rewrite rdot_rsub_l in CS by congruence. rewrite E in CS. unfold rdist2 in I.
    apply sqrt_sq_le; [apply Rabs_pos|exact R0|].
    pose proof (Rsqr_abs (rdot c n - pl_dist p)) as S; unfold Rsqr in S. rewrite <- S. nra.
  - intro H. exists (rsub c (rscale (rdot c n - pl_dist p) n)).
    assert (Lc : length c = length (rscale (rdot c n - pl_dist p) n)) by (rewrite rscale_length; exact L).
    split; [rewrite rsub_length; congruence|]. split.
    + rewrite rdot_rsub_l by (rewrite ?rscale_length; congruence). rewrite rdot_rscale_l, U. ring.
    + rewrite rsub_scale_dist by exact L. rewrite U.
      pose proof (Rsqr_abs (rdot c n - pl_dist p)) as S; unfold Rsqr in S. rewrite Rmult_1_r, S.
      pose proof (Rabs_pos (rdot c n - pl_dist p)). apply Rmult_le_compat; lra.
Qed.

Lemma moving_plane_ok : forall s vel p, length vel = length (b_center s) -> length (pl_normal p) = length (b_center s) ->
  rdot (pl_normal p) (pl_normal p) = 1 -> 0 <= b_radius s ->
  let (pf, o) := moving_sphere_plane_intersection rdirect s vel p in
  let dist := rdot (b_center s) (pl_normal p) - pl_dist p in
  match o with
  | Some (t, q) => pf_intersecting pf = true /\
      first_time (fun t => ball_meets (moved s vel t) (on_rplane p)) t /\
      length q = length (b_center s) /\ on_rplane p q /\ in_rball (moved s vel t) q /\
      q = rsub (along (b_center s) vel t) (rscale (dist + t * rdot vel (pl_normal p)) (pl_normal p))
  | None => pf_intersecting pf = false /\ pf_penetrating pf = false /\ forall t, 0 <= t -> ~ ball_meets (moved s vel t) (on_rplane p)
  end /\
  (pf_away pf = true <-> 0 <= dist * rdot vel (pl_normal p)) /\
  (pf_penetrating pf = true -> Rabs dist <> b_radius s).
Proof.
  intros s vel p Lv Ln U R0. unfold moving_sphere_plane_intersection; simpl.
  set (n := pl_normal p) in *. set (dist := rdot (b_center s) n - pl_dist p). set (denom := rdot vel n). set (r := b_radius s) in *.
  assert (MP : forall t, ball_meets (moved s vel t) (on_rplane p) <-> Rabs (dist + t * denom) <= r).
  { intro t. unfold moved. rewrite ball_meets_plane; fold n r; auto; [|rewrite along_length; congruence].
    rewrite rdot_along by congruence. fold denom. unfold dist. replace (rdot (b_center s) n + t * denom - pl_dist p) with (rdot (b_center s) n - pl_dist p + t * denom) by ring. tauto. }
  assert (QP : forall t, let X := rsub (along (b_center s) vel t) (rscale (dist + t * denom) n) in
     length X = length (b_center s) /\ on_rplane p X /\ rdist2 X (along (b_center s) vel t) = (dist + t * denom) * (dist + t * denom)).
  { intros t X. assert (La : length (along (b_center s) vel t) = length n) by (rewrite along_length; congruence).
    unfold X. split; [rewrite rsub_length; rewrite ?rscale_length; congruence|]. split.
    - unfold on_rplane. fold n. rewrite rdot_rsub_l by (rewrite ?rscale_length; congruence).
      rewrite rdot_rscale_l, U, rdot_along by congruence. fold denom. unfold dist. ring.
    - rewrite rsub_scale_dist by exact La. rewrite U. ring. }
  assert (SQ : forall x, Rabs x * Rabs x = x * x) by (intro x; pose proof (Rsqr_abs x) as S; unfold Rsqr in S; auto).
  assert (AL0 : along (b_center s) vel 0 = b_center s).
  { unfold along. clear - Lv. revert vel Lv. induction (b_center s) as [|x l IH]; intros [|y v] L; simpl in *; try discriminate; auto.
    f_equal; [ring|apply IH; lia]. }
  assert (FL : forall b1, b1 = Rleb 0 (denom * dist) -> (b1 = true <-> 0 <= dist * denom)).
  { intros b1 ->. rewrite (Rmult_comm denom). destruct (Rleb_spec 0 (dist * denom)); split; intro; try discriminate; try lra; reflexivity. }
  assert (START : Rabs dist <= r -> first_time (fun t => ball_meets (moved s vel t) (on_rplane p)) 0).
  { intro H. split; [lra|]. split; [apply MP; replace (dist + 0 * denom) with dist by ring; exact H|intros; lra]. }
  assert (Q0 : Rabs dist <= r -> let q := rsub (b_center s) (rscale (dist / rdot n n) n) in
    length q = length (b_center s) /\ on_rplane p q /\ in_rball (moved s vel 0) q /\
    q = rsub (along (b_center s) vel 0) (rscale (dist + 0 * denom) n)).
  { intros H q. destruct (QP 0) as (P1 & P2 & P3). rewrite AL0 in *.
    assert (E : q = rsub (b_center s) (rscale (dist + 0 * denom) n)).
    { unfold q. rewrite U. f_equal. f_equal. field. }
    rewrite E. split; [exact P1|]. split; [exact P2|]. split; [|reflexivity].
    unfold in_rball, moved; simpl. rewrite AL0. fold r. rewrite P3. replace (dist + 0 * denom) with dist by ring.
    rewrite <- SQ. pose proof (Rabs_pos dist). apply Rmult_le_compat; lra. }
  destruct (Rltb_spec (Rabs dist) r) as [S|S]; simpl.
  { split; [|split; [apply FL; reflexivity|intros _; lra]]. split; [reflexivity|]. split; [apply START; lra|]. apply Q0; lra. }
  destruct (Reqb_spec (Rabs dist) r) as [E|E]; simpl.
  { split; [|split; [apply FL; reflexivity|intro; discriminate]]. split; [reflexivity|]. split; [apply START; lra|]. apply Q0; lra. }
  assert (GR : r < Rabs dist) by lra.
  destruct (Rleb_spec 0 (denom * dist)) as [A|A]; simpl.
  { split; [|split; [split; intro; [lra|reflexivity]|discriminate]]. split; [reflexivity|]. split; [reflexivity|].
    intros t Ht M. apply MP in M.
    assert (Rabs dist <= Rabs (dist + t * denom)); [|lra].
    apply sqrt_sq_le; try apply Rabs_pos. rewrite !SQ.
    assert (0 <= t * (denom * dist)) by (apply Rmult_le_pos; assumption).
    pose proof (Rle_0_sqr (t * denom)) as K; unfold Rsqr in K.
    replace ((dist + t * denom) * (dist + t * denom)) with (dist * dist + 2 * (t * (denom * dist)) + t * denom * (t * denom)) by ring. lra. }
  split; [|split; [split; [discriminate|intro; exfalso; lra]|intros _; lra]]. split; [reflexivity|].
  set (rs := if Rltb 0 dist then r else - r). set (t := (rs - dist) / denom).
  assert (DN : denom <> 0) by (intro Z; apply A; rewrite Z; lra).
  assert (ET : dist + t * denom = rs) by (unfold t; field; exact DN).
  assert (AR : rs * rs = r * r /\ Rabs rs = r).
  { unfold rs. destruct (Rltb_spec 0 dist); [split; [ring|apply Rabs_right; lra]|split; [ring|rewrite Rabs_Ropp; apply Rabs_right; lra]]. }
  assert (TP : 0 <= t /\ forall t', 0 <= t' -> Rabs (dist + t' * denom) <= r -> t <= t').
  { unfold rs in ET. clear - ET A GR R0. destruct (Rltb_spec 0 dist) as [P|P].
    - rewrite Rabs_right in GR by lra. assert (denom < 0) by nra. split; [nra|].
      intros t' H' M. pose proof (Rle_abs (dist + t' * denom)). nra.
    - assert (NZ : dist < 0) by (destruct (Req_dec dist 0) as [Z|]; [rewrite Z, Rabs_R0 in GR; lra|lra]).
      rewrite Rabs_left in GR by lra. assert (0 < denom) by nra. split; [nra|].
      intros t' H' M. pose proof (Rle_abs (- (dist + t' * denom))). rewrite Rabs_Ropp in H0. nra. }
  destruct TP as [T0 TM]. destruct (QP t) as (P1 & P2 & P3). rewrite ET in P1, P2, P3 |- *.
  split.
  - split; [exact T0|]. split; [apply MP; rewrite ET; lra|]. intros t' H' M. apply TM; [exact H'|apply MP; exact M].
  - change (radd (b_center s) (rscale t vel)) with (along (b_center s) vel t).
    split; [exact P1|]. split; [exact P2|]. split; [|reflexivity].
    unfold in_rball, moved; simpl. fold r. rewrite P3. lra.
Qed.

(** ** Moving disc against segment (planar) *)

Lemma rdist2_sym : forall a b, length a = length b -> rdist2 a b = rdist2 b a.
Proof.
  unfold rdist2. induction a as [|x a IH]; intros [|y b] L; simpl in *; try discriminate; [reflexivity|].
  rewrite IH by lia. ring.
Qed.
Lemma radd_back : forall n a, length n = length a -> radd n (rscale 1 (rsub a n)) = a.
Proof.
  induction n as [|x n IH]; intros [|y a] L; simpl in *; try discriminate; auto.
  f_equal; [ring|apply IH; lia].
Qed.
Lemma moving_endpoint_ok : forall vel c r a, length vel = length c -> length a = length c -> rdot vel vel <> 0 -> 0 <= r ->
  ~ (rdist2 c a = r * r /\ 0 <= rdot (rsub c a) vel) ->
  match moving_sphere_endpoint rdirect vel c r a with
  | Hit (t, q) => first_time (fun t => rdist2 (along c vel t) a <= r * r) t /\ (0 < t -> 0 < r -> q = a)
  | Miss => forall t, 0 <= t -> ~ rdist2 (along c vel t) a <= r * r
  | NotANumber => False
  end.
Proof.
  intros vel c r a Lv La NV R0 NT. unfold moving_sphere_endpoint; simpl. fold (rdist2 c a).
  set (sp := rnorm vel). assert (S0 : 0 <= sp) by apply rnorm_nonneg. assert (SS : sp * sp = rdot vel vel) by apply rnorm_sq.
  destruct (Reqb_spec sp 0) as [Z|NZ]; [exfalso; apply NV; rewrite <- SS, Z; ring|].
  assert (SP : 0 < sp) by lra.
  set (dir := rscale (/ sp) vel). assert (Ld : length dir = length c) by (unfold dir; rewrite rscale_length; exact Lv).
  assert (UD : rdot dir dir = 1) by (apply unit_dir; assumption).
  set (cd := rdot (rsub c a) dir). set (dr := rdist2 c a - r * r).
  assert (CD : rdot (rsub c a) vel = sp * cd).
  { unfold cd, dir. rewrite rdot_rscale_r. field. lra. }
  assert (AL : forall t, along c dir t = along c vel (t / sp)).
  { intro t. unfold along, dir. rewrite rscale_scale. reflexivity. }
  assert (MQ : forall t, rdist2 (along c vel t) a <= r * r <-> quadr 1 cd dr (t * sp) <= 0).
  { intro t. replace t with (t * sp / sp) at 1 by (field; lra). rewrite <- AL. rewrite rdist2_along by congruence. rewrite UD. fold cd.
    unfold quadr, dr. split; intro; lra. }
  destruct (Rleb_spec 0 dr) as [C|C]; destruct (Rleb_spec 0 cd) as [B|B]; simpl.
  { assert (CP : 0 < dr).
    { destruct (Req_dec dr 0) as [Z|]; [|lra]. exfalso. apply NT. split; [unfold dr in Z; lra|rewrite CD; apply Rmult_le_pos; lra]. }
    intros t Ht M. apply MQ in M. assert (0 <= t * sp) by (apply Rmult_le_pos; lra).
    pose proof (quad_none_away 1 cd dr (t * sp)). lra. }
  all: destruct (Rltb_spec (cd * cd - dr) 0) as [D|D];
    [intros t Ht M; apply MQ in M; pose proof (quad_none_discr 1 cd dr (t * sp)); lra|].
  all: set (q := sqrt (cd * cd - dr)); assert (Hq : 0 <= q) by apply sqrt_pos;
       assert (Eq : q * q = cd * cd - 1 * dr) by (rewrite Rmult_1_l; apply sqrt_def; lra).
  all: assert (QF := quad_first 1 cd dr q Rlt_0_1 Hq Eq ltac:(intros [? ?]; lra)).
  all: cbv zeta in QF; replace ((- cd - q) / 1) with (- (cd + q)) in QF by field.
  all: set (lt := if Rltb (- (cd + q)) 0 then 0 else - (cd + q)) in *.
  all: destruct QF as (F1 & F2 & F3).
  all: assert (DS : 0 <= lt / sp) by (unfold Rdiv; apply Rmult_le_pos; [exact F1|left; apply Rinv_0_lt_compat; exact SP]).
  all: assert (LS : lt / sp * sp = lt) by (field; lra).
  all: split;
   [split; [exact DS|split; [apply MQ; rewrite LS; exact F2|
     intros t' H' M; apply MQ in M; apply Rmult_le_reg_r with sp; [exact SP|]; rewrite LS; apply F3; [apply Rmult_le_pos; lra|exact M]]]|].
  all: intros TP RP; assert (LP : 0 < lt) by (rewrite <- LS; apply Rmult_lt_0_compat; assumption).
  all: assert (ROOT : quadr 1 cd dr lt = 0)
    by (unfold lt in LP |- *; destruct (Rltb_spec (- (cd + q)) 0); [lra|]; replace (- (cd + q)) with ((- cd - q) / 1) by field; apply quad_root; [lra|exact Eq]).
  all: change (radd c (rscale lt dir)) with (along c dir lt).
  all: assert (E2 : rdist2 (along c dir lt) a = r * r) by (rewrite rdist2_along by congruence; rewrite UD; fold cd; unfold quadr, dr in ROOT; lra).
  all: set (nc := along c dir lt) in *; assert (Ln : length nc = length a) by (unfold nc; rewrite along_length; congruence).
  all: assert (EN : rnorm (rsub a nc) = r).
  1, 3, 5: unfold rnorm; change (rdot (rsub a nc) (rsub a nc)) with (rdist2 a nc); rewrite rdist2_sym, E2 by congruence; apply sqrt_square; exact R0.
  all: unfold rnormalize; rewrite EN, rscale_scale; replace (r * (1 / r)) with 1 by (field; lra); apply radd_back; exact Ln.
Qed.

Lemma endpoint_key : forall L2 t0 t1 d0 d1 r s t', 0 < L2 -> 0 <= r -> s <= t' ->
  (d0 + s * d1) * (d0 + s * d1) <= r * r -> 1 < t0 + s * t1 ->
  (exists u, 0 <= u <= 1 /\ (t0 + t' * t1 - u) * (t0 + t' * t1 - u) * L2 + (d0 + t' * d1) * (d0 + t' * d1) <= r * r) ->
  exists t2, s <= t2 <= t' /\ (t0 + t2 * t1 - 1) * (t0 + t2 * t1 - 1) * L2 + (d0 + t2 * d1) * (d0 + t2 * d1) <= r * r.
Proof.
  intros L2 t0 t1 d0 d1 r s t' HL R0 Hst D1 T1 (u & Hu & D2).
  destruct (Rle_or_lt 1 (t0 + t' * t1)) as [G|G].
  - exists t'. split; [lra|].
    assert ((t0 + t' * t1 - 1) * (t0 + t' * t1 - 1) * L2 <= (t0 + t' * t1 - u) * (t0 + t' * t1 - u) * L2); [|lra].
    apply Rmult_le_compat_r; [lra|]. apply Rmult_le_compat; lra.
  - set (w := t0 + s * t1) in *. set (z := t0 + t' * t1) in *.
    set (l := (w - 1) / (w - z)).
    assert (WZ : 0 < w - z) by lra.
    assert (L0 : 0 <= l) by (unfold l, Rdiv; apply Rmult_le_pos; [lra|left; apply Rinv_0_lt_compat; exact WZ]).
    assert (EL : l * (w - z) = w - 1) by (unfold l; field; lra).
    assert (L1 : l <= 1) by (apply Rmult_le_reg_r with (w - z); [exact WZ|rewrite EL; lra]).
    exists (s + l * (t' - s)). split; [split; nra|].
    assert (E1 : t0 + (s + l * (t' - s)) * t1 - 1 = 0).
    { replace (t0 + (s + l * (t' - s)) * t1 - 1) with (w - l * (w - z) - 1) by (unfold w, z; ring). rewrite EL. ring. }
    rewrite E1. set (x := d0 + s * d1) in *. set (y := d0 + t' * d1) in *.
    replace (d0 + (s + l * (t' - s)) * d1) with ((1 - l) * x + l * y) by (unfold x, y; ring).
    assert (Hy : y * y <= r * r).
    { pose proof (Rle_0_sqr (z - u)) as K; unfold Rsqr in K. assert (0 <= (z - u) * (z - u) * L2) by (apply Rmult_le_pos; lra). lra. }
    assert (Bx : - r <= x <= r) by (clear - D1 R0; split; nra).
    assert (By : - r <= y <= r) by (clear - Hy R0; split; nra).
    assert (Bm : - r <= (1 - l) * x + l * y <= r) by (clear - L0 L1 Bx By; split; nra).
    clear - Bm R0. nra.
Qed.

Lemma ris_between_ok : forall ax ay bx b_y x y, ~ (bx = ax /\ b_y = ay) ->
  (ris_between rdirect [ax; ay] [bx; b_y] [x; y] = true <-> on_rsegment [ax; ay] [bx; b_y] [x; y]).
Proof.
  intros ax ay bx b_y x y NE. unfold ris_between, on_rsegment; simpl.
  assert (PR : forall A B C, (Rleb A C && Rleb C B || Rleb C A && Rleb B C = true) <-> (A <= C <= B \/ B <= C <= A)).
  { intros A B C. destruct (Rleb_spec A C); destruct (Rleb_spec C B); destruct (Rleb_spec C A); destruct (Rleb_spec B C); simpl; split; intro; try discriminate; try lra; auto. }
  assert (PM : forall A B C t, 0 <= t <= 1 -> C = A + t * (B - A) -> A <= C <= B \/ B <= C <= A).
  { intros A B C t Ht ->. destruct (Rle_or_lt A B); [left|right]; split; nra. }
  assert (PI : forall A B C, A <> B -> A <= C <= B \/ B <= C <= A -> 0 <= (C - A) / (B - A) <= 1).
  { intros A B C N H. destruct (Rle_or_lt A B) as [O|O].
    - assert (P : 0 < B - A) by lra. split; apply Rmult_le_reg_r with (B - A); try exact P; replace ((C - A) / (B - A) * (B - A)) with (C - A) by (field; lra); lra.
    - assert (P : 0 < A - B) by lra. split; apply Rmult_le_reg_r with (A - B); try exact P; replace ((C - A) / (B - A) * (A - B)) with (A - C) by (field; lra); lra. }
  rewrite andb_true_iff. destruct (Reqb_spec ((bx - ax) * (y - ay) - (b_y - ay) * (x - ax)) 0) as [E|E].
  - destruct (Reqb_spec ax bx) as [V|V]; simpl.
    + assert (NY : ay <> b_y) by (intro; apply NE; split; congruence).
      rewrite PR. split.
      * intros [_ H]. exists ((y - ay) / (b_y - ay)). split; [apply PI; auto|].
        unfold along; simpl. assert (x = ax).
        { rewrite V in E |- *. replace ((bx - bx) * (y - ay) - (b_y - ay) * (x - bx)) with ((ay - b_y) * (x - bx)) in E by ring.
          apply Rmult_integral in E as [E|E]; lra. }
        f_equal; [rewrite <- V; lra|f_equal; field; lra].
      * intros (t & Ht & E'). split; [reflexivity|]. unfold along in E'; simpl in E'.
        assert (y = ay + t * (b_y - ay)) by congruence. apply (PM ay b_y y t); assumption.
    + rewrite PR. split.
      * intros [_ H]. exists ((x - ax) / (bx - ax)). split; [apply PI; auto|].
        unfold along; simpl. f_equal; [field; lra|f_equal]. apply Rmult_eq_reg_l with (bx - ax); [|lra].
        replace ((bx - ax) * (ay + (x - ax) / (bx - ax) * (b_y - ay))) with ((bx - ax) * ay + (x - ax) * (b_y - ay)) by (field; lra). lra.
      * intros (t & Ht & E'). split; [reflexivity|]. unfold along in E'; simpl in E'.
        assert (x = ax + t * (bx - ax)) by congruence. apply (PM ax bx x t); assumption.
  - split; [intros [? _]; discriminate|]. intros (t & Ht & E'). exfalso. unfold along in E'; simpl in E'.
    assert (E1 : x = ax + t * (bx - ax)) by congruence. assert (E2 : y = ay + t * (b_y - ay)) by congruence.
    apply E. rewrite E1, E2. ring.
Qed.

Lemma moving_segment_ok : forall s vel a b, length (b_center s) = 2%nat -> length vel = 2%nat -> length a = 2%nat -> length b = 2%nat ->
  a <> b -> 0 <= b_radius s -> rdot vel vel <> 0 ->
  (forall e, e = a \/ e = b -> ~ (rdist2 (b_center s) e = b_radius s * b_radius s /\ 0 <= rdot (rsub (b_center s) e) vel)) ->
  let (f, o) := moving_sphere_segment_intersection rdirect s vel a b in
  match o with
  | Some (t, q) => sf_intersecting f = true /\
      first_time (fun t => ball_meets (moved s vel t) (on_rsegment a b)) t /\
      (sf_endpoint f = false -> on_rsegment a b q /\ in_rball (moved s vel t) q) /\
      (sf_endpoint f = true -> 0 < t -> 0 < b_radius s -> (q = a \/ q = b) /\ in_rball (moved s vel t) q)
  | None => sf_intersecting f = false /\ forall t, 0 <= t -> ~ ball_meets (moved s vel t) (on_rsegment a b)
  end.
Proof.
  intros [c r] vel a b L1 L2' L3 L4 NE R0 NV NT; simpl in L1, R0, NT.
  destruct (list2 _ L1) as (cx & cy & ->). destruct (list2 _ L2') as (vx & vy & ->).
  destruct (list2 _ L3) as (ax & ay & ->). destruct (list2 _ L4) as (bx & b_y & ->). clear L1 L2' L3 L4.
  assert (NE' : ~ (bx = ax /\ b_y = ay)) by (intros [-> ->]; apply NE; reflexivity).
  unfold moving_sphere_segment_intersection.
  set (pl := line_of_segment [ax; ay] [bx; b_y]).
  set (L2 := (bx - ax) * (bx - ax) + (b_y - ay) * (b_y - ay)).
  assert (HL2 : 0 < L2).
  { pose proof (Rle_0_sqr (bx - ax)) as K1. pose proof (Rle_0_sqr (b_y - ay)) as K2. unfold Rsqr in *.
    destruct (Req_dec L2 0) as [Z|]; [|unfold L2 in *; lra]. destruct (sum_sq_zero _ _ Z). exfalso; apply NE'; split; lra. }
  set (L := sqrt L2). assert (HL : 0 < L) by (apply sqrt_lt_R0; exact HL2). assert (LL : L * L = L2) by (apply sqrt_def; lra).
  assert (EN : rnorm (rsub [bx; b_y] [ax; ay]) = L).
  { unfold rnorm, L, L2; simpl. f_equal. ring. }
  assert (PN : pl_normal pl = [- (1 / L * (b_y - ay)); 1 / L * (bx - ax)]).
  { unfold pl, line_of_segment, rnormalize; cbn [pl_normal pl_dist]. rewrite EN. reflexivity. }
  assert (PD : pl_dist pl = ax * - (1 / L * (b_y - ay)) + (ay * (1 / L * (bx - ax)) + 0)).
  { unfold pl, line_of_segment, rnormalize; cbn [pl_normal pl_dist]. rewrite EN. reflexivity. }
  assert (UN : rdot (pl_normal pl) (pl_normal pl) = 1).
  { rewrite PN; simpl. transitivity (L2 / (L * L)); [unfold L2; field; lra|rewrite LL; field; lra]. }
  pose proof (moving_plane_ok (mkball [cx; cy] r) [vx; vy] pl eq_refl ltac:(rewrite PN; reflexivity) UN R0) as MP.
  destruct (moving_sphere_plane_intersection rdirect (mkball [cx; cy] r) [vx; vy] pl) as [pf o].
  simpl b_center in MP. cbv zeta in MP. destruct MP as [MP _].
  set (dx := bx - ax) in *. set (dy := b_y - ay) in *.
  set (t0 := ((cx - ax) * dx + (cy - ay) * dy) / L2). set (t1 := (vx * dx + vy * dy) / L2).
  set (d0 := ((cy - ay) * dx - (cx - ax) * dy) / L). set (d1 := (vy * dx - vx * dy) / L).
  assert (E0 : rdot [cx; cy] (pl_normal pl) - pl_dist pl = d0) by (rewrite PN, PD; simpl; unfold d0; field; lra).
  assert (E1 : rdot [vx; vy] (pl_normal pl) = d1) by (rewrite PN; simpl; unfold d1; field; lra).
  assert (FACT : forall t u, rdist2 (along [cx; cy] [vx; vy] t) (along [ax; ay] [dx; dy] u) =
     (t0 + t * t1 - u) * (t0 + t * t1 - u) * L2 + (d0 + t * d1) * (d0 + t * d1)).
  { intros t u. unfold rdist2, along; simpl.
    set (ux := cx + t * vx - ax). set (uy := cy + t * vy - ay).
    replace (t0 + t * t1 - u) with ((ux * dx + uy * dy - u * L2) / L2) by (unfold t0, t1, ux, uy; field; lra).
    replace (d0 + t * d1) with ((uy * dx - ux * dy) / L) by (unfold d0, d1, ux, uy; field; lra).
    replace (cx + t * vx - (ax + u * dx)) with (ux - u * dx) by (unfold ux; ring).
    replace (cy + t * vy - (ay + u * dy)) with (uy - u * dy) by (unfold uy; ring).
    replace ((uy * dx - ux * dy) / L * ((uy * dx - ux * dy) / L)) with ((uy * dx - ux * dy) * (uy * dx - ux * dy) / L2) by (rewrite <- LL; field; lra).
    apply Rmult_eq_reg_r with L2; [|lra].
    replace (((ux * dx + uy * dy - u * L2) / L2 * ((ux * dx + uy * dy - u * L2) / L2) * L2 + (uy * dx - ux * dy) * (uy * dx - ux * dy) / L2) * L2)
      with ((ux * dx + uy * dy - u * L2) * (ux * dx + uy * dy - u * L2) + (uy * dx - ux * dy) * (uy * dx - ux * dy)) by (field; lra).
    unfold L2. ring. }
  assert (FOOT : forall t, rsub (along [cx; cy] [vx; vy] t) (rscale (d0 + t * d1) (pl_normal pl)) = along [ax; ay] [dx; dy] (t0 + t * t1)).
  { intro t. rewrite PN. unfold along; simpl.
    set (ux := cx + t * vx - ax). set (uy := cy + t * vy - ay).
    replace (t0 + t * t1) with ((ux * dx + uy * dy) / (L * L)) by (rewrite LL; unfold t0, t1, ux, uy; field; lra).
    replace (d0 + t * d1) with ((uy * dx - ux * dy) / L) by (unfold d0, d1, ux, uy; field; lra).
    replace (cx + t * vx) with (ux + ax) by (unfold ux; ring). replace (cy + t * vy) with (uy + ay) by (unfold uy; ring).
    f_equal; [|f_equal]; apply Rmult_eq_reg_r with (L * L); try nra.
    - transitivity (ax * (L * L) + ux * (L * L) + (uy * dx - ux * dy) * dy); [field; lra|].
      transitivity (ax * (L * L) + (ux * dx + uy * dy) * dx); [|field; lra]. rewrite LL; unfold L2; ring.
    - transitivity (ay * (L * L) + uy * (L * L) - (uy * dx - ux * dy) * dx); [field; lra|].
      transitivity (ay * (L * L) + (ux * dx + uy * dy) * dy); [|field; lra]. rewrite LL; unfold L2; ring. }
  assert (PT : forall t, ball_meets (moved (mkball [cx; cy] r) [vx; vy] t) (on_rsegment [ax; ay] [bx; b_y]) <->
     exists u, 0 <= u <= 1 /\ (t0 + t * t1 - u) * (t0 + t * t1 - u) * L2 + (d0 + t * d1) * (d0 + t * d1) <= r * r).
  { intro t. unfold ball_meets, on_rsegment, in_rball, moved. cbn [b_center b_radius].
    change (rsub [bx; b_y] [ax; ay]) with [dx; dy]. split.
    - intros (X & LX & (u & Hu & ->) & I). exists u. split; [exact Hu|]. rewrite <- FACT. rewrite rdist2_sym; [exact I|reflexivity].
    - intros (u & Hu & I). exists (along [ax; ay] [dx; dy] u). split; [reflexivity|]. split; [exists u; split; [exact Hu|reflexivity]|].
      rewrite rdist2_sym by reflexivity. rewrite FACT. exact I. }
  assert (LP : forall t, ball_meets (moved (mkball [cx; cy] r) [vx; vy] t) (on_rsegment [ax; ay] [bx; b_y]) ->
     ball_meets (moved (mkball [cx; cy] r) [vx; vy] t) (on_rplane pl)).
  { intros t M. unfold moved in *; cbn [b_center b_radius] in *. apply ball_meets_plane; [rewrite PN; reflexivity|exact UN|exact R0|].
    rewrite rdot_along by (rewrite ?PN; reflexivity). rewrite E1.
    replace (rdot [cx; cy] (pl_normal pl) + t * d1 - pl_dist pl) with (d0 + t * d1) by (rewrite <- E0; ring).
    apply PT in M as (u & Hu & I). apply sqrt_sq_le; [apply Rabs_pos|exact R0|].
    pose proof (Rsqr_abs (d0 + t * d1)) as S; unfold Rsqr in S. rewrite <- S.
    pose proof (Rle_0_sqr (t0 + t * t1 - u)) as K; unfold Rsqr in K. assert (0 <= (t0 + t * t1 - u) * (t0 + t * t1 - u) * L2) by (apply Rmult_le_pos; lra). lra. }
  destruct o as [[t q]|].
  2:{ destruct MP as (_ & _ & N). split; [reflexivity|]. intros t Ht M. apply (N t Ht). apply LP; exact M. }
  destruct MP as (_ & (T0 & TM & TL) & _ & _ & IB & EQ).
  rewrite E0, E1, FOOT in EQ.
  assert (DT : (d0 + t * d1) * (d0 + t * d1) <= r * r).
  { unfold in_rball, moved in IB. cbn [b_center b_radius] in IB. rewrite rdist2_sym in IB by (rewrite EQ; reflexivity).
    rewrite EQ, FACT in IB. replace (t0 + t * t1 - (t0 + t * t1)) with 0 in IB by ring. lra. }
  assert (AB : along [ax; ay] [dx; dy] 0 = [ax; ay] /\ along [ax; ay] [dx; dy] 1 = [bx; b_y]).
  { unfold along, dx, dy; simpl. split; (f_equal; [ring|f_equal; ring]). }
  destruct (ris_between rdirect [ax; ay] [bx; b_y] q) eqn:BT.
  - assert (OS : on_rsegment [ax; ay] [bx; b_y] q).
    { rewrite EQ in BT |- *. unfold along in BT |- *; cbn [radd rscale map] in BT |- *. apply ris_between_ok in BT; assumption. }
    split; [reflexivity|]. split.
    + split; [exact T0|]. split.
      * exists q. split; [rewrite EQ; reflexivity|]. split; [exact OS|exact IB].
      * intros t' H' M. apply TL; [exact H'|apply LP; exact M].
    + split; [intros _; split; [exact OS|exact IB]|intro; discriminate].
  - assert (OUT : t0 + t * t1 < 0 \/ 1 < t0 + t * t1).
    { destruct (Rlt_or_le (t0 + t * t1) 0) as [|G1]; [left; assumption|].
      destruct (Rlt_or_le 1 (t0 + t * t1)) as [|G2]; [right; assumption|exfalso].
      assert (OS : on_rsegment [ax; ay] [bx; b_y] q) by (exists (t0 + t * t1); split; [split; assumption|exact EQ]).
      rewrite EQ in BT, OS. unfold along in BT, OS; cbn [radd rscale map] in BT, OS. apply ris_between_ok in OS; [congruence|assumption]. }
    cbv zeta. cbn [b_center b_radius].
    match goal with |- context [moving_sphere_endpoint rdirect _ _ _ ?x] => set (e := x) end.
    assert (QD : rdot (rsub q [bx; b_y]) (rsub q [bx; b_y]) = (t0 + t * t1 - 1) * (t0 + t * t1 - 1) * L2 /\
                 rdot (rsub q [ax; ay]) (rsub q [ax; ay]) = (t0 + t * t1) * (t0 + t * t1) * L2).
    { rewrite EQ. unfold along, L2, dx, dy; simpl. split; ring. }
    destruct QD as [Q1 Q2].
    assert (EK : exists k, (k = 0 \/ k = 1) /\ e = along [ax; ay] [dx; dy] k /\
      forall t', 0 <= t' -> ball_meets (moved (mkball [cx; cy] r) [vx; vy] t') (on_rsegment [ax; ay] [bx; b_y]) ->
        exists t2, 0 <= t2 <= t' /\ rdist2 (along [cx; cy] [vx; vy] t2) e <= r * r).
    { destruct OUT as [O|O].
      - exists 0. assert (Ee : e = along [ax; ay] [dx; dy] 0).
        { unfold e. rewrite (proj1 AB). destruct (Rltb_spec (rdot (rsub q [bx; b_y]) (rsub q [bx; b_y])) (rdot (rsub q [ax; ay]) (rsub q [ax; ay]))) as [S|]; [exfalso|reflexivity].
          rewrite Q1, Q2 in S. apply Rmult_lt_reg_r in S; [|exact HL2]. clear - S O. nra. }
        split; [left; reflexivity|]. split; [exact Ee|]. intros t' H' M.
        assert (LE : t <= t') by (apply TL; [exact H'|apply LP; exact M]).
        apply PT in M as (u & Hu & I).
        destruct (endpoint_key L2 (1 - t0) (- t1) d0 d1 r t t' HL2 R0 LE DT ltac:(lra)) as (t2 & B2 & I2).
        { exists (1 - u). split; [lra|]. replace (1 - t0 + t' * - t1 - (1 - u)) with (- (t0 + t' * t1 - u)) by ring.
          replace (- (t0 + t' * t1 - u) * - (t0 + t' * t1 - u)) with ((t0 + t' * t1 - u) * (t0 + t' * t1 - u)) by ring. exact I. }
        exists t2. split; [lra|]. rewrite Ee, FACT.
        replace (1 - t0 + t2 * - t1 - 1) with (- (t0 + t2 * t1 - 0)) in I2 by ring.
        replace (- (t0 + t2 * t1 - 0) * - (t0 + t2 * t1 - 0)) with ((t0 + t2 * t1 - 0) * (t0 + t2 * t1 - 0)) in I2 by ring. exact I2.
      - exists 1. assert (Ee : e = along [ax; ay] [dx; dy] 1).
        { unfold e. rewrite (proj2 AB). destruct (Rltb_spec (rdot (rsub q [bx; b_y]) (rsub q [bx; b_y])) (rdot (rsub q [ax; ay]) (rsub q [ax; ay]))) as [S|S]; [reflexivity|exfalso].
          apply S. rewrite Q1, Q2. apply Rmult_lt_compat_r; [exact HL2|]. clear - O. nra. }
        split; [right; reflexivity|]. split; [exact Ee|]. intros t' H' M.
        assert (LE : t <= t') by (apply TL; [exact H'|apply LP; exact M]).
        apply PT in M.
        destruct (endpoint_key L2 t0 t1 d0 d1 r t t' HL2 R0 LE DT O M) as (t2 & B2 & I2).
        exists t2. split; [lra|]. rewrite Ee, FACT. exact I2. }
    destruct EK as (k & Hk & Ee & KEY).
    assert (Eab : e = [ax; ay] \/ e = [bx; b_y]).
    { rewrite Ee. destruct Hk as [-> | ->]; [left; apply AB|right; apply AB]. }
    assert (LE2 : length e = 2%nat) by (rewrite Ee; reflexivity).
    pose proof (moving_endpoint_ok [vx; vy] [cx; cy] r e eq_refl LE2 NV R0 (NT e Eab)) as ME.
    cbn [b_center b_radius] in *. fold e.
    assert (ONE : forall t', rdist2 (along [cx; cy] [vx; vy] t') e <= r * r -> ball_meets (moved (mkball [cx; cy] r) [vx; vy] t') (on_rsegment [ax; ay] [bx; b_y])).
    { intros t' I. apply PT. exists k. split; [destruct Hk as [-> | ->]; lra|]. rewrite <- FACT, <- Ee. exact I. }
    destruct (moving_sphere_endpoint rdirect [vx; vy] [cx; cy] r e) as [|[t' q']|].
    + cbv beta iota. split; [reflexivity|]. intros t' H' M. destruct (KEY t' H' M) as (t2 & B2 & I2). apply (ME t2); [lra|exact I2].
    + cbv beta iota. destruct ME as [(M1 & M2 & M3) M4]. split; [reflexivity|]. split.
      * split; [exact M1|]. split; [apply ONE; exact M2|]. intros t2 H2 M. destruct (KEY t2 H2 M) as (t3 & B3 & I3).
        apply Rle_trans with t3; [apply M3; [lra|exact I3]|lra].
      * split; [discriminate|]. intros _ TP RP. rewrite (M4 TP RP). split; [exact Eab|]. unfold in_rball, moved; cbn [b_center b_radius]. rewrite rdist2_sym by (rewrite Ee; reflexivity). exact M2.
    + contradiction.
Qed.

(** ** Segment against capsule *)

Lemma capsule_key : forall a b c dd md nd s t', 0 <= a -> 0 < dd -> s <= t' ->
  quadr a b c s <= 0 -> md + s * nd <= 0 ->
  (exists u, 0 <= u <= 1 /\ (md + t' * nd - u * dd) * (md + t' * nd - u * dd) + quadr a b c t' <= 0) ->
  exists t2, s <= t2 <= t' /\ (md + t2 * nd) * (md + t2 * nd) + quadr a b c t2 <= 0.
Proof.
  intros a b c dd md nd s t' A0 D0 Hst Q1 F1 (u & Hu & I).
  assert (UD : 0 <= u * dd) by (apply Rmult_le_pos; lra).
  destruct (Rle_or_lt (md + t' * nd) 0) as [G|G].
  - exists t'. split; [lra|].
    assert ((md + t' * nd) * (md + t' * nd) <= (md + t' * nd - u * dd) * (md + t' * nd - u * dd)) by nra. lra.
  - set (w := md + s * nd) in *. set (z := md + t' * nd) in *.
    assert (WZ : 0 < z - w) by lra. set (l := - w / (z - w)).
    assert (EL : l * (z - w) = - w) by (unfold l; field; lra).
    assert (L0 : 0 <= l) by (unfold l, Rdiv; apply Rmult_le_pos; [lra|left; apply Rinv_0_lt_compat; exact WZ]).
    assert (L1 : l <= 1) by (apply Rmult_le_reg_r with (z - w); [exact WZ|rewrite EL; lra]).
    exists (s + l * (t' - s)). split; [split; nra|].
    assert (E1 : md + (s + l * (t' - s)) * nd = 0).
    { replace (md + (s + l * (t' - s)) * nd) with (w + l * (z - w)) by (unfold w, z; ring). rewrite EL. ring. }
    rewrite E1.
    assert (Q2 : quadr a b c t' <= 0) by (pose proof (Rle_0_sqr (z - u * dd)) as K; unfold Rsqr in K; lra).
    assert (CV : quadr a b c (s + l * (t' - s)) = (1 - l) * quadr a b c s + l * quadr a b c t' - a * (l * (1 - l)) * ((t' - s) * (t' - s)))
      by (unfold quadr; ring).
    rewrite CV. assert (0 <= l * (1 - l)) by (apply Rmult_le_pos; lra).
    assert (0 <= (t' - s) * (t' - s)) by (apply Rmult_le_pos; lra).
    assert (0 <= a * (l * (1 - l)) * ((t' - s) * (t' - s))) by (apply Rmult_le_pos; [apply Rmult_le_pos; assumption|assumption]).
    assert ((1 - l) * quadr a b c s <= 0) by (clear - Q1 L1; nra).
    assert (l * quadr a b c t' <= 0) by (clear - Q2 L0; nra). lra.
Qed.

Lemma conv_neg : forall x y t, x < 0 -> x + y < 0 -> 0 <= t <= 1 -> x + t * y < 0.
Proof.
  intros x y t H1 H2 Ht. destruct (Req_dec t 0) as [->|N]; [lra|].
  assert (t * (x + y) < 0) by (apply Ropp_lt_cancel; rewrite Ropp_0, Ropp_mult_distr_r; apply Rmult_lt_0_compat; lra).
  assert (0 <= (1 - t) * (- x)) by (apply Rmult_le_pos; lra). lra.
Qed.
Lemma dist_along2 : forall sa n p d t u, length sa = length n -> length sa = length p -> length sa = length d ->
  rdist2 (along sa n t) (along p d u) =
  rdot (rsub sa p) (rsub sa p) + 2 * t * rdot (rsub sa p) n + t * t * rdot n n
  - 2 * u * (rdot (rsub sa p) d + t * rdot n d) + u * u * rdot d d.
Proof.
  intros sa n p d t u H1 H2 H3.
  assert (E : rsub (along sa n t) (along p d u) = radd (radd (rsub sa p) (rscale t n)) (rscale (- u) d)).
  { unfold along. revert n p d H1 H2 H3. induction sa as [|x sa IH]; intros [|y n] [|z p] [|w d] H1 H2 H3; simpl in *; try discriminate; auto.
    f_equal; [ring|apply IH; lia]. }
  unfold rdist2. rewrite E.
  assert (Lm : length (rsub sa p) = length sa) by (apply rsub_length; congruence).
  assert (Ln : length (rscale t n) = length sa) by (rewrite rscale_length; congruence).
  assert (Lr : length (radd (rsub sa p) (rscale t n)) = length sa) by (rewrite radd_length; congruence).
  rewrite dot_radd_scale by congruence. rewrite (dot_radd_scale (rsub sa p) n t) by congruence.
  rewrite rdot_radd_l by congruence. rewrite rdot_rscale_l. ring.
Qed.

Lemma first_time_ext : forall (P Q : R -> Prop) t, (forall t, 0 <= t -> (P t <-> Q t)) -> first_time P t -> first_time Q t.
Proof.
  intros P Q t E (H1 & H2 & H3). split; [exact H1|]. split; [apply E; assumption|].
  intros t' H' HQ. apply H3; [exact H'|apply E; assumption].
Qed.

Lemma segment_capsule_ok : forall sa sb p q r, length sb = length sa -> length p = length sa -> length q = length sa ->
  let d := rsub q p in let n := rsub sb sa in
  0 < rdot d d -> rdot n d * rdot n d < rdot d d * rdot n n ->
  ~ (exists u, 0 <= u <= 1 /\ rdot (rsub sa (along p d u)) d = 0 /\ rdist2 sa (along p d u) <= r * r) ->
  match segment_capsule_intersection rdirect sa sb p q r with
  | Hit (t, o) => first_time (fun t => t <= 1 /\ in_capsule p q r (along sa n t)) t /\ o = Some (along sa n t)
  | Miss => forall t, 0 <= t <= 1 -> ~ in_capsule p q r (along sa n t)
  | NotANumber => False
  end.
Proof.
  intros sa sb p q r L1 L2 L3 d n HD HA NB.
  assert (Ld : length d = length sa) by (unfold d; rewrite rsub_length; congruence).
  assert (Ln : length n = length sa) by (unfold n; rewrite rsub_length; congruence).
  unfold segment_capsule_intersection. fold d n. set (m := rsub sa p).
  assert (Lm : length m = length sa) by (unfold m; rewrite rsub_length; congruence).
  set (md := rdot m d). set (nd := rdot n d) in *. set (dd := rdot d d) in *. set (nn := rdot n n) in *. set (mn := rdot m n).
  set (a := dd * nn - nd * nd). set (k := rdot m m - r * r). set (c := dd * k - md * md). set (b := dd * mn - nd * md).
  assert (A0 : 0 < a) by (unfold a; lra).
  assert (NN : 0 < nn).
  { unfold nn. pose proof (rdot_self_nonneg n). destruct (Req_dec (rdot n n) 0) as [Z|]; [|lra].
    exfalso. unfold a, nn in A0. rewrite Z in A0. pose proof (Rle_0_sqr nd) as K; unfold Rsqr in K. lra. }
  assert (LEN : 0 <= sqrt nn /\ sqrt nn * sqrt nn = rdot n n) by (split; [apply sqrt_pos|fold nn; apply sqrt_def; left; exact NN]).
  (* the distance to an axis point *)
  assert (DU : forall t u, rdist2 (along sa n t) (along p d u) <= r * r <-> (md + t * nd - u * dd) * (md + t * nd - u * dd) + quadr a b c t <= 0).
  { intros t u. rewrite dist_along2 by congruence. fold m md nd dd nn mn.
    set (X := rdot m m + 2 * t * mn + t * t * nn - 2 * u * (md + t * nd) + u * u * dd).
    assert (E : dd * (X - r * r) = (md + t * nd - u * dd) * (md + t * nd - u * dd) + quadr a b c t).
    { unfold X, quadr, a, b, c, k. ring. }
    rewrite <- E. split; intro H.
    - assert (X - r * r <= 0) by lra. clear - HD H0. nra.
    - destruct (Rle_or_lt X (r * r)); [assumption|exfalso]. assert (0 < dd * (X - r * r)) by (apply Rmult_lt_0_compat; lra). lra. }
  assert (CAP : forall t, in_capsule p q r (along sa n t) <-> exists u, 0 <= u <= 1 /\ (md + t * nd - u * dd) * (md + t * nd - u * dd) + quadr a b c t <= 0).
  { intro t. unfold in_capsule, on_rsegment. fold d. split.
    - intros (Y & (u & Hu & ->) & H). exists u. split; [exact Hu|apply DU; exact H].
    - intros (u & Hu & H). exists (along p d u). split; [exists u; split; [exact Hu|reflexivity]|apply DU; exact H]. }
  assert (AP : along p d 0 = p).
  { unfold along. clear - Ld L2. assert (L : length p = length d) by congruence. clear L2 Ld. clearbody d.
    revert d L. induction p as [|x l IH]; intros [|y v] L; simpl in *; try discriminate; auto. f_equal; [ring|apply IH; lia]. }
  assert (AQ : along p d 1 = q).
  { unfold along, d. apply radd_back; congruence. }
  assert (BP : forall t, in_rball (mkball p r) (along sa n t) <-> (md + t * nd) * (md + t * nd) + quadr a b c t <= 0).
  { intro t. unfold in_rball; cbn [b_center b_radius]. pose proof (DU t 0) as H. rewrite AP in H. rewrite H.
    replace (md + t * nd - 0 * dd) with (md + t * nd) by ring. tauto. }
  assert (BQ : forall t, in_rball (mkball q r) (along sa n t) <-> (md + t * nd - dd) * (md + t * nd - dd) + quadr a b c t <= 0).
  { intro t. unfold in_rball; cbn [b_center b_radius]. pose proof (DU t 1) as H. rewrite AQ in H. rewrite H.
    replace (md + t * nd - 1 * dd) with (md + t * nd - dd) by ring. tauto. }
  assert (BC : forall t, (in_rball (mkball p r) (along sa n t) \/ in_rball (mkball q r) (along sa n t)) -> in_capsule p q r (along sa n t)).
  { intros t [H|H]; apply CAP.
    - exists 0. split; [lra|]. apply BP in H. replace (md + t * nd - 0 * dd) with (md + t * nd) by ring. exact H.
    - exists 1. split; [lra|]. apply BQ in H. replace (md + t * nd - 1 * dd) with (md + t * nd - dd) by ring. exact H. }
  assert (CQ : forall t, in_capsule p q r (along sa n t) -> quadr a b c t <= 0).
  { intros t H. apply CAP in H as (u & _ & H). pose proof (Rle_0_sqr (md + t * nd - u * dd)) as K; unfold Rsqr in K. lra. }
  (* reduction to one of the end balls *)
  assert (END : forall e, e = p \/ e = q ->
     (forall t, 0 <= t <= 1 -> in_capsule p q r (along sa n t) -> exists t2, 0 <= t2 <= t /\ in_rball (mkball e r) (along sa n t2)) ->
     match segment_sphere_first rdirect sa n (sqrt nn) (mkball e r) with
     | Hit (t, o) => first_time (fun t => t <= 1 /\ in_capsule p q r (along sa n t)) t /\ o = Some (along sa n t)
     | Miss => forall t, 0 <= t <= 1 -> ~ in_capsule p q r (along sa n t)
     | NotANumber => False
     end).
  { intros e He K. pose proof (segment_sphere_first_ok sa n (sqrt nn) (mkball e r)) as SS.
    specialize (SS ltac:(congruence) ltac:(cbn [b_center]; destruct He; congruence) (proj1 LEN) (proj2 LEN)).
    destruct (segment_sphere_first rdirect sa n (sqrt nn) (mkball e r)) as [|[t o]|]; [| |exact SS].
    - intros t Ht I. destruct (K t Ht I) as (t2 & B2 & I2). apply (SS t2); [lra|exact I2].
    - destruct SS as [(S1 & (S2 & S3) & S4) So]. split.
      + split; [exact S1|]. split; [split; [exact S2|apply BC; destruct He as [-> | ->]; [left|right]; exact S3]|].
        intros t' H' [H'' I]. destruct (K t' (conj H' H'') I) as (t2 & B2 & I2).
        apply Rle_trans with t2; [apply S4; [lra|split; [lra|exact I2]]|lra].
      + rewrite So. destruct (Reqb_spec (sqrt nn) 0) as [Z|]; [|reflexivity].
        exfalso. destruct LEN as [_ LE]. rewrite Z in LE. fold nn in LE. lra. }
  assert (MIRP : forall s t, 0 <= s -> s <= t -> quadr a b c s <= 0 -> md + s * nd <= 0 -> in_capsule p q r (along sa n t) ->
     exists t2, 0 <= t2 <= t /\ in_rball (mkball p r) (along sa n t2)).
  { intros s t S0 ST QS FS I. apply CAP in I.
    destruct (capsule_key a b c dd md nd s t ltac:(lra) HD ST QS FS I) as (t2 & B2 & I2).
    exists t2. split; [lra|apply BP; exact I2]. }
  assert (MIRQ : forall s t, 0 <= s -> s <= t -> quadr a b c s <= 0 -> dd <= md + s * nd -> in_capsule p q r (along sa n t) ->
     exists t2, 0 <= t2 <= t /\ in_rball (mkball q r) (along sa n t2)).
  { intros s t S0 ST QS FS I. apply CAP in I as (u & Hu & I).
    destruct (capsule_key a b c dd (dd - md) (- nd) s t ltac:(lra) HD ST QS ltac:(lra)) as (t2 & B2 & I2).
    - exists (1 - u). split; [lra|]. replace ((dd - md + t * - nd - (1 - u) * dd) * (dd - md + t * - nd - (1 - u) * dd))
        with ((md + t * nd - u * dd) * (md + t * nd - u * dd)) by ring. exact I.
    - exists t2. split; [lra|apply BQ]. replace ((md + t2 * nd - dd) * (md + t2 * nd - dd)) with ((dd - md + t2 * - nd) * (dd - md + t2 * - nd)) by ring. exact I2. }
  assert (AND : forall x y z w, Rltb x y && Rltb z w = true /\ x < y /\ z < w \/ Rltb x y && Rltb z w = false /\ ~ (x < y /\ z < w)).
  { intros x y z w. destruct (Rltb_spec x y); destruct (Rltb_spec z w); cbn [andb]; try (left; split; [reflexivity|lra]); right; (split; [reflexivity|lra]). }
  destruct (AND md 0 (md + nd) 0) as [(-> & M0 & M1)|(-> & NP)].
  { apply END; [left; reflexivity|]. intros t Ht I. exists t. split; [lra|].
    apply CAP in I as (u & Hu & I). apply BP.
    assert (F0 : md + t * nd < 0) by (apply conv_neg; assumption). assert (0 <= u * dd) by (apply Rmult_le_pos; lra).
    assert ((md + t * nd) * (md + t * nd) <= (md + t * nd - u * dd) * (md + t * nd - u * dd)) by (clear - F0 H; nra). lra. }
  destruct (AND dd md dd (md + nd)) as [(-> & M0 & M1)|(-> & NQ)].
  { apply END; [right; reflexivity|]. intros t Ht I. exists t. split; [lra|].
    apply CAP in I as (u & Hu & I). apply BQ.
    assert (F0 : dd < md + t * nd) by (pose proof (conv_neg (dd - md) (- nd) t ltac:(lra) ltac:(lra) Ht); lra). assert (0 <= (1 - u) * dd) by (apply Rmult_le_pos; lra).
    assert ((md + t * nd - dd) * (md + t * nd - dd) <= (md + t * nd - u * dd) * (md + t * nd - u * dd)) by (clear - F0 H; nra). lra. }
  cbn [rlt rdirect rgt].
  destruct (Rltb_spec (Rabs a) 0) as [Z|_]; [exfalso; pose proof (Rabs_pos a); lra|].
  destruct (Rltb_spec (b * b - a * c) 0) as [D|D].
  { intros t Ht I. apply CQ in I. pose proof (quad_none_discr a b c t A0 D). lra. }
  destruct (Reqb_spec a 0) as [Z|_]; [exfalso; lra|].
  set (w := sqrt (b * b - a * c)). assert (Hw : 0 <= w) by apply sqrt_pos.
  assert (Ew : w * w = b * b - a * c) by (apply sqrt_def; lra).
  set (t := (- b - w) / a).
  assert (TR : quadr a b c t = 0) by (apply quad_root; assumption).
  assert (TL : forall t', quadr a b c t' <= 0 -> t <= t') by (intros t' H'; apply (quad_below a b c w t' A0 Hw Ew H')).
  (* the start is not in the body of the capsule *)
  assert (A00 : along sa n 0 = sa).
  { unfold along. clear - Ln. assert (L : length sa = length n) by congruence. clear Ln; clearbody n; revert n L.
    induction sa as [|x l IH]; intros [|y v] L; simpl in *; try discriminate; auto; f_equal; [ring|apply IH; lia]. }
  assert (BODY : 0 <= md <= dd -> 0 < c).
  { intro MB. destruct (Rle_or_lt c 0) as [C|C]; [exfalso|exact C]. apply NB. exists (md / dd).
    assert (E1 : md / dd * dd = md) by (field; lra).
    split; [split; apply Rmult_le_reg_r with dd; try exact HD; rewrite E1; lra|]. split.
    - assert (E2 : rsub sa (along p d (md / dd)) = radd m (rscale (- (md / dd)) d)).
      { unfold m, along. generalize (md / dd). intro x0. clear - L2 Ld. assert (L : length p = length d) by congruence. clear Ld. clearbody d. revert p d L2 L.
        induction sa as [|x l IH]; intros [|y p] [|z d] H H2; simpl in *; try discriminate; auto; f_equal; [ring|apply IH; lia]. }
      rewrite E2, rdot_radd_l by (rewrite ?rscale_length; congruence). rewrite rdot_rscale_l. fold md dd. rewrite Ropp_mult_distr_l_reverse, E1. ring.
    - pose proof (DU 0 (md / dd)) as H. rewrite A00 in H. apply H. rewrite E1. unfold quadr. replace (md + 0 * nd - md) with 0 by ring. lra. }
  assert (START : t < 0 -> 0 < c -> forall t', 0 <= t' -> ~ in_capsule p q r (along sa n t')).
  { intros TN C t' H' I. apply CQ in I.
    assert (BP0 : 0 <= b).
    { destruct (Rle_or_lt 0 b) as [|BN]; [assumption|exfalso].
      assert (w < - b). { apply Rnot_le_lt; intro. assert (0 < a * c) by (apply Rmult_lt_0_compat; assumption). clear - H H0 Ew BN. nra. }
      assert (0 < t) by (unfold t, Rdiv; apply Rmult_lt_0_compat; [lra|apply Rinv_0_lt_compat; exact A0]). lra. }
    pose proof (quad_none_away a b c t' A0 C BP0 H'). lra. }
  assert (INS : c <= 0 -> t <= 0) by (intro C; apply TL; unfold quadr; lra).
  destruct (Rltb_spec (md + t * nd) 0) as [F1|F1].
  - assert (KP : forall t', 0 <= t' <= 1 -> in_capsule p q r (along sa n t') -> exists t2, 0 <= t2 <= t' /\ in_rball (mkball p r) (along sa n t2)).
    { intros t' Ht' I. destruct (Rlt_or_le 0 c) as [C|C].
      - destruct (Rlt_or_le t 0) as [TN|TP]; [exfalso; apply (START TN C t'); [lra|exact I]|].
        apply (MIRP t t'); [exact TP|apply TL, CQ; exact I|lra|lra|exact I].
      - assert (TP := INS C). assert (MN : md < 0).
        { destruct (Rlt_or_le md 0) as [|G1]; [assumption|exfalso].
          destruct (Rle_or_lt md dd) as [G2|G2]; [pose proof (BODY (conj G1 G2)); lra|].
          assert (md + nd <= dd) by lra. clear - F1 TP G1 G2 H HD. nra. }
        apply (MIRP 0 t'); [lra|lra|unfold quadr; lra|lra|exact I]. }
    destruct (AND 0 k 0 mn) as [(-> & K1 & K2)|(-> & _)]; [|apply END; [left; reflexivity|exact KP]].
    intros t' Ht' I. destruct (KP t' Ht' I) as (t2 & B2 & I2). unfold in_rball in I2. cbn [b_center b_radius] in I2.
    rewrite rdist2_along in I2 by congruence. unfold rdist2 in I2. fold m mn nn in I2. unfold k in K1.
    assert (0 <= nn * t2 * t2) by (apply Rmult_le_pos; [apply Rmult_le_pos|]; lra).
    assert (0 <= mn * t2) by (apply Rmult_le_pos; lra). lra.
  - destruct (Rltb_spec dd (md + t * nd)) as [F2|F2].
    + apply END; [right; reflexivity|]. intros t' Ht' I. destruct (Rlt_or_le 0 c) as [C|C].
      * destruct (Rlt_or_le t 0) as [TN|TP]; [exfalso; apply (START TN C t'); [lra|exact I]|].
        apply (MIRQ t t'); [exact TP|apply TL, CQ; exact I|lra|lra|exact I].
      * assert (TP := INS C). assert (MN : dd < md).
        { destruct (Rlt_or_le dd md) as [|G1]; [assumption|exfalso].
          destruct (Rle_or_lt 0 md) as [G2|G2]; [pose proof (BODY (conj G2 G1)); lra|].
          assert (0 <= md + nd) by lra. clear - F2 TP G1 G2 H HD. nra. }
        apply (MIRQ 0 t'); [lra|lra|unfold quadr; lra|lra|exact I].
    + assert (HIT : in_capsule p q r (along sa n t)).
      { apply CAP. exists ((md + t * nd) / dd). assert (E1 : (md + t * nd) / dd * dd = md + t * nd) by (field; lra).
        split; [split; apply Rmult_le_reg_r with dd; try exact HD; rewrite E1; lra|]. rewrite E1, TR.
        replace (md + t * nd - (md + t * nd)) with 0 by ring. lra. }
      destruct (Rleb_spec 0 t) as [T0|T0]; [destruct (Rleb_spec t 1) as [T1|T1]|]; cbn [andb].
      * split; [|reflexivity]. split; [exact T0|]. split; [split; assumption|]. intros t' _ [_ I]. apply TL, CQ, I.
      * intros t' Ht' I. assert (t <= t') by (apply TL, CQ, I). lra.
      * destruct (Rlt_or_le 0 c) as [C|C]; [intros t' Ht' I; apply (START ltac:(lra) C t'); [lra|exact I]|].
        exfalso. destruct (Rlt_or_le md 0) as [G1|G1]; [|destruct (Rle_or_lt md dd) as [G2|G2]; [pose proof (BODY (conj G1 G2)); lra|]].
        -- assert (0 <= md + nd) by lra. clear - F1 T0 G1 H. nra.
        -- assert (md + nd <= dd) by lra. clear - F2 T0 G2 H. nra.
Qed.
