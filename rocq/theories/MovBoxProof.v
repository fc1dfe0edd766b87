(** A moving disc against a box: proofs. *)
From Verif Require Import RBase SphereModel SphereSpec SphereProof MovBoxModel MovBoxSpec.

(** ** The ray against the enlarged box *)
Definition upto (t : R) (tmax : option R) : Prop := match tmax with None => True | Some m => t <= m end.
Lemma rslab_ok : forall p d lo hi tmin tmax, lo <= hi ->
  match rray_slab rdirect p d lo hi tmin tmax with
  | None => forall t, tmin <= t -> upto t tmax -> ~ lo <= p + d * t <= hi
  | Some (tmin', tmax') => (forall t, tmin' <= t /\ upto t tmax' <-> (tmin <= t /\ upto t tmax) /\ lo <= p + d * t <= hi) /\
      (upto tmin tmax -> upto tmin' tmax')
  end.
Proof.
  intros p d lo hi tmin tmax L. unfold rray_slab. cbn [req rdirect]. destruct (Reqb_spec d 0) as [->|N].
  - destruct (Rltb_spec p lo) as [H|H]; cbn [orb]; [intros t _ _; lra|]. destruct (Rltb_spec hi p) as [H2|H2]; [intros t _ _; lra|].
    split; [|tauto]. intro t. split; [intros K; split; [exact K|lra]|tauto].
  - set (a := (lo - p) * (1 / d)). set (b := (hi - p) * (1 / d)).
    assert (Ea : p + d * a = lo) by (unfold a; field; exact N). assert (Eb : p + d * b = hi) by (unfold b; field; exact N).
    assert (Main : forall t1 t2, t1 <= t2 -> (forall t, t1 <= t <= t2 <-> lo <= p + d * t <= hi) ->
      match (if Rltb (match tmax with None => t2 | Some x => Rmin x t2 end) (Rmax tmin t1) then None else Some (Rmax tmin t1, Some (match tmax with None => t2 | Some x => Rmin x t2 end))) with
      | None => forall t, tmin <= t -> upto t tmax -> ~ lo <= p + d * t <= hi
      | Some (tmin', tmax') => (forall t, tmin' <= t /\ upto t tmax' <-> (tmin <= t /\ upto t tmax) /\ lo <= p + d * t <= hi) /\ (upto tmin tmax -> upto tmin' tmax')
      end).
    { intros t1 t2 H12 H. assert (MX : forall t, Rmax tmin t1 <= t <-> tmin <= t /\ t1 <= t) by (intro t; unfold Rmax; destruct (Rle_dec tmin t1); lra).
      set (mx := match tmax with None => t2 | Some x => Rmin x t2 end). assert (MN : forall t, t <= mx <-> upto t tmax /\ t <= t2).
      { intro t. unfold mx. destruct tmax as [x|]; cbn; [unfold Rmin; destruct (Rle_dec x t2); lra|tauto]. }
      destruct (Rltb_spec mx (Rmax tmin t1)) as [K|K].
      - intros t T1 T2 T3. apply H in T3. assert (t <= mx) by (apply MN; tauto). assert (Rmax tmin t1 <= t) by (apply MX; tauto). lra.
      - split; [|intros _; cbn; lra]. intro t. cbn [upto]. rewrite MX, MN, <- H. tauto. }
    destruct (Rltb_spec b a) as [S|S]; apply Main; try lra; intro t.
    + clearbody a b. assert (D : d < 0) by (destruct (Rdichotomy d 0 N) as [D|D]; [exact D|exfalso; assert (0 < d * (a - b)) by (apply Rmult_lt_0_compat; lra); lra]).
      replace (p + d * t) with (lo + d * (t - a)) by (rewrite <- Ea; ring). replace hi with (lo + d * (b - a)) by (rewrite <- Ea, <- Eb; ring). split; intro; split; nra.
    + clearbody a b. destruct (Req_dec lo hi) as [Z|Z].
      * assert (AB : a = b) by (apply Rmult_eq_reg_l with d; [lra|exact N]). split; intro K; [replace t with a by lra; lra|assert (t = a) by (apply Rmult_eq_reg_l with d; [lra|exact N]); lra].
      * assert (D : 0 < d) by (destruct (Rdichotomy d 0 N) as [D|D]; [exfalso; assert (0 <= - d * (b - a)) by (apply Rmult_le_pos; lra); lra|exact D]).
        replace (p + d * t) with (lo + d * (t - a)) by (rewrite <- Ea; ring). replace hi with (lo + d * (b - a)) by (rewrite <- Ea, <- Eb; ring). split; intro; split; nra.
Qed.

Lemma rray_ok : forall px py dx dy lx ly hx hy, lx <= hx -> ly <= hy -> dx <> 0 \/ dy <> 0 ->
  ~ (lx <= px <= hx /\ ly <= py <= hy) ->
  match rray_aabb rdirect px py dx dy lx ly hx hy with
  | None => forall t, 0 <= t -> ~ (lx <= px + dx * t <= hx /\ ly <= py + dy * t <= hy)
  | Some (t, P) => first_time (fun t => lx <= px + dx * t <= hx /\ ly <= py + dy * t <= hy) t /\ P = Some (px + dx * t, py + dy * t)
  end.
Proof.
  intros px py dx dy lx ly hx hy Lx Ly D Out. unfold rray_aabb.
  assert (H1 := rslab_ok px dx lx hx 0 None Lx). destruct (rray_slab rdirect px dx lx hx 0 None) as [[t1 m1]|].
  2:{ intros t T [K _]. exact (H1 t T I K). }
  destruct H1 as [H1 U1]. assert (H2 := rslab_ok py dy ly hy t1 m1 Ly). destruct (rray_slab rdirect py dy ly hy t1 m1) as [[t2 m2]|].
  2:{ intros t T [K1 K2]. destruct (proj2 (H1 t) (conj (conj T I) K1)) as [A B]. exact (H2 t A B K2). }
  destruct H2 as [H2 U2]. cbn [rle rdirect]. specialize (U1 I). specialize (U2 U1).
  destruct (Rleb_spec lx px) as [A|A]; destruct (Rleb_spec px hx) as [B|B]; destruct (Rleb_spec ly py) as [C|C]; destruct (Rleb_spec py hy) as [E|E]; cbn [andb];
  try (exfalso; apply Out; lra).
  all: split; [|reflexivity].
  all: destruct (proj1 (H2 t2) (conj (Rle_refl t2) U2)) as [K2 In2]; destruct (proj1 (H1 t2) K2) as [K1 In1]; split; [tauto|]; split; [tauto|]; intros t T [K3 K4];
    apply (H2 t); split; [|exact K4]; apply (H1 t); split; [split; [exact T|exact I]|exact K3].
Qed.

(** ** Frames *)
Lemma pair_eq : forall x x' y y' : R, x = x' -> y = y' -> [x; y] = [x'; y'].
Proof. intros; subst; reflexivity. Qed.
Section Frame.
Variables (ox oy a b c d : R).
Hypothesis U1 : a * a + b * b = 1.
Hypothesis U2 : c * c + d * d = 1.
Hypothesis U3 : a * c + b * d = 0.
Definition W (x y : R) : rvec := [ox + x * a + y * c; oy + x * b + y * d].
Definition Wv (x y : R) : rvec := [x * a + y * c; x * b + y * d].
Lemma W_along : forall x y vx vy t, along (W x y) (Wv vx vy) t = W (x + t * vx) (y + t * vy).
Proof. intros. unfold along, W, Wv; simpl. apply pair_eq; ring. Qed.
Lemma W_dist : forall x y x' y', rdist2 (W x y) (W x' y') = (x - x') * (x - x') + (y - y') * (y - y').
Proof.
  intros. unfold rdist2, W; simpl. transitivity ((x - x') * (x - x') * (a * a + b * b) + (y - y') * (y - y') * (c * c + d * d) + 2 * (x - x') * (y - y') * (a * c + b * d)); [ring|].
  rewrite U1, U2, U3. ring.
Qed.
Lemma Wv_dot : forall x y, rdot (Wv x y) (Wv x y) = x * x + y * y.
Proof. intros. unfold Wv; simpl. transitivity (x * x * (a * a + b * b) + y * y * (c * c + d * d) + 2 * x * y * (a * c + b * d)); [ring|]. rewrite U1, U2, U3. ring. Qed.
Lemma W_inj : forall x y x' y', W x y = W x' y' -> x = x' /\ y = y'.
Proof.
  intros x y x' y' E. assert (D := W_dist x y x' y'). rewrite E, W_dist in D. pose proof (Rle_0_sqr (x - x')) as K1. pose proof (Rle_0_sqr (y - y')) as K2. unfold Rsqr in *.
  assert (Z1 : (x - x') * (x - x') = 0) by lra. assert (Z2 : (y - y') * (y - y') = 0) by lra. apply Rmult_integral in Z1, Z2. lra.
Qed.
Definition Wset (S : R -> R -> Prop) (X : rvec) : Prop := exists x y, S x y /\ X = W x y.
Variables (cx cy vx vy r : R).
Let s := mkball (W cx cy) r.
Let vel := Wv vx vy.
Definition near (S : R -> R -> Prop) (t : R) : Prop :=
  exists x y, S x y /\ (x - (cx + t * vx)) * (x - (cx + t * vx)) + (y - (cy + t * vy)) * (y - (cy + t * vy)) <= r * r.
Lemma near_iff : forall S t, ball_meets (moved s vel t) (Wset S) <-> near S t.
Proof.
  intros S t. unfold ball_meets, in_rball, moved, s, vel; cbn [b_center b_radius]. rewrite W_along. split.
  - intros (X & _ & (x & y & HS & ->) & H). rewrite W_dist in H. exists x, y. split; assumption.
  - intros (x & y & HS & H). exists (W x y). split; [reflexivity|]. split; [exists x, y; split; [exact HS|reflexivity]|]. rewrite W_dist. exact H.
Qed.
Lemma meets_ext : forall (s0 : ball) (P Q : rvec -> Prop), (forall X, P X <-> Q X) -> (ball_meets s0 P <-> ball_meets s0 Q).
Proof. intros s0 P Q H. unfold ball_meets. split; intros (X & L & K & B); exists X; (split; [exact L|]; split; [apply H; exact K|exact B]). Qed.
Lemma seg_x : forall w X, 0 < w -> (on_rsegment (W 0 0) (W w 0) X <-> Wset (fun x y => 0 <= x <= w /\ y = 0) X).
Proof.
  intros w X Hw. unfold on_rsegment, along, W, Wset; simpl. split.
  - intros (t & Ht & ->). exists (t * w), 0. split; [split; [nra|reflexivity]|]. apply pair_eq; ring.
  - intros (x & y & [Hx ->] & ->). exists (x / w). split; [split; apply Rmult_le_reg_r with w; try exact Hw; unfold Rdiv; rewrite Rmult_assoc, Rinv_l by lra; lra|]. apply pair_eq; field; lra.
Qed.
Lemma seg_y : forall h X, 0 < h -> (on_rsegment (W 0 0) (W 0 h) X <-> Wset (fun x y => x = 0 /\ 0 <= y <= h) X).
Proof.
  intros h X Hh. unfold on_rsegment, along, W, Wset; simpl. split.
  - intros (t & Ht & ->). exists 0, (t * h). split; [split; [reflexivity|nra]|]. apply pair_eq; ring.
  - intros (x & y & [-> Hy] & ->). exists (y / h). split; [split; apply Rmult_le_reg_r with h; try exact Hh; unfold Rdiv; rewrite Rmult_assoc, Rinv_l by lra; lra|]. apply pair_eq; field; lra.
Qed.

(** ** The corner region *)
Variables (w h : R).
Hypothesis Hw : 0 < w.
Hypothesis Hh : 0 < h.
Hypothesis Hr : 0 < r.
Definition box (x y : R) : Prop := 0 <= x <= w /\ 0 <= y <= h.
Lemma clampsq : forall z x0 hi, 0 <= z <= hi -> forall q, (q <= 0 -> x0 = 0) -> (0 <= q <= hi -> x0 = q) -> (hi <= q -> x0 = hi) -> (x0 - q) * (x0 - q) <= (z - q) * (z - q).
Proof.
  intros z x0 hi Hz q H1 H2 H3. destruct (Rle_or_lt q 0) as [A|A]; [rewrite (H1 A); nra|]. destruct (Rle_or_lt q hi) as [B|B]; [rewrite (H2 ltac:(lra)); pose proof (Rle_0_sqr (z - q)) as K; unfold Rsqr in K; nra|rewrite (H3 ltac:(lra)); nra].
Qed.
Lemma corner_key : forall te t, te <= t -> - r <= cx + te * vx < 0 -> - r <= cy + te * vy < 0 -> near box t ->
  exists t2, te <= t2 <= t /\ (near (fun x y => 0 <= x <= w /\ y = 0) t2 \/ near (fun x y => x = 0 /\ 0 <= y <= h) t2).
Proof.
  intros te t Le Ex Ey (x & y & [Hx Hy] & N). set (qx := cx + t * vx) in *. set (qy := cy + t * vy) in *.
  assert (Sx : 0 <= (x - qx) * (x - qx)) by (pose proof (Rle_0_sqr (x - qx)) as K; exact K). assert (Sy : 0 <= (y - qy) * (y - qy)) by (pose proof (Rle_0_sqr (y - qy)) as K; exact K).
  destruct (Rle_or_lt qx 0) as [Gx|Gx].
  { exists t. split; [lra|]. right. exists 0, y. split; [split; [reflexivity|exact Hy]|]. fold qx qy. nra. }
  destruct (Rle_or_lt qy 0) as [Gy|Gy].
  { exists t. split; [lra|]. left. exists x, 0. split; [split; [exact Hx|reflexivity]|]. fold qx qy. nra. }
  (* both coordinates become positive *)
  assert (Cross : forall p v, p + te * v < 0 -> 0 < p + t * v -> exists t1, te <= t1 <= t /\ p + t1 * v = 0).
  { intros p v A B. set (k := (0 - (p + te * v)) / (t - te)). assert (T : te <> t) by (intros ->; lra). assert (Vp : 0 < v) by nra. exists (- p / v). assert (E : p + - p / v * v = 0) by (field; lra). split; [split; nra|exact E]. }
  destruct (Cross cx vx (proj2 Ex) Gx) as (t1 & T1 & E1). destruct (Cross cy vy (proj2 Ey) Gy) as (t2 & T2 & E2).
  assert (Vx : 0 < vx) by (unfold qx in Gx; nra). assert (Vy : 0 < vy) by (unfold qy in Gy; nra).
  destruct (Rle_or_lt t1 t2) as [O|O].
  - exists t1. split; [exact T1|]. right. exists 0, 0. split; [split; [reflexivity|lra]|]. rewrite E1. assert (- r <= cy + t1 * vy <= 0) by (split; nra). nra.
  - exists t2. split; [exact T2|]. left. exists 0, 0. split; [split; [lra|reflexivity]|]. rewrite E2. assert (- r <= cx + t2 * vx <= 0) by (split; nra). nra.
Qed.

Hypothesis NV : vx <> 0 \/ vy <> 0.
Hypothesis Out : forall t, near box t -> 0 < t \/ t < 0.

Lemma side_test : forall P1 (S : R -> R -> Prop) x1 y1, P1 = W x1 y1 -> (x1 <> 0 \/ y1 <> 0) -> box x1 y1 -> (forall X, on_rsegment (W 0 0) P1 X <-> Wset S X) -> (forall x y, S x y -> box x y) ->
  match side_hit rdirect s vel (W 0 0) P1 with
  | Some (t, q) => first_time (near S) t /\ 0 < t /\ Wset box q /\ in_rball (moved s vel t) q
  | None => forall t, 0 <= t -> ~ near S t
  end.
Proof.
  intros P1 S x1 y1 E1 N1 B1 Seg SB. unfold side_hit. assert (B0 : box 0 0) by (unfold box; lra).
  assert (Ends : forall e, e = W 0 0 \/ e = P1 -> exists ex ey, e = W ex ey /\ box ex ey) by (intros e [->| ->]; [exists 0, 0; split; [reflexivity|exact B0]|exists x1, y1; split; [exact E1|exact B1]]).
  assert (M := moving_segment_ok s vel (W 0 0) P1 eq_refl eq_refl eq_refl ltac:(rewrite E1; reflexivity)).
  assert (X1 : W 0 0 <> P1) by (intro Q; rewrite E1 in Q; apply W_inj in Q; lra).
  assert (X2 : 0 <= b_radius s) by (cbn; lra). assert (X3 : rdot vel vel <> 0).
  { unfold vel. rewrite Wv_dot. intro Z. pose proof (Rle_0_sqr vx) as K1. pose proof (Rle_0_sqr vy) as K2. unfold Rsqr in *. assert (Z1 : vx * vx = 0) by lra. assert (Z2 : vy * vy = 0) by lra. apply Rmult_integral in Z1, Z2. lra. }
  assert (X4 : forall e, e = W 0 0 \/ e = P1 -> ~ (rdist2 (b_center s) e = b_radius s * b_radius s /\ 0 <= rdot (rsub (b_center s) e) vel)).
  { intros e He [D _]. destruct (Ends e He) as (ex & ey & -> & Be). cbn [b_center b_radius s] in D. rewrite W_dist in D.
    destruct (Out 0) as [Z|Z]; [|lra|lra]. exists ex, ey. split; [exact Be|]. rewrite !Rmult_0_l, !Rplus_0_r. lra. }
  specialize (M X1 X2 X3 X4). destruct (moving_sphere_segment_intersection rdirect s vel (W 0 0) P1) as [f [[t q]|]].
  - destruct M as (F & (T0 & T1 & T2) & Q1 & Q2). rewrite F.
    assert (NT : near S t) by (apply near_iff, (meets_ext _ _ _ Seg), T1).
    assert (TP : 0 < t). { destruct NT as (x & y & HS & D). destruct (Out t) as [Z|Z]; [exists x, y; split; [apply SB; exact HS|exact D]|exact Z|lra]. }
    split; [split; [exact T0|]; split; [exact NT|]; intros t' H' K; apply T2; [exact H'|apply (meets_ext _ _ _ Seg), near_iff, K]|]. split; [exact TP|].
    destruct (sf_endpoint f).
    + destruct (Q2 eq_refl TP Hr) as [Qe Qb]. split; [|exact Qb]. destruct (Ends q Qe) as (ex & ey & -> & Be). exists ex, ey. split; [exact Be|reflexivity].
    + destruct (Q1 eq_refl) as [Qe Qb]. split; [|exact Qb]. apply Seg in Qe. destruct Qe as (ex & ey & He & ->). exists ex, ey. split; [apply SB; exact He|reflexivity].
  - destruct M as [_ M]. intros t' H' K. apply (M t' H'). apply (meets_ext _ _ _ Seg), near_iff, K.
Qed.

Lemma corner_first : forall te, 0 <= te -> - r <= cx + te * vx < 0 -> - r <= cy + te * vy < 0 -> (forall t, 0 <= t -> near box t -> te <= t) ->
  match corner_best rdirect s vel (W 0 0) (W w 0) (W 0 h) with
  | Some (t, q) => first_time (near box) t /\ Wset box q /\ in_rball (moved s vel t) q
  | None => forall t, 0 <= t -> ~ near box t
  end.
Proof.
  intros te T0 Ex Ey Te. unfold corner_best.
  assert (A1 := side_test (W w 0) (fun x y => 0 <= x <= w /\ y = 0) w 0 eq_refl ltac:(lra) ltac:(unfold box; lra) (fun X => seg_x w X Hw) ltac:(intros x y [? ->]; unfold box; lra)).
  assert (A2 := side_test (W 0 h) (fun x y => x = 0 /\ 0 <= y <= h) 0 h eq_refl ltac:(lra) ltac:(unfold box; lra) (fun X => seg_y h X Hh) ltac:(intros x y [-> ?]; unfold box; lra)).
  assert (Key : forall t, 0 <= t -> near box t -> exists t2, 0 <= t2 <= t /\ (near (fun x y => 0 <= x <= w /\ y = 0) t2 \/ near (fun x y => x = 0 /\ 0 <= y <= h) t2)).
  { intros t H K. destruct (corner_key te t (Te t H K) Ex Ey K) as (t2 & B & C). exists t2. split; [lra|exact C]. }
  assert (I1 : forall t, near (fun x y => 0 <= x <= w /\ y = 0) t -> near box t) by (intros t (x & y & [H ->] & K); exists x, 0; split; [unfold box; lra|exact K]).
  assert (I2 : forall t, near (fun x y => x = 0 /\ 0 <= y <= h) t -> near box t) by (intros t (x & y & [-> H] & K); exists 0, y; split; [unfold box; lra|exact K]).
  destruct (side_hit rdirect s vel (W 0 0) (W 0 h)) as [[t2 q2]|]; destruct (side_hit rdirect s vel (W 0 0) (W w 0)) as [[t1 q1]|].
  - destruct A1 as ((B1 & B2 & B3) & _ & B4 & B5). destruct A2 as ((C1 & C2 & C3) & _ & C4 & C5). destruct (Rltb_spec t2 t1) as [L|L].
    + split; [|split; assumption]. split; [exact C1|]. split; [apply I2, C2|]. intros t H K. destruct (Key t H K) as (t3 & Q & [Z|Z]); [specialize (B3 t3 ltac:(lra) Z); lra|specialize (C3 t3 ltac:(lra) Z); lra].
    + split; [|split; assumption]. split; [exact B1|]. split; [apply I1, B2|]. intros t H K. destruct (Key t H K) as (t3 & Q & [Z|Z]); [specialize (B3 t3 ltac:(lra) Z); lra|specialize (C3 t3 ltac:(lra) Z); lra].
  - destruct A2 as ((C1 & C2 & C3) & _ & C4 & C5). split; [|split; assumption]. split; [exact C1|]. split; [apply I2, C2|]. intros t H K. destruct (Key t H K) as (t3 & Q & [Z|Z]); [exfalso; exact (A1 t3 ltac:(lra) Z)|specialize (C3 t3 ltac:(lra) Z); lra].
  - destruct A1 as ((B1 & B2 & B3) & _ & B4 & B5). split; [|split; assumption]. split; [exact B1|]. split; [apply I1, B2|]. intros t H K. destruct (Key t H K) as (t3 & Q & [Z|Z]); [specialize (B3 t3 ltac:(lra) Z); lra|exfalso; exact (A2 t3 ltac:(lra) Z)].
  - intros t H K. destruct (Key t H K) as (t3 & Q & [Z|Z]); [exact (A1 t3 ltac:(lra) Z)|exact (A2 t3 ltac:(lra) Z)].
Qed.
End Frame.
