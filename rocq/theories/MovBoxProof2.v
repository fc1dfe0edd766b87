(** A moving disc against a box: the whole test. *)
From Verif Require Import RBase SphereModel SphereSpec SphereProof MovBoxModel MovBoxSpec MovBoxProof.

Section Box.
Variables (ox oy a b : R).
Hypothesis U : a * a + b * b = 1.
Notation WB := (W ox oy a b (- b) a).
Notation VB := (Wv a b (- b) a).
Variables (cx cy vx vy r lx ly hx hy : R).
Hypothesis Lx : lx < hx.
Hypothesis Ly : ly < hy.
Hypothesis Hr : 0 < r.
Hypothesis NV : vx <> 0 \/ vy <> 0.
Hypothesis Out : ~ (lx - r <= cx <= hx + r /\ ly - r <= cy <= hy + r).
Let s := mkball (WB cx cy) r.
Let vel := VB vx vy.
Definition inbox (x y : R) : Prop := lx <= x <= hx /\ ly <= y <= hy.
Notation nearB := (near cx cy vx vy r).
Definition big (t : R) : Prop := lx - r <= cx + vx * t <= hx + r /\ ly - r <= cy + vy * t <= hy + r.

Lemma U2' : (- b) * (- b) + a * a = 1. Proof. lra. Qed.
Lemma U3' : a * (- b) + b * a = 0. Proof. ring. Qed.

Lemma near_big : forall t, nearB inbox t -> big t.
Proof.
  intros t (x & y & [Hx Hy] & D). unfold big. set (qx := cx + t * vx) in *. set (qy := cy + t * vy) in *. replace (cx + vx * t) with qx by (unfold qx; ring). replace (cy + vy * t) with qy by (unfold qy; ring).
  clearbody qx qy. assert (Sx : 0 <= (x - qx) * (x - qx)) by apply Rle_0_sqr. assert (Sy : 0 <= (y - qy) * (y - qy)) by apply Rle_0_sqr.
  assert (A : - r <= x - qx <= r) by (split; nra). assert (B : - r <= y - qy <= r) by (split; nra). lra.
Qed.
Lemma near_pos : forall t, nearB inbox t -> 0 < t \/ t < 0.
Proof. intros t H. apply near_big in H. destruct (Rtotal_order t 0) as [K|[K|K]]; [right; exact K| |left; exact K]. exfalso. subst t. apply Out. unfold big in H. rewrite !Rmult_0_r, !Rplus_0_r in H. exact H. Qed.

(** The entrance is on the border of the enlarged box. *)
Lemma entrance : forall t, first_time big t -> lx - r < cx + vx * t < hx + r -> ly - r < cy + vy * t < hy + r -> False.
Proof.
  intros t (T0 & _ & T2) A B. assert (TP : 0 < t).
  { destruct (Req_dec t 0) as [->|]; [|lra]. exfalso. apply Out. rewrite !Rmult_0_r, !Rplus_0_r in *. lra. }
  set (m := Rmin (Rmin (cx + vx * t - (lx - r)) (hx + r - (cx + vx * t))) (Rmin (cy + vy * t - (ly - r)) (hy + r - (cy + vy * t)))).
  assert (M : 0 < m /\ m <= cx + vx * t - (lx - r) /\ m <= hx + r - (cx + vx * t) /\ m <= cy + vy * t - (ly - r) /\ m <= hy + r - (cy + vy * t)).
  { unfold m. unfold Rmin. destruct (Rle_dec (cx + vx * t - (lx - r)) (hx + r - (cx + vx * t))); destruct (Rle_dec (cy + vy * t - (ly - r)) (hy + r - (cy + vy * t)));
    match goal with |- context [Rle_dec ?x ?y] => destruct (Rle_dec x y) end; lra. }
  clearbody m. destruct M as (M0 & M1 & M2 & M3 & M4). set (n := Rabs vx + Rabs vy + 1). assert (Ax := Rabs_pos vx). assert (Ay := Rabs_pos vy). assert (N : 0 < n) by (unfold n; lra).
  set (dl := Rmin t (m / n)). assert (Q : m / n * n = m) by (field; lra). assert (Qp : 0 < m / n) by (apply Rdiv_lt_0_compat; assumption).
  assert (D : 0 < dl /\ dl <= t /\ dl <= m / n) by (unfold dl, Rmin; destruct (Rle_dec t (m / n)); lra). clearbody dl. destruct D as (D0 & D1 & D2).
  assert (Dn : dl * n <= m) by (apply Rle_trans with (m / n * n); [apply Rmult_le_compat_r; lra|lra]).
  assert (Bx : - m <= vx * dl <= m). { assert (K : Rabs (vx * dl) <= m). { rewrite Rabs_mult, (Rabs_right dl) by lra. apply Rle_trans with (n * dl); [apply Rmult_le_compat_r; [lra|unfold n; lra]|lra]. } unfold Rabs in K; destruct (Rcase_abs _) in K; lra. }
  assert (By : - m <= vy * dl <= m). { assert (K : Rabs (vy * dl) <= m). { rewrite Rabs_mult, (Rabs_right dl) by lra. apply Rle_trans with (n * dl); [apply Rmult_le_compat_r; [lra|unfold n; lra]|lra]. } unfold Rabs in K; destruct (Rcase_abs _) in K; lra. }
  specialize (T2 (t - dl) ltac:(lra)). assert (big (t - dl)); [|specialize (T2 H); lra].
  unfold big. replace (cx + vx * (t - dl)) with (cx + vx * t - vx * dl) by ring. replace (cy + vy * (t - dl)) with (cy + vy * t - vy * dl) by ring. lra.
Qed.

Definition good (t : R) (q : rvec) : Prop := first_time (nearB inbox) t /\ Wset ox oy a b (- b) a inbox q /\ in_rball (moved s vel t) q.

(** ** Corners *)
Lemma corner_case : forall Vx Vy sx sy te, sx * sx = 1 -> sy * sy = 1 ->
  (forall x, lx <= x <= hx <-> 0 <= sx * (x - Vx) <= hx - lx) -> (forall y, ly <= y <= hy <-> 0 <= sy * (y - Vy) <= hy - ly) ->
  first_time big te -> - r <= sx * (cx + vx * te - Vx) < 0 -> - r <= sy * (cy + vy * te - Vy) < 0 ->
  match corner_best rdirect s vel (WB Vx Vy) (WB (Vx + sx * (hx - lx)) Vy) (WB Vx (Vy + sy * (hy - ly))) with
  | Some (t, q) => good t q
  | None => forall t, 0 <= t -> ~ nearB inbox t
  end.
Proof.
  intros Vx Vy sx sy te Sx Sy Bx By (T0 & _ & T2) Ex Ey.
  set (ox' := ox + Vx * a - Vy * b). set (oy' := oy + Vx * b + Vy * a).
  assert (WW : forall x y, W ox' oy' (sx * a) (sx * b) (sy * - b) (sy * a) x y = WB (Vx + sx * x) (Vy + sy * y)) by (intros; unfold W, ox', oy'; apply pair_eq; ring).
  set (cx' := sx * (cx - Vx)). set (cy' := sy * (cy - Vy)).
  assert (Ec : WB cx cy = W ox' oy' (sx * a) (sx * b) (sy * - b) (sy * a) cx' cy').
  { rewrite WW. unfold cx', cy'. replace (Vx + sx * (sx * (cx - Vx))) with (Vx + (sx * sx) * (cx - Vx)) by ring. replace (Vy + sy * (sy * (cy - Vy))) with (Vy + (sy * sy) * (cy - Vy)) by ring. rewrite Sx, Sy. unfold W. apply pair_eq; ring. }
  assert (Ev : VB vx vy = Wv (sx * a) (sx * b) (sy * - b) (sy * a) (sx * vx) (sy * vy)).
  { unfold Wv. apply pair_eq; [transitivity (sx * sx * (vx * a) + sy * sy * (vy * - b))|transitivity (sx * sx * (vx * b) + sy * sy * (vy * a))]; (rewrite Sx, Sy; ring) || ring. }
  assert (V1 : sx * a * (sx * a) + sx * b * (sx * b) = 1) by (transitivity (sx * sx * (a * a + b * b)); [ring|rewrite Sx, U; ring]).
  assert (V2 : sy * - b * (sy * - b) + sy * a * (sy * a) = 1) by (transitivity (sy * sy * (a * a + b * b)); [ring|rewrite Sy, U; ring]).
  assert (V3 : sx * a * (sy * - b) + sx * b * (sy * a) = 0) by ring.
  assert (Nr : forall t, near cx' cy' (sx * vx) (sy * vy) r (box (hx - lx) (hy - ly)) t <-> nearB inbox t).
  { intro t. unfold near. assert (Sq : forall k z q v p, k * k = 1 -> (k * (z - p) - (k * (q - p) + t * (k * v))) * (k * (z - p) - (k * (q - p) + t * (k * v))) = (z - (q + t * v)) * (z - (q + t * v))).
    { intros k z q v p Hk. transitivity (k * k * ((z - (q + t * v)) * (z - (q + t * v)))); [ring|rewrite Hk; ring]. }
    split.
    - intros (x & y & [Hx Hy] & D). exists (Vx + sx * x), (Vy + sy * y). assert (X1 : sx * (Vx + sx * x - Vx) = x) by (transitivity (sx * sx * x); [ring|rewrite Sx; ring]). assert (Y1 : sy * (Vy + sy * y - Vy) = y) by (transitivity (sy * sy * y); [ring|rewrite Sy; ring]).
      split; [split; [apply Bx; rewrite X1; exact Hx|apply By; rewrite Y1; exact Hy]|]. rewrite <- (Sq sx (Vx + sx * x) cx vx Vx Sx), <- (Sq sy (Vy + sy * y) cy vy Vy Sy), X1, Y1. exact D.
    - intros (x & y & [Hx Hy] & D). exists (sx * (x - Vx)), (sy * (y - Vy)). split; [split; [apply Bx; exact Hx|apply By; exact Hy]|]. unfold cx', cy'. rewrite (Sq sx x cx vx Vx Sx), (Sq sy y cy vy Vy Sy). exact D. }
  assert (CF := corner_first ox' oy' (sx * a) (sx * b) (sy * - b) (sy * a) V1 V2 V3 cx' cy' (sx * vx) (sy * vy) r (hx - lx) (hy - ly) ltac:(lra) ltac:(lra) Hr).
  assert (NZ : forall k, k * k = 1 -> k <> 0) by (intros k Hk ->; lra).
  assert (NV' : sx * vx <> 0 \/ sy * vy <> 0) by (destruct NV; [left|right]; apply Rmult_integral_contrapositive; split; [apply NZ; assumption|assumption|apply NZ; assumption|assumption]).
  specialize (CF NV' ltac:(intros t H; apply near_pos, Nr, H) te T0).
  assert (Ex' : cx' + te * (sx * vx) = sx * (cx + vx * te - Vx)) by (unfold cx'; ring). assert (Ey' : cy' + te * (sy * vy) = sy * (cy + vy * te - Vy)) by (unfold cy'; ring).
  rewrite Ex', Ey' in CF. specialize (CF Ex Ey ltac:(intros t H K; apply T2; [exact H|apply near_big, Nr, K])).
  rewrite <- Ec, <- Ev in CF. fold vel s in CF. rewrite !WW in CF. rewrite !Rmult_0_r, !Rplus_0_r in CF.
  destruct (corner_best rdirect s vel (WB Vx Vy) (WB (Vx + sx * (hx - lx)) Vy) (WB Vx (Vy + sy * (hy - ly)))) as [[t q]|].
  - destruct CF as ((F1 & F2 & F3) & (x & y & [Hx Hy] & Eq) & IB). split; [|split; [|exact IB]].
    + split; [exact F1|]. split; [apply Nr, F2|]. intros t' H' K. apply F3; [exact H'|apply Nr, K].
    + rewrite WW in Eq. exists (Vx + sx * x), (Vy + sy * y). split; [|exact Eq]. assert (X1 : sx * (Vx + sx * x - Vx) = x) by (transitivity (sx * sx * x); [ring|rewrite Sx; ring]). assert (Y1 : sy * (Vy + sy * y - Vy) = y) by (transitivity (sy * sy * y); [ring|rewrite Sy; ring]).
      split; [apply Bx; rewrite X1; exact Hx|apply By; rewrite Y1; exact Hy].
  - intros t H K. apply (CF t H). apply Nr, K.
Qed.

(** ** Sides *)
Lemma W_dotsub : forall x y x1 y1 x2 y2, rdot (rsub (WB x y) (WB x1 y1)) (rsub (WB x2 y2) (WB x1 y1)) = (x - x1) * (x2 - x1) + (y - y1) * (y2 - y1).
Proof. intros. unfold W; simpl. transitivity (((x - x1) * (x2 - x1) + (y - y1) * (y2 - y1)) * (a * a + b * b)); [ring|]. rewrite U. ring. Qed.
Lemma closest_foot : forall qx qy x1 y1 x2 y2 t, 0 <= t <= 1 -> 0 < (x2 - x1) * (x2 - x1) + (y2 - y1) * (y2 - y1) ->
  (qx - x1) * (x2 - x1) + (qy - y1) * (y2 - y1) = t * ((x2 - x1) * (x2 - x1) + (y2 - y1) * (y2 - y1)) ->
  rclosest_on_segment (WB qx qy) (WB x1 y1) (WB x2 y2) = Some (WB (x1 + t * (x2 - x1)) (y1 + t * (y2 - y1))).
Proof.
  intros qx qy x1 y1 x2 y2 t Ht L E. unfold rclosest_on_segment. rewrite !W_dotsub, E. set (l := (x2 - x1) * (x2 - x1) + (y2 - y1) * (y2 - y1)) in *. clearbody l.
  destruct (Reqb_spec l 0) as [Z|_]; [lra|]. replace (t * l / l) with t by (field; lra).
  destruct (Rleb_spec t 0) as [A|A]; [replace t with 0 by lra; f_equal; unfold W; apply pair_eq; ring|]. destruct (Rleb_spec 1 t) as [B|B]; [replace t with 1 by lra; f_equal; unfold W; apply pair_eq; ring|].
  f_equal. unfold W; simpl. apply pair_eq; ring.
Qed.
(** The end of the side case: the centre (qx, qy) at time t, its foot (kx, ky) at distance r. *)
Lemma side_case : forall te kx ky x1 y1 x2 y2 l, first_time big te -> inbox kx ky ->
  (kx - (cx + te * vx)) * (kx - (cx + te * vx)) + (ky - (cy + te * vy)) * (ky - (cy + te * vy)) = r * r ->
  0 <= l <= 1 -> 0 < (x2 - x1) * (x2 - x1) + (y2 - y1) * (y2 - y1) ->
  (cx + te * vx - x1) * (x2 - x1) + (cy + te * vy - y1) * (y2 - y1) = l * ((x2 - x1) * (x2 - x1) + (y2 - y1) * (y2 - y1)) ->
  kx = x1 + l * (x2 - x1) -> ky = y1 + l * (y2 - y1) ->
  exists q, match rclosest_on_segment (radd (b_center s) (rscale te vel)) (WB x1 y1) (WB x2 y2) with
      | None => NotANumber
      | Some k =>
        let w := rsub k (radd (b_center s) (rscale te vel)) in
        Hit (te, if Reqb (rdot w w) 0 then None else Some (radd (radd (b_center s) (rscale te vel)) (rscale r (rnormalize w))))
      end = Hit (te, Some q) /\ good te q.
Proof.
  intros te kx ky x1 y1 x2 y2 l (T0 & T1 & T2) IK D Hl L E Ekx Eky.
  assert (NC : radd (b_center s) (rscale te vel) = WB (cx + te * vx) (cy + te * vy)) by (exact (W_along ox oy a b (- b) a cx cy vx vy te)).
  rewrite NC. rewrite (closest_foot _ _ x1 y1 x2 y2 l Hl L E). rewrite <- Ekx, <- Eky. cbv zeta.
  assert (DD : rdot (rsub (WB kx ky) (WB (cx + te * vx) (cy + te * vy))) (rsub (WB kx ky) (WB (cx + te * vx) (cy + te * vy))) = r * r) by (rewrite W_dotsub; exact D).
  rewrite DD. destruct (Reqb_spec (r * r) 0) as [Z|_]; [nra|].
  assert (Eq : radd (WB (cx + te * vx) (cy + te * vy)) (rscale r (rnormalize (rsub (WB kx ky) (WB (cx + te * vx) (cy + te * vy))))) = WB kx ky).
  { unfold rnormalize, rnorm. rewrite DD. rewrite sqrt_square by lra. unfold W; simpl. apply pair_eq; field; lra. }
  rewrite Eq. exists (WB kx ky). split; [reflexivity|]. split; [|split].
  - split; [exact T0|]. split; [exists kx, ky; split; [exact IK|lra]|]. intros t H K. apply T2; [exact H|apply near_big, K].
  - exists kx, ky. split; [exact IK|reflexivity].
  - unfold in_rball, moved; cbn [b_center b_radius s]. fold vel. unfold vel. rewrite W_along, (W_dist ox oy a b (- b) a U U2' U3'). lra.
Qed.

(** ** The whole test *)
Definition cornerW (n : nat) : rvec := WB (if Nat.testbit n 0 then hx else lx) (if Nat.testbit n 1 then hy else ly).
Lemma moving_box_ok : forall corner, (forall n, (n < 4)%nat -> corner n = cornerW n) ->
  match moving_sphere_box rdirect s vel corner cx cy vx vy lx ly hx hy with
  | Hit (t, q) => exists q', q = Some q' /\ good t q'
  | Miss => forall t, 0 <= t -> ~ nearB inbox t
  | NotANumber => False
  end.
Proof.
  intros corner HC. unfold moving_sphere_box. cbn [b_radius s].
  assert (RO := rray_ok cx cy vx vy (lx - r) (ly - r) (hx + r) (hy + r) ltac:(lra) ltac:(lra) NV Out). fold s.
  destruct (rray_aabb rdirect cx cy vx vy (lx - r) (ly - r) (hx + r) (hy + r)) as [[te P]|].
  2:{ intros t H K. apply near_big in K. exact (RO t H K). }
  destruct RO as [FT ->]. fold big in FT. assert (FT' := FT). destruct FT' as (T0 & [BX BY] & T2).
  assert (C0 := HC 0%nat ltac:(lia)). assert (C1 := HC 1%nat ltac:(lia)). assert (C2 := HC 2%nat ltac:(lia)). assert (C3 := HC 3%nat ltac:(lia)).
  unfold cornerW in C0, C1, C2, C3. cbn in C0, C1, C2, C3.
  assert (Sx : cx + te * vx = cx + vx * te) by ring. assert (Sy : cy + te * vy = cy + vy * te) by ring.
  assert (Ent := entrance te FT).
  assert (Corner : forall V P1 P2 Vx Vy sx sy, V = WB Vx Vy -> P1 = WB (Vx + sx * (hx - lx)) Vy -> P2 = WB Vx (Vy + sy * (hy - ly)) ->
    sx * sx = 1 -> sy * sy = 1 ->
    (forall x, lx <= x <= hx <-> 0 <= sx * (x - Vx) <= hx - lx) -> (forall y, ly <= y <= hy <-> 0 <= sy * (y - Vy) <= hy - ly) ->
    - r <= sx * (cx + vx * te - Vx) < 0 -> - r <= sy * (cy + vy * te - Vy) < 0 ->
    match (match corner_best rdirect s vel V P1 P2 with None => Miss | Some (t, q) => Hit (t, Some q) end) with
    | Hit (t, q) => exists q', q = Some q' /\ good t q'
    | Miss => forall t, 0 <= t -> ~ nearB inbox t
    | NotANumber => False
    end).
  { intros V P1 P2 Vx Vy sx sy -> -> -> S1 S2 B1 B2 E1 E2. assert (CC := corner_case Vx Vy sx sy te S1 S2 B1 B2 FT E1 E2).
    destruct (corner_best rdirect s vel (WB Vx Vy) (WB (Vx + sx * (hx - lx)) Vy) (WB Vx (Vy + sy * (hy - ly)))) as [[t q]|]; [exists q; split; [reflexivity|exact CC]|exact CC]. }
  destruct (Rltb_spec (cx + vx * te) lx) as [A1|A1]; [destruct (Rltb_spec hx (cx + vx * te)) as [A2|A2]; [lra|]|destruct (Rltb_spec hx (cx + vx * te)) as [A2|A2]];
  (destruct (Rltb_spec (cy + vy * te) ly) as [B1|B1]; [destruct (Rltb_spec hy (cy + vy * te)) as [B2|B2]; [lra|]|destruct (Rltb_spec hy (cy + vy * te)) as [B2|B2]]); cbn [Nat.add Nat.eqb].
  - (* lower left *) apply (Corner _ _ _ lx ly 1 1); try lra; try (intro; lra); [exact C0|cbn; rewrite C1; f_equal; ring|cbn; rewrite C2; f_equal; ring].
  - (* upper left *) apply (Corner _ _ _ lx hy 1 (-1)); try lra; try (intro; lra); [exact C2|cbn; rewrite C3; f_equal; ring|cbn; rewrite C0; f_equal; ring].
  - (* left *) change (Nat.lxor 1 3) with 2%nat. cbv zeta. rewrite C2, C0. destruct (side_case te lx (cy + te * vy) lx hy lx ly ((hy - (cy + te * vy)) / (hy - ly)) FT) as (q & Eq & G).
    + unfold inbox. lra.
    + assert (cx + vx * te = lx - r) by (destruct (Rle_or_lt (cx + vx * te) (lx - r)); [lra|exfalso; apply Ent; lra]). rewrite Sx, H. ring.
    + split; apply Rmult_le_reg_r with (hy - ly); try lra; unfold Rdiv; rewrite Rmult_assoc, Rinv_l by lra; lra.
    + nra.
    + field; lra.
    + ring.
    + field; lra.
    + cbv zeta in Eq. rewrite Eq. exists q. split; [reflexivity|exact G].
  - (* lower right *) apply (Corner _ _ _ hx ly (-1) 1); try lra; try (intro; lra); [exact C1|cbn; rewrite C0; f_equal; ring|cbn; rewrite C3; f_equal; ring].
  - (* upper right *) apply (Corner _ _ _ hx hy (-1) (-1)); try lra; try (intro; lra); [exact C3|cbn; rewrite C2; f_equal; ring|cbn; rewrite C1; f_equal; ring].
  - (* right *) change (Nat.lxor 0 3) with 3%nat. cbv zeta. rewrite C3, C1. destruct (side_case te hx (cy + te * vy) hx hy hx ly ((hy - (cy + te * vy)) / (hy - ly)) FT) as (q & Eq & G).
    + unfold inbox. lra.
    + assert (cx + vx * te = hx + r) by (destruct (Rle_or_lt (hx + r) (cx + vx * te)); [lra|exfalso; apply Ent; lra]). rewrite Sx, H. ring.
    + split; apply Rmult_le_reg_r with (hy - ly); try lra; unfold Rdiv; rewrite Rmult_assoc, Rinv_l by lra; lra.
    + nra.
    + field; lra.
    + ring.
    + field; lra.
    + cbv zeta in Eq. rewrite Eq. exists q. split; [reflexivity|exact G].
  - (* below *) change (Nat.lxor 2 3) with 1%nat. cbv zeta. rewrite C1, C0. destruct (side_case te (cx + te * vx) ly hx ly lx ly ((hx - (cx + te * vx)) / (hx - lx)) FT) as (q & Eq & G).
    + unfold inbox. lra.
    + assert (cy + vy * te = ly - r) by (destruct (Rle_or_lt (cy + vy * te) (ly - r)); [lra|exfalso; apply Ent; lra]). rewrite Sy, H. ring.
    + split; apply Rmult_le_reg_r with (hx - lx); try lra; unfold Rdiv; rewrite Rmult_assoc, Rinv_l by lra; lra.
    + nra.
    + field; lra.
    + field; lra.
    + ring.
    + cbv zeta in Eq. rewrite Eq. exists q. split; [reflexivity|exact G].
  - (* above *) change (Nat.lxor 0 3) with 3%nat. cbv zeta. rewrite C3, C2. destruct (side_case te (cx + te * vx) hy hx hy lx hy ((hx - (cx + te * vx)) / (hx - lx)) FT) as (q & Eq & G).
    + unfold inbox. lra.
    + assert (cy + vy * te = hy + r) by (destruct (Rle_or_lt (hy + r) (cy + vy * te)); [lra|exfalso; apply Ent; lra]). rewrite Sy, H. ring.
    + split; apply Rmult_le_reg_r with (hx - lx); try lra; unfold Rdiv; rewrite Rmult_assoc, Rinv_l by lra; lra.
    + nra.
    + field; lra.
    + field; lra.
    + ring.
    + cbv zeta in Eq. rewrite Eq. exists q. split; [reflexivity|exact G].
  - exfalso. apply Ent; lra.
Qed.
End Box.
