(** C137: the bounds of points of doubles.  C138: the polygon test on doubles. *)
From Coq Require Import Reals Floats ZArith QArith List Lia Bool.
Require Import Flocq.Core.Core.
From Verif Require Import Base PolygonModel FloatModel FloatSpec FloatProof FloatProof2 FloatProof3 FloatPolyModel FloatPolySpec FloatPolyProof.
From Coq Require Import Lra.
Import ListNotations.
Local Open Scope R_scope.

(** ** C137 *)
(** The bounds of at least one point are coordinates of the points, and by the policy no point lies outside. *)
Theorem C137_bounds : forall cmp ps, usual cmp -> ps <> [] -> Forall finite_pt ps ->
  attained (fget_bounds cmp ps) ps /\ forall p, In p ps -> within_bounds cmp (fget_bounds cmp ps) p.
Proof.
  intros cmp ps U N F. unfold fget_bounds. rewrite bounds_runs. cbn [b_xmin b_xmax b_ymin b_ymax initial_bounds].
  assert (FX : Forall finite (map fx ps)) by (clear N; induction F as [|p ps [A B] F IH]; cbn; constructor; assumption).
  assert (FY : Forall finite (map fy ps)) by (clear N FX; induction F as [|p ps [A B] F IH]; cbn; constructor; assumption).
  assert (NX : map fx ps <> []) by (destruct ps; [contradiction|discriminate]).
  assert (NY : map fy ps <> []) by (destruct ps; [contradiction|discriminate]).
  destruct (usual_run_min cmp _ U NX FX) as [A1 B1]. destruct (usual_run_max cmp _ U NX FX) as [A2 B2].
  destruct (usual_run_min cmp _ U NY FY) as [A3 B3]. destruct (usual_run_max cmp _ U NY FY) as [A4 B4].
  apply in_map_iff in A1, A2, A3, A4. destruct A1 as (p1 & E1 & I1), A2 as (p2 & E2 & I2), A3 as (p3 & E3 & I3), A4 as (p4 & E4 & I4).
  split.
  - unfold attained. cbn [b_xmin b_xmax b_ymin b_ymax]. repeat split; [exists p1|exists p2|exists p3|exists p4]; split; assumption.
  - intros p H. unfold within_bounds. cbn [b_xmin b_xmax b_ymin b_ymax]. repeat split; [apply B1|apply B2|apply B3|apply B4]; apply in_map, H.
Qed.
(** With the direct policy they are the least and the greatest coordinates, without rounding. *)
Theorem C137_direct : forall ps p, Forall finite_pt ps -> In p ps -> let b := fget_bounds fdirect ps in
  val (b_xmin b) <= val (fx p) <= val (b_xmax b) /\ val (b_ymin b) <= val (fy p) <= val (b_ymax b).
Proof.
  intros ps p F H b. assert (N : ps <> []) by (destruct ps; [destruct H|discriminate]).
  destruct (C137_bounds fdirect ps (or_introl eq_refl) N F) as (A & B). fold b in A, B. specialize (B p H). destruct B as (B1 & B2 & B3 & B4).
  rewrite Forall_forall in F. destruct (F p H) as [PX PY]. destruct A as ((p1 & I1 & E1) & (p2 & I2 & E2) & (p3 & I3 & E3) & (p4 & I4 & E4)).
  destruct (F _ I1) as [G1 _]. destruct (F _ I2) as [G2 _]. destruct (F _ I3) as [_ G3]. destruct (F _ I4) as [_ G4]. rewrite E1 in G1. rewrite E2 in G2. rewrite E3 in G3. rewrite E4 in G4.
  unfold fdirect in B1, B2, B3, B4. cbn [f_lt f_gt] in B1, B2, B3, B4. rewrite ltb_val in B1, B2, B3, B4 by assumption.
  destruct (Rlt_bool_spec (val (fx p)) (val (b_xmin b))); [discriminate|]. destruct (Rlt_bool_spec (val (b_xmax b)) (val (fx p))); [discriminate|].
  destruct (Rlt_bool_spec (val (fy p)) (val (b_ymin b))); [discriminate|]. destruct (Rlt_bool_spec (val (b_ymax b)) (val (fy p))); [discriminate|]. lra.
Qed.
Lemma slack_bound : forall D t w e, 0 <= t -> 0 <= w <= 1 / 100 -> - w <= e <= w -> D * (1 + e) <= t -> D <= t * (1 + 4 * w).
Proof.
  intros D t w e T W E H. apply Rnot_lt_le. intro K. assert (P : 0 < D) by nra.
  assert (A : D * (1 - w) <= t) by nra. assert (B : t * (1 + 4 * w) * (1 - w) < D * (1 - w)) by (apply Rmult_lt_compat_r; lra).
  assert (C : t * ((1 + 4 * w) * (1 - w)) >= t * 1) by (apply Rle_ge, Rmult_le_compat_l; nra). lra.
Qed.
(** With a tolerance a point lies outside by little more than the tolerance, *)
Theorem C137_tolerance : forall tol ps p, finite tol -> 0 <= val tol -> Forall finite_pt ps -> In p ps -> let b := fget_bounds (fabsolute tol) ps in
  let slack := val tol * (1 + powerRZ 2 (-51)) in
  val (b_xmin b) - slack <= val (fx p) <= val (b_xmax b) + slack /\ val (b_ymin b) - slack <= val (fy p) <= val (b_ymax b) + slack.
Proof.
  intros tol ps p T TN F H b slack. assert (N : ps <> []) by (destruct ps; [destruct H|discriminate]).
  destruct (C137_bounds (fabsolute tol) ps (or_intror (ex_intro _ tol (conj T (conj TN eq_refl)))) N F) as (A & B). fold b in A, B. specialize (B p H). destruct B as (B1 & B2 & B3 & B4).
  rewrite Forall_forall in F. destruct (F p H) as [PX PY]. destruct A as ((p1 & I1 & E1) & (p2 & I2 & E2) & (p3 & I3 & E3) & (p4 & I4 & E4)).
  destruct (F _ I1) as [G1 _]. destruct (F _ I2) as [G2 _]. destruct (F _ I3) as [_ G3]. destruct (F _ I4) as [_ G4]. rewrite E1 in G1. rewrite E2 in G2. rewrite E3 in G3. rewrite E4 in G4.
  assert (L : forall x m, finite x -> finite m -> f_lt (fabsolute tol) x m = false -> val m - slack <= val x).
  { intros x m X M K. unfold fabsolute in K; cbn [f_lt] in K. destruct (result_lt _ _ _ (sub_result x m X M) (opp_finite _ T)) as (E & _). rewrite E, opp_val in K.
    destruct (Rlt_bool_spec (rnd (val x - val m)) (- val tol)) as [?|K']; [discriminate|]. destruct (sub_error x m) as (e & EB & EE). rewrite EE in K'.
    apply Rabs_le_inv in EB. unfold slack. change 2 with (IZR Zaux.radix2). rewrite <- bpow_powerRZ. unfold unit_error in EB.
    change (-51)%Z with (2 + -53)%Z. rewrite bpow_plus. replace (bpow Zaux.radix2 2) with 4 by (cbn; lra).
    pose proof unit_error_small as US. unfold unit_error in US. set (w := bpow Zaux.radix2 (-53)) in *. clearbody w.
    assert (val m - val x <= val tol * (1 + 4 * w)) by (apply (slack_bound _ _ _ e); lra). lra. }
  assert (G : forall x m, finite x -> finite m -> f_gt (fabsolute tol) x m = false -> val x <= val m + slack).
  { intros x m X M K. unfold fabsolute in K; cbn [f_gt] in K. destruct (result_lt _ _ _ (sub_result x m X M) T) as (_ & E & _). rewrite E in K.
    destruct (Rlt_bool_spec (val tol) (rnd (val x - val m))) as [?|K']; [discriminate|]. destruct (sub_error x m) as (e & EB & EE). rewrite EE in K'.
    apply Rabs_le_inv in EB. unfold slack. change 2 with (IZR Zaux.radix2). rewrite <- bpow_powerRZ. unfold unit_error in EB.
    change (-51)%Z with (2 + -53)%Z. rewrite bpow_plus. replace (bpow Zaux.radix2 2) with 4 by (cbn; lra).
    pose proof unit_error_small as US. unfold unit_error in US. set (w := bpow Zaux.radix2 (-53)) in *. clearbody w.
    assert (val x - val m <= val tol * (1 + 4 * w)) by (apply (slack_bound _ _ _ e); lra). lra. }
  repeat split; [apply L|apply G|apply L|apply G]; assumption.
Qed.
(** and can do so: the bounds then depend on the order of the points. *)
Theorem C137_order_refuted : exists tol p q, finite tol /\ 0 < val tol /\ finite_pt p /\ finite_pt q /\
  val (b_xmin (fget_bounds (fabsolute tol) [p; q])) > val (fx q) /\
  b_xmin (fget_bounds (fabsolute tol) [p; q]) <> b_xmin (fget_bounds (fabsolute tol) [q; p]).
Proof.
  exists 1%float, (mkfpt 0 0), (mkfpt (- 0x1p-1) 0). split; [reflexivity|]. split; [rewrite (val_bpow 1%float false 4503599627370496 (-52)) by reflexivity; cbn; lra|].
  split; [split; reflexivity|]. split; [split; reflexivity|]. split.
  - change (b_xmin (fget_bounds (fabsolute 1) [mkfpt 0 0; mkfpt (- 0x1p-1) 0])) with 0%float. cbn [fx]. rewrite zero_val. rewrite (val_bpow (- 0x1p-1)%float true 4503599627370496 (-53)) by reflexivity. cbn; lra.
  - change (b_xmin (fget_bounds (fabsolute 1) [mkfpt 0 0; mkfpt (- 0x1p-1) 0])) with 0%float. change (b_xmin (fget_bounds (fabsolute 1) [mkfpt (- 0x1p-1) 0; mkfpt 0 0])) with (- 0x1p-1)%float.
    intro E. apply (f_equal (fun x => PrimFloat.eqb x 0)) in E. discriminate E.
Qed.
(** Without points the bounds are inverted infinities. *)
Theorem C137_none : forall cmp, fget_bounds cmp [] = mkfbounds infinity neg_infinity infinity neg_infinity.
Proof. reflexivity. Qed.
Example C137_witness : usual fdirect /\ Forall finite_pt [mkfpt 1 2; mkfpt 3 (-1)] /\ fget_bounds fdirect [mkfpt 1 2; mkfpt 3 (-1)] = mkfbounds 1 3 (-1) 2.
Proof. split; [left; reflexivity|]. split; [repeat constructor|reflexivity]. Qed.

(** ** C138 *)
(** A point is outside when it lies right of or level with the rightmost vertex, above or level with the
    highest one, or below all of them. *)
Theorem C138_outside : forall A ps, modest A -> Forall modest ps ->
  (forall p, In p ps -> val (fx p) <= val (fx A)) \/ (forall p, In p ps -> val (fy p) <= val (fy A)) \/ (forall p, In p ps -> val (fy A) < val (fy p)) ->
  fpoint_in_polygon A ps = false.
Proof.
  intros A ps M F H. rewrite Forall_forall in F. apply outside. intros u v U V. destruct H as [H|[H|H] ].
  - apply flip_right; auto.
  - apply flip_above; auto; [apply M|apply F, U|apply F, V].
  - apply flip_below; auto; [apply M|apply F, U|apply F, V].
Qed.
(** For integers up to 2^25 the answer is that of exact arithmetic. *)
Theorem C138_integer_exact : forall A ps a qs, integer_pt A a -> Forall2 integer_pt ps qs -> fpoint_in_polygon A ps = point_in_polygon a qs.
Proof.
  intros A ps a qs HA H. unfold fpoint_in_polygon, point_in_polygon. assert (LE : length ps = length qs) by (clear - H; induction H; cbn; congruence). rewrite LE. destruct (Nat.ltb (length qs) 3); [reflexivity|].
  assert (C : Forall2 (fun e g => integer_pt (fst e) (fst g) /\ integer_pt (snd e) (snd g)) (fclosed_chain ps) (closed_chain qs)).
  { destruct H as [|p q ps qs P H]; [constructor|]. unfold fclosed_chain, closed_chain. apply chain_integer; [|constructor; assumption]. apply last_integer; [exact P|constructor; assumption]. }
  revert C. generalize (fclosed_chain ps) (closed_chain qs). generalize false. intros b es gs C. revert b. induction C as [|[u v] [s t] es gs [C1 C2] C IH]; intro b; [reflexivity|].
  cbn [fold_left fst snd]. cbn [fst snd] in C1, C2. rewrite (flip_integer _ _ _ _ _ _ HA C1 C2). apply IH.
Qed.
(** The answer does not depend on the vertex the polygon starts with, for all doubles, infinities and NaN included. *)
Theorem C138_rotation : forall A ps qs, fpoint_in_polygon A (ps ++ qs) = fpoint_in_polygon A (qs ++ ps).
Proof.
  intros A ps qs. unfold fpoint_in_polygon. rewrite !app_length, Nat.add_comm. destruct (Nat.ltb (length qs + length ps) 3); [reflexivity|].
  rewrite !fold_parity. f_equal. apply closed_rotate.
Qed.
(** It does depend on the direction, and a point left of all vertices can be inside. *)
Theorem C138_left_refuted : exists A u v w, modest A /\ modest u /\ modest v /\ modest w /\
  (val (fx A) < val (fx u) /\ val (fx A) < val (fx v) /\ val (fx A) < val (fx w)) /\
  fpoint_in_polygon A [u; v; w] = true /\ fpoint_in_polygon A [w; v; u] = false.
Proof.
  exists (mkfpt (-0x1p-60) (-0x1p-60)), (mkfpt 0 0), (mkfpt 1 (-1)), (mkfpt 1 1).
  assert (V1 : val 1%float = 1) by (rewrite (val_bpow 1%float false 4503599627370496 (-52)) by reflexivity; cbn; lra).
  assert (V2 : val (-1)%float = -1) by (rewrite (val_bpow (-1)%float true 4503599627370496 (-52)) by reflexivity; cbn; lra).
  assert (V3 : val (-0x1p-60)%float = - bpow Zaux.radix2 (-60)).
  { rewrite (val_bpow (-0x1p-60)%float true 4503599627370496 (-112)) by reflexivity. change (-60)%Z with (52 + -112)%Z. rewrite bpow_plus. cbn [bpow]. cbn. lra. }
  assert (W : 0 < bpow Zaux.radix2 (-60) <= 1) by (split; [apply bpow_gt_0|change 1 with (bpow Zaux.radix2 0); apply bpow_le; lia]).
  assert (K : 1 <= powerRZ 2 1022) by (change 2 with (IZR Zaux.radix2); rewrite <- bpow_powerRZ; change 1 with (bpow Zaux.radix2 0); apply bpow_le; lia).
  unfold modest, finite_pt. cbn [fx fy]. rewrite V1, V2, V3, zero_val. set (h := bpow Zaux.radix2 (-60)) in *. set (k := powerRZ 2 1022) in *. clearbody h k.
  split; [split; [split; reflexivity|split; apply Rabs_le; lra]|]. split; [split; [split; reflexivity|split; apply Rabs_le; lra]|].
  split; [split; [split; reflexivity|split; apply Rabs_le; lra]|]. split; [split; [split; reflexivity|split; apply Rabs_le; lra]|].
  split; [lra|]. split; reflexivity.
Qed.
Example C138_witness : integer_pt (mkfpt 2 1) (mkpt 2 1) /\ Forall2 integer_pt [mkfpt 0 0; mkfpt 4 0; mkfpt 4 4] [mkpt 0 0; mkpt 4 0; mkpt 4 4] /\ fpoint_in_polygon (mkfpt 2 1) [mkfpt 0 0; mkfpt 4 0; mkfpt 4 4] = true.
Proof.
  assert (W0 : whole 0 0) by (split; reflexivity).
  assert (W1 : whole 1 1) by (split; [reflexivity|rewrite (val_bpow 1%float false 4503599627370496 (-52)) by reflexivity; cbn; lra]).
  assert (W2 : whole 2 2) by (split; [reflexivity|rewrite (val_bpow 2%float false 4503599627370496 (-51)) by reflexivity; cbn; lra]).
  assert (W4 : whole 4 4) by (split; [reflexivity|rewrite (val_bpow 4%float false 4503599627370496 (-50)) by reflexivity; cbn; lra]).
  split; [exists 2%Z, 1%Z; repeat split; solve [apply W2|apply W1|lia|reflexivity]|]. split; [|reflexivity].
  repeat constructor; [exists 0%Z, 0%Z|exists 4%Z, 0%Z|exists 4%Z, 4%Z]; repeat split; solve [apply W0|apply W4|lia|reflexivity].
Qed.
Print Assumptions C137_tolerance.
Print Assumptions C138_integer_exact.
