(** The region of a simple polygon, and what a proper crossing of its border means. *)
From Verif Require Import Base CmpModel OrientModel OrientSpec OrientProof DistModel DistSpec LinIntModel LinIntSpec LinIntProof PolygonModel PolygonSpec PolygonProof PolygonBorderProof PlanarModel PlanarSpec PlanarProof PlanarProof2.
From Coq Require Import Lia.

Lemma even_odd_pip : forall ps X, (3 <= length ps)%nat -> (even_odd ps X <-> point_in_polygon X ps = true).
Proof.
  intros ps X L. split.
  - intros (cr & H & O). rewrite (pip_ray_parity X ps cr L H). exact O.
  - intro H. exists (fun i => pip_flip X (pnth ps i) (pnth ps (S i mod length ps))).
    assert (K : forall i u v, polygon_edge ps i u v -> (pip_flip X (pnth ps i) (pnth ps (S i mod length ps)) = true <-> passes X u v)).
    { intros i u v E. apply edge_pnth in E as (_ & -> & ->). apply flip_crossing. }
    split; [exact K|]. rewrite <- (pip_ray_parity X ps _ L K). exact H.
Qed.
Lemma region_char : forall ps X, (3 <= length ps)%nat -> (in_region ps X <-> on_polygon ps X \/ point_in_polygon X ps = true).
Proof. intros. unfold in_region. rewrite even_odd_pip by assumption. tauto. Qed.
Lemma on_polygon_dec : forall ps X, on_polygon ps X \/ ~ on_polygon ps X.
Proof.
  intros ps X. destruct (existsb (fun i => on_edge X (pnth ps i) (pnth ps (S i mod length ps))) (seq 0 (length ps))) eqn:E.
  - left. apply existsb_exists in E as (i & I & H). apply in_seq in I. exists i, (pnth ps i), (pnth ps (S i mod length ps)). split; [apply edge_at; lia|]. apply on_edge_iff, H.
  - right. intros (i & A & B & EE & H). apply edge_pnth in EE as (Hi & -> & ->). assert (T : existsb (fun i => on_edge X (pnth ps i) (pnth ps (S i mod length ps))) (seq 0 (length ps)) = true); [|congruence].
    apply existsb_exists. exists i. split; [apply in_seq; lia|]. apply on_edge_iff, H.
Qed.
Lemma region_dec : forall ps X, (3 <= length ps)%nat -> in_region ps X \/ ~ in_region ps X.
Proof.
  intros ps X L. rewrite region_char by exact L. destruct (on_polygon_dec ps X) as [H|H]; [left; left; exact H|]. destruct (point_in_polygon X ps); [left; right; reflexivity|].
  right. intros [K|K]; [contradiction|discriminate].
Qed.
Lemma vertex_edge : forall ps v, In v ps -> exists i B, polygon_edge ps i v B.
Proof.
  intros ps v I. apply In_nth_error in I as (i & E). assert (Hi : (i < length ps)%nat) by (apply nth_error_Some; congruence).
  exists i, (pnth ps (S i mod length ps)). pose proof (edge_at ps i Hi) as [_ H]. split; [exact E|exact H].
Qed.
Lemma exterior_char : forall eps ps X, simple_polygon ps ->
  (is_exterior (point_polygon_containment_or_on_border direct eps X ps) = true <-> ~ in_region ps X).
Proof.
  intros eps ps X (L & P & U). rewrite region_char by exact L. destruct (containment_char eps X ps) as [V NV].
  destruct (existsb (fun v => point_equals direct X v) ps) eqn:EX.
  - apply existsb_exists in EX as (v & I & EV). apply point_equals_direct in EV. assert (C : point_polygon_containment_or_on_border direct eps X ps = vertex) by (apply V; exists v; auto).
    rewrite C. cbn. split; [discriminate|]. intro N. exfalso. apply N. left. destruct (vertex_edge ps v I) as (i & B & E). exists i, v, B. split; [exact E|]. exists 0. split; [lra|].
    eapply pteq_trans; [exact EV|apply pteq_sym, lerp_0].
  - assert (NVX : forall v, In v ps -> ~ X =p= v).
    { intros v I E. assert (T : existsb (fun v => point_equals direct X v) ps = true); [|congruence]. apply existsb_exists. exists v. split; [exact I|]. apply point_equals_direct, E. }
    rewrite (NV NVX). assert (S1 : border_parity X ps = true <-> on_polygon ps X).
    { apply border_parity_single. intros i j A B C D E1 E2 X1 X2. destruct (Nat.eq_dec i j) as [E|NE]; [exact E|]. exfalso.
      destruct (polygon_edge_in _ _ _ _ E1) as [IA IB]. destruct (U i j A B C D X NE E1 E2 X1 X2) as [[_ H]|[_ H]]; [exact (NVX B IB H)|exact (NVX A IA H)]. }
    assert (PX : point_in_polygon X ps = xsum (pip_flip X) (closed_chain ps)).
    { rewrite pip_xsum. destruct (Nat.ltb_spec (length ps) 3); [lia|reflexivity]. }
    rewrite <- PX. destruct (border_parity X ps).
    + cbn. split; [discriminate|]. intro N. exfalso. apply N. left. apply S1. reflexivity.
    + assert (NO : ~ on_polygon ps X) by (intro H; apply S1 in H; discriminate). destruct (point_in_polygon X ps); cbn.
      * split; [discriminate|]. intro N. exfalso. apply N. right. reflexivity.
      * split; [|reflexivity]. intros _ [H|H]; [contradiction|discriminate].
Qed.

(** * Near a point *)
(** What keeps a point off a segment is a strict inequality. *)
Definition off_segment (u v X : pt) : Prop := 0 < tri2 u v X \/ tri2 u v X < 0 \/ dot (vsub X u) (vsub v u) < 0 \/ dot (vsub X v) (vsub u v) < 0.
Lemma off_segment_off : forall u v X, off_segment u v X -> ~ on_segment u v X.
Proof.
  intros [ux uy] [vx vy] [x y] H (t & T & E1 & E2). unfold off_segment, tri2, lerp, cross, dot, vadd, vscale, vsub in *. cbn [px py] in *.
  set (wx := vx - ux) in *. set (wy := vy - uy) in *. assert (X1 : x - ux == t * wx) by lra. assert (Y1 : y - uy == t * wy) by lra.
  assert (EV : vx == ux + wx) by (unfold wx; ring). assert (EV2 : vy == uy + wy) by (unfold wy; ring).
  assert (X2 : x - vx == (t - 1) * wx) by lra. assert (Y2 : y - vy == (t - 1) * wy) by lra. assert (X3 : ux - vx == - wx) by lra. assert (Y3 : uy - vy == - wy) by lra.
  rewrite X1, Y1, X2, Y2, X3, Y3 in H. assert (0 <= wx * wx + wy * wy) by (pose proof (sq_nonneg wx); pose proof (sq_nonneg wy); lra).
  destruct H as [H|[H|[H|H]]]; [ring_simplify in H; lra|ring_simplify in H; lra| |].
  - assert (0 <= t * (wx * wx + wy * wy)) by (apply Qmult_le_0_compat; lra). lra.
  - assert (0 <= (1 - t) * (wx * wx + wy * wy)) by (apply Qmult_le_0_compat; lra). lra.
Qed.
Lemma off_segment_on : forall u v X, nonzero (vsub v u) -> ~ on_segment u v X -> off_segment u v X.
Proof.
  intros u v X N H. unfold off_segment. destruct (Qlt_le_dec 0 (tri2 u v X)) as [L|L]; [left; exact L|]. destruct (Qlt_le_dec (tri2 u v X) 0) as [L2|L2]; [right; left; exact L2|].
  destruct (Qlt_le_dec (dot (vsub X u) (vsub v u)) 0) as [D1|D1]; [right; right; left; exact D1|]. right. right. right.
  destruct (Qlt_le_dec (dot (vsub X v) (vsub u v)) 0) as [D2|D2]; [exact D2|]. exfalso. apply H.
  destruct (collinear_param u v X N) as (t & E); [unfold tri2 in *; lra|]. exists t. split; [|exact E].
  pose proof (nz_dot _ N) as W. destruct u as [ux uy], v as [vx vy], X as [x y], E as [E1 E2]. unfold lerp, dot, vadd, vscale, vsub in *. cbn [px py] in *.
  set (wx := vx - ux) in *. set (wy := vy - uy) in *. assert (X1 : x - ux == t * wx) by lra. assert (Y1 : y - uy == t * wy) by lra.
  assert (EV : vx == ux + wx) by (unfold wx; ring). assert (EV2 : vy == uy + wy) by (unfold wy; ring).
  assert (X2 : x - vx == (t - 1) * wx) by lra. assert (Y2 : y - vy == (t - 1) * wy) by lra. assert (X3 : ux - vx == - wx) by lra. assert (Y3 : uy - vy == - wy) by lra.
  rewrite X1, Y1 in D1. rewrite X2, Y2, X3, Y3 in D2. split.
  - destruct (Qlt_le_dec t 0) as [T|T]; [|exact T]. exfalso. assert (0 < (- t) * (wx * wx + wy * wy)) by (apply Qmult_lt_0_compat; lra). lra.
  - destruct (Qlt_le_dec 1 t) as [T|T]; [|exact T]. exfalso. assert (0 < (t - 1) * (wx * wx + wy * wy)) by (apply Qmult_lt_0_compat; lra). lra.
Qed.
Lemma affine_near : forall a b t0, 0 < a + b * t0 -> exists e, 0 < e /\ forall t, t0 - e <= t <= t0 + e -> 0 < a + b * t.
Proof.
  intros a b t0 H. set (f := a + b * t0) in *. destruct (qabs_spec b) as (B0 & _ & B1 & B2). set (m := qabs b) in *.
  assert (D : 0 < 2 * (m + 1)) by lra. exists (f / (2 * (m + 1))). set (e := f / (2 * (m + 1))). assert (EQ : e * (2 * (m + 1)) == f) by (unfold e; field; lra).
  assert (E0 : 0 < e) by (apply Qlt_shift_div_l; lra). split; [exact E0|]. intros t [T1 T2].
  assert (G : - (m * e) <= b * (t - t0)).
  { destruct (Qlt_le_dec t t0) as [L|L].
    - assert (0 <= (m - b) * (t0 - t)) by (apply Qmult_le_0_compat; lra). assert (0 <= m * (e - (t0 - t))) by (apply Qmult_le_0_compat; lra). lra.
    - assert (0 <= (m + b) * (t - t0)) by (apply Qmult_le_0_compat; lra). assert (0 <= m * (e - (t - t0))) by (apply Qmult_le_0_compat; lra). lra. }
  assert (a + b * t == f + b * (t - t0)) by (unfold f; ring). lra.
Qed.
Lemma affine_near_le : forall a b t0 c d, a + b * t0 < c + d * t0 -> exists e, 0 < e /\ forall t, t0 - e <= t <= t0 + e -> a + b * t < c + d * t.
Proof.
  intros a b t0 c d H. destruct (affine_near (c - a) (d - b) t0) as (e & E & K); [lra|]. exists e. split; [exact E|]. intros t T. specialize (K t T). lra.
Qed.
Lemma off_near : forall A B t0 u v, nonzero (vsub v u) -> ~ on_segment u v (lerp A B t0) -> exists e, 0 < e /\ forall t, t0 - e <= t <= t0 + e -> ~ on_segment u v (lerp A B t).
Proof.
  intros A B t0 u v N H. apply (off_segment_on u v _ N) in H.
  assert (K : exists a b, (forall t, 0 < a + b * t -> off_segment u v (lerp A B t)) /\ 0 < a + b * t0).
  { unfold off_segment in *. assert (T : forall t, tri2 u v (lerp A B t) == tri2 u v A + (tri2 u v B - tri2 u v A) * t) by (intro t; rewrite tri2_lerp; ring).
    assert (D1 : forall t, dot (vsub (lerp A B t) u) (vsub v u) == dot (vsub A u) (vsub v u) + dot (vsub B A) (vsub v u) * t) by (intro t; unfold lerp, dot, vadd, vscale, vsub; cbn [px py]; ring).
    assert (D2 : forall t, dot (vsub (lerp A B t) v) (vsub u v) == dot (vsub A v) (vsub u v) + dot (vsub B A) (vsub u v) * t) by (intro t; unfold lerp, dot, vadd, vscale, vsub; cbn [px py]; ring).
    destruct H as [H|[H|[H|H]]].
    - exists (tri2 u v A), (tri2 u v B - tri2 u v A). split; [intros t HT; left; rewrite T; exact HT|rewrite <- T; exact H].
    - exists (- tri2 u v A), (- (tri2 u v B - tri2 u v A)). split; [intros t HT; right; left; rewrite T; lra|rewrite T in H; lra].
    - exists (- dot (vsub A u) (vsub v u)), (- dot (vsub B A) (vsub v u)). split; [intros t HT; right; right; left; rewrite D1; lra|rewrite D1 in H; lra].
    - exists (- dot (vsub A v) (vsub u v)), (- dot (vsub B A) (vsub u v)). split; [intros t HT; right; right; right; rewrite D2; lra|rewrite D2 in H; lra]. }
  destruct K as (a & b & K1 & K2). destruct (affine_near a b t0 K2) as (e & E & K3). exists e. split; [exact E|]. intros t Ht. apply off_segment_off, K1, K3, Ht.
Qed.
Lemma edges_near : forall A B t0 ps (skip : nat -> Prop), (forall i, skip i \/ ~ skip i) -> proper_polygon ps ->
  (forall i u v, polygon_edge ps i u v -> ~ skip i -> ~ on_segment u v (lerp A B t0)) ->
  exists e, 0 < e /\ forall t, t0 - e <= t <= t0 + e -> forall i u v, polygon_edge ps i u v -> ~ skip i -> ~ on_segment u v (lerp A B t).
Proof.
  intros A B t0 ps skip DEC P H.
  assert (G : forall m, (m <= length ps)%nat -> exists e, 0 < e /\ forall t, t0 - e <= t <= t0 + e -> forall i u v, (i < m)%nat -> polygon_edge ps i u v -> ~ skip i -> ~ on_segment u v (lerp A B t)).
  { induction m as [|m IH]; intro M; [exists 1; split; [lra|]; lia|]. destruct IH as (e & E & K); [lia|].
    pose proof (edge_at ps m M) as EM. destruct (DEC m) as [SK|SK].
    - exists e. split; [exact E|]. intros t T i u v Hi EI NI. destruct (Nat.eq_dec i m) as [->|]; [contradiction|]. apply (K t T i u v); [lia|exact EI|exact NI].
    - destruct (off_near A B t0 _ _ (P _ _ _ EM) (H _ _ _ EM SK)) as (e2 & E2 & K2).
      assert (MN : exists x, 0 < x /\ x <= e /\ x <= e2) by (destruct (Qlt_le_dec e e2); [exists e|exists e2]; lra). destruct MN as (x & X0 & X1 & X2).
      exists x. split; [exact X0|]. intros t T i u v Hi EI NI. destruct (Nat.eq_dec i m) as [->|].
      + assert (u = pnth ps m /\ v = pnth ps (S m mod length ps)) as [-> ->] by (apply edge_pnth in EI as (_ & ? & ?); auto). apply K2. lra.
      + apply (K t ltac:(lra) i u v); [lia|exact EI|exact NI]. }
  destruct (G (length ps) (le_n _)) as (e & E & K). exists e. split; [exact E|]. intros t T i u v EI NI. apply (K t T i u v); [|exact EI|exact NI]. apply edge_pnth in EI as (Hi & _). exact Hi.
Qed.
Lemma count_single : forall j n, (j < n)%nat -> count_below (Nat.eqb j) n = 1%nat.
Proof.
  intros j n H. assert (G : forall m a, length (filter (Nat.eqb j) (seq a m)) = if (andb (Nat.leb a j) (Nat.ltb j (a + m))) then 1%nat else 0%nat).
  { induction m as [|m IH]; intro a; cbn [seq filter].
    - destruct (Nat.leb_spec a j), (Nat.ltb_spec j (a + 0)); cbn; lia.
    - destruct (Nat.eqb_spec j a) as [->|NE]; cbn [length]; rewrite IH.
      + destruct (Nat.leb_spec (S a) a), (Nat.leb_spec a a), (Nat.ltb_spec a (a + S m)); cbn; lia.
      + destruct (Nat.leb_spec (S a) j), (Nat.leb_spec a j), (Nat.ltb_spec j (S a + m)), (Nat.ltb_spec j (a + S m)); cbn; lia. }
  unfold count_below. rewrite G. destruct (Nat.leb_spec 0 j), (Nat.ltb_spec j (0 + n)); cbn; lia.
Qed.
Lemma crossing_not_parallel : forall A B C D pts, segment_segment_intersection direct A B C D = Some (e_crossing, pts) -> ~ cross (vsub B A) (vsub D C) == 0.
Proof.
  intros A B C D pts E Z. unfold segment_segment_intersection in E. cbv zeta in E.
  assert (EQ : equals direct (xdenom A B C D) 0 = true) by (apply Qeqb_eq; rewrite xdenom_cross, Z; reflexivity). rewrite EQ in E.
  unfold parallel_intersection in E. cbv zeta in E. repeat match type of E with context [if ?b then _ else _] => destruct b end; discriminate.
Qed.
(** A segment that crosses a side properly leaves the region of a simple polygon. *)
Lemma crossing_leaves : forall ps j A B C D pts, simple_polygon ps -> nonzero (vsub B A) -> polygon_edge ps j C D ->
  segment_segment_intersection direct A B C D = Some (e_crossing, pts) -> exists Z, on_segment A B Z /\ ~ in_region ps Z.
Proof.
  intros ps j A B C D pts (L & P & U) N EJ E. pose proof (crossing_not_parallel _ _ _ _ _ E) as K.
  destruct (segseg_ok A B C D N (P _ _ _ EJ)) as (ty & pts' & E' & H). rewrite E in E'. injection E' as <- <-. cbv zeta in H.
  destruct H as (X & _ & _ & (t0 & T0 & EX) & IN2).
  assert (OFF : forall i u v, polygon_edge ps i u v -> ~ (i = j) -> ~ on_segment u v (lerp A B t0)).
  { intros i u v EI NE H. assert (HX : on_segment u v X) by (apply (on_segment_compat u v u v (lerp A B t0) X); [apply pteq_refl|apply pteq_refl|apply pteq_sym, EX|exact H]).
    assert (HC : on_segment C D X) by (destruct IN2 as (s & S & ES); exists s; split; [lra|exact ES]).
    assert (NE' : j <> i) by congruence. destruct (U j i C D u v X NE' EJ EI HC HX) as [[_ Q0]|[_ Q0]].
    - exact (not_inside_end C D X (P _ _ _ EJ) Q0 IN2).
    - exact (not_inside_start C D X (P _ _ _ EJ) Q0 IN2). }
  destruct (edges_near A B t0 ps (fun i => i = j) ltac:(intro i; destruct (Nat.eq_dec i j); auto) P OFF) as (e0 & E0 & NEAR).
  assert (MN : exists e, 0 < e /\ e <= e0 /\ e <= t0 /\ e <= 1 - t0).
  { destruct (Qlt_le_dec e0 t0), (Qlt_le_dec e0 (1 - t0)), (Qlt_le_dec t0 (1 - t0)); first [exists e0; lra|exists t0; lra|exists (1 - t0); lra]. }
  destruct MN as (e & EP & EL & ET & ET1).
  set (Y := lerp A B (t0 - e)). set (Z := lerp A B (t0 + e)).
  destruct IN2 as (s & S & ES).
  set (k := cross (vsub B A) (vsub D C)) in *.
  assert (SX : px A + t0 * (px B - px A) == px C + s * (px D - px C) /\ py A + t0 * (py B - py A) == py C + s * (py D - py C)).
  { destruct EX as [X1 X2], ES as [S1 S2]. rewrite lerp_px in X1, S1. rewrite lerp_py in X2, S2. lra. }
  destruct SX as [SX SY].
  assert (TY : tri2 C D Y == e * k).
  { unfold tri2, cross, vsub, Y, k. cbn [px py]. unfold cross, vsub. cbn [px py]. rewrite !lerp_px, !lerp_py.
    assert (Q1 : px A + (t0 - e) * (px B - px A) - px C == s * (px D - px C) - e * (px B - px A)) by lra.
    assert (Q2 : py A + (t0 - e) * (py B - py A) - py C == s * (py D - py C) - e * (py B - py A)) by lra. rewrite Q1, Q2. ring. }
  assert (TZ : tri2 C D Z == - (e * k)).
  { unfold tri2, cross, vsub, Z, k. cbn [px py]. unfold cross, vsub. cbn [px py]. rewrite !lerp_px, !lerp_py.
    assert (Q1 : px A + (t0 + e) * (px B - px A) - px C == s * (px D - px C) + e * (px B - px A)) by lra.
    assert (Q2 : py A + (t0 + e) * (py B - py A) - py C == s * (py D - py C) + e * (py B - py A)) by lra. rewrite Q1, Q2. ring. }
  assert (YC : tri2 Y Z C == - (2 * e * s * k)).
  { unfold tri2, cross, vsub, Y, Z, k. cbn [px py]. unfold cross, vsub. cbn [px py]. rewrite !lerp_px, !lerp_py.
    assert (Q1 : px C - (px A + (t0 - e) * (px B - px A)) == - (s * (px D - px C)) + e * (px B - px A)) by lra.
    assert (Q2 : py C - (py A + (t0 - e) * (py B - py A)) == - (s * (py D - py C)) + e * (py B - py A)) by lra. rewrite Q1, Q2. ring. }
  assert (YD : tri2 Y Z D == 2 * e * (1 - s) * k).
  { unfold tri2, cross, vsub, Y, Z, k. cbn [px py]. unfold cross, vsub. cbn [px py]. rewrite !lerp_px, !lerp_py.
    assert (Q1 : px D - (px A + (t0 - e) * (px B - px A)) == (1 - s) * (px D - px C) + e * (px B - px A)) by lra.
    assert (Q2 : py D - (py A + (t0 - e) * (py B - py A)) == (1 - s) * (py D - py C) + e * (py B - py A)) by lra. rewrite Q1, Q2. ring. }
  assert (KK : 0 < k * k) by (pose proof (sq_nonneg k); destruct (Qlt_le_dec 0 (k * k)); [assumption|]; exfalso; apply K, sq_zero; lra).
  assert (CR : crosses Y Z C D).
  { split.
    - rewrite YC, YD. assert (0 < (4 * e * e * s * (1 - s)) * (k * k)) by (repeat (apply Qmult_lt_0_compat; [|lra]); lra). lra.
    - rewrite TY, TZ. assert (0 < (e * e) * (k * k)) by (repeat (apply Qmult_lt_0_compat; [|lra]); lra). lra. }
  assert (PAR : xorb (point_in_polygon Y ps) (point_in_polygon Z ps) = true).
  { rewrite (crossing_parity_index Y Z ps (Nat.eqb j) L).
    - rewrite count_single; [reflexivity|]. apply edge_pnth in EJ as (Hj & _). exact Hj.
    - intros i u v EI. destruct (Nat.eqb_spec j i) as [->|NE].
      + destruct EI, EJ. assert (u = C) by congruence. assert (v = D) by congruence. subst. exact CR.
      + intros W (w & Hw & EW) OW. refine (NEAR (t0 - e + w * (2 * e)) _ i u v EI _ _).
        * split; [assert (0 <= w * (2 * e)) by (apply Qmult_le_0_compat; lra)|assert (0 <= (1 - w) * (2 * e)) by (apply Qmult_le_0_compat; lra)]; lra.
        * congruence.
        * apply (on_segment_compat u v u v W); [apply pteq_refl|apply pteq_refl| |exact OW]. destruct EW as [W1 W2]. unfold Y, Z in W1, W2. rewrite lerp_px in W1. rewrite !lerp_px in W1. rewrite lerp_py in W2. rewrite !lerp_py in W2.
          split; [rewrite lerp_px, W1; ring|rewrite lerp_py, W2; ring]. }
  assert (NB : forall t, (t == t0 - e \/ t == t0 + e) -> ~ tri2 C D (lerp A B t) == 0 -> ~ on_polygon ps (lerp A B t)).
  { intros t Ht NT (i & u & v & EI & H). destruct (Nat.eq_dec i j) as [->|NE].
    - destruct EI, EJ. assert (u = C) by congruence. assert (v = D) by congruence. subst. apply NT. destruct H as (x & _ & EX'). unfold tri2. exact (lerp_cross C D _ x EX').
    - refine (NEAR t _ i u v EI NE H). destruct Ht as [Ht|Ht]; rewrite Ht; lra. }
  assert (EK : ~ e * k == 0) by (intro Q0; apply Qmult_integral in Q0 as [Q0|Q0]; [lra|contradiction]).
  assert (NY : ~ on_polygon ps Y) by (apply NB; [left; reflexivity|fold Y; rewrite TY; exact EK]).
  assert (NZ : ~ on_polygon ps Z) by (apply NB; [right; reflexivity|fold Z; rewrite TZ; intro Q0; apply EK; lra]).
  destruct (point_in_polygon Y ps) eqn:PY.
  - exists Z. split; [exists (t0 + e); split; [lra|apply pteq_refl]|]. rewrite region_char by exact L. intros [H|H]; [contradiction|]. rewrite H in PAR. discriminate.
  - exists Y. split; [exists (t0 - e); split; [lra|apply pteq_refl]|]. rewrite region_char by exact L. intros [H|H]; [contradiction|congruence].
Qed.
