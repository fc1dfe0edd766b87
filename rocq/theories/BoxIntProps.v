(** Property theorems: intersections with boxes (C21, C22, C58, C59, C60). *)
From Verif Require Import Base CmpModel BoxModel BoxSpec DistModel DistSpec OrientSpec LinIntModel LinIntSpec BoxIntModel BoxIntSpec BoxIntProof ZonoProof.

(** C21: the ray meets the box exactly when the slab test succeeds; the entrance and exit
    parameters are the least and greatest parameters of the ray inside the box, and the
    origin flag says whether the origin is in the box. *)
Theorem C21_ray_box_entrance_exit : forall p d b, ok2 b -> nonzero d ->
  match ray_aabb_intersection2 direct p d b with
  | None => forall t, 0 <= t -> ~ in2 b (vadd p (vscale t d))
  | Some (inside, (t0, q0), (t1, q1)) =>
      (inside = true <-> in2 b p) /\ least (ray_in_box p d b) t0 /\ q0 = vadd p (vscale t0 d) /\
      exists t, t1 = Some t /\ greatest (ray_in_box p d b) t /\ q1 = Some (vadd p (vscale t d))
  end.
Proof.
  intros p d b OK N. pose proof (ray_aabb_ok p d b OK N) as H. unfold ray_aabb_intersection2.
  destruct (ray_aabb direct p d b) as [h|]; [|intros t Ht Hi; exact (H t (conj Ht Hi))].
  destruct H as (H1 & H2 & x & H3 & H4). split; [exact H1|]. split; [exact H2|]. split; [reflexivity|].
  exists x. rewrite H3. split; [reflexivity|]. split; [exact H4|reflexivity].
Qed.
Print Assumptions C21_ray_box_entrance_exit.

(** The overload with one point returns the entrance point for an origin outside and the
    exit point for an origin inside; its parameter is always the entrance parameter. *)
Theorem C21_ray_box_single_point : forall p d b, ok2 b -> nonzero d ->
  match ray_aabb_intersection direct p d b with
  | None => forall t, 0 <= t -> ~ in2 b (vadd p (vscale t d))
  | Some (inside, t0, q) =>
      (inside = true <-> in2 b p) /\ least (ray_in_box p d b) t0 /\
      (inside = false -> q = Some (vadd p (vscale t0 d))) /\
      (inside = true -> t0 == 0 /\ exists t, greatest (ray_in_box p d b) t /\ q = Some (vadd p (vscale t d)))
  end.
Proof.
  intros p d b OK N. pose proof (ray_aabb_ok p d b OK N) as H. unfold ray_aabb_intersection.
  destruct (ray_aabb direct p d b) as [h|]; [|intros t Ht Hi; exact (H t (conj Ht Hi))].
  destruct H as (H1 & H2 & x & H3 & H4). split; [exact H1|]. split; [exact H2|]. split; [intros ->; reflexivity|].
  intro E. rewrite E. split.
  - destruct H2 as [[L1 _] L2]. assert (h_tmin h <= 0); [|lra]. apply L2. split; [lra|]. apply H1 in E.
    unfold in2, vadd, vscale in *; simpl. lra.
  - exists x. split; [exact H4|]. rewrite H3. reflexivity.
Qed.
Print Assumptions C21_ray_box_single_point.

Theorem C21_ray_box_iff_meets : forall p d b, ok2 b -> nonzero d ->
  (ray_aabb_intersection direct p d b <> None <-> meet (on_ray p d) (in2 b)).
Proof.
  intros p d b OK N. pose proof (ray_aabb_ok p d b OK N) as H. unfold ray_aabb_intersection. destruct (ray_aabb direct p d b) as [h|].
  - split; [|discriminate]. intros _. destruct H as (_ & [[H1 H2] _] & _). exists (vadd p (vscale (h_tmin h) d)).
    split; [exists (h_tmin h); split; [exact H1|apply pteq_refl]|exact H2].
  - split; [congruence|]. intros (X & (t & Ht & E1 & E2) & A & B). exfalso. apply (H t). split; [exact Ht|].
    unfold in2. rewrite <- E1, <- E2. split; assumption.
Qed.
Print Assumptions C21_ray_box_iff_meets.

Example C21_witness : let b := mkbox2 (mkpt 0 0) (mkpt 4 2) in
  (exists t0 t1 q0 q1, ray_aabb_intersection2 direct (mkpt (-2) 1) (mkpt 2 0) b = Some (false, (t0, q0), (Some t1, Some q1)) /\ t0 == 1 /\ t1 == 3 /\ q0 =p= mkpt 0 1 /\ q1 =p= mkpt 4 1) /\
  ray_aabb_intersection2 direct (mkpt (-2) 1) (mkpt (-2) 0) b = None /\
  (exists t q, ray_aabb_intersection direct (mkpt 1 1) (mkpt 0 (-1)) b = Some (true, t, Some q) /\ q =p= mkpt 1 0).
Proof.
  cbv zeta. split; [eexists; eexists; eexists; eexists; split; [reflexivity|]; repeat split; reflexivity|]. split; [reflexivity|].
  eexists; eexists; split; [reflexivity|split; reflexivity].
Qed.

(** With a tolerance a direction component below it counts as parallel, and a long ray
    that leaves the slab is missed. *)
Theorem C21_tolerant_ray_box_refuted : ~ (forall tol p d b, 0 < tol -> ok2 b -> dot d d == 1 -> meet (on_ray p d) (in2 b) ->
  ray_aabb_intersection (absolute tol) p d b <> None).
Proof.
  intro H. refine (H (7 # 10) (mkpt 0 0) (mkpt (4#5) (3#5)) (mkbox2 (mkpt 7 6) (mkpt 9 7)) _ _ _ _ _).
  - lra.
  - split; simpl; lra.
  - reflexivity.
  - exists (mkpt 8 6). split; [exists 10; split; [lra|split; reflexivity]|split; simpl; lra].
  - reflexivity.
Qed.
Print Assumptions C21_tolerant_ray_box_refuted.

(** C22: with exact arithmetic (epsilon = 0) the separating axis test of a segment and a
    box is exact, in the plane and in space, degenerate segments and boxes included. *)
Theorem C22_segment_box_exact : forall p0 p1 b, ok2 b ->
  (segment_aabb_intersection 0 p0 p1 b = true <-> meet (on_segment p0 p1) (in2 b)).
Proof. exact segment_aabb_ok. Qed.
Print Assumptions C22_segment_box_exact.

Theorem C22_segment_box_exact_space : forall p0 p1 b, ok3 b ->
  (segment_aabb_intersection3 0 p0 p1 b = true <-> meet (on_segment3 p0 p1) (in3 b)).
Proof. exact segment_aabb_ok3. Qed.
Print Assumptions C22_segment_box_exact_space.

(** With the epsilon term no intersection is missed ... *)
Theorem C22_segment_box_epsilon_complete : forall eps p0 p1 b, 0 <= eps -> ok2 b ->
  meet (on_segment p0 p1) (in2 b) -> segment_aabb_intersection eps p0 p1 b = true.
Proof. exact segment_aabb_eps. Qed.
Print Assumptions C22_segment_box_epsilon_complete.

(** ... but segments passing a corner at a positive distance can be reported. *)
Theorem C22_segment_box_epsilon_refuted : forall eps, 0 < eps -> exists p0 p1 b, ok2 b /\
  segment_aabb_intersection eps p0 p1 b = true /\ ~ meet (on_segment p0 p1) (in2 b).
Proof.
  intros eps H. set (k := qmin (eps / 4) (1 # 2)).
  assert (K : 0 < k /\ k <= 1 # 2 /\ 4 * k <= eps).
  { destruct (qmin_spec (eps / 4) (1 # 2)) as (A & B & C). fold k in A, B, C. assert (E : eps / 4 * 4 == eps) by field.
    split; [destruct A; lra|]. split; lra. }
  clearbody k. destruct K as (K1 & K2 & K3).
  exists (mkpt 0 (1 + k)), (mkpt (1 + k) 0), (mkbox2 (mkpt (-1) (-1)) (mkpt (1 # 2) (1 # 2))).
  assert (OK : ok2 (mkbox2 (mkpt (-1) (-1)) (mkpt (1 # 2) (1 # 2)))) by (split; simpl; lra).
  split; [exact OK|]. split.
  - unfold segment_aabb_intersection, vsub, vadd; simpl.
    assert (AB : forall x y, - y <= x <= y -> Qgtb (qabs x) y = false).
    { intros x y G. destruct (Qgtb_spec (qabs x) y) as [F|F]; [|reflexivity]. apply qabs_le in G. lra. }
    assert (A1 : qabs (1 + k - 0) == 1 + k) by (rewrite qabs_pos; lra).
    assert (A2 : qabs (0 - (1 + k)) == 1 + k) by (rewrite <- qabs_opp, qabs_pos; lra).
    rewrite !AB; [reflexivity| | |].
    + rewrite A1, A2. nra.
    + rewrite A2. lra.
    + rewrite A1. lra.
  - intros (X & (t & Ht & E1 & E2) & [_ X1] & [_ X2]). unfold lerp, vadd, vscale, vsub in *; simpl in *. nra.
Qed.
Print Assumptions C22_segment_box_epsilon_refuted.

(** A polyline meets the box exactly when the edge loop says so. *)
Theorem C22_polyline_box_exact : forall ps b, ok2 b ->
  (polyline_aabb_intersection 0 ps b = true <-> meet (on_polyline ps) (in2 b)).
Proof. exact polyline_aabb_ok. Qed.
Print Assumptions C22_polyline_box_exact.

Example C22_witness : let b := mkbox2 (mkpt 0 0) (mkpt 2 2) in
  segment_aabb_intersection 0 (mkpt (-1) 1) (mkpt 1 3) b = true /\ segment_aabb_intersection 0 (mkpt (-1) 2) (mkpt 1 4) b = false /\
  segment_aabb_intersection3 0 (mkpt3 (-1) 1 1) (mkpt3 1 3 1) (mkbox3 (mkpt3 0 0 0) (mkpt3 2 2 2)) = true /\
  polyline_aabb_intersection 0 [mkpt (-1) 2; mkpt 1 4; mkpt 1 1] b = true.
Proof. repeat split; reflexivity. Qed.

(** C58: disc or ball against a box. *)
Theorem C58_disc_box : forall c r b, ok2 b ->
  (sphere_aabb_intersection c r b = true <-> meet (in_disc c r) (in2 b)).
Proof. intros c r b OK. apply (sphere_aabb_ok c r b OK). Qed.
Print Assumptions C58_disc_box.
Theorem C58_disc_box_point : forall c r b, ok2 b ->
  (fst (sphere_aabb_intersection_point c r b) = true <-> meet (in_disc c r) (in2 b)) /\
  in2 b (snd (sphere_aabb_intersection_point c r b)) /\
  (forall X, in2 b X -> dist2 c (snd (sphere_aabb_intersection_point c r b)) <= dist2 c X).
Proof. intros c r b OK. apply (sphere_aabb_ok c r b OK). Qed.
Print Assumptions C58_disc_box_point.
Theorem C58_ball_box : forall c r b, ok3 b ->
  (sphere_aabb_intersection3 c r b = true <-> meet (in_ball c r) (in3 b)).
Proof. exact sphere_aabb_ok3. Qed.
Print Assumptions C58_ball_box.
Theorem C58_disc_obb : forall c r b, ok_obb b ->
  (sphere_obb_intersection c r b = true <-> meet (in_disc c r) (in_obb b)).
Proof. exact sphere_obb_ok. Qed.
Print Assumptions C58_disc_obb.
Example C58_witness : sphere_aabb_intersection (mkpt 5 6) 5 (mkbox2 (mkpt 0 0) (mkpt 2 2)) = true /\
  sphere_aabb_intersection (mkpt 5 6) (9 # 2) (mkbox2 (mkpt 0 0) (mkpt 2 2)) = false /\
  sphere_obb_intersection (mkpt 5 0) (1 # 2) (mkobb (mkpt 0 0) (mkpt (3#5) (4#5)) (mkpt (-4#5) (3#5)) 4 3) = false /\
  sphere_obb_intersection (mkpt 5 0) 1 (mkobb (mkpt 0 0) (mkpt (3#5) (4#5)) (mkpt (-4#5) (3#5)) 4 3) = true.
Proof. repeat split; reflexivity. Qed.

(** C59: two oriented boxes in the plane: the four-axis test is exact. *)
Theorem C59_oriented_boxes_exact : forall o1 o2, ok_obb o1 -> ok_obb o2 ->
  (obb_obb_intersection direct o1 o2 = true <-> meet (in_obb o1) (in_obb o2)).
Proof. exact obb_obb_ok. Qed.
Print Assumptions C59_oriented_boxes_exact.
Example C59_witness :
  let a := mkobb (mkpt 0 0) (mkpt 1 0) (mkpt 0 1) 2 1 in
  ok_obb a /\ ok_obb (mkobb (mkpt 3 3) (mkpt (3#5) (4#5)) (mkpt (-4#5) (3#5)) 2 1) /\
  obb_obb_intersection direct a (mkobb (mkpt 3 2) (mkpt (3#5) (4#5)) (mkpt (-4#5) (3#5)) 2 1) = true /\
  obb_obb_intersection direct a (mkobb (mkpt 3 3) (mkpt (3#5) (4#5)) (mkpt (-4#5) (3#5)) 2 1) = false.
Proof. cbv zeta. split; [|split; [|split; reflexivity]]; (repeat split; try reflexivity; simpl; lra). Qed.

(** C60: segment against a plane not parallel to it. *)
Theorem C60_segment_plane : forall a b n pd, ~ dot3 n (vsub3 b a) == 0 -> exists f t o,
  segment_plane_intersection a b n pd = Some (f, t, o) /\ on_plane n pd (lerp3 a b t) /\
  (f = true <-> 0 <= t <= 1) /\ (f = true <-> meet (on_segment3 a b) (on_plane n pd)) /\
  (f = true -> o = Some (lerp3 a b t) /\ forall X, on_segment3 a b X -> on_plane n pd X -> pt3eq X (lerp3 a b t)) /\ (f = false -> o = None).
Proof. exact segment_plane_ok. Qed.
Print Assumptions C60_segment_plane.
(** Parallel to the plane the parameter is a division by zero, even for segments inside it. *)
Theorem C60_parallel_undefined : forall a b n pd, dot3 n (vsub3 b a) == 0 -> segment_plane_intersection a b n pd = None.
Proof. intros a b n pd E. unfold segment_plane_intersection, qdiv_opt. apply Qeqb_eq in E. rewrite E. reflexivity. Qed.
Print Assumptions C60_parallel_undefined.
Example C60_witness : (exists t q, segment_plane_intersection (mkpt3 0 0 0) (mkpt3 0 0 4) (mkpt3 0 0 1) 1 = Some (true, t, Some q) /\ t == 1#4 /\ pt3eq q (mkpt3 0 0 1)) /\
  dot3 (mkpt3 0 0 1) (vsub3 (mkpt3 3 4 1) (mkpt3 0 0 1)) == 0.
Proof. split; [eexists; eexists; split; [reflexivity|]; repeat split; reflexivity|reflexivity]. Qed.
