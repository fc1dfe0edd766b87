(** Properties of the queries on circles, balls, moving balls and capsules. *)
From Coq Require Import Reals Lra Psatz.
From Verif Require Import RBase SphereModel SphereSpec SphereProof.

(** ** C23: two circles *)

(** Direct comparison, positive radii, in the plane.  Each answer means what it says: disjoint
    discs have no common point, a circumscribed pair has one disc strictly inside the other,
    coincident circles are equal, and otherwise the reported points are exactly the common
    points of the two circles. *)
Theorem C23_circle_circle : forall A B, length (b_center A) = 2%nat -> length (b_center B) = 2%nat ->
  0 < b_radius A -> 0 < b_radius B ->
  match circle_circle_intersection rdirect A B with
  | circles_disjoint => forall X, length X = 2%nat -> ~ (in_rball A X /\ in_rball B X)
  | circles_circumscribed => (forall X, length X = 2%nat -> in_rball A X -> in_rball B X /\ ~ on_rsphere B X) \/
                             (forall X, length X = 2%nat -> in_rball B X -> in_rball A X /\ ~ on_rsphere A X)
  | circles_coincident => A = B
  | circles_one p => forall X, length X = 2%nat -> (on_rsphere A X /\ on_rsphere B X <-> X = p)
  | circles_two p q => p <> q /\ forall X, length X = 2%nat -> (on_rsphere A X /\ on_rsphere B X <-> X = p \/ X = q)
  | circles_nan => False
  end.
Proof. exact circle_circle_ok. Qed.
Print Assumptions C23_circle_circle.

(** The circles around (0,0) and (6,0) of radius 5 meet exactly in (3,-4) and (3,4). *)
Example C23_witness : exists p q, circle_circle_intersection rdirect (mkball [0; 0] 5) (mkball [6; 0] 5) = circles_two p q /\
  ([3; 4] = p \/ [3; 4] = q) /\ ([3; -4] = p \/ [3; -4] = q).
Proof.
  pose proof (C23_circle_circle (mkball [0; 0] 5) (mkball [6; 0] 5) eq_refl eq_refl ltac:(simpl; lra) ltac:(simpl; lra)) as H.
  assert (P1 : on_rsphere (mkball [0; 0] 5) [3; 4] /\ on_rsphere (mkball [6; 0] 5) [3; 4]) by (unfold on_rsphere, rdist2; simpl; lra).
  assert (P2 : on_rsphere (mkball [0; 0] 5) [3; -4] /\ on_rsphere (mkball [6; 0] 5) [3; -4]) by (unfold on_rsphere, rdist2; simpl; lra).
  destruct (circle_circle_intersection rdirect (mkball [0; 0] 5) (mkball [6; 0] 5)) as [| |p|p q| |].
  - exfalso. apply (H [3; 4] eq_refl). unfold in_rball, on_rsphere in *; lra.
  - exfalso. destruct H as [H|H].
    + destruct (H [3; 4] eq_refl) as [_ N]; [unfold in_rball, on_rsphere in *; lra|apply N, P1].
    + destruct (H [3; 4] eq_refl) as [_ N]; [unfold in_rball, on_rsphere in *; lra|apply N, P1].
  - exfalso. apply (H [3; 4] eq_refl) in P1. apply (H [3; -4] eq_refl) in P2. rewrite <- P1 in P2.
    assert (4 = -4) by congruence. lra.
  - exists p, q. destruct H as [_ H]. split; [reflexivity|]. split; [apply (H [3; 4] eq_refl), P1|apply (H [3; -4] eq_refl), P2].
  - exfalso. assert (E : [0; 0] = [6; 0]) by congruence. assert (0 = 6) by congruence. lra.
  - contradiction.
Qed.

(** ** C24: a ray and a ball *)

Theorem C24_ray_sphere : forall p d s, length p = length d -> length p = length (b_center s) -> rdot d d = 1 ->
  match ray_sphere_intersection rdirect p d s with
  | Hit (t, q) => first_time (fun t => in_rball s (along p d t)) t /\ q = along p d t
  | Miss => forall t, 0 <= t -> ~ in_rball s (along p d t)
  | NotANumber => False
  end.
Proof. exact ray_sphere_ok. Qed.
Print Assumptions C24_ray_sphere.
(** With any positive tolerance a ray that narrowly misses the ball makes the query take the
    root of a negative number. *)
Theorem C24_ray_sphere_tolerance_refuted : forall tol, 0 < tol -> exists p d s,
  length p = 2%nat /\ rdot d d = 1 /\ 0 < b_radius s /\ (forall t, ~ in_rball s (along p d t)) /\
  ray_sphere_intersection (rabsolute tol) p d s = NotANumber.
Proof.
  intros tol H. set (s := tol / (1 + tol)).
  assert (S0 : 0 < s) by (unfold s, Rdiv; apply Rmult_lt_0_compat; [lra|apply Rinv_0_lt_compat; lra]).
  assert (E : s * (1 + tol) = tol) by (unfold s; field; lra).
  assert (S1 : s < 1) by nra. assert (ST : s < tol) by nra.
  exists [0; 0], [1; 0], (mkball [5; s] (s / 2)). split; [reflexivity|]. split; [simpl; lra|]. split; [simpl; lra|]. split.
  - intros t I. unfold in_rball, rdist2, along in I; simpl in I.
    pose proof (Rle_0_sqr (0 + t * 1 - 5)) as K; unfold Rsqr in K. nra.
  - unfold ray_sphere_intersection; simpl. unfold rsqrt_opt.
    match goal with |- context [Rltb tol ?x && Rltb tol (?y - 0)] => destruct (Rltb_spec tol (y - 0)) as [A|_]; [exfalso; lra|] end.
    rewrite andb_false_r.
    match goal with |- context [Rltb ?x (- tol)] => destruct (Rltb_spec x (- tol)) as [A|_]; [exfalso; nra|] end.
    match goal with |- context [Rltb ?x 0] => destruct (Rltb_spec x 0) as [A|A]; [reflexivity|exfalso; apply A; nra] end.
Qed.
Print Assumptions C24_ray_sphere_tolerance_refuted.
(** A ray from outside enters a ball: the query answers with a hit. *)
Example C24_witness : exists t q, ray_sphere_intersection rdirect [0; 0; 0] [1; 0; 0] (mkball [5; 0; 0] 1) = Hit (t, q) /\ t = 4.
Proof.
  pose proof (C24_ray_sphere [0; 0; 0] [1; 0; 0] (mkball [5; 0; 0] 1) eq_refl eq_refl ltac:(simpl; lra)) as H.
  assert (I : in_rball (mkball [5; 0; 0] 1) (along [0; 0; 0] [1; 0; 0] 4)) by (unfold in_rball, rdist2, along; simpl; lra).
  destruct (ray_sphere_intersection rdirect [0; 0; 0] [1; 0; 0] (mkball [5; 0; 0] 1)) as [|[t q]|].
  - exfalso. apply (H 4); [lra|exact I].
  - exists t, q. split; [reflexivity|]. destruct H as [(T0 & T1 & T2) _]. specialize (T2 4 ltac:(lra) I).
    unfold in_rball, rdist2, along in T1; simpl in T1. nra.
  - contradiction.
Qed.

(** ** C62: two moving balls *)

(** Except for balls that just touch at the start and are not approaching, the reported time
    is the first at which the balls meet, and the reported point lies on both surfaces. *)
Theorem C62_moving_spheres : forall s0 s1 v0 v1,
  length (b_center s1) = length (b_center s0) -> length v1 = length (b_center s1) -> length v0 = length (b_center s0) ->
  0 <= b_radius s0 -> 0 <= b_radius s1 -> 0 < b_radius s0 + b_radius s1 ->
  let s := rsub (b_center s1) (b_center s0) in let v := rsub v1 v0 in
  ~ (rdot s s = (b_radius s0 + b_radius s1) * (b_radius s0 + b_radius s1) /\ 0 <= rdot v s) ->
  match moving_sphere_sphere_intersection rdirect s0 s1 v0 v1 with
  | Hit (t, q) => first_time (fun t => balls_meet (moved s0 v0 t) (moved s1 v1 t)) t /\
      match q with
      | Some X => on_rsphere (moved s0 v0 t) X /\ on_rsphere (moved s1 v1 t) X
      | None => rdot s s < (b_radius s0 + b_radius s1) * (b_radius s0 + b_radius s1)
      end
  | Miss => forall t, 0 <= t -> ~ balls_meet (moved s0 v0 t) (moved s1 v1 t)
  | NotANumber => False
  end.
Proof. exact moving_sphere_sphere_ok. Qed.
Print Assumptions C62_moving_spheres.
(** Touching balls that are not approaching are reported as never meeting. *)
Theorem C62_touching_refuted : forall s0 s1 v0 v1,
  let s := rsub (b_center s1) (b_center s0) in let v := rsub v1 v0 in
  rdot s s = (b_radius s0 + b_radius s1) * (b_radius s0 + b_radius s1) -> 0 <= rdot v s ->
  moving_sphere_sphere_intersection rdirect s0 s1 v0 v1 = Miss /\ balls_meet s0 s1.
Proof.
  intros s0 s1 v0 v1 s v H1 H2. split; [apply moving_sphere_sphere_touching_missed; assumption|].
  unfold balls_meet, rdist2. fold s. lra.
Qed.
Print Assumptions C62_touching_refuted.
Example C62_witness :
  (exists t q, moving_sphere_sphere_intersection rdirect (mkball [0; 0] 1) (mkball [5; 0] 1) [1; 0] [0; 0] = Hit (t, q) /\ t = 3) /\
  moving_sphere_sphere_intersection rdirect (mkball [0; 0] 1) (mkball [2; 0] 1) [0; 1] [0; 1] = Miss.
Proof.
  split.
  - pose proof (C62_moving_spheres (mkball [0; 0] 1) (mkball [5; 0] 1) [1; 0] [0; 0] eq_refl eq_refl eq_refl ltac:(simpl; lra) ltac:(simpl; lra) ltac:(simpl; lra)) as H.
    cbv zeta in H. specialize (H ltac:(simpl; lra)).
    assert (I : balls_meet (moved (mkball [0; 0] 1) [1; 0] 3) (moved (mkball [5; 0] 1) [0; 0] 3)) by (unfold balls_meet, rdist2, moved, along; simpl; lra).
    destruct (moving_sphere_sphere_intersection rdirect (mkball [0; 0] 1) (mkball [5; 0] 1) [1; 0] [0; 0]) as [|[t q]|].
    + exfalso. apply (H 3); [lra|exact I].
    + exists t, q. split; [reflexivity|]. destruct H as [(T0 & T1 & T2) _]. specialize (T2 3 ltac:(lra) I).
      unfold balls_meet, rdist2, moved, along in T1; simpl in T1. nra.
    + contradiction.
  - apply C62_touching_refuted; simpl; lra.
Qed.

(** ** C63: a segment and a ball *)

Theorem C63_segment_sphere : forall sa sb s, length sb = length sa -> length (b_center s) = length sa ->
  let d := rsub sb sa in
  match segment_sphere_intersection rdirect sa sb s with
  | Hit (t, q) => first_time (fun t => t <= 1 /\ in_rball s (along sa d t)) t /\
                  (rdot d d <> 0 -> q = Some (along sa d t))
  | Miss => forall t, 0 <= t <= 1 -> ~ in_rball s (along sa d t)
  | NotANumber => False
  end.
Proof.
  intros sa sb s L1 L2 d. unfold segment_sphere_intersection. fold d.
  pose proof (segment_sphere_first_ok sa d (sqrt (rdot d d)) s) as H.
  specialize (H ltac:(unfold d; rewrite rsub_length; congruence) ltac:(congruence) (sqrt_pos _) (sqrt_def _ (rdot_self_nonneg d))).
  destruct (segment_sphere_first rdirect sa d (sqrt (rdot d d)) s) as [|[t q]|]; [exact H| |exact H].
  destruct H as [H1 H2]. split; [exact H1|]. intro N. rewrite H2.
  destruct (Reqb_spec (sqrt (rdot d d)) 0) as [Z|]; [|reflexivity].
  exfalso. apply N. rewrite <- (sqrt_def _ (rdot_self_nonneg d)), Z. ring.
Qed.
Print Assumptions C63_segment_sphere.
(** The overload reporting both roots: they are exactly the parameters of the points of the
    line on the surface, and each flag says whether its root lies on the segment. *)
Theorem C63_segment_sphere_two : forall p0 p1 s, length p0 = length p1 -> length p0 = length (b_center s) ->
  let d := rsub p1 p0 in rdot d d <> 0 ->
  match segment_sphere_two p0 p1 s with
  | Hit h => (forall t, on_rsphere s (along p0 d t) <-> t = th_t0 h \/ t = th_t1 h) /\ th_t0 h <= th_t1 h /\
             (th_in0 h = true <-> 0 <= th_t0 h <= 1) /\ (th_in1 h = true <-> 0 <= th_t1 h <= 1) /\
             th_q0 h = along p0 d (th_t0 h) /\ th_q1 h = along p0 d (th_t1 h)
  | Miss => forall t, ~ on_rsphere s (along p0 d t)
  | NotANumber => False
  end.
Proof. intros p0 p1 s L1 L2. exact (proj2 (segment_sphere_two_ok p0 p1 s L1 L2)). Qed.
Print Assumptions C63_segment_sphere_two.
(** That overload divides by zero whenever the segment is a single point. *)
Theorem C63_point_segment_refuted : forall p s, length p = length (b_center s) -> segment_sphere_two p p s = NotANumber.
Proof.
  intros p s L. apply (proj1 (segment_sphere_two_ok p p s eq_refl L)).
  clear. induction p as [|x p IH]; simpl; [reflexivity|]. rewrite IH. ring.
Qed.
Print Assumptions C63_point_segment_refuted.
Example C63_witness : exists t q, segment_sphere_intersection rdirect [0; 0] [10; 0] (mkball [5; 0] 1) = Hit (t, q) /\ t = 2 / 5.
Proof.
  pose proof (C63_segment_sphere [0; 0] [10; 0] (mkball [5; 0] 1) eq_refl eq_refl) as H. cbv zeta in H.
  assert (I : in_rball (mkball [5; 0] 1) (along [0; 0] (rsub [10; 0] [0; 0]) (2 / 5))) by (unfold in_rball, rdist2, along; simpl; lra).
  destruct (segment_sphere_intersection rdirect [0; 0] [10; 0] (mkball [5; 0] 1)) as [|[t q]|].
  - exfalso. apply (H (2 / 5)); [lra|exact I].
  - exists t, q. split; [reflexivity|]. assert (W25 : 2 / 5 <= 1) by lra. destruct H as [(T0 & (_ & T1) & T2) _]. specialize (T2 (2 / 5) ltac:(lra) (conj W25 I)).
    unfold in_rball, rdist2, along in T1; simpl in T1. nra.
  - contradiction.
Qed.

(** ** C64: a moving ball and a plane *)

Theorem C64_moving_sphere_plane : forall s vel p, length vel = length (b_center s) -> length (pl_normal p) = length (b_center s) ->
  rdot (pl_normal p) (pl_normal p) = 1 -> 0 <= b_radius s ->
  let (pf, o) := moving_sphere_plane_intersection rdirect s vel p in
  let dist := rdot (b_center s) (pl_normal p) - pl_dist p in
  match o with
  | Some (t, q) => pf_intersecting pf = true /\
      first_time (fun t => ball_meets (moved s vel t) (on_rplane p)) t /\
      length q = length (b_center s) /\ on_rplane p q /\ in_rball (moved s vel t) q /\
      q = rsub (along (b_center s) vel t) (rscale (dist + t * rdot vel (pl_normal p)) (pl_normal p))
  | None => pf_intersecting pf = false /\ pf_penetrating pf = false /\ forall t, 0 <= t -> ~ ball_meets (moved s vel t) (on_rplane p)
  end /\
  (pf_away pf = true <-> 0 <= dist * rdot vel (pl_normal p)) /\
  (pf_penetrating pf = true -> Rabs dist <> b_radius s).
Proof. exact moving_plane_ok. Qed.
Print Assumptions C64_moving_sphere_plane.
Example C64_witness : exists pf t q,
  moving_sphere_plane_intersection rdirect (mkball [0; 0; 5] 1) [1; 0; -2] (mkrplane [0; 0; 1] 0) = (pf, Some (t, q)) /\ t = 2.
Proof.
  pose proof (C64_moving_sphere_plane (mkball [0; 0; 5] 1) [1; 0; -2] (mkrplane [0; 0; 1] 0) eq_refl eq_refl ltac:(simpl; lra) ltac:(simpl; lra)) as H.
  assert (I : ball_meets (moved (mkball [0; 0; 5] 1) [1; 0; -2] 2) (on_rplane (mkrplane [0; 0; 1] 0))).
  { exists [2; 0; 0]. split; [reflexivity|]. unfold on_rplane, in_rball, rdist2, moved, along; simpl; lra. }
  destruct (moving_sphere_plane_intersection rdirect (mkball [0; 0; 5] 1) [1; 0; -2] (mkrplane [0; 0; 1] 0)) as [pf [[t q]|]].
  - exists pf, t, q. split; [reflexivity|]. destruct H as [(_ & (T0 & T1 & T2) & _) _]. specialize (T2 2 ltac:(lra) I).
    unfold moved in T1. apply ball_meets_plane in T1; try reflexivity; simpl; try lra.
    unfold along in T1; simpl in T1.
    assert (B := Rle_abs ((0 + t * 1) * 0 + ((0 + t * 0) * 0 + ((5 + t * -2) * 1 + 0)) - 0)). lra.
  - exfalso. destruct H as [(_ & _ & N) _]. apply (N 2); [lra|exact I].
Qed.

(** ** C65: a moving disc and a segment *)

(** In the plane, for a moving disc and a segment that is not a point: the time reported is
    that of the first contact and the point reported is the point of contact, unless the disc
    starts out exactly touching an end of the segment without approaching it. *)
Theorem C65_moving_sphere_segment : forall s vel a b, length (b_center s) = 2%nat -> length vel = 2%nat -> length a = 2%nat -> length b = 2%nat ->
  a <> b -> 0 <= b_radius s -> rdot vel vel <> 0 ->
  (forall e, e = a \/ e = b -> ~ (rdist2 (b_center s) e = b_radius s * b_radius s /\ 0 <= rdot (rsub (b_center s) e) vel)) ->
  let (f, o) := moving_sphere_segment_intersection rdirect s vel a b in
  match o with
  | Some (t, q) => sf_intersecting f = true /\
      first_time (fun t => ball_meets (moved s vel t) (on_rsegment a b)) t /\
      (sf_endpoint f = false -> on_rsegment a b q /\ in_rball (moved s vel t) q) /\
      (sf_endpoint f = true -> 0 < t -> 0 < b_radius s -> (q = a \/ q = b) /\ in_rball (moved s vel t) q)
  | None => sf_intersecting f = false /\ forall t, 0 <= t -> ~ ball_meets (moved s vel t) (on_rsegment a b)
  end.
Proof. exact moving_segment_ok. Qed.
Print Assumptions C65_moving_sphere_segment.
(** A disc at rest that overlaps an end of the segment is reported as not intersecting. *)
Theorem C65_at_rest_refuted : exists s a b, ball_meets s (on_rsegment a b) /\
  sf_intersecting (fst (moving_sphere_segment_intersection rdirect s [0; 0] a b)) = false.
Proof.
  exists (mkball [-1 / 2; 0] 1), [0; 0], [1; 0]. split.
  - exists [0; 0]. split; [reflexivity|]. split.
    + exists 0. split; [lra|]. unfold along; simpl. f_equal; [ring|f_equal; ring].
    + unfold in_rball, rdist2; simpl; lra.
  - unfold moving_sphere_segment_intersection.
    assert (EN : rnorm (rsub [1; 0] [0; 0]) = 1).
    { unfold rnorm; simpl. replace ((1 - 0) * (1 - 0) + ((0 - 0) * (0 - 0) + 0)) with 1 by ring. apply sqrt_1. }
    assert (EL : line_of_segment [0; 0] [1; 0] = mkrplane [0; 1] 0).
    { unfold line_of_segment, rnormalize. rewrite EN. simpl. f_equal; [f_equal; [field|f_equal; field]|field]. }
    rewrite EL. unfold moving_sphere_plane_intersection; cbn [pl_normal pl_dist b_center b_radius].
    assert (ED : rdot [-1 / 2; 0] [0; 1] - 0 = 0) by (simpl; field). rewrite ED, Rabs_R0.
    cbn [rlt rdirect]. destruct (Rltb_spec 0 1) as [_|N]; [|exfalso; apply N; lra].
    assert (EQ : rsub [-1 / 2; 0] (rscale (0 / rdot [0; 1] [0; 1]) [0; 1]) = [-1 / 2; 0]) by (simpl; f_equal; [field|f_equal; field]).
    rewrite EQ.
    assert (EB : ris_between rdirect [0; 0] [1; 0] [-1 / 2; 0] = false).
    { apply not_true_is_false. intro H. apply ris_between_ok in H; [|lra]. destruct H as (t & Ht & E). unfold along in E; simpl in E.
      assert (-1 / 2 = 0 + t * (1 - 0)) by congruence. lra. }
    rewrite EB. unfold moving_sphere_endpoint.
    assert (EV : rnorm [0; 0] = 0) by (unfold rnorm; simpl; replace (0 * 0 + (0 * 0 + 0)) with 0 by ring; apply sqrt_0).
    rewrite EV. cbn [req rdirect]. destruct (Reqb_spec 0 0) as [_|N]; [reflexivity|exfalso; apply N; reflexivity].
Qed.
Print Assumptions C65_at_rest_refuted.
Example C65_witness : exists f t q,
  moving_sphere_segment_intersection rdirect (mkball [-4; 0] 1) [1; 0] [0; 0] [3; 0] = (f, Some (t, q)) /\ t = 3.
Proof.
  pose proof (C65_moving_sphere_segment (mkball [-4; 0] 1) [1; 0] [0; 0] [3; 0] eq_refl eq_refl eq_refl eq_refl) as H.
  specialize (H ltac:(intro E; assert (0 = 3) by congruence; lra) ltac:(simpl; lra) ltac:(simpl; lra)).
  specialize (H ltac:(intros e [-> | ->]; unfold rdist2; simpl; lra)).
  assert (I : ball_meets (moved (mkball [-4; 0] 1) [1; 0] 3) (on_rsegment [0; 0] [3; 0])).
  { exists [0; 0]. split; [reflexivity|]. split.
    - exists 0. split; [lra|]. unfold along; simpl. f_equal; [ring|f_equal; ring].
    - unfold in_rball, rdist2, moved, along; simpl; lra. }
  destruct (moving_sphere_segment_intersection rdirect (mkball [-4; 0] 1) [1; 0] [0; 0] [3; 0]) as [f [[t q]|]].
  - exists f, t, q. split; [reflexivity|]. destruct H as (_ & (T0 & T1 & T2) & _). specialize (T2 3 ltac:(lra) I).
    destruct T1 as (X & _ & (u & Hu & ->) & B). unfold in_rball, rdist2, moved, along in B; simpl in B. nra.
  - exfalso. destruct H as [_ N]. apply (N 3); [lra|exact I].
Qed.

(** ** C66: a segment and a capsule *)

(** For a segment not parallel to the axis that does not start in the body of the capsule
    (within the radius of a point of the axis to which it projects), the answer is exact. *)
Theorem C66_segment_capsule : forall sa sb p q r, length sb = length sa -> length p = length sa -> length q = length sa ->
  let d := rsub q p in let n := rsub sb sa in
  0 < rdot d d -> rdot n d * rdot n d < rdot d d * rdot n n ->
  ~ (exists u, 0 <= u <= 1 /\ rdot (rsub sa (along p d u)) d = 0 /\ rdist2 sa (along p d u) <= r * r) ->
  match segment_capsule_intersection rdirect sa sb p q r with
  | Hit (t, o) => first_time (fun t => t <= 1 /\ in_capsule p q r (along sa n t)) t /\ o = Some (along sa n t)
  | Miss => forall t, 0 <= t <= 1 -> ~ in_capsule p q r (along sa n t)
  | NotANumber => False
  end.
Proof. exact segment_capsule_ok. Qed.
Print Assumptions C66_segment_capsule.
(** A segment inside the capsule is reported as missing it. *)
Theorem C66_inside_refuted : exists sa sb p q r, 0 < r /\ in_capsule p q r sa /\ in_capsule p q r sb /\
  segment_capsule_intersection rdirect sa sb p q r = Miss.
Proof.
  exists [0; 0], [0; 1 / 2], [-5; 0], [5; 0], 1. split; [lra|].
  split; [|split].
  - exists [0; 0]. split; [exists (1 / 2); split; [lra|]; unfold along; simpl; f_equal; [field|f_equal; field]|unfold rdist2; simpl; lra].
  - exists [0; 0]. split; [exists (1 / 2); split; [lra|]; unfold along; simpl; f_equal; [field|f_equal; field]|unfold rdist2; simpl; lra].
  - unfold segment_capsule_intersection.
    set (d := rsub [5; 0] [-5; 0]). set (m := rsub [0; 0] [-5; 0]). set (n := rsub [0; 1 / 2] [0; 0]).
    assert (E1 : rdot m d = 50) by (simpl; lra). assert (E2 : rdot n d = 0) by (simpl; lra).
    assert (E3 : rdot d d = 100) by (simpl; lra). assert (E4 : rdot n n = 1 / 4) by (simpl; lra).
    assert (E5 : rdot m n = 0) by (simpl; lra). assert (E6 : rdot m m = 25) by (simpl; lra).
    rewrite E1, E2, E3, E4, E5, E6. cbn [rlt rgt rdirect].
    destruct (Rltb_spec 50 0) as [N|_]; [exfalso; lra|]. destruct (Rltb_spec 100 50) as [N|_]; [exfalso; lra|]. cbn [andb].
    match goal with |- context [Rltb (Rabs ?x) 0] => destruct (Rltb_spec (Rabs x) 0) as [N|_]; [exfalso; pose proof (Rabs_pos x); lra|] end.
    match goal with |- context [Rltb ?x 0] => destruct (Rltb_spec x 0) as [N|_]; [exfalso; lra|] end.
    match goal with |- context [Reqb ?x 0] => destruct (Reqb_spec x 0) as [N|_]; [exfalso; lra|] end.
    match goal with |- context [sqrt ?x] => set (w := sqrt x); assert (W : 0 < w) by (apply sqrt_lt_R0; lra) end.
    match goal with |- context [50 + ?t * 0] => assert (T : t < 0) by lra end.
    match goal with |- context [Rltb ?x 0] => destruct (Rltb_spec x 0) as [N|_]; [exfalso; lra|] end.
    match goal with |- context [Rltb ?x ?y] => destruct (Rltb_spec x y) as [N|_]; [exfalso; lra|] end.
    match goal with |- context [Rleb 0 ?t] => destruct (Rleb_spec 0 t) as [N|_]; [exfalso; lra|] end. reflexivity.
Qed.
Print Assumptions C66_inside_refuted.
(** A segment through the capsule parallel to its axis makes the query divide by zero. *)
Theorem C66_parallel_refuted : exists sa sb p q r, 0 < r /\ in_capsule p q r (along sa (rsub sb sa) (1 / 2)) /\
  segment_capsule_intersection rdirect sa sb p q r = NotANumber.
Proof.
  exists [-2; 0], [2; 0], [0; 0], [1; 0], 1. split; [lra|]. split.
  - exists [0; 0]. split; [exists 0; split; [lra|]; unfold along; simpl; f_equal; [field|f_equal; field]|unfold rdist2, along; simpl; lra].
  - unfold segment_capsule_intersection.
    set (d := rsub [1; 0] [0; 0]). set (m := rsub [-2; 0] [0; 0]). set (n := rsub [2; 0] [-2; 0]).
    assert (E1 : rdot m d = -2) by (simpl; lra). assert (E2 : rdot n d = 4) by (simpl; lra).
    assert (E3 : rdot d d = 1) by (simpl; lra). assert (E4 : rdot n n = 16) by (simpl; lra).
    assert (E5 : rdot m n = -8) by (simpl; lra). assert (E6 : rdot m m = 4) by (simpl; lra).
    rewrite E1, E2, E3, E4, E5, E6. cbn [rlt rgt rdirect].
    destruct (Rltb_spec (-2 + 4) 0) as [N|_]; [exfalso; lra|]. rewrite andb_false_r.
    destruct (Rltb_spec 1 (-2)) as [N|_]; [exfalso; lra|]. cbn [andb].
    match goal with |- context [Rltb (Rabs ?x) 0] => destruct (Rltb_spec (Rabs x) 0) as [N|_]; [exfalso; pose proof (Rabs_pos x); lra|] end.
    match goal with |- context [Rltb ?x 0] => destruct (Rltb_spec x 0) as [N|_]; [exfalso; lra|] end.
    match goal with |- context [Reqb ?x 0] => destruct (Reqb_spec x 0) as [_|N]; [reflexivity|exfalso; apply N; lra] end.
Qed.
Print Assumptions C66_parallel_refuted.
(** A segment crossing the side of a capsule enters it at the side. *)
Example C66_witness : exists t o, segment_capsule_intersection rdirect [0; 5] [0; -5] [-5; 0] [5; 0] 1 = Hit (t, o) /\ t = 2 / 5.
Proof.
  pose proof (C66_segment_capsule [0; 5] [0; -5] [-5; 0] [5; 0] 1 eq_refl eq_refl eq_refl) as H. cbv zeta in H.
  specialize (H ltac:(simpl; lra) ltac:(simpl; lra)).
  assert (NB : ~ (exists u, 0 <= u <= 1 /\ rdot (rsub [0; 5] (along [-5; 0] (rsub [5; 0] [-5; 0]) u)) (rsub [5; 0] [-5; 0]) = 0 /\
     rdist2 [0; 5] (along [-5; 0] (rsub [5; 0] [-5; 0]) u) <= 1 * 1)).
  { intros (u & _ & _ & B). unfold rdist2, along in B; simpl in B.
    match goal with H : ?x * ?x + _ <= _ |- _ => pose proof (Rle_0_sqr x) as K; unfold Rsqr in K end. nra. }
  specialize (H NB).
  assert (I : in_capsule [-5; 0] [5; 0] 1 (along [0; 5] (rsub [0; -5] [0; 5]) (2 / 5))).
  { exists [0; 0]. split; [exists (1 / 2); split; [lra|]; unfold along; simpl; f_equal; [field|f_equal; field]|unfold rdist2, along; simpl; lra]. }
  destruct (segment_capsule_intersection rdirect [0; 5] [0; -5] [-5; 0] [5; 0] 1) as [|[t o]|].
  - exfalso. apply (H (2 / 5)); [lra|exact I].
  - exists t, o. split; [reflexivity|]. assert (W25 : 2 / 5 <= 1) by lra. destruct H as [(T0 & (_ & T1) & T2) _]. specialize (T2 (2 / 5) ltac:(lra) (conj W25 I)).
    destruct T1 as (Y & (u & Hu & ->) & B). unfold rdist2, along in B; simpl in B.
    match goal with H : ?x * ?x + _ <= _ |- _ => pose proof (Rle_0_sqr x) as K; unfold Rsqr in K end. nra.
  - contradiction.
Qed.
