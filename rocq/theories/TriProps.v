(** C108: segment against triangle. *)
From Verif Require Import Base CmpModel OrientModel OrientSpec OrientProof DistModel DistSpec DistProof LinIntModel LinIntSpec LinIntProof PolygonModel PolygonSpec PolygonProof PolygonBorderProof PlanarModel PlanarSpec PlanarProof PlanarProof2 PlanarProof4 PlanarProof5 TriModel TriProof.
From Coq Require Import Lia Sorting.Sorted.

(** The points are exactly the ends of the part of the segment inside the triangle: none when there is no common
    point, one when there is a single one, otherwise the two ends of the common segment. *)
Definition ends_of (common : pt -> Prop) (pts : list pt) : Prop :=
  (pts = [] /\ is_empty_set common) \/
  (exists X, pts = [X] /\ is_single_point common X) \/
  (exists X Y, pts = [X; Y] /\ ~ X =p= Y /\ is_segment_set common X Y).
(** The point is on the border of the triangle, or outside. *)
Definition not_strictly_inside (t0 t1 t2 X : pt) : Prop :=
  in_triangle t0 t1 t2 X -> on_segment t0 t1 X \/ on_segment t1 t2 X \/ on_segment t2 t0 X.

Lemma finish : forall A B t0 t1 t2 s s1 s2 s3, ~ (point_in_triangle direct A t0 t1 t2 && point_in_triangle direct B t0 t1 t2 = true) ->
  s = (if point_in_triangle direct A t0 t1 t2 then [A] else if point_in_triangle direct B t0 t1 t2 then [B] else []) ->
  add_contacts direct A B t0 t1 s = Some s1 -> add_contacts direct A B t1 t2 s1 = Some s2 -> add_contacts direct A B t2 t0 s2 = Some s3 ->
  (length s3 <= 2)%nat -> segment_triangle_points direct A B t0 t1 t2 = Some s3.
Proof.
  intros A B t0 t1 t2 s s1 s2 s3 N -> R1 R2 R3 L. unfold segment_triangle_points. destruct (point_in_triangle direct A t0 t1 t2 && point_in_triangle direct B t0 t1 t2); [exfalso; apply N; reflexivity|].
  rewrite R1, R2, R3. destruct s3 as [|X [|Y [|Z s3]]]; cbn in L; [reflexivity|reflexivity|reflexivity|lia].
Qed.
Lemma ends_length : forall c pts, ends_of c pts -> (length pts <= 2)%nat.
Proof. intros c pts [[-> _]|[(X & -> & _)|(X & Y & -> & _)]]; cbn; lia. Qed.

Theorem C108_points : forall A B t0 t1 t2, ~ A =p= B -> 0 < tri2 t0 t1 t2 ->
  exists pts, segment_triangle_points direct A B t0 t1 t2 = Some pts /\ ends_of (both (on_segment A B) (in_triangle t0 t1 t2)) pts.
Proof.
  intros A B t0 t1 t2 NAB P. assert (HT : ~ tri2 t0 t1 t2 == 0) by lra.
  assert (HAB : nonzero (vsub B A)) by (intros [E1 E2]; apply NAB; unfold vsub in *; cbn in *; split; lra).
  assert (PA := pit_ccw A t0 t1 t2 P). assert (PB := pit_ccw B t0 t1 t2 P).
  assert (XA : in_triangle t0 t1 t2 A -> extreme (both (on_segment A B) (in_triangle t0 t1 t2)) A) by (intro H; apply (extreme_common t0 t1 t2 HT A B HAB); left; split; [apply pteq_refl|exact H]).
  assert (XB : in_triangle t0 t1 t2 B -> extreme (both (on_segment A B) (in_triangle t0 t1 t2)) B) by (intro H; apply (extreme_common t0 t1 t2 HT A B HAB); right; left; split; [apply pteq_refl|exact H]).
  destruct (point_in_triangle direct A t0 t1 t2 && point_in_triangle direct B t0 t1 t2) eqn:EAB.
  - exists [A; B]. unfold segment_triangle_points. rewrite EAB. split; [reflexivity|]. right; right. exists A, B. split; [reflexivity|]. split; [exact NAB|].
    apply andb_true_iff in EAB. destruct EAB as [EA EB]. apply PA in EA. apply PB in EB. intro Z. split; [intros [H _]; exact H|]. intro H. split; [exact H|].
    destruct H as (s & Hs & E). apply in_triangle_sign in EA; [|exact HT]. apply in_triangle_sign in EB; [|exact HT]. apply in_triangle_sign; [exact HT|]. rewrite !(tri2_pteq _ _ _ _ E), !tri2_lerp.
    set (k := tri2 t0 t1 t2) in *. assert (M : forall a b, 0 <= k * a -> 0 <= k * b -> 0 <= k * (a + s * (b - a))).
    { intros a b Ha Hb. setoid_replace (k * (a + s * (b - a))) with ((1 - s) * (k * a) + s * (k * b)) by ring. assert (0 <= (1 - s) * (k * a)) by (apply Qmult_le_0_compat; lra). assert (0 <= s * (k * b)) by (apply Qmult_le_0_compat; lra). lra. }
    repeat split; apply M; tauto.
  - set (s := if point_in_triangle direct A t0 t1 t2 then [A] else if point_in_triangle direct B t0 t1 t2 then [B] else []).
    assert (NI : forall X l, inp X l -> l = [A] -> X =p= A) by (intros X l (y & I & E) ->; destruct I as [<-|[]]; exact E).
    assert (NJ : forall X l, inp X l -> l = [B] -> X =p= B) by (intros X l (y & I & E) ->; destruct I as [<-|[]]; exact E).
    destruct (contacts_ok t0 t1 t2 HT A B HAB s) as (s1 & s2 & s3 & R1 & R2 & R3 & Hs & M).
    + unfold s. destruct (point_in_triangle direct A t0 t1 t2); [|destruct (point_in_triangle direct B t0 t1 t2)]; repeat constructor.
    + intros X I. unfold s in I. destruct (point_in_triangle direct A t0 t1 t2) eqn:EA.
      * apply (extreme_compat _ A); [apply common_compat|apply pteq_sym, (NI X _ I eq_refl)|]. apply XA, PA. reflexivity.
      * destruct (point_in_triangle direct B t0 t1 t2) eqn:EB; [|destruct I as (y & [] & _)]. apply (extreme_compat _ B); [apply common_compat|apply pteq_sym, (NJ X _ I eq_refl)|]. apply XB, PB. reflexivity.
    + intro H. left. apply PA in H. unfold s. rewrite H. exists A. split; [left; reflexivity|apply pteq_refl].
    + intro H. left. apply PB in H. unfold s. rewrite H in EAB. rewrite andb_true_r in EAB. rewrite EAB, H. exists B. split; [left; reflexivity|apply pteq_refl].
    + assert (F := final_ok t0 t1 t2 HT A B s3 Hs M). exists s3. split; [|exact F].
      apply (finish A B t0 t1 t2 s s1 s2 s3); [rewrite EAB; discriminate|reflexivity|exact R1|exact R2|exact R3|apply (ends_length _ _ F)].
Qed.
Print Assumptions C108_points.

(** A triangle given clockwise: the same as long as no end of the segment is strictly inside. *)
Theorem C108_points_clockwise : forall A B t0 t1 t2, ~ A =p= B -> tri2 t0 t1 t2 < 0 -> not_strictly_inside t0 t1 t2 A -> not_strictly_inside t0 t1 t2 B ->
  exists pts, segment_triangle_points direct A B t0 t1 t2 = Some pts /\ ends_of (both (on_segment A B) (in_triangle t0 t1 t2)) pts.
Proof.
  intros A B t0 t1 t2 NAB P IA IB. assert (HT : ~ tri2 t0 t1 t2 == 0) by lra.
  assert (HAB : nonzero (vsub B A)) by (intros [E1 E2]; apply NAB; unfold vsub in *; cbn in *; split; lra).
  assert (PA := pit_cw A t0 t1 t2 P). assert (PB := pit_cw B t0 t1 t2 P).
  assert (K : forall X, X =p= A \/ X =p= B -> not_strictly_inside t0 t1 t2 X -> in_triangle t0 t1 t2 X ->
    extreme (both (on_segment A B) (on_segment t0 t1)) X \/ extreme (both (on_segment A B) (on_segment t1 t2)) X \/ extreme (both (on_segment A B) (on_segment t2 t0)) X).
  { intros X EX IX H. assert (E : extreme (both (on_segment A B) (in_triangle t0 t1 t2)) X).
    { apply on_AB_extreme; [|exact H]. apply (segment_extreme _ A B); [intro; tauto|exact EX]. }
    destruct (IX H) as [G|[G|G]].
    - left. apply (extreme_face t0 t1 t2 A B t0 t1); [apply (face_0 t0 t1 t2 HT A B)|exact E|exact G].
    - right; left. apply (extreme_face t0 t1 t2 A B t1 t2); [apply (face_1 t0 t1 t2 HT A B)|exact E|exact G].
    - right; right. apply (extreme_face t0 t1 t2 A B t2 t0); [apply (face_2 t0 t1 t2 HT A B)|exact E|exact G]. }
  destruct (contacts_ok t0 t1 t2 HT A B HAB []) as (s1 & s2 & s3 & R1 & R2 & R3 & Hs & M).
  - constructor.
  - intros X (y & [] & _).
  - intro H. right. apply K; [left; apply pteq_refl|exact IA|exact H].
  - intro H. right. apply K; [right; apply pteq_refl|exact IB|exact H].
  - assert (F := final_ok t0 t1 t2 HT A B s3 Hs M). exists s3. split; [|exact F].
    apply (finish A B t0 t1 t2 [] s1 s2 s3); [rewrite PA; discriminate|rewrite PA, PB; reflexivity|exact R1|exact R2|exact R3|apply (ends_length _ _ F)].
Qed.
Print Assumptions C108_points_clockwise.

(** The yes/no test: true exactly when there is a common point, for every triangle with an area and
    every segment, single points included. *)
Lemma apart_ok : forall n A B t0 t1 t2, apart n A B t0 t1 t2 = true <->
  (forall S V, S = A \/ S = B -> V = t0 \/ V = t1 \/ V = t2 -> dot n S < dot n V) \/ (forall S V, S = A \/ S = B -> V = t0 \/ V = t1 \/ V = t2 -> dot n V < dot n S).
Proof.
  intros n A B t0 t1 t2. unfold apart. cbv zeta. rewrite orb_true_iff.
  destruct (qmin_spec (dot n t0) (dot n t1)) as (m1 & m2 & m3). destruct (qmin_spec (qmin (dot n t0) (dot n t1)) (dot n t2)) as (m4 & m5 & m6).
  destruct (qmax_spec (dot n t0) (dot n t1)) as (x1 & x2 & x3). destruct (qmax_spec (qmax (dot n t0) (dot n t1)) (dot n t2)) as (x4 & x5 & x6).
  destruct (qmin_spec (dot n A) (dot n B)) as (p1 & p2 & p3). destruct (qmax_spec (dot n A) (dot n B)) as (p4 & p5 & p6).
  set (tmin := qmin (qmin (dot n t0) (dot n t1)) (dot n t2)) in *. set (tmax := qmax (qmax (dot n t0) (dot n t1)) (dot n t2)) in *. set (pmin := qmin (dot n A) (dot n B)) in *. set (pmax := qmax (dot n A) (dot n B)) in *.
  set (mi := qmin (dot n t0) (dot n t1)) in *. set (ma := qmax (dot n t0) (dot n t1)) in *. clearbody tmin tmax pmin pmax mi ma. split.
  - intros [H|H]; [left; destruct (Qltb_spec pmax tmin) as [L|L]; [|discriminate]|right; destruct (Qltb_spec tmax pmin) as [L|L]; [|discriminate]]; intros S V [-> | ->] [-> |[-> | ->]]; lra.
  - intros [H|H]; [left; destruct (Qltb_spec pmax tmin) as [L|L]; [reflexivity|exfalso]|right; destruct (Qltb_spec tmax pmin) as [L|L]; [reflexivity|exfalso]].
    + pose proof (H A t0 (or_introl eq_refl) (or_introl eq_refl)). pose proof (H A t1 (or_introl eq_refl) (or_intror (or_introl eq_refl))). pose proof (H A t2 (or_introl eq_refl) (or_intror (or_intror eq_refl))).
      pose proof (H B t0 (or_intror eq_refl) (or_introl eq_refl)). pose proof (H B t1 (or_intror eq_refl) (or_intror (or_introl eq_refl))). pose proof (H B t2 (or_intror eq_refl) (or_intror (or_intror eq_refl))). destruct p4, m4, m1; lra.
    + pose proof (H A t0 (or_introl eq_refl) (or_introl eq_refl)). pose proof (H A t1 (or_introl eq_refl) (or_intror (or_introl eq_refl))). pose proof (H A t2 (or_introl eq_refl) (or_intror (or_intror eq_refl))).
      pose proof (H B t0 (or_intror eq_refl) (or_introl eq_refl)). pose proof (H B t1 (or_intror eq_refl) (or_intror (or_introl eq_refl))). pose proof (H B t2 (or_intror eq_refl) (or_intror (or_intror eq_refl))). destruct p1, x4, x1; lra.
Qed.
Lemma dot_side : forall c d S V, dot (left_normal (vsub d c)) S - dot (left_normal (vsub d c)) V == tri2 c d S - tri2 c d V.
Proof. intros. unfold dot, left_normal, tri2, cross, vsub; cbn. ring. Qed.
(** A common point: no axis separates. *)
Lemma common_not_apart : forall n A B t0 t1 t2 X, on_segment A B X -> in_triangle t0 t1 t2 X -> apart n A B t0 t1 t2 = false.
Proof.
  intros n A B t0 t1 t2 X (s & Hs & [E1 E2]) (a & b & c & Ha & Hb & Hc & Sm & [F1 F2]). destruct (apart n A B t0 t1 t2) eqn:E; [exfalso|reflexivity]. apply apart_ok in E.
  assert (D1 : dot n X == (1 - s) * dot n A + s * dot n B) by (unfold lerp, vadd, vscale, vsub, dot in *; cbn in *; rewrite E1, E2; ring).
  assert (D2 : dot n X == a * dot n t0 + b * dot n t1 + c * dot n t2) by (unfold vadd, vscale, dot in *; cbn in *; rewrite F1, F2; ring).
  assert (Sep : forall u v w p q : Q, (p < u /\ p < v /\ p < w /\ q < u /\ q < v /\ q < w) -> (1 - s) * p + s * q < a * u + b * v + c * w).
  { intros u v w p q (G1 & G2 & G3 & G4 & G5 & G6). set (m := qmax p q). destruct (qmax_spec p q) as (M1 & M2 & M3). fold m in M1, M2, M3.
    assert (L1 : (1 - s) * p + s * q <= m) by (clearbody m; nra).
    assert (m < u /\ m < v /\ m < w) as (K1 & K2 & K3) by (clearbody m; destruct M1; repeat split; lra).
    assert (L2 : 0 < a * (u - m) + b * (v - m) + c * (w - m)).
    { clearbody m. assert (0 <= a * (u - m)) by (apply Qmult_le_0_compat; lra). assert (0 <= b * (v - m)) by (apply Qmult_le_0_compat; lra). assert (0 <= c * (w - m)) by (apply Qmult_le_0_compat; lra).
      destruct (Qlt_le_dec 0 a); [assert (0 < a * (u - m)) by nra; lra|]. destruct (Qlt_le_dec 0 b); [assert (0 < b * (v - m)) by nra; lra|]. assert (0 < c * (w - m)) by nra. lra. }
    assert (a * u + b * v + c * w == m + (a * (u - m) + b * (v - m) + c * (w - m))) by (setoid_replace a with (1 - b - c) by lra; ring). lra. }
  destruct E as [E|E].
  - assert (G := Sep (dot n t0) (dot n t1) (dot n t2) (dot n A) (dot n B)). rewrite D1 in D2. assert (H : (1 - s) * dot n A + s * dot n B < a * dot n t0 + b * dot n t1 + c * dot n t2) by (apply G; repeat split; apply E; tauto). lra.
  - assert (G := Sep (- dot n t0) (- dot n t1) (- dot n t2) (- dot n A) (- dot n B)). rewrite D1 in D2.
    assert (H : (1 - s) * - dot n A + s * - dot n B < a * - dot n t0 + b * - dot n t1 + c * - dot n t2).
    { apply G. assert (forall S V, S = A \/ S = B -> V = t0 \/ V = t1 \/ V = t2 -> - dot n S < - dot n V) as E' by (intros S V HS HV; specialize (E S V HS HV); lra). repeat split; apply E'; tauto. }
    lra.
Qed.

Theorem C108_test : forall A B t0 t1 t2, ~ tri2 t0 t1 t2 == 0 ->
  (segment_triangle_intersect A B t0 t1 t2 = true <-> exists X, on_segment A B X /\ in_triangle t0 t1 t2 X).
Proof.
  intros A B t0 t1 t2 HT. split.
  - intro H. unfold segment_triangle_intersect in H.
    destruct (apart (left_normal (vsub B A)) A B t0 t1 t2) eqn:E; [discriminate|]. destruct (apart (left_normal (vsub t1 t0)) A B t0 t1 t2) eqn:E0; [discriminate|].
    destruct (apart (left_normal (vsub t2 t1)) A B t0 t1 t2) eqn:E1; [discriminate|]. destruct (apart (left_normal (vsub t0 t2)) A B t0 t1 t2) eqn:E2; [discriminate|]. clear H.
    set (k := tri2 t0 t1 t2) in *.
    (** No side has both ends on its outer side. *)
    assert (Side : forall c d, apart (left_normal (vsub d c)) A B t0 t1 t2 = false -> (forall V, V = t0 \/ V = t1 \/ V = t2 -> 0 <= k * tri2 c d V) -> ~ (k * tri2 c d A < 0 /\ k * tri2 c d B < 0)).
    { intros c d Ap Pos [NA NB]. enough (apart (left_normal (vsub d c)) A B t0 t1 t2 = true) by congruence. apply apart_ok.
      assert (L : forall S V, S = A \/ S = B -> V = t0 \/ V = t1 \/ V = t2 -> k * (tri2 c d S - tri2 c d V) < 0).
      { intros S V HS HV. specialize (Pos V HV). assert (k * tri2 c d S < 0) by (destruct HS as [-> | ->]; assumption). setoid_replace (k * (tri2 c d S - tri2 c d V)) with (k * tri2 c d S - k * tri2 c d V) by ring. lra. }
      destruct (Qlt_le_dec 0 k) as [P|P]; [left|right]; intros S V HS HV; specialize (L S V HS HV); pose proof (dot_side c d S V) as D; set (x := tri2 c d S - tri2 c d V) in *; clearbody x k.
      - assert (x < 0) by nra. lra.
      - assert (0 < x) by nra. lra. }
    assert (KK : 0 <= k * k) by (apply sq_nonneg).
    assert (Z : forall c d, tri2 c d c == 0 /\ tri2 c d d == 0) by (intros; unfold tri2, cross, vsub; cbn; split; ring).
    assert (S0 := Side t0 t1 E0). assert (S1 := Side t1 t2 E1). assert (S2 := Side t2 t0 E2).
    assert (N0 : ~ (k * tri2 t0 t1 A < 0 /\ k * tri2 t0 t1 B < 0)) by (apply S0; intros V [-> |[-> | ->]]; [rewrite (proj1 (Z t0 t1)); lra|rewrite (proj2 (Z t0 t1)); lra|exact KK]).
    assert (N1 : ~ (k * tri2 t1 t2 A < 0 /\ k * tri2 t1 t2 B < 0)) by (apply S1; intros V [-> |[-> | ->]]; [rewrite tri2_rot; exact KK|rewrite (proj1 (Z t1 t2)); lra|rewrite (proj2 (Z t1 t2)); lra]).
    assert (N2 : ~ (k * tri2 t2 t0 A < 0 /\ k * tri2 t2 t0 B < 0)) by (apply S2; intros V [-> |[-> | ->]]; [rewrite (proj2 (Z t2 t0)); lra|rewrite tri2_rot, tri2_rot; exact KK|rewrite (proj1 (Z t2 t0)); lra]).
    clear S0 S1 S2 Side.
    destruct (pt_eq_dec A B) as [EAB|NAB].
    { exists A. split; [apply DistProof.on_segment_ends|]. apply in_triangle_sign; [exact HT|]. fold k.
      rewrite <- (tri2_pteq t0 t1 _ _ EAB) in N0. rewrite <- (tri2_pteq t1 t2 _ _ EAB) in N1. rewrite <- (tri2_pteq t2 t0 _ _ EAB) in N2.
      repeat split; match goal with |- 0 <= ?x => destruct (Qlt_le_dec x 0); [exfalso; tauto|assumption] end. }
    (** The line through A and B meets the triangle. *)
    assert (Line : exists s0, in_triangle t0 t1 t2 (lerp A B s0)).
    { assert (Zero : forall U V, tri2 A B U <= 0 -> 0 <= tri2 A B V -> (forall Y, on_segment U V Y -> in_triangle t0 t1 t2 Y) -> exists s0, in_triangle t0 t1 t2 (lerp A B s0)).
      { intros U V HU HV Sub. assert (exists Y, on_segment U V Y /\ tri2 A B Y == 0) as (Y & OY & TY).
        { destruct (Qeq_dec (tri2 A B U) 0) as [G|G]; [exists U; split; [apply DistProof.on_segment_ends|exact G]|]. set (r := - tri2 A B U / (tri2 A B V - tri2 A B U)). exists (lerp U V r). split.
          - exists r. split; [|apply pteq_refl]. unfold r. split; [apply Qle_shift_div_l; lra|apply Qle_shift_div_r; lra].
          - rewrite tri2_lerp. unfold r. field. lra. }
        destruct (collinear_param A B Y) as (s0 & Es); [intros [G1 G2]; apply NAB; unfold vsub in *; cbn in *; split; lra|exact TY|].
        exists s0. apply (T_compat t0 t1 t2 Y); [exact Es|apply Sub, OY]. }
      assert (Sub : forall U V, (U = t0 \/ U = t1 \/ U = t2) -> (V = t0 \/ V = t1 \/ V = t2) -> forall Y, on_segment U V Y -> in_triangle t0 t1 t2 Y).
      { intros U V HU HV Y (r & Hr & [F1 F2]). unfold lerp, vadd, vscale, vsub in F1, F2; cbn in F1, F2.
        destruct HU as [-> |[-> | ->]], HV as [-> |[-> | ->]];
        [exists 1, 0, 0|exists (1 - r), r, 0|exists (1 - r), 0, r|exists r, (1 - r), 0|exists 0, 1, 0|exists 0, (1 - r), r|exists r, 0, (1 - r)|exists 0, r, (1 - r)|exists 0, 0, 1];
        (repeat split; try lra; unfold vadd, vscale; cbn; lra). }
      assert (Neg : exists U, (U = t0 \/ U = t1 \/ U = t2) /\ tri2 A B U <= 0).
      { destruct (Qlt_le_dec 0 (tri2 A B t0)) as [P0|P0]; [|exists t0; tauto]. destruct (Qlt_le_dec 0 (tri2 A B t1)) as [P1|P1]; [|exists t1; tauto]. destruct (Qlt_le_dec 0 (tri2 A B t2)) as [P2|P2]; [|exists t2; tauto].
        exfalso. enough (apart (left_normal (vsub B A)) A B t0 t1 t2 = true) by congruence. apply apart_ok. left. intros S V HS HV. pose proof (dot_side A B S V) as D. assert (tri2 A B S == 0) by (destruct HS as [-> | ->]; apply Z).
        assert (0 < tri2 A B V) by (destruct HV as [-> |[-> | ->]]; assumption). lra. }
      assert (Pos : exists V, (V = t0 \/ V = t1 \/ V = t2) /\ 0 <= tri2 A B V).
      { destruct (Qlt_le_dec (tri2 A B t0) 0) as [P0|P0]; [|exists t0; tauto]. destruct (Qlt_le_dec (tri2 A B t1) 0) as [P1|P1]; [|exists t1; tauto]. destruct (Qlt_le_dec (tri2 A B t2) 0) as [P2|P2]; [|exists t2; tauto].
        exfalso. enough (apart (left_normal (vsub B A)) A B t0 t1 t2 = true) by congruence. apply apart_ok. right. intros S V HS HV. pose proof (dot_side A B S V) as D. assert (tri2 A B S == 0) by (destruct HS as [-> | ->]; apply Z).
        assert (tri2 A B V < 0) by (destruct HV as [-> |[-> | ->]]; assumption). lra. }
      destruct Neg as (U & HU & GU). destruct Pos as (V & HV & GV). apply (Zero U V GU GV). apply Sub; assumption. }
    destruct Line as (s0 & Hs0). assert (Hs := Hs0). apply in_triangle_sign in Hs; [|exact HT]. fold k in Hs. destruct Hs as (L0 & L1 & L2). rewrite tri2_lerp in L0, L1, L2.
    destruct (Qlt_le_dec s0 0) as [G|G].
    + exists A. split; [apply DistProof.on_segment_ends|]. apply in_triangle_sign; [exact HT|]. fold k.
      assert (K : forall a b, 0 <= k * (a + s0 * (b - a)) -> ~ (k * a < 0 /\ k * b < 0) -> 0 <= k * a).
      { intros a b K1 K2. destruct (Qlt_le_dec (k * a) 0) as [P|P]; [exfalso|exact P]. apply K2. split; [exact P|]. setoid_replace (k * (a + s0 * (b - a))) with ((1 - s0) * (k * a) + s0 * (k * b)) in K1 by ring. set (x := k * a) in *. set (y := k * b) in *. clearbody x y. nra. }
      repeat split; [apply (K _ _ L0 N0)|apply (K _ _ L1 N1)|apply (K _ _ L2 N2)].
    + destruct (Qlt_le_dec 1 s0) as [G1|G1]; [|exists (lerp A B s0); split; [exists s0; split; [lra|apply pteq_refl]|exact Hs0]].
      exists B. split; [apply DistProof.on_segment_ends|]. apply in_triangle_sign; [exact HT|]. fold k.
      assert (K : forall a b, 0 <= k * (a + s0 * (b - a)) -> ~ (k * a < 0 /\ k * b < 0) -> 0 <= k * b).
      { intros a b K1 K2. destruct (Qlt_le_dec (k * b) 0) as [P|P]; [exfalso|exact P]. apply K2. split; [|exact P]. setoid_replace (k * (a + s0 * (b - a))) with ((1 - s0) * (k * a) + s0 * (k * b)) in K1 by ring. set (x := k * a) in *. set (y := k * b) in *. clearbody x y. nra. }
      repeat split; [apply (K _ _ L0 N0)|apply (K _ _ L1 N1)|apply (K _ _ L2 N2)].
  - intros (X & H1 & H2). unfold segment_triangle_intersect. rewrite !(common_not_apart _ A B t0 t1 t2 X H1 H2). reflexivity.
Qed.
Print Assumptions C108_test.

(** ** Examples *)
Example C108_witness :
  segment_triangle_points direct (mkpt (-1) 1) (mkpt 5 1) (mkpt 0 0) (mkpt 4 0) (mkpt 0 4) = Some [mkpt (0 # 24) (24 # 24); mkpt (72 # 24) (24 # 24)] /\
  segment_triangle_points direct (mkpt 4 (-1)) (mkpt 4 5) (mkpt 0 0) (mkpt 4 0) (mkpt 0 4) = Some [mkpt (96 # 24) (0 # 24)] /\
  segment_triangle_points direct (mkpt 1 0) (mkpt 9 0) (mkpt 0 0) (mkpt 4 0) (mkpt 0 4) = Some [mkpt 1 0; mkpt 4 0] /\
  segment_triangle_intersect (mkpt 4 (-1)) (mkpt 4 5) (mkpt 0 0) (mkpt 4 0) (mkpt 0 4) = true /\
  segment_triangle_intersect (mkpt 5 (-1)) (mkpt 3 3) (mkpt 0 0) (mkpt 4 0) (mkpt 0 4) = false.
Proof. vm_compute. repeat split. Qed.

(** A clockwise triangle: a segment inside it has no points, one leaving it a single one. *)
Theorem C108_clockwise_refuted : exists A B C t0 t1 t2, in_triangle t0 t1 t2 A /\ in_triangle t0 t1 t2 B /\ ~ A =p= B /\
  segment_triangle_points direct A B t0 t1 t2 = Some [] /\
  exists X, segment_triangle_points direct A C t0 t1 t2 = Some [X] /\ ~ X =p= A.
Proof.
  exists (mkpt 1 1), (mkpt 1 (3 # 2)), (mkpt 1 5), (mkpt 0 0), (mkpt 0 4), (mkpt 4 0). split; [|split; [|split; [|split]]].
  - exists (1 # 2), (1 # 4), (1 # 4). repeat split; lra.
  - exists (3 # 8), (3 # 8), (1 # 4). repeat split; lra.
  - intros [_ E]. cbn in E. lra.
  - vm_compute. reflexivity.
  - eexists. split; [vm_compute; reflexivity|]. intros [_ E]. vm_compute in E. discriminate.
Qed.
Print Assumptions C108_clockwise_refuted.
(** A single point on the line of a side: the whole side is given. *)
Theorem C108_single_point_refuted : exists A t0 t1 t2, 0 < tri2 t0 t1 t2 /\ ~ in_triangle t0 t1 t2 A /\
  segment_triangle_points direct A A t0 t1 t2 = Some [t0; t1].
Proof.
  exists (mkpt 5 0), (mkpt 0 0), (mkpt 2 0), (mkpt 0 2). split; [reflexivity|]. split; [|vm_compute; reflexivity].
  intro H. apply in_triangle_iff in H; [|reflexivity]. destruct H as (_ & H & _). vm_compute in H. apply H. reflexivity.
Qed.
Print Assumptions C108_single_point_refuted.
(** A triangle without area: the test is true for a segment on its line without a common point. *)
Theorem C108_flat_triangle_refuted : exists A B t0 t1 t2, ~ (exists X, on_segment A B X /\ in_triangle t0 t1 t2 X) /\ segment_triangle_intersect A B t0 t1 t2 = true.
Proof.
  exists (mkpt 5 5), (mkpt 6 6), (mkpt 0 0), (mkpt 1 1), (mkpt 2 2). split; [|vm_compute; reflexivity].
  intros (X & (s & Hs & [E1 _]) & (a & b & c & Ha & Hb & Hc & S & [F1 _])). unfold lerp, vadd, vscale, vsub in *; cbn in *. lra.
Qed.
Print Assumptions C108_flat_triangle_refuted.
