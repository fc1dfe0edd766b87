(** The walk stays in a band of directions and reaches the common point aimed at. *)
From Verif Require Import Base CmpModel OrientModel OrientSpec OrientProof DistModel DistSpec LinIntModel LinIntSpec LinIntProof PolygonModel PolygonSpec PolygonProof PolygonConvexProof CvxModel CvxSpec CvxProof CvxProof2 CvxProof4 CvxProof5.

(** The cross product with an edge measures how far left of it a point is. *)
Lemma left_cross : forall ps i Y, tri2 (from ps i) (vtx ps i) Y == cross (edg ps i) Y - cross (edg ps i) (vtx ps i).
Proof. intros. unfold edg, tri2, cross, vsub; cbn [px py]; ring. Qed.
Lemma cross_edge : forall ps i A, cross A (edg ps i) == cross A (vtx ps i) - cross A (from ps i).
Proof. intros. unfold edg, cross, vsub; cbn [px py]; ring. Qed.
Lemma cross_lerp : forall A B C t, cross A (lerp B C t) == cross A B + t * (cross A C - cross A B).
Proof. intros. unfold lerp, cross, vsub, vadd, vscale; cbn [px py]; ring. Qed.
Lemma cross_pteq : forall A X Y, X =p= Y -> cross A X == cross A Y.
Proof. intros A X Y [E1 E2]. unfold cross. rewrite E1, E2. reflexivity. Qed.
Lemma anti_scale : forall A B, nonzero A -> cross A B == 0 -> dot A B < 0 -> exists k, 0 < k /\ forall W, cross B W == - k * cross A W.
Proof.
  intros A B N C D. assert (NA : 0 < dot A A).
  { unfold dot. pose proof (sq_nonneg (px A)). pose proof (sq_nonneg (py A)). destruct (Qeq_dec (px A) 0) as [E|E].
    - assert (~ py A == 0) by (intro K; apply N; split; assumption). assert (0 < py A * py A); [|lra]. destruct (Q_dec (py A) 0) as [[?|?]|?]; nra.
    - assert (0 < px A * px A); [|lra]. destruct (Q_dec (px A) 0) as [[?|?]|?]; nra. }
  exists (- dot A B / dot A A). split.
  - apply Qlt_shift_div_l; [exact NA|]. lra.
  - intro W. assert (I : dot A A * cross B W == dot A B * cross A W - cross A B * dot A W) by (unfold cross, dot; ring). rewrite C in I.
    assert (E : cross B W == (dot A A * cross B W) / dot A A) by (field; lra). rewrite E, I. field. lra.
Qed.
Lemma same_scale : forall A B, nonzero A -> cross A B == 0 -> 0 < dot A B -> exists k, 0 < k /\ forall W, cross B W == k * cross A W.
Proof.
  intros A B N C D. destruct (anti_scale A (vscale (-1) B) N) as (k & K & E).
  - unfold cross, vscale in *; cbn [px py]. lra.
  - unfold dot, vscale in *; cbn [px py]. lra.
  - exists k. split; [exact K|]. intro W. specialize (E W). assert (F : cross (vscale (-1) B) W == - cross B W) by (unfold cross, vscale; cbn [px py]; ring). rewrite F in E. lra.
Qed.

(** The point is on the edge, and not its start. *)
Definition half_on (ps : list pt) (i : nat) (X : pt) : Prop := exists t, 0 < t <= 1 /\ X =p= lerp (from ps i) (vtx ps i) t.
Lemma half_edge : forall ps i X, half_on ps i X -> edge_on ps i X.
Proof. intros ps i X (t & Ht & E). exists t. split; [lra|exact E]. Qed.

Section Poly.
Variable ps : list pt.
Hypothesis CP : convex_polygon ps.
Lemma climb : forall A i k, (i <= k)%nat -> (forall l, (i < l <= k)%nat -> 0 <= cross A (edg ps l)) -> cross A (vtx ps i) <= cross A (vtx ps k).
Proof.
  intros A i k H. induction H as [|k H IH]; intro M; [lra|].
  assert (IH' : cross A (vtx ps i) <= cross A (vtx ps k)) by (apply IH; intros; apply M; lia).
  pose proof (M (S k) ltac:(lia)) as E. rewrite cross_edge, (from_S ps CP) in E. lra.
Qed.
(** From vertex i on towards a point of edge k, all edges climbing. *)
Lemma climb_to : forall A i k X, (i < k)%nat -> (forall l, (i < l < k)%nat -> 0 < cross A (edg ps l)) -> 0 <= cross A (edg ps k) -> half_on ps k X ->
  cross A (vtx ps i) <= cross A X /\ (0 < cross A (edg ps k) \/ (S i < k)%nat -> cross A (vtx ps i) < cross A X).
Proof.
  intros A i k X H M E (t & Ht & EX). rewrite (cross_pteq _ _ _ EX), cross_lerp.
  destruct k as [|k]; [lia|]. rewrite cross_edge in E. rewrite cross_edge. rewrite (from_S ps CP) in *.
  assert (C : cross A (vtx ps i) <= cross A (vtx ps k)) by (apply climb; [lia|intros l Hl; apply Qlt_le_weak, M; lia]).
  assert (T : 0 <= t * (cross A (vtx ps (S k)) - cross A (vtx ps k))) by (apply Qmult_le_0_compat; lra).
  split; [lra|]. intros [K|K]; [nra|].
  assert (C' : cross A (vtx ps i) < cross A (vtx ps k)); [|lra]. destruct k as [|k]; [lia|].
  assert (C' : cross A (vtx ps i) <= cross A (vtx ps k)) by (apply climb; [lia|intros l Hl; apply Qlt_le_weak, M; lia]).
  pose proof (M (S k) ltac:(lia)) as E'. rewrite cross_edge, (from_S ps CP) in E'. lra.
Qed.
(** At a topmost vertex: a point at least as high is on the edge that follows. *)
Lemma topmost : forall A i X, 0 < cross A (edg ps i) -> cross A (edg ps (S i)) <= 0 -> in_hull ps X -> cross A (vtx ps i) <= cross A X ->
  edge_on ps (S i) X /\ cross A X == cross A (vtx ps i).
Proof.
  intros A i X H1 H2 HX HC. pose proof (around_left ps CP i X HX) as T1. pose proof (around_left ps CP (S i) X HX) as T2. pose proof (edg_left ps CP i) as C.
  assert (F := from_S ps CP i). set (u := edg ps i) in *. set (v := edg ps (S i)) in *. set (p := vtx ps i) in *.
  assert (E1 : tri2 (from ps i) p X == cross u (vsub X p)) by (unfold u, edg, p, tri2, cross, vsub; cbn [px py]; ring).
  assert (E2 : tri2 (from ps (S i)) (vtx ps (S i)) X == cross v (vsub X p)) by (rewrite F; unfold v, edg; rewrite F; unfold p, tri2, cross, vsub; cbn [px py]; ring).
  rewrite E1 in T1. rewrite E2 in T2. set (w := vsub X p) in *.
  assert (ED : cross A X - cross A p == cross A w) by (unfold w, cross, vsub; cbn [px py]; ring).
  assert (I : cross u v * cross A w == cross u w * cross A v - cross v w * cross A u) by (unfold cross; ring).
  assert (K1 : 0 <= cross u w * - cross A v) by (apply Qmult_le_0_compat; lra).
  assert (K2 : 0 <= cross v w * cross A u) by (apply Qmult_le_0_compat; lra).
  assert (K3 : 0 <= cross u v * cross A w) by (apply Qmult_le_0_compat; lra).
  assert (Z : cross v w * cross A u == 0) by lra. apply Qmult_integral in Z as [Z|Z]; [|lra].
  assert (Z' : cross u v * cross A w == 0) by lra. apply Qmult_integral in Z' as [Z'|Z']; [lra|].
  split; [|lra]. apply (around_on ps CP); [exact HX|]. rewrite E2. exact Z.
Qed.
End Poly.

Section Band.
Variables P Q : list pt.
Hypothesis CP : convex_polygon P.
Hypothesis CQ : convex_polygon Q.
Variable z : Z.
Variable X : pt.
Hypothesis XP : in_hull P X.
Hypothesis XQ : in_hull Q X.
Let n := length P.
Let m := length Q.

Definition delta (i j : nat) := theta Q j + 4 * inject_Z z - theta P i.
Lemma shifted : forall j, angle_of (edg Q j) (theta Q j + 4 * inject_Z z).
Proof. intro j. destruct (theta_angle Q j) as [w E]. exists (w + z)%Z. rewrite E, inject_Z_plus. ring. Qed.
Lemma d_signs : forall i j,
  (0 < delta i j < 2 -> 0 < AB P Q i j) /\ (-2 < delta i j < 0 -> AB P Q i j < 0) /\ (delta i j == 0 -> AB P Q i j == 0 /\ 0 < dot (edg P i) (edg Q j)) /\
  (delta i j == 2 \/ delta i j == -2 -> AB P Q i j == 0 /\ dot (edg P i) (edg Q j) < 0) /\
  (2 < delta i j < 4 -> AB P Q i j < 0) /\ (-4 < delta i j < -2 -> 0 < AB P Q i j).
Proof.
  intros i j. pose proof (angle_signs _ _ _ _ (edg_nonzero P CP i) (edg_nonzero Q CQ j) (theta_angle P i) (shifted j)) as (S1 & S2 & S3 & S4).
  assert (U : angle_of (edg Q j) (theta Q j + 4 * inject_Z z - 4)).
  { destruct (shifted j) as [w E]. exists (w - 1)%Z. rewrite E. unfold Z.sub. rewrite inject_Z_plus. change (inject_Z (-(1))) with (-1). ring. }
  assert (D : angle_of (edg Q j) (theta Q j + 4 * inject_Z z + 4)).
  { destruct (shifted j) as [w E]. exists (w + 1)%Z. rewrite E, inject_Z_plus. change (inject_Z 1) with 1. ring. }
  pose proof (angle_signs _ _ _ _ (edg_nonzero P CP i) (edg_nonzero Q CQ j) (theta_angle P i) U) as (_ & U2 & _).
  pose proof (angle_signs _ _ _ _ (edg_nonzero P CP i) (edg_nonzero Q CQ j) (theta_angle P i) D) as (D1 & _).
  unfold delta, AB in *. split; [intro; apply S1; lra|]. split; [intro; apply S2; lra|]. split; [intro; apply S3; lra|].
  split; [intro; apply S4; lra|]. split; [intro; apply U2; lra|intro; apply D1; lra].
Qed.
Lemma cross_swap : forall i j, cross (edg Q j) (edg P i) == - AB P Q i j.
Proof. intros. unfold AB, cross. ring. Qed.
Lemma delta_a : forall i j, delta i j - 2 < delta (S i) j < delta i j.
Proof. intros i j. pose proof (theta_S P CP i). unfold delta. lra. Qed.
Lemma delta_b : forall i j, delta i j < delta i (S j) < delta i j + 2.
Proof. intros i j. pose proof (theta_S Q CQ j). unfold delta. lra. Qed.
(** X is left of both edges. *)
Lemma X_left_A : forall i, cross (edg P i) (vtx P i) <= cross (edg P i) X.
Proof. intro i. pose proof (around_left P CP i X XP) as H. rewrite left_cross in H. lra. Qed.
Lemma X_left_B : forall j, cross (edg Q j) (vtx Q j) <= cross (edg Q j) X.
Proof. intro j. pose proof (around_left Q CQ j X XQ) as H. rewrite left_cross in H. lra. Qed.
Lemma X_on_A : forall i, cross (edg P i) X == cross (edg P i) (vtx P i) -> edge_on P i X.
Proof. intros i E. apply (around_on P CP); [exact XP|]. rewrite left_cross. lra. Qed.
Lemma X_on_B : forall j, cross (edg Q j) X == cross (edg Q j) (vtx Q j) -> edge_on Q j X.
Proof. intros i E. apply (around_on Q CQ); [exact XQ|]. rewrite left_cross. lra. Qed.

Definition in_band (i j : nat) : Prop := -2 < delta i j <= 2.
Lemma not_apart : forall i j, AB P Q i j == 0 -> aB P Q i j < 0 -> bA P Q i j < 0 -> False.
Proof. intros i j H1 H2 H3. apply (separated (from P i) (vtx P i) (from Q j) (vtx Q j) X); try assumption; apply around_left; assumption. Qed.

Lemma band_a : forall i j, in_band i j -> go_a P Q i j -> in_band (S i) j \/ hit P Q (S i) j.
Proof.
  intros i j B G. unfold in_band in *. pose proof (delta_a i j) as D. destruct (Qlt_le_dec (-2) (delta (S i) j)) as [K|K]; [left; lra|right].
  destruct (d_signs i j) as (_ & S2 & _). specialize (S2 ltac:(lra)).
  assert (A : aB P Q i j <= 0) by (destruct G as [G|[G|G]]; lra). unfold aB in A. rewrite left_cross in A.
  assert (H1 : 0 < cross (edg Q j) (edg P i)) by (rewrite cross_swap; lra).
  destruct (d_signs (S i) j) as (_ & _ & _ & S4 & _ & S6).
  assert (H2 : cross (edg Q j) (edg P (S i)) <= 0).
  { rewrite cross_swap. destruct (Qeq_dec (delta (S i) j) (-2)) as [E|E]; [specialize (S4 (or_intror E)); lra|specialize (S6 ltac:(lra)); lra]. }
  pose proof (X_left_B j) as XB.
  destruct (topmost P CP (edg Q j) i X H1 H2 XP ltac:(lra)) as [E1 E2].
  split; [exists X; split; [exact E1|apply X_on_B; lra]|].
  destruct (Qeq_dec (delta (S i) j) (-2)) as [E|E]; [right; apply S4; right; exact E|left; specialize (S6 ltac:(lra)); lra].
Qed.
Lemma band_b : forall i j, in_band i j -> ~ hit P Q i j -> go_b P Q i j -> in_band i (S j) \/ hit P Q i (S j).
Proof.
  intros i j B NH G. unfold in_band in *. pose proof (delta_b i j) as D. destruct (Qlt_le_dec 2 (delta i (S j))) as [K|K]; [right|left; lra].
  pose proof (X_left_A i) as XA. pose proof (X_left_B j) as XB.
  destruct (Qeq_dec (delta i j) 2) as [E|E].
  - exfalso. destruct (d_signs i j) as (_ & _ & _ & S4 & _). destruct (S4 (or_introl E)) as [Z DN].
    assert (A : bA P Q i j <= 0) by (destruct G as [G|G]; lra). unfold bA in A. rewrite left_cross in A.
    destruct (anti_scale (edg P i) (edg Q j) (edg_nonzero P CP i) Z DN) as (k & K0 & EK). rewrite !EK in XB.
    apply NH. split; [|right; exact DN]. exists X. split; [apply X_on_A; nra|apply X_on_B; rewrite !EK; nra].
  - destruct (d_signs i j) as (S1 & _). specialize (S1 ltac:(lra)).
    assert (A : bA P Q i j <= 0) by (destruct G as [G|G]; lra). unfold bA in A. rewrite left_cross in A.
    destruct (d_signs i (S j)) as (_ & _ & _ & _ & S5 & _). specialize (S5 ltac:(lra)).
    destruct (topmost Q CQ (edg P i) j X S1 (Qlt_le_weak _ _ S5) XQ ltac:(lra)) as [E1 E2].
    split; [exists X; split; [apply X_on_A; lra|exact E1]|left; lra].
Qed.

(** *** The pair of edges aimed at *)
Variables i' j' : nat.
Hypothesis HP : half_on P i' X.
Hypothesis HQ : half_on Q j' X.
Hypothesis BT : in_band i' j'.

Lemma column : forall j, (j < j')%nat -> in_band i' j -> ~ hit P Q i' j -> go_a P Q i' j -> False.
Proof.
  intros j H B NH G. unfold in_band in *.
  assert (MQ := theta_mono Q CQ j j' H). assert (DJ : delta i' j < delta i' j') by (unfold delta; lra).
  destruct (Qlt_le_dec (delta i' j) 0) as [L|U].
  - destruct (d_signs i' j) as (_ & S2 & _). specialize (S2 ltac:(lra)).
    assert (A : aB P Q i' j <= 0) by (destruct G as [G|[G|G]]; lra). unfold aB in A. rewrite left_cross in A.
    destruct HP as (t & Ht & EX). pose proof (X_left_B j) as XB.
    pose proof (cross_pteq (edg Q j) _ _ EX) as EC. rewrite cross_lerp in EC. pose proof (cross_edge P i' (edg Q j)) as EE. rewrite cross_swap in EE.
    apply NH. split; [|left; lra]. exists X. split; [apply half_edge; exact HP|]. apply X_on_B. nra.
  - assert (M : forall l, (j < l < j')%nat -> 0 < cross (edg P i') (edg Q l)).
    { intros l Hl. apply (proj1 (d_signs i' l)). pose proof (theta_mono Q CQ j l ltac:(lia)). pose proof (theta_mono Q CQ l j' ltac:(lia)). unfold delta in *. lra. }
    assert (E : 0 <= cross (edg P i') (edg Q j') /\ (delta i' j' < 2 -> 0 < cross (edg P i') (edg Q j'))).
    { destruct (Qeq_dec (delta i' j') 2) as [E|E].
      - destruct (d_signs i' j') as (_ & _ & _ & S4 & _). destruct (S4 (or_introl E)) as [Z _]. unfold AB in Z. split; [lra|intro; lra].
      - assert (0 < cross (edg P i') (edg Q j')) by (apply (proj1 (d_signs i' j')); lra). split; intros; lra. }
    destruct E as [E E']. destruct (climb_to Q CQ (edg P i') j j' X H M E HQ) as [C C'].
    assert (XA : cross (edg P i') X == cross (edg P i') (vtx P i')).
    { destruct HP as (t & Ht & EX). rewrite (cross_pteq _ _ _ EX), cross_lerp. pose proof (cross_edge P i' (edg P i')) as EE. assert (cross (edg P i') (edg P i') == 0) by (unfold cross; ring). nra. }
    assert (BL : bA P Q i' j <= 0) by (unfold bA; rewrite left_cross; lra).
    destruct (Qeq_dec (delta i' j) 0) as [Z|Z].
    + assert (BS : bA P Q i' j < 0).
      { unfold bA. rewrite left_cross. assert (K : cross (edg P i') (vtx Q j) < cross (edg P i') X); [|lra]. apply C'.
        destruct (Qlt_le_dec (delta i' j') 2) as [K|K]; [left; auto|right]. destruct (Nat.eq_dec (S j) j') as [EJ|EJ]; [|lia].
        pose proof (delta_b i' j) as DB. rewrite EJ in DB. lra. }
      destruct (d_signs i' j) as (_ & _ & S3 & _). destruct (S3 Z) as [Z0 _]. destruct G as [G|[G|G]]; lra.
    + assert (0 < AB P Q i' j) by (apply (proj1 (d_signs i' j)); lra). destruct G as [G|[G|G]]; lra.
Qed.

Lemma row : forall i, (i < i')%nat -> in_band i j' -> ~ hit P Q i j' -> go_b P Q i j' -> False.
Proof.
  intros i H B NH G. unfold in_band in *.
  assert (MP := theta_mono P CP i i' H). assert (DJ : delta i' j' < delta i j') by (unfold delta; lra).
  destruct (Qlt_le_dec (delta i j') 0) as [L|U].
  - assert (M : forall l, (i < l < i')%nat -> 0 < cross (edg Q j') (edg P l)).
    { intros l Hl. rewrite cross_swap. pose proof (theta_mono P CP i l ltac:(lia)). pose proof (theta_mono P CP l i' ltac:(lia)).
      destruct (d_signs l j') as (_ & S2 & _). assert (AB P Q l j' < 0); [|lra]. apply S2. unfold delta in *. lra. }
    assert (E : 0 < cross (edg Q j') (edg P i')).
    { rewrite cross_swap. destruct (d_signs i' j') as (_ & S2 & _). specialize (S2 ltac:(lra)). lra. }
    destruct (climb_to P CP (edg Q j') i i' X H M (Qlt_le_weak _ _ E) HP) as [C _].
    assert (XB : cross (edg Q j') X == cross (edg Q j') (vtx Q j')).
    { destruct HQ as (t & Ht & EX). rewrite (cross_pteq _ _ _ EX), cross_lerp. pose proof (cross_edge Q j' (edg Q j')) as EE. assert (cross (edg Q j') (edg Q j') == 0) by (unfold cross; ring). nra. }
    assert (A : aB P Q i j' <= 0) by (unfold aB; rewrite left_cross; lra).
    destruct (d_signs i j') as (_ & S2 & _). specialize (S2 ltac:(lra)). destruct G as [G|G]; lra.
  - pose proof (X_left_A i) as XA. destruct HQ as (t & Ht & EX). pose proof (cross_pteq (edg P i) _ _ EX) as EC. rewrite cross_lerp in EC.
    pose proof (cross_edge Q j' (edg P i)) as EE. fold (AB P Q i j') in EE.
    assert (AP : 0 <= AB P Q i j').
    { destruct (d_signs i j') as (S1 & _ & S3 & S4 & _). destruct (Qeq_dec (delta i j') 0) as [Z|Z]; [apply S3 in Z; lra|].
      destruct (Qeq_dec (delta i j') 2) as [Z2|Z2]; [destruct (S4 (or_introl Z2)); lra|]. specialize (S1 ltac:(lra)). lra. }
    assert (BL : bA P Q i j' <= 0) by (destruct G as [G|G]; lra). unfold bA in BL. rewrite left_cross in BL.
    assert (XE : cross (edg P i) X == cross (edg P i) (vtx P i)) by nra.
    assert (OA := X_on_A i XE). assert (OB := half_edge _ _ _ HQ).
    destruct (Qeq_dec (delta i j') 0) as [Z|Z].
    + assert (M : forall l, (i < l < i')%nat -> 0 < cross (edg P i) (edg P l)).
      { intros l Hl. pose proof (theta_mono P CP i l ltac:(lia)). pose proof (theta_mono P CP l i' ltac:(lia)). apply (edg_signs P CP). unfold delta in *. lra. }
      assert (E : 0 < cross (edg P i) (edg P i')) by (apply (edg_signs P CP); unfold delta in *; lra).
      destruct (climb_to P CP (edg P i) i i' X H M (Qlt_le_weak _ _ E) HP) as [_ C]. specialize (C (or_introl E)). lra.
    + apply NH. split; [exists X; split; assumption|]. destruct (d_signs i j') as (S1 & _ & _ & S4 & _).
      destruct (Qeq_dec (delta i j') 2) as [Z2|Z2]; [right; apply (S4 (or_introl Z2))|left]. specialize (S1 ltac:(lra)). lra.
Qed.
End Band.
