(** The walk along the border of the common part: one polygon's edges at a time. *)
From Verif Require Import Base CmpModel OrientModel OrientSpec OrientProof DistModel DistSpec LinIntModel LinIntSpec LinIntProof PolygonModel PolygonSpec PolygonProof PolygonConvexProof CvxModel CvxSpec CvxProof CvxProof2 CvxProof4 CvxProof5 CvxProof6 CvxProof8 PfillProof3.

(** ** Leaving a convex polygon through an edge *)
Lemma affine_leave : forall n (f0 f1 : nat -> Q), (forall i, (i < n)%nat -> 0 <= f0 i) ->
  (forall i, (i < n)%nat -> 0 <= f1 i) \/
  exists s i, (i < n)%nat /\ 0 <= s < 1 /\ f1 i < 0 /\ f0 i + s * (f1 i - f0 i) == 0 /\ forall j, (j < n)%nat -> 0 <= f0 j + s * (f1 j - f0 j).
Proof.
  intros n f0 f1. induction n as [|n IH]; intro H0; [left; intros; lia|].
  assert (Hn := H0 n ltac:(lia)).
  assert (Cut : f1 n < 0 -> exists s, 0 <= s < 1 /\ f0 n + s * (f1 n - f0 n) == 0).
  { intro L. exists (f0 n / (f0 n - f1 n)). split; [split|].
    - apply Qle_shift_div_l; lra.
    - apply Qlt_shift_div_r; lra.
    - field. lra. }
  destruct IH as [A|(s & i & Hi & Hs & Ni & Z & B)]; [intros i Hi; apply H0; lia| |].
  - destruct (Qlt_le_dec (f1 n) 0) as [L|L].
    + destruct (Cut L) as (s & Hs & Z). right. exists s, n. split; [lia|]. split; [exact Hs|]. split; [exact L|]. split; [exact Z|].
      intros j Hj. destruct (Nat.eq_dec j n) as [->|N]; [lra|]. specialize (A j ltac:(lia)). specialize (H0 j ltac:(lia)). nra.
    + left. intros i Hi. destruct (Nat.eq_dec i n) as [->|N]; [exact L|apply A; lia].
  - right. destruct (Qlt_le_dec (f0 n + s * (f1 n - f0 n)) 0) as [L|L].
    + assert (Neg : f1 n < 0) by nra. destruct (Cut Neg) as (s' & Hs' & Z').
      assert (s' < s). { apply Qnot_le_lt. intro Le. assert (0 <= (s' - s) * (f0 n - f1 n)) by (apply Qmult_le_0_compat; lra). lra. }
      exists s', n. split; [lia|]. split; [exact Hs'|]. split; [exact Neg|]. split; [exact Z'|].
      intros j Hj. destruct (Nat.eq_dec j n) as [->|N]; [lra|]. specialize (B j ltac:(lia)). specialize (H0 j ltac:(lia)).
      assert (0 < s) by lra. assert (0 <= s * (f0 j + s' * (f1 j - f0 j))); [|nra].
      assert (E : s * (f0 j + s' * (f1 j - f0 j)) == (s - s') * f0 j + s' * (f0 j + s * (f1 j - f0 j))) by ring.
      rewrite E. assert (0 <= (s - s') * f0 j) by (apply Qmult_le_0_compat; lra). assert (0 <= s' * (f0 j + s * (f1 j - f0 j))) by (apply Qmult_le_0_compat; lra). lra.
    + exists s, i. split; [lia|]. split; [exact Hs|]. split; [exact Ni|]. split; [exact Z|]. intros j Hj. destruct (Nat.eq_dec j n) as [->|N]; [exact L|apply B; lia].
Qed.
Lemma leave_polygon : forall ps Z X, convex_polygon ps -> in_hull ps Z ->
  in_hull ps X \/ exists s k, 0 <= s < 1 /\ in_hull ps (lerp Z X s) /\ edge_on ps k (lerp Z X s) /\ tri2 (from ps k) (vtx ps k) X < 0.
Proof.
  intros ps Z X CP HZ. pose proof CP as [C L].
  set (f := fun P i => tri2 (pnth ps i) (pnth ps (S i mod length ps)) P).
  destruct (affine_leave (length ps) (f Z) (f X)) as [A|(s & i & Hi & Hs & NX & E & B)].
  { intros i Hi. exact (hull_left ps Z i C L HZ Hi). }
  - left. apply left_of_all_hull; [exact C|exact L|]. exact A.
  - right. exists s, (S i). split; [exact Hs|].
    assert (HY : in_hull ps (lerp Z X s)).
    { apply left_of_all_hull; [exact C|exact L|]. intros j Hj. rewrite tri2_lerp. exact (B j Hj). }
    split; [exact HY|]. unfold edge_on. rewrite (from_S ps CP). unfold vtx. rewrite (Nat.mod_small i) by exact Hi. split; [|exact NX].
    apply hull_zero_edge; [exact CP|exact Hi|exact HY|]. rewrite tri2_lerp. exact E.
Qed.

(** y is x moved forward along u. *)
Definition before (u x y : pt) : Prop := exists k, 0 <= k /\ y =p= vadd x (vscale k u).
Lemma on_line : forall ps i X Y, edge_on ps i X -> edge_on ps i Y -> exists k, Y =p= vadd X (vscale k (edg ps i)).
Proof.
  intros ps i X Y (s & _ & X1 & X2) (t & _ & Y1 & Y2). exists (t - s). unfold edg. split; cbn [px py vadd vscale vsub].
  - rewrite Y1, X1. unfold lerp; cbn [px py vadd vscale vsub]. ring.
  - rewrite Y2, X2. unfold lerp; cbn [px py vadd vscale vsub]. ring.
Qed.
Lemma tri2_moved : forall ps j X Y u k, Y =p= vadd X (vscale k u) -> tri2 (from ps j) (vtx ps j) Y == tri2 (from ps j) (vtx ps j) X + k * cross (edg ps j) u.
Proof. intros ps j X Y u k E. rewrite (tri2_pteq _ _ _ _ E). unfold edg, tri2, cross, vadd, vscale, vsub; cbn [px py]. ring. Qed.
Lemma edge_zero : forall ps j X, edge_on ps j X -> tri2 (from ps j) (vtx ps j) X == 0.
Proof. intros ps j X H. apply (tri2_on_segment (from ps j) (vtx ps j)) in H as (t & _ & ->). rewrite tri2_AA, tri2_AB. ring. Qed.
Lemma edge_end : forall ps j, edge_on ps j (vtx ps j).
Proof. intros. exists 1. split; [lra|]. split; unfold lerp; cbn [px py vadd vscale vsub]; ring. Qed.
Lemma edge_start : forall ps j, edge_on ps j (from ps j).
Proof. intros. exists 0. split; [lra|]. split; unfold lerp; cbn [px py vadd vscale vsub]; ring. Qed.
Lemma to_end : forall ps i X, edge_on ps i X -> before (edg ps i) X (vtx ps i).
Proof.
  intros ps i X (t & Ht & E1 & E2). exists (1 - t). split; [lra|]. unfold edg. split; cbn [px py vadd vscale vsub]; [rewrite E1|rewrite E2]; unfold lerp; cbn [px py vadd vscale vsub]; ring.
Qed.
Lemma to_end_strict : forall ps i X, edge_on ps i X -> ~ X =p= vtx ps i -> exists k, 0 < k /\ vtx ps i =p= vadd X (vscale k (edg ps i)).
Proof.
  intros ps i X H N. destruct (to_end ps i X H) as (k & K & E). exists k. split; [|exact E]. destruct (Qlt_le_dec 0 k) as [P|P]; [exact P|exfalso].
  assert (Z : k == 0) by lra. apply N. destruct E as [E1 E2]. cbn [px py vadd vscale] in E1, E2. rewrite Z in E1, E2. split; lra.
Qed.
Lemma from_start : forall ps i X, edge_on ps i X -> before (edg ps i) (from ps i) X.
Proof.
  intros ps i X (t & Ht & E1 & E2). exists t. split; [lra|]. unfold edg. split; cbn [px py vadd vscale vsub]; [rewrite E1|rewrite E2]; unfold lerp; cbn [px py vadd vscale vsub]; ring.
Qed.

(** ** One polygon against the other *)
Section Side.
Variables P Q : list pt.
Hypothesis CP : convex_polygon P.
Hypothesis CQ : convex_polygon Q.
Variable z : Z.
Variable X0 : pt.
Hypothesis IP : forall i, 0 < tri2 (from P i) (vtx P i) X0.
Hypothesis IQ : forall j, 0 < tri2 (from Q j) (vtx Q j) X0.
Let m := length Q.

Lemma swap_AB : forall i j, AB Q P j i == - AB P Q i j.
Proof. intros. unfold AB, cross. ring. Qed.
Lemma swap_delta : forall i j, delta Q P (- z) j i == - delta P Q z i j.
Proof. intros. unfold delta. rewrite inject_Z_opp. ring. Qed.

(** Where the edges meet. *)
Lemma order_out : forall i j X Y, 0 < AB P Q i j -> edge_on P i X -> edge_on Q j X -> edge_on P i Y -> in_hull Q Y -> before (edg P i) Y X.
Proof.
  intros i j X Y A X1 X2 Y1 HY. destruct (on_line P i Y X Y1 X1) as (k & E). exists k. split; [|exact E].
  pose proof (tri2_moved Q j Y X _ k E) as T. rewrite (edge_zero Q j X X2), (cross_swap P Q) in T. pose proof (around_left Q CQ j Y HY). nra.
Qed.
Lemma order_in : forall i j X Y, AB P Q i j < 0 -> edge_on P i X -> edge_on Q j X -> edge_on P i Y -> in_hull Q Y -> before (edg P i) X Y.
Proof.
  intros i j X Y A X1 X2 Y1 HY. destruct (on_line P i X Y X1 Y1) as (k & E). exists k. split; [|exact E].
  pose proof (tri2_moved Q j X Y _ k E) as T. rewrite (edge_zero Q j X X2), (cross_swap P Q) in T. pose proof (around_left Q CQ j Y HY). nra.
Qed.
(** A common point on edge j before its end is passed only with the edges turning away. *)
Lemma leave_row : forall i j W, in_hull P W -> edge_on Q j W -> ~ W =p= vtx Q j -> 0 < AB P Q i j -> 0 < bA P Q i j.
Proof.
  intros i j W HW OW N A. destruct (to_end_strict Q j W OW N) as (k & K & E). unfold bA. rewrite (tri2_moved P i W _ _ k E). fold (AB P Q i j).
  pose proof (around_left P CP i W HW). nra.
Qed.
Lemma opposite : forall i j, AB P Q i j == 0 -> dot (edg P i) (edg Q j) < 0 -> 0 < bA P Q i j /\ 0 < aB P Q i j /\ ~ touch P Q i j.
Proof.
  intros i j Z D. destruct (anti_scale (edg P i) (edg Q j) (edg_nonzero P CP i) Z D) as (k & K & E).
  pose proof (IP i) as T1. pose proof (IQ j) as T2. rewrite left_cross in T1, T2. rewrite !E in T2. unfold bA, aB. rewrite !left_cross, !E.
  assert (T3 : cross (edg P i) X0 - cross (edg P i) (vtx Q j) < 0) by nra. split; [lra|]. split; [nra|].
  intros (X & O1 & O2). apply edge_zero in O1, O2. rewrite left_cross in O1, O2. rewrite !E in O2. nra.
Qed.
Lemma alike : forall i j, AB P Q i j == 0 -> 0 < dot (edg P i) (edg Q j) -> exists k, 0 < k /\ aB P Q i j == - k * bA P Q i j.
Proof.
  intros i j Z D. destruct (same_scale (edg P i) (edg Q j) (edg_nonzero P CP i) Z D) as (k & K & E). exists k. split; [exact K|].
  unfold aB, bA. rewrite !left_cross, !E. ring.
Qed.
Lemma not_on : forall ps i, 0 < tri2 (from ps i) (vtx ps i) X0 -> ~ edge_on ps i X0.
Proof. intros ps i H O. apply edge_zero in O. lra. Qed.

(** The walk keeps the directions within half a turn. *)
Lemma keep_a : forall i j, -2 < delta P Q z i j <= 2 -> (delta P Q z i j < 0 -> aB P Q i j <= 0) -> -2 < delta P Q z (S i) j <= 2.
Proof.
  intros i j B G. pose proof (delta_a P Q CP z i j) as D. split; [|lra]. destruct (Qlt_le_dec (-2) (delta P Q z (S i) j)) as [K|K]; [exact K|exfalso].
  destruct (d_signs P Q CP CQ z i j) as (_ & S2 & _). specialize (S2 ltac:(lra)). specialize (G ltac:(lra)). unfold aB in G. rewrite left_cross in G.
  assert (H1 : 0 < cross (edg Q j) (edg P i)) by (rewrite (cross_swap P Q); lra).
  destruct (d_signs P Q CP CQ z (S i) j) as (_ & _ & _ & S4 & _ & S6).
  assert (H2 : cross (edg Q j) (edg P (S i)) <= 0).
  { rewrite (cross_swap P Q). destruct (Qeq_dec (delta P Q z (S i) j) (-2)) as [E|E]; [specialize (S4 (or_intror E)); lra|specialize (S6 ltac:(lra)); lra]. }
  pose proof (IQ j) as T. rewrite left_cross in T.
  assert (XP : in_hull P X0) by (apply left_of_all_hull; [apply CP|apply CP|]; intros l Hl; pose proof (IP (S l)) as T1; rewrite (from_S P CP) in T1; unfold vtx in T1; rewrite (Nat.mod_small l) in T1 by exact Hl; lra).
  destruct (topmost P CP (edg Q j) i X0 H1 H2 XP ltac:(lra)) as [E1 E2]. exact (not_on P (S i) (IP (S i)) E1).
Qed.
Lemma keep_b : forall i j, -2 < delta P Q z i j <= 2 -> (0 < delta P Q z i j -> bA P Q i j <= 0) -> -2 < delta P Q z i (S j) <= 2.
Proof.
  intros i j B G. pose proof (delta_b P Q CQ z i j) as D. split; [lra|]. destruct (Qlt_le_dec 2 (delta P Q z i (S j))) as [K|K]; [exfalso|exact K].
  specialize (G ltac:(lra)). destruct (Qeq_dec (delta P Q z i j) 2) as [E|E].
  - destruct (d_signs P Q CP CQ z i j) as (_ & _ & _ & S4 & _). destruct (S4 (or_introl E)) as [Z DN]. destruct (opposite i j Z DN). lra.
  - destruct (d_signs P Q CP CQ z i j) as (S1 & _). specialize (S1 ltac:(lra)). unfold bA in G. rewrite left_cross in G.
    destruct (d_signs P Q CP CQ z i (S j)) as (_ & _ & _ & _ & S5 & _). specialize (S5 ltac:(lra)).
    pose proof (IP i) as T. rewrite left_cross in T.
    assert (XQ : in_hull Q X0) by (apply left_of_all_hull; [apply CQ|apply CQ|]; intros l Hl; pose proof (IQ (S l)) as T1; rewrite (from_S Q CQ) in T1; unfold vtx in T1; rewrite (Nat.mod_small l) in T1 by exact Hl; lra).
    destruct (topmost Q CQ (edg P i) j X0 S1 (Qlt_le_weak _ _ S5) XQ ltac:(lra)) as [E1 E2]. exact (not_on Q (S j) (IQ (S j)) E1).
Qed.

(** The index of an edge that turns left, close to the current one. *)
Lemma index_near : forall j b, (m <= j)%nat -> exists k, (j - m <= k < j)%nat /\ vtx Q k = vtx Q b /\ from Q k = from Q b.
Proof.
  intros j b L. pose proof (proj2 CQ) as L3. fold m in L3. set (q := (j - 1 - b mod m)%nat). pose proof (Nat.mod_upper_bound b m ltac:(lia)) as Ub. pose proof (Nat.mod_upper_bound q m ltac:(lia)) as Uq.
  pose proof (Nat.div_mod q m ltac:(lia)) as DM. exists (j - 1 - q mod m)%nat. split; [lia|].
  assert (E : (j - 1 - q mod m = b mod m + (q / m) * m)%nat) by lia.
  unfold vtx, from. fold m. rewrite E, Nat.mod_add, Nat.mod_mod by lia. auto.
Qed.
Lemma lift_near : forall i j b, (m <= j)%nat -> -2 < delta P Q z i j <= 2 -> 0 < AB P Q i b ->
  exists k, 0 < delta P Q z i k < 2 /\ vtx Q k = vtx Q b /\ from Q k = from Q b.
Proof.
  intros i j b L B A. destruct (index_near j b L) as (k & Hk & V & F). pose proof (theta_turn Q CQ k) as T. fold m in T.
  assert (T1 := theta_mono Q CQ k j ltac:(lia)). assert (T2 := theta_mono_le Q CQ j (k + m) ltac:(lia)).
  assert (SGN : forall l, vtx Q l = vtx Q b -> from Q l = from Q b -> -2 < delta P Q z i l <= 2 -> 0 < delta P Q z i l < 2).
  { intros l V' F' B'. assert (A' : 0 < AB P Q i l) by (unfold AB, edg in *; rewrite V', F'; exact A).
    destruct (d_signs P Q CP CQ z i l) as (_ & S2 & S3 & S4 & _). destruct (Qlt_le_dec (delta P Q z i l) 0) as [K|K]; [specialize (S2 ltac:(lra)); lra|].
    destruct (Qeq_dec (delta P Q z i l) 0) as [K0|K0]; [destruct (S3 K0); lra|]. destruct (Qeq_dec (delta P Q z i l) 2) as [K2|K2]; [destruct (S4 (or_introl K2)); lra|]. lra. }
  unfold delta in *. destruct (Qlt_le_dec (-2) (theta Q k + 4 * inject_Z z - theta P i)) as [K|K].
  - exists k. split; [apply SGN; [exact V|exact F|lra]|auto].
  - exists (k + m)%nat. assert (V' : vtx Q (k + m) = vtx Q b) by (rewrite <- V; apply (vtx_turn Q CQ)). assert (F' : from Q (k + m) = from Q b) by (rewrite <- F; apply (from_turn Q CQ)).
    split; [|auto]. apply SGN; [exact V'|exact F'|]. lra.
Qed.

(** *** Following P *)
Variable w : Z.
Definition tP (i : nat) := theta P i + 4 * inject_Z w.
Definition passed (i j : nat) : Prop := forall b W, (b < j)%nat -> in_hull P W -> in_hull Q W -> edge_on Q b W -> ~ W =p= vtx Q b -> delta P Q z i b <= 0.
Definition first_on (i : nat) (x : pt) : Prop := forall Y, edge_on P i Y -> in_hull Q Y -> before (edg P i) x Y.
Definition side (i j : nat) (x : pt) f : Prop :=
  edge_on P i x /\ tP i - 2 < f < tP i /\ (first_on i x \/ 0 < delta P Q z i j) /\ passed i j.

Lemma passed_next : forall i j, delta P Q z i j <= 2 -> (0 < delta P Q z i j -> bA P Q i j <= 0) -> passed i j -> passed i (S j).
Proof.
  intros i j B G H b W Hb W1 W2 W3 W4. destruct (Nat.eq_dec b j) as [->|N]; [|apply (H b W); try assumption; lia].
  destruct (Qlt_le_dec 0 (delta P Q z i j)) as [K|K]; [exfalso|exact K]. specialize (G K).
  destruct (Qeq_dec (delta P Q z i j) 2) as [E|E].
  - destruct (d_signs P Q CP CQ z i j) as (_ & _ & _ & S4 & _). destruct (S4 (or_introl E)) as [Z DN]. destruct (opposite i j Z DN). lra.
  - pose proof (leave_row i j W W1 W3 W4 ltac:(apply (proj1 (d_signs P Q CP CQ z i j)); lra)). lra.
Qed.
Lemma side_other : forall i j x f, delta P Q z i j <= 2 -> (0 < delta P Q z i j -> bA P Q i j <= 0) -> side i j x f -> side i (S j) x f.
Proof.
  intros i j x f B G (H1 & H2 & H3 & H4). split; [exact H1|]. split; [exact H2|]. split; [|apply passed_next; assumption].
  destruct H3 as [H3|H3]; [left; exact H3|right]. pose proof (delta_b P Q CQ z i j). lra.
Qed.
Lemma climb_edge : forall A j b W, (j < b)%nat -> (forall l, (j < l <= b)%nat -> 0 <= cross A (edg Q l)) -> edge_on Q b W -> cross A (vtx Q j) <= cross A W.
Proof.
  intros A j b W L H (t & Ht & E). destruct b as [|b]; [lia|]. rewrite (from_S Q CQ) in E. rewrite (cross_pteq _ _ _ E), cross_lerp.
  pose proof (H (S b) ltac:(lia)) as K. rewrite cross_edge, (from_S Q CQ) in K.
  assert (C : cross A (vtx Q j) <= cross A (vtx Q b)) by (apply (climb Q CQ); [lia|intros; apply H; lia]).
  assert (0 <= t * (cross A (vtx Q (S b)) - cross A (vtx Q b))) by (apply Qmult_le_0_compat; lra). lra.
Qed.
Lemma visit_common : forall i j x, (m <= j)%nat -> -2 < delta P Q z i j <= 2 -> edge_on P i x -> in_hull P x -> in_hull Q x -> passed i j ->
  (delta P Q z i j < 0 -> aB P Q i j <= 0) -> (0 <= delta P Q z i j -> 0 < bA P Q i j) ->
  ~ (touch P Q i j /\ 0 < AB P Q i j /\ aB P Q i j <= 0 /\ 0 < bA P Q i j) -> in_hull Q (vtx P i).
Proof.
  intros i j x Lj B Ox Px Qx PA G1 G2 NX. destruct (leave_polygon Q x (vtx P i) CQ Qx) as [H|(s & k & Hs & HW & OW & NV)]; [exact H|exfalso].
  set (W := lerp x (vtx P i) s) in *.
  assert (WP : in_hull P W) by (apply hull_lerp; [exact CP|exact Px|apply (vtx_in P CP)|lra]).
  destruct (to_end P i x Ox) as (r & Hr & Er).
  assert (MV : vtx P i =p= vadd W (vscale ((1 - s) * r) (edg P i))).
  { destruct Er as [E1 E2]. cbn [px py vadd vscale] in E1, E2. unfold W, lerp.
    assert (R1 : r * px (edg P i) == px (vtx P i) - px x) by lra. assert (R2 : r * py (edg P i) == py (vtx P i) - py x) by lra.
    split; cbn [px py vadd vscale vsub]; rewrite <- Qmult_assoc; [rewrite R1|rewrite R2]; ring. }
  set (q := (1 - s) * r) in *. assert (Q0 : 0 <= q) by (apply Qmult_le_0_compat; lra).
  assert (OPW : edge_on P i W).
  { apply (around_on P CP); [exact WP|]. pose proof (tri2_moved P i W _ _ q MV) as T. rewrite (edge_zero P i _ (edge_end P i)) in T.
    assert (cross (edg P i) (edg P i) == 0) by (unfold cross; ring). rewrite H in T. lra. }
  assert (NVQ : forall l, edge_on Q l W -> tri2 (from Q l) (vtx Q l) (vtx P i) == - q * AB P Q i l).
  { intros l Ol. rewrite (tri2_moved Q l W _ _ q MV), (edge_zero Q l W Ol), (cross_swap P Q). ring. }
  assert (AK : 0 < AB P Q i k) by (rewrite (NVQ k OW) in NV; destruct (Qlt_le_dec 0 (AB P Q i k)) as [K|K]; [exact K|assert (0 <= q * - AB P Q i k) by (apply Qmult_le_0_compat; lra); lra]).
  assert (QP : 0 < q) by (rewrite (NVQ k OW) in NV; destruct (Qeq_dec q 0) as [Z|Z]; [rewrite Z in NV; lra|lra]).
  assert (EX : exists b, edge_on Q b W /\ ~ W =p= vtx Q b /\ 0 < AB P Q i b).
  { assert (DE : W =p= vtx Q k \/ ~ W =p= vtx Q k).
    { destruct (Qeq_dec (px W) (px (vtx Q k))) as [E1|E1]; [|right; intros [K _]; contradiction]. destruct (Qeq_dec (py W) (py (vtx Q k))) as [E2|E2]; [left; split; assumption|right; intros [_ K]; contradiction]. }
    destruct DE as [DE|DE]; [|exists k; auto]. exists (S k). assert (O1 : edge_on Q (S k) W).
    { apply (segment_pteq _ _ (vtx Q k)); [apply pteq_sym; exact DE|]. rewrite <- (from_S Q CQ k). apply edge_start. }
    split; [exact O1|]. split.
    - intro E. pose proof (edg_nonzero Q CQ (S k)) as N. apply N. unfold edg. rewrite (from_S Q CQ). destruct E as [E1 E2], DE as [D1 D2]. split; cbn [px py vsub]; lra.
    - assert (K1 : 0 < cross (edg P i) (vsub X0 W)).
      { pose proof (IP i) as T. rewrite left_cross in T. pose proof (edge_zero P i W OPW) as T2. rewrite left_cross in T2. assert (E : cross (edg P i) (vsub X0 W) == cross (edg P i) X0 - cross (edg P i) W) by (unfold cross, vsub; cbn [px py]; ring). rewrite E. lra. }
      assert (K2 : forall l, edge_on Q l W -> 0 < cross (edg Q l) (vsub X0 W)).
      { intros l Ol. pose proof (IQ l) as T. rewrite left_cross in T. pose proof (edge_zero Q l W Ol) as T2. rewrite left_cross in T2. assert (E : cross (edg Q l) (vsub X0 W) == cross (edg Q l) X0 - cross (edg Q l) W) by (unfold cross, vsub; cbn [px py]; ring). rewrite E. lra. }
      pose proof (K2 k OW) as K3. pose proof (K2 (S k) O1) as K4. pose proof (edg_left Q CQ k) as K5. unfold AB in *.
      set (a := edg P i) in *. set (b := edg Q k) in *. set (c := edg Q (S k)) in *. set (v := vsub X0 W) in *.
      assert (PL : cross a c * cross b v == cross a b * cross c v + cross a v * cross b c) by (unfold cross; ring).
      assert (0 < cross a b * cross c v) by nra. assert (0 < cross a v * cross b c) by nra. nra. }
  destruct EX as (b0 & O0 & N0 & A0). destruct (lift_near i j b0 Lj B A0) as (b & D & V & F).
  assert (Ob : edge_on Q b W) by (unfold edge_on; rewrite V, F; exact O0). assert (Nb : ~ W =p= vtx Q b) by (rewrite V; exact N0).
  assert (Ab : 0 < AB P Q i b) by (apply (proj1 (d_signs P Q CP CQ z i b)); lra).
  destruct (Nat.lt_total b j) as [L|[->|L]].
  - pose proof (PA b W L WP HW Ob Nb). lra.
  - apply NX. split; [exists W; auto|]. split; [exact Ab|]. split; [unfold aB; rewrite (NVQ j Ob)|apply (leave_row i j W); assumption].
    assert (0 <= q * AB P Q i j) by (apply Qmult_le_0_compat; lra). lra.
  - pose proof (theta_mono Q CQ j b L) as TM. destruct (Qlt_le_dec (delta P Q z i j) 0) as [K|K].
    + specialize (G1 K). unfold aB in G1. rewrite (tri2_moved Q j W _ _ q MV), (cross_swap P Q) in G1. pose proof (around_left Q CQ j W HW) as T.
      pose proof (proj1 (proj2 (d_signs P Q CP CQ z i j)) ltac:(lra)) as A. assert (0 < q * - AB P Q i j) by nra. lra.
    + specialize (G2 K). unfold bA in G2. rewrite left_cross in G2. pose proof (edge_zero P i W OPW) as T. rewrite left_cross in T.
      assert (C : cross (edg P i) (vtx Q j) <= cross (edg P i) W); [|lra]. apply (climb_edge _ j b W L); [|exact Ob].
      intros l Hl. apply Qlt_le_weak, (proj1 (d_signs P Q CP CQ z i l)). pose proof (theta_mono Q CQ j l ltac:(lia)). pose proof (theta_mono_le Q CQ l b ltac:(lia)). unfold delta in *. lra.
Qed.

(** *** The chain *)
Variable C : pt -> Prop.
Hypothesis CPQ : forall Y, C Y <-> in_hull P Y /\ in_hull Q Y.
Lemma tP_angle : forall i, angle_of (edg P i) (tP i).
Proof. intro i. destruct (theta_angle P i) as [k E]. exists (k + w)%Z. unfold tP. rewrite E, inject_Z_plus. ring. Qed.
Lemma seen : forall i x, edge_on P i x -> 0 < cross (vsub x X0) (edg P i) /\ nonzero (vsub x X0).
Proof.
  intros i x O. pose proof (IP i) as T. apply edge_zero in O. rewrite left_cross in T, O.
  assert (E : cross (vsub x X0) (edg P i) == cross (edg P i) X0 - cross (edg P i) x) by (unfold cross, vsub; cbn [px py]; ring).
  split; [lra|]. intros [E1 E2]. assert (Z : cross (vsub x X0) (edg P i) == 0) by (unfold cross; rewrite E1, E2; ring). lra.
Qed.
Lemma extend : forall X1 f1 i x l f y, chain C X0 X1 f1 (x :: l) f -> edge_on P i x -> tP i - 2 < f < tP i -> before (edg P i) x y -> C y -> edge_on P i y ->
  exists g, tP i - 2 < g < tP i /\ chain C X0 X1 f1 (y :: x :: l) g.
Proof.
  intros X1 f1 i x l f y H Ox B (k & K & E) CY Oy. destruct (seen i x Ox) as [Sx Nx]. destruct (seen i y Oy) as [Sy Ny].
  destruct (lift_left _ _ _ Ny (edg_nonzero P CP i) Sy (tP_angle i)) as (g & Ag & Bg). exists g. split; [exact Bg|].
  destruct (chain_last _ _ _ _ _ _ _ H) as [_ Af].
  apply chain_next with (f := f); try assumption.
  - intros Y HY. apply CPQ in HY as [HY _]. pose proof (around_left P CP i Y HY) as T. apply edge_zero in Ox. rewrite left_cross in T, Ox.
    assert (EK : tri2 x y Y == k * (cross (edg P i) Y - cross (edg P i) x)).
    { destruct E as [E1 E2]. cbn [px py vadd vscale] in E1, E2. unfold tri2, cross, vsub; cbn [px py]. rewrite E1, E2. ring. }
    rewrite EK. apply Qmult_le_0_compat; lra.
  - split; [|lra]. destruct (Qlt_le_dec g f) as [L|L]; [exfalso|exact L].
    pose proof (proj1 (angle_signs _ _ _ _ Ny Nx Ag Af) ltac:(lra)) as A.
    assert (EC : cross (vsub y X0) (vsub x X0) == - k * cross (vsub x X0) (edg P i)).
    { destruct E as [E1 E2]. cbn [px py vadd vscale] in E1, E2. unfold cross, vsub; cbn [px py]. rewrite E1, E2. ring. }
    assert (0 <= k * cross (vsub x X0) (edg P i)) by (apply Qmult_le_0_compat; lra). lra.
Qed.
(** The same lift serves for another edge through the point. *)
Lemma window : forall v f t u t', nonzero v -> nonzero u -> angle_of v f -> t - 2 < f < t -> 0 < cross v u -> angle_of u t' -> -2 < t' - t < 2 -> t' - 2 < f < t'.
Proof.
  intros v f t u t' Nv Nu Af B Cr At D. destruct (lift_left v u t' Nv Nu Cr At) as (g & Ag & Bg).
  assert (E : f == g) by (apply (lift_unique v f g Af Ag); lra). lra.
Qed.
Lemma visit : forall X1 f1 i j x l f, (m <= j)%nat -> -2 < delta P Q z i j <= 2 -> side i j x f -> chain C X0 X1 f1 (x :: l) f ->
  (delta P Q z i j < 0 -> aB P Q i j <= 0) -> (0 <= delta P Q z i j -> 0 < bA P Q i j) ->
  ~ (touch P Q i j /\ 0 < AB P Q i j /\ aB P Q i j <= 0 /\ 0 < bA P Q i j) ->
  exists g, chain C X0 X1 f1 (vtx P i :: x :: l) g /\ side (S i) j (vtx P i) g.
Proof.
  intros X1 f1 i j x l f Lj B (O & BF & _ & PA) H G1 G2 NX.
  assert (CX : in_hull P x /\ in_hull Q x) by (apply CPQ; destruct (chain_in _ _ _ _ _ _ H) as [_ F]; apply Forall_cons_iff in F as [F _]; exact F).
  assert (HQ : in_hull Q (vtx P i)) by (apply (visit_common i j x); tauto).
  assert (HC : C (vtx P i)) by (apply CPQ; split; [apply (vtx_in P CP)|exact HQ]).
  destruct (extend X1 f1 i x l f (vtx P i) H O BF (to_end P i x O) HC (edge_end P i)) as (g & Bg & Hg). exists g. split; [exact Hg|].
  assert (ES : edge_on P (S i) (vtx P i)) by (rewrite <- (from_S P CP i); apply edge_start).
  destruct (chain_last _ _ _ _ _ _ _ Hg) as [Ng Ag]. destruct (seen (S i) _ ES) as [Ss _]. pose proof (theta_S P CP i) as TS.
  split; [exact ES|]. split; [apply (window _ _ (tP i) _ _ Ng (edg_nonzero P CP (S i)) Ag Bg Ss (tP_angle (S i))); unfold tP; lra|].
  split; [left; intros Y OY _; rewrite <- (from_S P CP i); apply from_start; exact OY|].
  intros b W Hb W1 W2 W3 W4. pose proof (PA b W Hb W1 W2 W3 W4). pose proof (delta_a P Q CP z i b). lra.
Qed.
(** A point where the edges meet. *)
Lemma meet_extend : forall X1 f1 i j x l f X, -2 < delta P Q z i j < 2 -> ~ AB P Q i j == 0 -> side i j x f -> chain C X0 X1 f1 (x :: l) f -> edge_on P i X -> edge_on Q j X ->
  exists g, tP i - 2 < g < tP i /\ chain C X0 X1 f1 (X :: x :: l) g.
Proof.
  intros X1 f1 i j x l f X B N (O & BF & M & PA) H XP XQ.
  assert (CX : in_hull P x /\ in_hull Q x) by (apply CPQ; destruct (chain_in _ _ _ _ _ _ H) as [_ F]; apply Forall_cons_iff in F as [F _]; exact F).
  assert (HX : in_hull P X /\ in_hull Q X) by (split; [apply (around_in P CP i); exact XP|apply (around_in Q CQ j); exact XQ]).
  apply (extend X1 f1 i x l f X H O BF); [|apply CPQ; exact HX|exact XP].
  destruct (d_signs P Q CP CQ z i j) as (S1 & S2 & S3 & _). destruct (Qlt_le_dec 0 (AB P Q i j)) as [K|K]; [apply (order_out i j); tauto|].
  assert (D : delta P Q z i j < 0).
  { destruct (Qlt_le_dec (delta P Q z i j) 0) as [L|L]; [exact L|exfalso]. destruct (Qeq_dec (delta P Q z i j) 0) as [E|E]; [destruct (S3 E); contradiction|]. specialize (S1 ltac:(lra)). lra. }
  destruct M as [M|M]; [|lra]. apply M; tauto.
Qed.
Lemma side_new : forall i j X g, edge_on P i X -> edge_on Q j X -> tP i - 2 < g < tP i -> -2 < delta P Q z i j < 0 -> side i j X g.
Proof.
  intros i j X g XP XQ Bg D. pose proof (proj1 (proj2 (d_signs P Q CP CQ z i j)) D) as A. split; [exact XP|]. split; [exact Bg|].
  split; [left; intros Y OY HY; apply (order_in i j); assumption|]. intros b W Hb _ _ _ _. pose proof (theta_mono Q CQ b j Hb). unfold delta in *. lra.
Qed.
Lemma side_keep : forall i j x f X g, -2 < delta P Q z i j < 2 -> ~ AB P Q i j == 0 -> side i j x f -> edge_on P i X -> edge_on Q j X -> tP i - 2 < g < tP i -> side i j X g.
Proof.
  intros i j x f X g B N (O & BF & M & PA) XP XQ Bg. split; [exact XP|]. split; [exact Bg|]. split; [|exact PA].
  destruct (Qlt_le_dec 0 (delta P Q z i j)) as [K|K]; [right; exact K|left]. destruct (d_signs P Q CP CQ z i j) as (S1 & S2 & S3 & _).
  destruct (Qeq_dec (delta P Q z i j) 0) as [E|E]; [destruct (S3 E); contradiction|]. intros Y OY HY. apply (order_in i j); try assumption. apply S2. lra.
Qed.
(** *** A whole turn *)
Lemma full_turn : forall X1 f1 i i1 x l f, chain C X0 X1 f1 (x :: l) f -> edge_on P i x -> tP i - 2 < f < tP i -> edge_on P i1 X1 -> tP i1 - 2 < f1 < tP i1 ->
  (i1 + length P <= i)%nat -> exists k g, chain C X0 X1 f1 k g /\ f1 + 4 <= g /\ forall Y, In Y k <-> In Y (x :: l).
Proof.
  intros X1 f1 i i1 x l f H Ox B O1 B1 L. pose proof (theta_turn P CP i1) as TT. set (I := (i1 + length P)%nat) in *.
  assert (TI : tP I == tP i1 + 4) by (unfold tP; rewrite TT; ring).
  assert (OI : edge_on P I X1) by (unfold edge_on, I; rewrite (vtx_turn P CP), (from_turn P CP); exact O1).
  destruct (Qlt_le_dec f (f1 + 4)) as [K|K]; [|exists (x :: l), f; split; [exact H|split; [exact K|reflexivity]]].
  destruct (chain_last _ _ _ _ _ _ _ H) as [Nx Ax]. destruct (chain_in _ _ _ _ _ _ H) as [IX1 FC].
  destruct (seen I X1 OI) as [S1 N1]. destruct (seen i x Ox) as [Sx _].
  assert (A1 : angle_of (vsub X1 X0) (f1 + 4)).
  { assert (A : angle_of (vsub X1 X0) f1) by (clear - H; induction H as [? ? A|]; assumption). destruct A as [k E]. exists (k + 1)%Z. rewrite E, inject_Z_plus. change (inject_Z 1) with 1. ring. }
  assert (TM : tP I <= tP i) by (unfold tP; pose proof (theta_mono_le P CP I i L); lra).
  assert (CR : 0 < cross (vsub x X0) (vsub X1 X0)) by (apply (proj1 (angle_signs _ _ _ _ Nx N1 Ax A1)); lra).
  rewrite Forall_forall in FC.
  destruct (Nat.eq_dec i I) as [->|NE].
  - assert (BF : before (edg P I) x X1).
    { destruct (on_line P I x X1 Ox OI) as (k & E). exists k. split; [|exact E].
      assert (EC : cross (vsub x X0) (vsub X1 X0) == k * cross (vsub x X0) (edg P I)).
      { destruct E as [E1 E2]. cbn [px py vadd vscale] in E1, E2. unfold cross, vsub; cbn [px py]. rewrite E1, E2. ring. }
      destruct (Qlt_le_dec k 0) as [KK|KK]; [|exact KK]. assert (0 <= - k * cross (vsub x X0) (edg P I)) by (apply Qmult_le_0_compat; lra). lra. }
    destruct (extend X1 f1 I x l f X1 H Ox B BF (FC X1 IX1) OI) as (g & Bg & Hg). exists (X1 :: x :: l), g. split; [exact Hg|].
    destruct (chain_last _ _ _ _ _ _ _ Hg) as [_ Ag]. assert (E : g == f1 + 4) by (apply (lift_unique _ _ _ Ag A1); lra). split; [lra|].
    intro Y. split; [|intro HY; right; exact HY]. intros [<-|HY]; [exact IX1|exact HY].
  - exfalso. assert (Hx : in_hull P x) by (apply (around_in P CP i); exact Ox). assert (H1 : in_hull P X1) by (apply (around_in P CP I); exact OI).
    pose proof (around_left P CP I x Hx) as T1. pose proof (around_left P CP i X1 H1) as T2. apply edge_zero in Ox, OI. rewrite left_cross in T1, T2, Ox, OI.
    assert (TS : theta P I < theta P i) by (apply (theta_mono P CP); lia).
    assert (CE : 0 < cross (edg P I) (edg P i)).
    { apply (proj1 (edg_signs P CP I i)). unfold tP in *. lra. }
    assert (C1 : 0 < cross (vsub X1 X0) (edg P i)).
    { apply (proj1 (angle_signs _ _ _ _ N1 (edg_nonzero P CP i) A1 (tP_angle i))). lra. }
    assert (C2 : 0 < cross (vsub x X0) (edg P I)).
    { apply (proj1 (angle_signs _ _ _ _ Nx (edg_nonzero P CP I) Ax (tP_angle I))). lra. }
    set (d := vsub x X1). set (a := edg P I) in *. set (b := edg P i) in *. set (v := vsub X1 X0) in *.
    assert (D1 : 0 <= cross a d) by (assert (E : cross a d == cross a x - cross a X1) by (unfold d, cross, vsub; cbn [px py]; ring); lra).
    assert (D2 : cross b d <= 0) by (assert (E : cross b d == cross b x - cross b X1) by (unfold d, cross, vsub; cbn [px py]; ring); lra).
    assert (V : cross (vsub x X0) v == - cross v d) by (unfold v, d, cross, vsub; cbn [px py]; ring).
    assert (PL : cross v d * cross a b == cross v b * cross a d - cross v a * cross b d) by (unfold cross; ring).
    assert (0 <= cross v b * cross a d) by (apply Qmult_le_0_compat; lra). assert (0 <= cross v a * - cross b d) by (apply Qmult_le_0_compat; lra). nra.
Qed.
End Side.
