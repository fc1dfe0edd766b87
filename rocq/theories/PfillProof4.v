From Coq Require Import Qround.
From Verif Require Import Base CmpModel OrientModel OrientSpec OrientProof DistSpec PolygonModel PolygonSpec PolygonProof PolygonConvexProof FixedProof
  GridModel GridSpec GridProof FloodSpec CvxSpec CvxProof CvxProof3 PfillModel PfillSpec PfillProof PfillProof3.

(** ** Rows and columns *)
Section Strip.
Variables lo w : Q.
Hypothesis Hw : 0 < w.
Definition in_strip (k : Z) (x : Q) : Prop := lo + inject_Z k * w <= x <= lo + (inject_Z k + 1) * w.
Lemma strip_le : forall a b x, lo + inject_Z a * w <= x -> x < lo + (inject_Z b + 1) * w -> (a <= b)%Z.
Proof.
  intros a b x A B. destruct (Z_lt_le_dec b a) as [L|L]; [|exact L]. exfalso.
  assert (L' : (b + 1 <= a)%Z) by lia. apply (proj2 (inject_le _ _)) in L'. rewrite inject_Z_plus in L'. change (inject_Z 1) with 1 in L'. nra.
Qed.
Lemma strip_le' : forall a b x, lo + inject_Z a * w < x -> x <= lo + (inject_Z b + 1) * w -> (a <= b)%Z.
Proof.
  intros a b x A B. destruct (Z_lt_le_dec b a) as [L|L]; [|exact L]. exfalso.
  assert (L' : (b + 1 <= a)%Z) by lia. apply (proj2 (inject_le _ _)) in L'. rewrite inject_Z_plus in L'. change (inject_Z 1) with 1 in L'. nra.
Qed.
Lemma strip_of : forall x, exists k, lo + inject_Z k * w <= x < lo + (inject_Z k + 1) * w.
Proof.
  intro x. exists (Qfloor ((x - lo) / w)). destruct (floor_spec ((x - lo) / w)) as [A B].
  assert (E : (x - lo) / w * w == x - lo) by (field; lra). revert A B E. generalize ((x - lo) / w). intros q A B E. split; nra.
Qed.
Lemma strip_inner : forall i k x, lo + inject_Z i * w < x < lo + (inject_Z i + 1) * w -> in_strip k x -> k = i.
Proof. intros i k x [A B] [C D]. assert (k <= i)%Z by (apply (strip_le _ _ x); assumption). assert (i <= k)%Z by (apply (strip_le' _ _ x); assumption). lia. Qed.
(** Close enough to x, a strip that has the near point has x. *)
Lemma strip_near : forall x, exists d, 0 < d /\ forall x' k, - d < x' - x < d -> in_strip k x' -> in_strip k x.
Proof.
  intro x. destruct (strip_of x) as (r & A & B). destruct (Qlt_le_dec (lo + inject_Z r * w) x) as [L|L].
  - destruct (Qlt_le_dec (x - (lo + inject_Z r * w)) (lo + (inject_Z r + 1) * w - x)) as [M|M].
    + exists (x - (lo + inject_Z r * w)). split; [lra|]. intros x' k D S. assert (k = r) by (apply (strip_inner _ _ x'); [lra|exact S]). subst k. split; lra.
    + exists (lo + (inject_Z r + 1) * w - x). split; [lra|]. intros x' k D S. assert (k = r) by (apply (strip_inner _ _ x'); [lra|exact S]). subst k. split; lra.
  - exists w. split; [exact Hw|]. intros x' k D [S1 S2].
    assert (k <= r)%Z by (apply (strip_le _ _ x'); lra).
    assert (r - 1 <= k)%Z. { apply (strip_le' _ _ x'); [|exact S2]. unfold Zminus. rewrite inject_Z_plus. change (inject_Z (- (1))) with (-1). lra. }
    assert (E : (k = r \/ k = r - 1)%Z) by lia. destruct E as [-> | ->].
    + split; lra.
    + unfold in_strip, Zminus. rewrite inject_Z_plus. change (inject_Z (- (1))) with (-1). split; lra.
Qed.
End Strip.

Section Cells.
Variables xmin xmax ymin ymax w : Q.
Variable g : grid.
Hypothesis Hw : 0 < w.
Notation cell := (in_closed_cell xmin ymin w).
Notation walls := (boundary_cells xmin ymin w g).

Lemma walls_rev : forall ps L, walls ps L -> walls (rev ps) L.
Proof.
  intros ps L (A & B & C). split; [|split].
  - intros c I. destruct (A c I) as (Gr & X & O & K). split; [exact Gr|]. exists X. split; [apply polygon_rev; exact O|exact K].
  - intros i P Q X E O. destruct (edge_rev _ _ _ _ E) as (j & E'). destruct (B j Q P X E' (segment_swap _ _ _ O)) as (c & I & K & V).
    exists c. split; [exact I|]. split; [exact K|]. intro H. apply V. symmetry. exact H.
  - intros c I. destruct (C c I) as (v & Iv & K). exists v. split; [apply -> in_rev; exact Iv|exact K].
Qed.
(** A point of the polygon strictly between two column lines is between the marked cells of its column. *)
Lemma column_rows : forall ps L X i, convex_polygon ps -> walls ps L -> in_hull ps X ->
  xmin + inject_Z i * w < px X < xmin + (inject_Z i + 1) * w ->
  exists k a b, In (i, a) L /\ In (i, b) L /\ (a <= k <= b)%Z /\ cell i k X.
Proof.
  intros ps L X i C (W1 & W2 & W3) HX Hi.
  destruct (exit_down ps X C HX) as (Y1 & i1 & A1 & B1 & E1 & O1 & X1 & Le1). destruct (exit_up ps X C HX) as (Y2 & i2 & A2 & B2 & E2 & O2 & X2 & Le2).
  destruct (W2 _ _ _ _ E1 O1) as ([a1 a] & I1 & [K1 R1] & _). destruct (W2 _ _ _ _ E2 O2) as ([a2 b] & I2 & [K2 R2] & _). cbn [fst snd] in *.
  assert (a1 = i) by (apply (strip_inner xmin w Hw i a1 (px X)); [exact Hi|split; lra]). subst a1.
  assert (a2 = i) by (apply (strip_inner xmin w Hw i a2 (px X)); [exact Hi|split; lra]). subst a2.
  destruct (strip_of ymin w Hw (py X)) as (k & Ka & Kb).
  assert (a <= k)%Z by (apply (strip_le ymin w Hw a k (py X)); lra).
  destruct (Z_le_gt_dec k b) as [Lk|Lk].
  - exists k, a, b. split; [exact I1|]. split; [exact I2|]. split; [lia|]. split; split; lra.
  - exists b, b, b. split; [exact I2|]. split; [exact I2|]. split; [lia|].
    assert (Lk' : (b + 1 <= k)%Z) by lia. apply (proj2 (inject_le _ _)) in Lk'. rewrite inject_Z_plus in Lk'. change (inject_Z 1) with 1 in Lk'.
    split; split; nra.
Qed.
Lemma off_line : forall ps x, convex_polygon ps -> exists v, In v ps /\ ~ px v == x.
Proof.
  intros ps x [C L]. assert (T := convex_pnth ps 0 1 2 C ltac:(lia) ltac:(lia)).
  destruct (Qeq_dec (px (pnth ps 0)) x) as [E0|N]; [|exists (pnth ps 0); split; [apply pnth_In; lia|exact N]].
  destruct (Qeq_dec (px (pnth ps 1)) x) as [E1|N]; [|exists (pnth ps 1); split; [apply pnth_In; lia|exact N]].
  destruct (Qeq_dec (px (pnth ps 2)) x) as [E2|N]; [|exists (pnth ps 2); split; [apply pnth_In; lia|exact N]].
  exfalso. unfold tri2, cross in T. cbn [px py vsub] in T. rewrite E0, E1, E2 in T. lra.
Qed.
(** A step as small as wanted in both coordinates. *)
Lemma small_eps : forall a b d, 0 < d -> exists e, 0 < e <= 1 /\ - d < e * a < d /\ - d < e * b < d.
Proof.
  intros a b d Hd. set (M := 1 + a * a + b * b). assert (HM : 0 < M) by (unfold M; pose proof (sq_nonneg a); pose proof (sq_nonneg b); lra).
  assert (Ha : -M < a < M) by (unfold M; pose proof (sq_nonneg a); pose proof (sq_nonneg b); pose proof (sq_nonneg (a - 1)); pose proof (sq_nonneg (a + 1)); lra).
  assert (Hb : -M < b < M) by (unfold M; pose proof (sq_nonneg a); pose proof (sq_nonneg b); pose proof (sq_nonneg (b - 1)); pose proof (sq_nonneg (b + 1)); lra).
  clearbody M.
  assert (K : forall e, 0 < e -> e * M <= d -> - d < e * a < d /\ - d < e * b < d) by (intros e He L; split; split; nra).
  destruct (Qlt_le_dec d M) as [L|L].
  - exists (d / M). assert (P : 0 < d / M) by (apply Qlt_shift_div_l; lra). assert (E : d / M * M == d) by (field; lra).
    split; [split; [exact P|apply Qle_shift_div_r; lra]|]. apply K; [exact P|lra].
  - exists 1. split; [lra|]. apply K; lra.
Qed.
Lemma hull_rows : forall ps L X, convex_polygon ps -> walls ps L -> in_hull ps X ->
  exists i k a b, In (i, a) L /\ In (i, b) L /\ (a <= k <= b)%Z /\ cell i k X.
Proof.
  intros ps L X C W HX. destruct (off_line ps (px X) C) as (V & IV & NV).
  destruct (strip_of xmin w Hw (px X)) as (i0 & A & B).
  destruct (Qlt_le_dec (xmin + inject_Z i0 * w) (px X)) as [L0|L0].
  { destruct (column_rows ps L X i0 C W HX ltac:(lra)) as (k & a & b & H). exists i0, k, a, b. exact H. }
  destruct (strip_near ymin w Hw (py X)) as (dy & Hdy & Near).
  set (d := if Qlt_le_dec dy w then dy else w). assert (Hd : 0 < d /\ d <= dy /\ d <= w) by (unfold d; destruct (Qlt_le_dec dy w); lra).
  clearbody d. destruct Hd as (Hd & Hd1 & Hd2).
  destruct (small_eps (px V - px X) (py V - py X) d Hd) as (e & He & Ex & Ey).
  set (X' := lerp X V e). assert (HX' : in_hull ps X') by (apply hull_lerp; [exact C|exact HX|apply vertex_in_hull; exact IV|lra]).
  assert (PX : px X' == px X + e * (px V - px X)) by (unfold X', lerp; cbn [px py vadd vscale vsub]; ring).
  assert (PY : py X' == py X + e * (py V - py X)) by (unfold X', lerp; cbn [px py vadd vscale vsub]; ring).
  destruct (Qlt_le_dec (px X) (px V)) as [LV|LV].
  - assert (0 < e * (px V - px X)) by (apply Qmult_lt_0_compat; lra).
    destruct (column_rows ps L X' i0 C W HX' ltac:(lra)) as (k & a & b & I1 & I2 & Lk & [K1 K2]).
    exists i0, k, a, b. split; [exact I1|]. split; [exact I2|]. split; [exact Lk|]. split; [lra|]. apply (Near (py X')); [lra|exact K2].
  - assert (LV' : px V < px X) by (apply Qnot_le_lt; intro; apply NV; lra). assert (0 < e * (px X - px V)) by (apply Qmult_lt_0_compat; lra).
    assert (J : inject_Z (i0 - 1) == inject_Z i0 - 1) by (unfold Zminus; rewrite inject_Z_plus; change (inject_Z (- (1))) with (-1); lra).
    destruct (column_rows ps L X' (i0 - 1) C W HX') as (k & a & b & I1 & I2 & Lk & [K1 K2]).
    { rewrite J. lra. }
    exists (i0 - 1)%Z, k, a, b. split; [exact I1|]. split; [exact I2|]. split; [exact Lk|]. split; [rewrite J; lra|]. apply (Near (py X')); [lra|exact K2].
Qed.
(** A cell strictly between two marked cells of its column has a point of the polygon half-way up. *)
Lemma mid_point : forall ps L i a b k, convex_polygon ps -> walls ps L -> In (i, a) L -> In (i, b) L -> (a < k < b)%Z ->
  exists U V Z, on_polygon ps U /\ on_polygon ps V /\ cell i a U /\ cell i b V /\ on_segment U V Z /\
    py U <= ymin + inject_Z k * w /\ ymin + (inject_Z k + 1) * w <= py V /\
    py Z == ymin + (inject_Z k + (1 # 2)) * w /\ xmin + inject_Z i * w <= px Z <= xmin + (inject_Z i + 1) * w.
Proof.
  intros ps L i a b k C (W1 & _) Ia Ib [L1 L2]. destruct (W1 _ Ia) as (_ & U & HU & KU). destruct (W1 _ Ib) as (_ & V & HV & KV). cbn [fst snd] in *.
  assert (L1' : (a + 1 <= k)%Z) by lia. assert (L2' : (k + 1 <= b)%Z) by lia. apply (proj2 (inject_le _ _)) in L1', L2'. rewrite inject_Z_plus in L1', L2'. change (inject_Z 1) with 1 in *.
  destruct KU as [KU1 KU2], KV as [KV1 KV2].
  assert (HUy : py U <= ymin + inject_Z k * w) by nra. assert (HVy : ymin + (inject_Z k + 1) * w <= py V) by nra.
  set (y := ymin + (inject_Z k + (1 # 2)) * w). assert (Hy1 : py U < y) by (unfold y; lra). assert (Hy2 : y < py V) by (unfold y; lra).
  set (t := (y - py U) / (py V - py U)). assert (Ht : 0 <= t <= 1) by (unfold t; split; [apply Qle_shift_div_l; lra|apply Qle_shift_div_r; lra]).
  assert (Et : t * (py V - py U) == y - py U) by (unfold t; field; lra). clearbody t.
  exists U, V, (lerp U V t). split; [exact HU|]. split; [exact HV|]. split; [split; assumption|]. split; [split; assumption|].
  split; [exists t; split; [exact Ht|apply pteq_refl]|]. split; [exact HUy|]. split; [exact HVy|].
  unfold lerp; cbn [px py vadd vscale vsub]. split; [rewrite Et; ring|]. split; nra.
Qed.
Lemma polygon_hull : forall ps X, on_polygon ps X -> in_hull ps X.
Proof.
  intros ps X (i & A & B & E & O). apply edge_is in E as (Hi & -> & ->). revert O. apply edge_in_hull; [exact Hi|]. apply Nat.mod_upper_bound. lia.
Qed.
Lemma segment_hull : forall ps U V Z, convex_polygon ps -> in_hull ps U -> in_hull ps V -> on_segment U V Z -> in_hull ps Z.
Proof. intros ps U V Z C HU HV (t & Ht & E). apply (hull_pteq ps (lerp U V t)); [apply pteq_sym; exact E|]. apply hull_lerp; assumption. Qed.
Lemma between_meets : forall ps L i a b k, convex_polygon ps -> walls ps L -> In (i, a) L -> In (i, b) L -> (a <= k <= b)%Z ->
  meets_cell xmin ymin w (in_hull ps) (i, k).
Proof.
  intros ps L i a b k C W Ia Ib Lk.
  assert (K : forall j, In (i, j) L -> meets_cell xmin ymin w (in_hull ps) (i, j)).
  { intros j Ij. destruct (proj1 W _ Ij) as (_ & X & O & KX). exists X. split; [apply polygon_hull; exact O|exact KX]. }
  destruct (Z.eq_dec k a) as [->|Na]; [exact (K a Ia)|]. destruct (Z.eq_dec k b) as [->|Nb]; [exact (K b Ib)|].
  destruct (mid_point ps L i a b k C W Ia Ib ltac:(lia)) as (U & V & Z & OU & OV & _ & _ & OZ & _ & _ & ZY & ZX).
  exists Z. split; [apply (segment_hull ps U V); [exact C|apply polygon_hull; exact OU|apply polygon_hull; exact OV|exact OZ]|].
  cbn [fst snd]. split; [exact ZX|]. rewrite ZY. split; nra.
Qed.
End Cells.
