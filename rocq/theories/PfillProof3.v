From Verif Require Import Base CmpModel OrientModel OrientSpec OrientProof DistSpec PolygonModel PolygonSpec PolygonProof PolygonConvexProof FixedProof
  GridModel GridSpec GridProof FloodSpec CvxSpec CvxProof CvxProof3 PfillModel PfillSpec PfillProof.

(** ** Leaving a convex polygon *)
Lemma affine_exit : forall n (f0 f1 : nat -> Q), (forall i, (i < n)%nat -> 0 <= f0 i) ->
  (forall i, (i < n)%nat -> 0 <= f1 i) \/
  exists s i, (i < n)%nat /\ 0 <= s < 1 /\ f0 i + s * (f1 i - f0 i) == 0 /\ forall j, (j < n)%nat -> 0 <= f0 j + s * (f1 j - f0 j).
Proof.
  intros n f0 f1. induction n as [|n IH]; intro H0; [left; intros; lia|].
  assert (Hn := H0 n ltac:(lia)).
  assert (Cut : f1 n < 0 -> exists s, 0 <= s < 1 /\ f0 n + s * (f1 n - f0 n) == 0).
  { intro L. exists (f0 n / (f0 n - f1 n)). split; [split|].
    - apply Qle_shift_div_l; lra.
    - apply Qlt_shift_div_r; lra.
    - field. lra. }
  destruct IH as [A|(s & i & Hi & Hs & Z & B)]; [intros i Hi; apply H0; lia| |].
  - destruct (Qlt_le_dec (f1 n) 0) as [L|L].
    + destruct (Cut L) as (s & Hs & Z). right. exists s, n. split; [lia|]. split; [exact Hs|]. split; [exact Z|].
      intros j Hj. destruct (Nat.eq_dec j n) as [->|N]; [lra|]. specialize (A j ltac:(lia)). specialize (H0 j ltac:(lia)). nra.
    + left. intros i Hi. destruct (Nat.eq_dec i n) as [->|N]; [exact L|apply A; lia].
  - right. destruct (Qlt_le_dec (f0 n + s * (f1 n - f0 n)) 0) as [L|L].
    + assert (Neg : f1 n < 0) by nra. destruct (Cut Neg) as (s' & Hs' & Z').
      assert (s' < s). { apply Qnot_le_lt. intro Le. assert (0 <= (s' - s) * (f0 n - f1 n)) by (apply Qmult_le_0_compat; lra). lra. }
      exists s', n. split; [lia|]. split; [exact Hs'|]. split; [exact Z'|].
      intros j Hj. destruct (Nat.eq_dec j n) as [->|N]; [lra|]. specialize (B j ltac:(lia)). specialize (H0 j ltac:(lia)).
      assert (0 < s) by lra. assert (0 <= s * (f0 j + s' * (f1 j - f0 j))); [|nra].
      assert (E : s * (f0 j + s' * (f1 j - f0 j)) == (s - s') * f0 j + s' * (f0 j + s * (f1 j - f0 j))) by ring.
      rewrite E. assert (0 <= (s - s') * f0 j) by (apply Qmult_le_0_compat; lra). assert (0 <= s' * (f0 j + s * (f1 j - f0 j))) by (apply Qmult_le_0_compat; lra). lra.
    + exists s, i. split; [lia|]. split; [exact Hs|]. split; [exact Z|]. intros j Hj. destruct (Nat.eq_dec j n) as [->|N]; [exact L|apply B; lia].
Qed.
Lemma next_prev : forall n i, (i < n)%nat -> prev n (S i mod n) = i.
Proof.
  intros n i H. unfold prev. destruct (Nat.eq_dec (S i) n) as [<-|N].
  - rewrite Nat.mod_same by lia. rewrite Nat.mod_small by lia. lia.
  - rewrite (Nat.mod_small (S i)) by lia. replace (S i + n - 1)%nat with (i + 1 * n)%nat by lia. rewrite Nat.mod_add by lia. apply Nat.mod_small. exact H.
Qed.
Lemma edge_pnth : forall ps i, (i < length ps)%nat -> polygon_edge ps i (pnth ps i) (pnth ps (S i mod length ps)).
Proof. intros ps i H. split; apply pnth_error; [exact H|]. apply Nat.mod_upper_bound. lia. Qed.
Lemma edge_is : forall ps i A B, polygon_edge ps i A B -> (i < length ps)%nat /\ A = pnth ps i /\ B = pnth ps (S i mod length ps).
Proof.
  intros ps i A B [E1 E2]. assert (H : (i < length ps)%nat) by (apply nth_error_Some; congruence). split; [exact H|].
  assert (H' : (S i mod length ps < length ps)%nat) by (apply Nat.mod_upper_bound; lia).
  rewrite (pnth_error _ _ H) in E1. rewrite (pnth_error _ _ H') in E2. split; congruence.
Qed.
Lemma hull_zero_edge : forall ps i X, convex_polygon ps -> (i < length ps)%nat -> in_hull ps X ->
  tri2 (pnth ps i) (pnth ps (S i mod length ps)) X == 0 -> on_segment (pnth ps i) (pnth ps (S i mod length ps)) X.
Proof.
  intros ps i X C H HX Z. assert (H' : (S i mod length ps < length ps)%nat) by (apply Nat.mod_upper_bound; lia).
  pose proof (hull_on_edge ps _ X C H' HX) as K. rewrite (next_prev _ _ H) in K. exact (K Z).
Qed.
Lemma hull_pteq : forall ps X Y, X =p= Y -> in_hull ps X -> in_hull ps Y.
Proof.
  intros ps X Y E (A & B & C & IA & IB & IC & a & b & c & Ha & Hb & Hc & S1 & EX). exists A, B, C. repeat (split; [assumption|]).
  exists a, b, c. repeat (split; [assumption|]). apply (pteq_trans _ X); [apply pteq_sym; exact E|exact EX].
Qed.
Lemma segment_pteq : forall A B X Y, X =p= Y -> on_segment A B X -> on_segment A B Y.
Proof. intros A B X Y E (t & Ht & EX). exists t. split; [exact Ht|]. apply (pteq_trans _ X); [apply pteq_sym; exact E|exact EX]. Qed.
Lemma hull_lerp : forall ps X Y t, convex_polygon ps -> in_hull ps X -> in_hull ps Y -> 0 <= t <= 1 -> in_hull ps (lerp X Y t).
Proof.
  intros ps X Y t [C L] HX HY Ht. apply left_of_all_hull; [exact C|exact L|]. intros i Hi. rewrite tri2_lerp.
  pose proof (hull_left ps X i C L HX Hi). pose proof (hull_left ps Y i C L HY Hi). nra.
Qed.
(** From a point of the polygon towards any point: either that point is in the polygon, or the boundary is met before. *)
Lemma exit_polygon : forall ps Z X, convex_polygon ps -> in_hull ps Z ->
  in_hull ps X \/ exists s i, (i < length ps)%nat /\ 0 <= s < 1 /\ in_hull ps (lerp Z X s) /\ on_segment (pnth ps i) (pnth ps (S i mod length ps)) (lerp Z X s).
Proof.
  intros ps Z X CP HZ. pose proof CP as [C L].
  set (f := fun P i => tri2 (pnth ps i) (pnth ps (S i mod length ps)) P).
  destruct (affine_exit (length ps) (f Z) (f X)) as [A|(s & i & Hi & Hs & E & B)].
  { intros i Hi. exact (hull_left ps Z i C L HZ Hi). }
  - left. apply left_of_all_hull; [exact C|exact L|]. exact A.
  - right. exists s, i. split; [exact Hi|]. split; [exact Hs|].
    assert (HY : in_hull ps (lerp Z X s)).
    { apply left_of_all_hull; [exact C|exact L|]. intros j Hj. rewrite tri2_lerp. exact (B j Hj). }
    split; [exact HY|]. apply hull_zero_edge; [exact CP|exact Hi|exact HY|]. rewrite tri2_lerp. exact E.
Qed.
Lemma hull_below : forall ps X K, (forall v, In v ps -> py v <= K) -> in_hull ps X -> py X <= K.
Proof.
  intros ps X K H (A & B & C & IA & IB & IC & a & b & c & Ha & Hb & Hc & S1 & [_ E]). cbn [py vadd vscale] in E.
  pose proof (H A IA). pose proof (H B IB). pose proof (H C IC).
  assert (0 <= a * (K - py A)) by (apply Qmult_le_0_compat; lra). assert (0 <= b * (K - py B)) by (apply Qmult_le_0_compat; lra). assert (0 <= c * (K - py C)) by (apply Qmult_le_0_compat; lra).
  assert (Z : c == 1 - a - b) by lra. rewrite Z in *. lra.
Qed.
Lemma hull_above : forall ps X K, (forall v, In v ps -> K <= py v) -> in_hull ps X -> K <= py X.
Proof.
  intros ps X K H (A & B & C & IA & IB & IC & a & b & c & Ha & Hb & Hc & S1 & [_ E]). cbn [py vadd vscale] in E.
  pose proof (H A IA). pose proof (H B IB). pose proof (H C IC).
  assert (0 <= a * (py A - K)) by (apply Qmult_le_0_compat; lra). assert (0 <= b * (py B - K)) by (apply Qmult_le_0_compat; lra). assert (0 <= c * (py C - K)) by (apply Qmult_le_0_compat; lra).
  assert (Z : c == 1 - a - b) by lra. rewrite Z in *. lra.
Qed.
Lemma hull_left_x : forall ps X K, (forall v, In v ps -> px v <= K) -> in_hull ps X -> px X <= K.
Proof.
  intros ps X K H (A & B & C & IA & IB & IC & a & b & c & Ha & Hb & Hc & S1 & [E _]). cbn [px vadd vscale] in E.
  pose proof (H A IA). pose proof (H B IB). pose proof (H C IC).
  assert (0 <= a * (K - px A)) by (apply Qmult_le_0_compat; lra). assert (0 <= b * (K - px B)) by (apply Qmult_le_0_compat; lra). assert (0 <= c * (K - px C)) by (apply Qmult_le_0_compat; lra).
  assert (Z : c == 1 - a - b) by lra. rewrite Z in *. lra.
Qed.
(** Straight up and straight down. *)
Lemma exit_up : forall ps X, convex_polygon ps -> in_hull ps X -> exists Y i A B, polygon_edge ps i A B /\ on_segment A B Y /\ px Y == px X /\ py X <= py Y.
Proof.
  intros ps X C HX. destruct (list_bound ps) as (K & _ & HB).
  assert (Hy : py X <= K) by (apply (hull_below ps); [intros v I; destruct (HB v I) as (_ & _ & _ & ?); lra|exact HX]).
  destruct (exit_polygon ps X (mkpt (px X) (K + 1)) C HX) as [H|(s & i & Hi & Hs & _ & O)].
  - exfalso. apply (hull_below ps _ K) in H; [cbn in H; lra|]. intros v I. destruct (HB v I) as (_ & _ & _ & ?). lra.
  - exists (lerp X (mkpt (px X) (K + 1)) s), i, (pnth ps i), (pnth ps (S i mod length ps)). split; [apply edge_pnth; exact Hi|]. split; [exact O|].
    unfold lerp; cbn [px py vadd vscale vsub]. split; [ring|]. nra.
Qed.
Lemma exit_down : forall ps X, convex_polygon ps -> in_hull ps X -> exists Y i A B, polygon_edge ps i A B /\ on_segment A B Y /\ px Y == px X /\ py Y <= py X.
Proof.
  intros ps X C HX. destruct (list_bound ps) as (K & _ & HB).
  assert (Hy : - K <= py X) by (apply (hull_above ps); [intros v I; destruct (HB v I) as (_ & _ & ? & _); lra|exact HX]).
  destruct (exit_polygon ps X (mkpt (px X) (- K - 1)) C HX) as [H|(s & i & Hi & Hs & _ & O)].
  - exfalso. apply (hull_above ps _ (- K)) in H; [cbn in H; lra|]. intros v I. destruct (HB v I) as (_ & _ & ? & _). lra.
  - exists (lerp X (mkpt (px X) (- K - 1)) s), i, (pnth ps i), (pnth ps (S i mod length ps)). split; [apply edge_pnth; exact Hi|]. split; [exact O|].
    unfold lerp; cbn [px py vadd vscale vsub]. split; [ring|]. nra.
Qed.

(** ** The other order of the points *)
Lemma edge_rev : forall ps i A B, polygon_edge (rev ps) i A B -> exists j, polygon_edge ps j B A.
Proof.
  intros ps i A B [E1 E2]. rewrite rev_length in E2.
  assert (H : (i < length ps)%nat) by (rewrite <- rev_length; apply nth_error_Some; congruence).
  assert (N : forall k, (k < length ps)%nat -> nth_error (rev ps) k = nth_error ps (length ps - S k)).
  { intros k Hk. rewrite (nth_error_nth' (rev ps) (mkpt 0 0)) by (rewrite rev_length; exact Hk). rewrite (nth_error_nth' ps (mkpt 0 0)) by lia. rewrite rev_nth by exact Hk. reflexivity. }
  rewrite N in E1 by exact H. rewrite N in E2 by (apply Nat.mod_upper_bound; lia).
  exists (length ps - S (S i mod length ps))%nat. split; [exact E2|]. rewrite <- E1. f_equal.
  destruct (Nat.eq_dec (S i) (length ps)) as [Ei|Ei].
  - rewrite Ei, Nat.mod_same by lia. replace (S (length ps - 1)) with (length ps) by lia. rewrite Nat.mod_same; lia.
  - rewrite (Nat.mod_small (S i)) by lia. rewrite Nat.mod_small by lia. lia.
Qed.
Lemma segment_swap : forall A B X, on_segment A B X -> on_segment B A X.
Proof.
  intros A B X (t & Ht & E1 & E2). exists (1 - t). split; [lra|]. split; [rewrite E1|rewrite E2]; unfold lerp; cbn [px py vadd vscale vsub]; ring.
Qed.
Lemma polygon_rev : forall ps X, on_polygon (rev ps) X <-> on_polygon ps X.
Proof.
  assert (K : forall ps X, on_polygon (rev ps) X -> on_polygon ps X).
  { intros ps X (i & A & B & E & O). destruct (edge_rev _ _ _ _ E) as (j & E'). exists j, B, A. split; [exact E'|apply segment_swap; exact O]. }
  intros ps X. split; [apply K|]. intro H. apply K. rewrite rev_involutive. exact H.
Qed.
Lemma hull_rev : forall ps X, in_hull (rev ps) X <-> in_hull ps X.
Proof.
  intros ps X. split; intros (A & B & C & IA & IB & IC & T); exists A, B, C.
  - rewrite <- in_rev in IA, IB, IC. auto.
  - rewrite <- !in_rev. auto.
Qed.
