(** Construction of the partition trees. *)
From Verif Require Import Base CmpModel OrientModel OrientSpec OrientProof LinIntModel LinIntSpec LinIntProof RayProof PolygonModel PolygonSpec PolygonProof BspModel BspSpec.
From Coq Require Import Sorting.Permutation Sorting.Sorted.

Lemma side_lerp : forall s P R t, side s (lerp P R t) == side s P + t * (side s R - side s P).
Proof. intros. unfold side. apply tri2_lerp. Qed.
Lemma side_pteq : forall s X Y, X =p= Y -> side s X == side s Y.
Proof. intros s X Y [E1 E2]. unfold side, tri2, cross, vsub. cbn [px py]. rewrite E1, E2. reflexivity. Qed.
Lemma side_on : forall s e X, on_segment (fst e) (snd e) X -> exists t, 0 <= t <= 1 /\ side s X == side s (fst e) + t * (side s (snd e) - side s (fst e)).
Proof. intros s e X (t & T & E). exists t. split; [exact T|]. rewrite (side_pteq s _ _ E). apply side_lerp. Qed.
Lemma mix_nonneg : forall a b t, 0 <= t <= 1 -> 0 <= a -> 0 <= b -> 0 <= a + t * (b - a).
Proof. intros a b t T A B. pose proof (Qmult_le_0_compat t b ltac:(lra) B). pose proof (Qmult_le_0_compat (1 - t) a ltac:(lra) A). lra. Qed.
Lemma mix_nonpos : forall a b t, 0 <= t <= 1 -> a <= 0 -> b <= 0 -> a + t * (b - a) <= 0.
Proof. intros a b t T A B. pose proof (mix_nonneg (- a) (- b) t T ltac:(lra) ltac:(lra)). lra. Qed.
Lemma orient_side : forall s X, match get_orientation direct (fst s) (snd s) X with oriented_left => 0 < side s X | oriented_right => side s X < 0 | oriented_collinear => side s X == 0 end.
Proof.
  intros s X. destruct (orientation_direct (fst s) (snd s) X) as (A & B & C). unfold side, tri2.
  destruct (get_orientation direct (fst s) (snd s) X); [apply B; reflexivity|apply C; reflexivity|apply A; reflexivity].
Qed.
Lemma line_side : forall s X, proper s -> (on_line (fst s) (snd s) X <-> side s X == 0).
Proof.
  intros s X P. destruct (orientation_sides (fst s) (snd s) X P) as (_ & _ & C). rewrite <- C. destruct (orientation_direct (fst s) (snd s) X) as (_ & _ & D). rewrite D. reflexivity.
Qed.

(** What the classification of [e] means. *)
Definition in_front (s e : seg) : Prop := 0 <= side s (fst e) /\ 0 <= side s (snd e) /\ 0 < side s (fst e) + side s (snd e).
Definition behind (s e : seg) : Prop := side s (fst e) <= 0 /\ side s (snd e) <= 0 /\ side s (fst e) + side s (snd e) < 0.
Definition along (s e : seg) : Prop := side s (fst e) == 0 /\ side s (snd e) == 0.

Lemma piece_refl : forall s, piece_of s s.
Proof. intro s. exists 0, 1. repeat split; try lra; unfold lerp, vadd, vscale, vsub; cbn [px py]; ring. Qed.
Lemma piece_trans : forall a b c, piece_of a b -> piece_of b c -> piece_of a c.
Proof.
  intros a b c (u & v & U & UV & V & E1 & E2) (p & q & P & PQ & Q' & F1 & F2). exists (p + u * (q - p)), (p + v * (q - p)).
  assert (D : 0 < q - p) by lra. assert (0 <= u * (q - p)) by (apply Qmult_le_0_compat; lra). assert (0 < (v - u) * (q - p)) by (apply Qmult_lt_0_compat; lra). assert (0 <= (1 - v) * (q - p)) by (apply Qmult_le_0_compat; lra).
  destruct E1 as [E1 E1'], E2 as [E2 E2'], F1 as [F1 F1'], F2 as [F2 F2']. unfold lerp, vadd, vscale, vsub in *. cbn [px py] in *.
  repeat split; cbn [px py]; try lra; [rewrite E1, F1, F2|rewrite E1', F1', F2'|rewrite E2, F1, F2|rewrite E2', F1', F2']; ring.
Qed.
Lemma piece_on : forall e s X, piece_of e s -> on_segment (fst e) (snd e) X -> on_segment (fst s) (snd s) X.
Proof.
  intros e s X (u & v & U & UV & V & [E1 E1'] & [E2 E2']) (t & T & F & F'). exists (u + t * (v - u)).
  assert (0 <= t * (v - u)) by (apply Qmult_le_0_compat; lra). assert (0 <= (1 - t) * (v - u)) by (apply Qmult_le_0_compat; lra).
  split; [lra|]. unfold lerp, vadd, vscale, vsub in *. cbn [px py] in *. split; cbn [px py]; [rewrite F, E1, E2|rewrite F', E1', E2']; ring.
Qed.
Lemma piece_proper : forall e s, piece_of e s -> proper s -> proper e.
Proof.
  intros e s (u & v & U & UV & V & [E1 E1'] & [E2 E2']) P [Z1 Z2]. apply P. unfold lerp, vadd, vscale, vsub in *. cbn [px py] in *. rewrite E1, E2 in Z1. rewrite E1', E2' in Z2.
  assert (Y1 : (v - u) * (px (snd s) - px (fst s)) == 0) by lra. assert (Y2 : (v - u) * (py (snd s) - py (fst s)) == 0) by lra.
  split; [destruct (Qmult_integral _ _ Y1)|destruct (Qmult_integral _ _ Y2)]; (assumption || lra).
Qed.

Lemma classify_ok : forall s e, proper s -> proper e -> exists c, classify direct s e = Some c /\
  match c with
  | e_positive => in_front s e
  | e_negative => behind s e
  | e_coincident => along s e
  | e_crosses p n => in_front s p /\ behind s n /\ piece_of p e /\ piece_of n e /\ forall X, on_segment (fst e) (snd e) X -> on_segment (fst p) (snd p) X \/ on_segment (fst n) (snd n) X
  end.
Proof.
  intros s e PS PE. pose proof (orient_side s (fst e)) as O1. pose proof (orient_side s (snd e)) as O2.
  unfold classify. destruct (get_orientation direct (fst s) (snd s) (fst e)) eqn:G1; destruct (get_orientation direct (fst s) (snd s) (snd e)) eqn:G2;
    try (eexists; split; [reflexivity|]; unfold in_front, behind, along; cbn; lra).
  - (* right, then left *)
    destruct (line_segment_ok (fst s) (snd s) (fst e) (snd e) PS PE) as (ty & o & -> & H). cbv zeta in H.
    destruct ty.
    + contradiction.
    + exfalso. destruct H as [_ H]. set (t := (side s (fst e)) / (side s (fst e) - side s (snd e))).
      assert (D : ~ side s (fst e) - side s (snd e) == 0) by lra. assert (TE : t * (side s (fst e) - side s (snd e)) == side s (fst e)) by (unfold t; field; exact D).
      assert (T0 : 0 <= t). { destruct (Qlt_le_dec t 0) as [L|L]; [|exact L]. exfalso. assert (0 < (- t) * (side s (snd e) - side s (fst e))) by (apply Qmult_lt_0_compat; lra). lra. }
      assert (T1 : t <= 1). { destruct (Qlt_le_dec 1 t) as [L|L]; [|exact L]. exfalso. assert (0 < (t - 1) * (side s (snd e) - side s (fst e))) by (apply Qmult_lt_0_compat; lra). lra. }
      apply (H (lerp (fst e) (snd e) t)). split; [apply line_side; [exact PS|]; rewrite side_lerp; lra|]. exists t. split; [lra|]. apply pteq_refl.
    + destruct H as (X & -> & SP & (t & T & EX)).
      assert (SX : side s X == 0) by (apply line_side; [exact PS|]; apply (SP X); apply pteq_refl).
      destruct (pt_equals direct (fst e) X) eqn:Q1; [apply pt_equals_direct in Q1; rewrite (side_pteq s _ _ Q1) in O1; lra|].
      destruct (pt_equals direct (snd e) X) eqn:Q2; [apply pt_equals_direct in Q2; rewrite (side_pteq s _ _ Q2) in O2; lra|].
      exists (e_crosses (X, snd e) (fst e, X)). split; [reflexivity|]. unfold in_front, behind. cbn [fst snd]. split; [lra|]. split; [lra|]. destruct EX as [EX EX']. unfold lerp, vadd, vscale, vsub in EX, EX'. cbn [px py] in EX, EX'.
      split; [exists t, 1; repeat split; try lra; cbn [fst snd]; unfold lerp, vadd, vscale, vsub; cbn [px py]; (assumption || ring)|].
      split; [exists 0, t; repeat split; try lra; cbn [fst snd]; unfold lerp, vadd, vscale, vsub; cbn [px py]; (assumption || ring)|].
      intros Y (r & R & [EY EY']). unfold lerp, vadd, vscale, vsub in EY, EY'. cbn [px py] in EY, EY'. destruct (Qlt_le_dec r t) as [L|L]; [right|left].
      * exists (r / t). assert (NT : ~ t == 0) by lra. split; [split; [apply Qle_shift_div_l; lra|apply Qle_shift_div_r; lra]|]. unfold lerp, vadd, vscale, vsub; split; cbn [px py]; [rewrite EY, EX|rewrite EY', EX']; field; exact NT.
      * exists ((r - t) / (1 - t)). assert (NT : ~ 1 - t == 0) by lra. split; [split; [apply Qle_shift_div_l; lra|apply Qle_shift_div_r; lra]|]. unfold lerp, vadd, vscale, vsub; split; cbn [px py]; [rewrite EY, EX|rewrite EY', EX']; field; exact NT.
    + exfalso. destruct H as [_ H]. assert (K : on_line (fst s) (snd s) (fst e)) by (apply H; exists 0; split; [lra|apply pteq_sym, lerp_0 || (split; unfold lerp, vadd, vscale, vsub; cbn [px py]; ring)]). apply line_side in K; [lra|exact PS].
    + exfalso. destruct H as (X & _ & SP & EX). assert (SX : side s X == 0) by (apply line_side; [exact PS|]; apply (SP X); apply pteq_refl). destruct EX as [EX|EX]; rewrite (side_pteq s _ _ EX) in SX; lra.
  - (* left, then right *)
    destruct (line_segment_ok (fst s) (snd s) (fst e) (snd e) PS PE) as (ty & o & -> & H). cbv zeta in H.
    destruct ty.
    + contradiction.
    + exfalso. destruct H as [_ H]. set (t := (side s (fst e)) / (side s (fst e) - side s (snd e))).
      assert (D : ~ side s (fst e) - side s (snd e) == 0) by lra. assert (TE : t * (side s (fst e) - side s (snd e)) == side s (fst e)) by (unfold t; field; exact D).
      assert (T0 : 0 <= t). { destruct (Qlt_le_dec t 0) as [L|L]; [|exact L]. exfalso. assert (0 < (- t) * (side s (fst e) - side s (snd e))) by (apply Qmult_lt_0_compat; lra). lra. }
      assert (T1 : t <= 1). { destruct (Qlt_le_dec 1 t) as [L|L]; [|exact L]. exfalso. assert (0 < (t - 1) * (side s (fst e) - side s (snd e))) by (apply Qmult_lt_0_compat; lra). lra. }
      apply (H (lerp (fst e) (snd e) t)). split; [apply line_side; [exact PS|]; rewrite side_lerp; lra|]. exists t. split; [lra|]. apply pteq_refl.
    + destruct H as (X & -> & SP & (t & T & EX)).
      assert (SX : side s X == 0) by (apply line_side; [exact PS|]; apply (SP X); apply pteq_refl).
      destruct (pt_equals direct (fst e) X) eqn:Q1; [apply pt_equals_direct in Q1; rewrite (side_pteq s _ _ Q1) in O1; lra|].
      destruct (pt_equals direct (snd e) X) eqn:Q2; [apply pt_equals_direct in Q2; rewrite (side_pteq s _ _ Q2) in O2; lra|].
      exists (e_crosses (fst e, X) (X, snd e)). split; [reflexivity|]. unfold in_front, behind. cbn [fst snd]. split; [lra|]. split; [lra|]. destruct EX as [EX EX']. unfold lerp, vadd, vscale, vsub in EX, EX'. cbn [px py] in EX, EX'.
      split; [exists 0, t; repeat split; try lra; cbn [fst snd]; unfold lerp, vadd, vscale, vsub; cbn [px py]; (assumption || ring)|].
      split; [exists t, 1; repeat split; try lra; cbn [fst snd]; unfold lerp, vadd, vscale, vsub; cbn [px py]; (assumption || ring)|].
      intros Y (r & R & [EY EY']). unfold lerp, vadd, vscale, vsub in EY, EY'. cbn [px py] in EY, EY'. destruct (Qlt_le_dec r t) as [L|L]; [left|right].
      * exists (r / t). assert (NT : ~ t == 0) by lra. split; [split; [apply Qle_shift_div_l; lra|apply Qle_shift_div_r; lra]|]. unfold lerp, vadd, vscale, vsub; split; cbn [px py]; [rewrite EY, EX|rewrite EY', EX']; field; exact NT.
      * exists ((r - t) / (1 - t)). assert (NT : ~ 1 - t == 0) by lra. split; [split; [apply Qle_shift_div_l; lra|apply Qle_shift_div_r; lra]|]. unfold lerp, vadd, vscale, vsub; split; cbn [px py]; [rewrite EY, EX|rewrite EY', EX']; field; exact NT.
    + exfalso. destruct H as [_ H]. assert (K : on_line (fst s) (snd s) (fst e)) by (apply H; exists 0; split; [lra|split; unfold lerp, vadd, vscale, vsub; cbn [px py]; ring]). apply line_side in K; [lra|exact PS].
    + exfalso. destruct H as (X & _ & SP & EX). assert (SX : side s X == 0) by (apply line_side; [exact PS|]; apply (SP X); apply pteq_refl). destruct EX as [EX|EX]; rewrite (side_pteq s _ _ EX) in SX; lra.
Qed.
