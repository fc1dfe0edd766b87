(** Proofs about the range between two rays. *)
From Verif Require Import Base CmpModel OrientModel OrientSpec OrientProof DistModel DistSpec LinIntModel LinIntSpec LinIntProof RayProof RangeModel RangeSpec.
From Coq Require Import Lia.

Lemma cross_lerp : forall d O A B t, cross d (vsub (lerp A B t) O) == (1 - t) * cross d (vsub A O) + t * cross d (vsub B O).
Proof. intros d O A B t. unfold lerp, cross, vsub, vadd, vscale; simpl. ring. Qed.
Lemma cross_pteq : forall d O X Y, X =p= Y -> cross d (vsub X O) == cross d (vsub Y O).
Proof. intros d O X Y [H1 H2]. unfold cross, vsub; simpl. rewrite H1, H2. reflexivity. Qed.

Lemma ray_type_ok : forall O v A B, ~ cross v (vsub B A) == 0 ->
  exists r, crosses (ray_segment_intersection_type direct O v A B) = Some r /\ (r = true <-> exists t, 0 <= t /\ on_segment A B (vadd O (vscale t v))).
Proof.
  intros O v A B N. unfold ray_segment_intersection_type; simpl equals; simpl less_than; simpl greater_than.
  assert (N' : ~ dot (vsub B A) (left_normal v) == 0) by (rewrite ray_denom; exact N).
  destruct (ray_solve O v A (vsub B A) N) as [EQ UQ]. cbv zeta in *.
  destruct (Qeqb_spec (dot (vsub B A) (left_normal v)) 0) as [E|E]; [contradiction|]. rewrite !qdiv_opt_some by exact N'.
  set (t := cross (vsub B A) (vsub O A) / dot (vsub B A) (left_normal v)) in *. set (r := dot (vsub O A) (left_normal v) / dot (vsub B A) (left_normal v)) in *. clearbody t r.
  assert (K : (exists t', 0 <= t' /\ on_segment A B (vadd O (vscale t' v))) <-> 0 <= t /\ 0 <= r <= 1).
  { split.
    - intros (t' & H1 & r' & H2 & H3). destruct (UQ t' r' H3) as [E1 E2]. split; [rewrite <- E1|rewrite <- E2]; assumption.
    - intros [H1 H2]. exists t. split; [exact H1|]. exists r. split; [exact H2|exact EQ]. }
  destruct (Qltb_spec t 0) as [T|T]; [exists false; split; [reflexivity|]; rewrite K; split; [discriminate|lra]|].
  destruct (Qltb_spec r 0) as [R0|R0]; [exists false; split; [reflexivity|]; rewrite K; split; [discriminate|lra]|].
  destruct (Qgtb_spec r 1) as [R1|R1]; [exists false; split; [reflexivity|]; rewrite K; split; [discriminate|lra]|].
  cbn [orb]. exists true. split; [|rewrite K; split; [intros _; lra|reflexivity]]. destruct (Qeqb r 0 || Qeqb r 1); reflexivity.
Qed.

Lemma ray_points_ok : forall O v A B ty ot pts, nonzero v -> nonzero (vsub B A) -> ray_segment_intersection direct O v A B = Some (ty, ot, pts) -> ty <> e_non_crossing ->
  exists t, 0 <= t /\ on_segment A B (vadd O (vscale t v)).
Proof.
  intros O v A B ty ot pts NV N R NC. unfold ray_segment_intersection in R; simpl equals in R; simpl less_than in R; simpl greater_than in R.
  destruct (Qeqb_spec (dot (vsub B A) (left_normal v)) 0) as [E|E].
  - rewrite ray_denom in E. destruct (orientation_direct A B O) as (_ & _ & o3). destruct (get_orientation direct A B O) eqn:G; [injection R as <- _ _; contradiction| |injection R as <- _ _; contradiction].
    assert (C := proj1 o3 eq_refl). clear o3 G.
    assert (VV : 0 < dot v v). { unfold dot. destruct (Qlt_le_dec 0 (px v * px v + py v * py v)) as [L|L]; [exact L|]. exfalso. apply NV. pose proof (sq_nonneg (px v)). pose proof (sq_nonneg (py v)). split; apply sq_zero; lra. }
    assert (CV : forall X, on_segment A B X -> cross v (vsub X O) == 0).
    { assert (C0 : cross v (vsub A O) == 0).
      { unfold cross, vsub in *; simpl in *. set (dx := px B - px A) in *. set (dy := py B - py A) in *. set (wx := px O - px A) in *. set (wy := py O - py A) in *.
        assert (K1 : dx * (px v * wy - py v * wx) == 0) by (transitivity (px v * (dx * wy - dy * wx) + wx * (px v * dy - py v * dx)); [ring|rewrite C, E; ring]).
        assert (K2 : dy * (px v * wy - py v * wx) == 0) by (transitivity (py v * (dx * wy - dy * wx) + wy * (px v * dy - py v * dx)); [ring|rewrite C, E; ring]).
        apply Qmult_integral in K1, K2. unfold nonzero, vsub in N; simpl in N. fold dx dy in N. assert (Z : px v * wy - py v * wx == 0) by (destruct K1 as [K1|K1]; [|exact K1]; destruct K2 as [K2|K2]; [|exact K2]; exfalso; apply N; split; assumption).
        unfold wx, wy in Z. lra. }
      intros X (t & Ht & EX). rewrite (cross_pteq _ _ _ _ EX), cross_lerp. assert (C1 : cross v (vsub B O) == 0). { assert (cross v (vsub B O) == cross v (vsub A O) + cross v (vsub B A)) by (unfold cross, vsub; simpl; ring). lra. } rewrite C0, C1. ring. }
    assert (On : forall X, on_segment A B X -> 0 <= dot (vsub X O) v -> exists t, 0 <= t /\ on_segment A B (vadd O (vscale t v))).
    { intros X HX HD. exists (dot (vsub X O) v / dot v v). split; [apply Qle_shift_div_l; lra|]. apply (on_segment_compat A B A B X); [apply pteq_refl|apply pteq_refl| |exact HX].
      assert (Z := CV X HX). assert (NZ : ~ dot v v == 0) by lra.
      set (w := vsub X O) in *. assert (W1 : px X == px O + px w) by (unfold w, vsub; simpl; ring). assert (W2 : py X == py O + py w) by (unfold w, vsub; simpl; ring). clearbody w.
      assert (K1 : px w * dot v v == dot w v * px v) by (transitivity (dot w v * px v - py v * cross v w); [unfold cross, dot; ring|rewrite Z; ring]).
      assert (K2 : py w * dot v v == dot w v * py v) by (transitivity (dot w v * py v + px v * cross v w); [unfold cross, dot; ring|rewrite Z; ring]).
      set (c := dot v v) in *. set (d := dot w v) in *. clearbody c d.
      split; unfold vadd, vscale; simpl; [rewrite W1; transitivity (px O + (d * px v) / c); [rewrite <- K1|]|rewrite W2; transitivity (py O + (d * py v) / c); [rewrite <- K2|]]; field; auto. }
    assert (SA : on_segment A B A) by (exists 0; split; [lra|]; split; unfold lerp, vadd, vscale, vsub; simpl; ring). assert (SB : on_segment A B B) by (exists 1; split; [lra|]; split; unfold lerp, vadd, vscale, vsub; simpl; ring).
    assert (EA : dot (vneg (vsub O A)) v == dot (vsub A O) v) by (unfold dot, vneg, vsub; simpl; ring).
    destruct (Qltb_spec (dot (vneg (vsub O A)) v) 0) as [L1|L1].
    + destruct (Qltb_spec (dot (vsub B O) v) 0) as [L2|L2]; [injection R as <- _ _; contradiction|]. apply (On B SB). lra.
    + apply (On A SA). lra.
  - assert (E' : ~ cross v (vsub B A) == 0) by (rewrite <- ray_denom; exact E). destruct (ray_solve O v A (vsub B A) E') as [EQ _]. cbv zeta in EQ. rewrite !qdiv_opt_some in R by exact E.
    set (t := cross (vsub B A) (vsub O A) / dot (vsub B A) (left_normal v)) in *. set (r := dot (vsub O A) (left_normal v) / dot (vsub B A) (left_normal v)) in *. clearbody t r.
    destruct (Qltb_spec t 0); [injection R as <- _ _; contradiction|]. destruct (Qltb_spec r 0); [injection R as <- _ _; contradiction|]. destruct (Qgtb_spec r 1); [injection R as <- _ _; contradiction|].
    exists t. split; [lra|]. exists r. split; [lra|exact EQ].
Qed.

Section Range.
Variables lo hi O : pt.
Hypothesis Turn : 0 < cross lo hi.

Lemma in_range_iff : forall X, in_range O lo hi X <-> 0 <= cross lo (vsub X O) /\ cross hi (vsub X O) <= 0.
Proof.
  intro X. split.
  - intros (a & b & Ha & Hb & E). rewrite !(cross_pteq _ _ _ _ E).
    assert (E1 : cross lo (vsub (vadd O (vadd (vscale a lo) (vscale b hi))) O) == b * cross lo hi) by (unfold cross, vsub, vadd, vscale; simpl; ring).
    assert (E2 : cross hi (vsub (vadd O (vadd (vscale a lo) (vscale b hi))) O) == - (a * cross lo hi)) by (unfold cross, vsub, vadd, vscale; simpl; ring).
    rewrite E1, E2. set (c := cross lo hi) in *. clearbody c. split; nra.
  - intros [H1 H2]. exists (- cross hi (vsub X O) / cross lo hi), (cross lo (vsub X O) / cross lo hi).
    split; [apply Qle_shift_div_l; lra|]. split; [apply Qle_shift_div_l; lra|].
    assert (N : ~ px lo * py hi - py lo * px hi == 0) by (unfold cross in Turn; lra).
    split; unfold cross, vadd, vscale, vsub in *; simpl in *; field; exact N.
Qed.

Lemma ray_lo : forall n X, 0 < n -> (on_ray O (vscale (1 / n) lo) X <-> cross lo (vsub X O) == 0 /\ cross hi (vsub X O) <= 0).
Proof.
  intros n X Hn. split.
  - intros (t & Ht & E). rewrite !(cross_pteq _ _ _ _ E).
    assert (E1 : cross lo (vsub (vadd O (vscale t (vscale (1 / n) lo))) O) == 0) by (unfold cross, vsub, vadd, vscale; simpl; ring).
    assert (E2 : cross hi (vsub (vadd O (vscale t (vscale (1 / n) lo))) O) == - (t * (1 / n) * cross lo hi)) by (unfold cross, vsub, vadd, vscale; simpl; ring).
    split; [exact E1|]. rewrite E2. assert (0 < 1 / n) by (apply Qlt_shift_div_l; lra). assert (0 <= t * (1 / n)) by (apply Qmult_le_0_compat; lra).
    assert (0 <= t * (1 / n) * cross lo hi) by (apply Qmult_le_0_compat; lra). lra.
  - intros [H1 H2]. exists (n * (- cross hi (vsub X O) / cross lo hi)). split; [apply Qmult_le_0_compat; [lra|]; apply Qle_shift_div_l; lra|].
    assert (N : ~ px lo * py hi - py lo * px hi == 0) by (unfold cross in Turn; lra). assert (Nn : ~ n == 0) by lra.
    set (w := vsub X O) in *. assert (W1 : px X == px O + px w) by (unfold w, vsub; simpl; ring). assert (W2 : py X == py O + py w) by (unfold w, vsub; simpl; ring). clearbody w.
    assert (K1 : px w * cross lo hi == - cross hi w * px lo) by (transitivity (- cross hi w * px lo + px hi * cross lo w); [unfold cross; ring|rewrite H1; ring]).
    assert (K2 : py w * cross lo hi == - cross hi w * py lo) by (transitivity (- cross hi w * py lo + py hi * cross lo w); [unfold cross; ring|rewrite H1; ring]).
    assert (NC : ~ cross lo hi == 0) by lra. set (c := cross lo hi) in *. set (d := cross hi w) in *. clearbody c d.
    split; unfold vadd, vscale; simpl; [rewrite W1; transitivity (px O + (- d * px lo) / c); [rewrite <- K1|]|rewrite W2; transitivity (py O + (- d * py lo) / c); [rewrite <- K2|]]; field; auto.
Qed.
Lemma ray_hi : forall n X, 0 < n -> (on_ray O (vscale (1 / n) hi) X <-> cross hi (vsub X O) == 0 /\ 0 <= cross lo (vsub X O)).
Proof.
  intros n X Hn. split.
  - intros (t & Ht & E). rewrite !(cross_pteq _ _ _ _ E).
    assert (E1 : cross hi (vsub (vadd O (vscale t (vscale (1 / n) hi))) O) == 0) by (unfold cross, vsub, vadd, vscale; simpl; ring).
    assert (E2 : cross lo (vsub (vadd O (vscale t (vscale (1 / n) hi))) O) == t * (1 / n) * cross lo hi) by (unfold cross, vsub, vadd, vscale; simpl; ring).
    split; [exact E1|]. rewrite E2. assert (0 < 1 / n) by (apply Qlt_shift_div_l; lra). assert (0 <= t * (1 / n)) by (apply Qmult_le_0_compat; lra).
    apply Qmult_le_0_compat; lra.
  - intros [H1 H2]. exists (n * (cross lo (vsub X O) / cross lo hi)). split; [apply Qmult_le_0_compat; [lra|]; apply Qle_shift_div_l; lra|].
    assert (N : ~ px lo * py hi - py lo * px hi == 0) by (unfold cross in Turn; lra). assert (Nn : ~ n == 0) by lra.
    set (w := vsub X O) in *. assert (W1 : px X == px O + px w) by (unfold w, vsub; simpl; ring). assert (W2 : py X == py O + py w) by (unfold w, vsub; simpl; ring). clearbody w.
    assert (K1 : px w * cross lo hi == cross lo w * px hi) by (transitivity (cross lo w * px hi - px lo * cross hi w); [unfold cross; ring|rewrite H1; ring]).
    assert (K2 : py w * cross lo hi == cross lo w * py hi) by (transitivity (cross lo w * py hi - py lo * cross hi w); [unfold cross; ring|rewrite H1; ring]).
    assert (NC : ~ cross lo hi == 0) by lra. set (c := cross lo hi) in *. set (d := cross lo w) in *. clearbody c d.
    split; unfold vadd, vscale; simpl; [rewrite W1; transitivity (px O + (d * px hi) / c); [rewrite <- K1|]|rewrite W2; transitivity (py O + (d * py hi) / c); [rewrite <- K2|]]; field; auto.
Qed.

Lemma behind_lo : forall X, behind O lo X <-> cross lo (vsub X O) == 0 /\ 0 < cross hi (vsub X O).
Proof.
  intro X. split.
  - intros (a & Ha & E). rewrite !(cross_pteq _ _ _ _ E).
    assert (E1 : cross lo (vsub (vsub O (vscale a lo)) O) == 0) by (unfold cross, vsub, vscale; simpl; ring).
    assert (E2 : cross hi (vsub (vsub O (vscale a lo)) O) == a * cross lo hi) by (unfold cross, vsub, vscale; simpl; ring).
    split; [exact E1|]. rewrite E2. apply Qmult_lt_0_compat; lra.
  - intros [H1 H2]. exists (cross hi (vsub X O) / cross lo hi). split; [apply Qlt_shift_div_l; lra|].
    set (w := vsub X O) in *. assert (W1 : px X == px O + px w) by (unfold w, vsub; simpl; ring). assert (W2 : py X == py O + py w) by (unfold w, vsub; simpl; ring). clearbody w.
    assert (K1 : px w * cross lo hi == - cross hi w * px lo) by (transitivity (- cross hi w * px lo + px hi * cross lo w); [unfold cross; ring|rewrite H1; ring]).
    assert (K2 : py w * cross lo hi == - cross hi w * py lo) by (transitivity (- cross hi w * py lo + py hi * cross lo w); [unfold cross; ring|rewrite H1; ring]).
    assert (NC : ~ cross lo hi == 0) by lra. set (c := cross lo hi) in *. set (d := cross hi w) in *. clearbody c d.
    split; unfold vsub, vscale; simpl; [rewrite W1; transitivity (px O + (- d * px lo) / c); [rewrite <- K1|]|rewrite W2; transitivity (py O + (- d * py lo) / c); [rewrite <- K2|]]; field; auto.
Qed.
Lemma behind_hi : forall X, behind O hi X <-> cross hi (vsub X O) == 0 /\ cross lo (vsub X O) < 0.
Proof.
  intro X. split.
  - intros (a & Ha & E). rewrite !(cross_pteq _ _ _ _ E).
    assert (E1 : cross hi (vsub (vsub O (vscale a hi)) O) == 0) by (unfold cross, vsub, vscale; simpl; ring).
    assert (E2 : cross lo (vsub (vsub O (vscale a hi)) O) == - (a * cross lo hi)) by (unfold cross, vsub, vscale; simpl; ring).
    split; [exact E1|]. rewrite E2. assert (0 < a * cross lo hi) by (apply Qmult_lt_0_compat; lra). lra.
  - intros [H1 H2]. exists (- cross lo (vsub X O) / cross lo hi). split; [apply Qlt_shift_div_l; lra|].
    set (w := vsub X O) in *. assert (W1 : px X == px O + px w) by (unfold w, vsub; simpl; ring). assert (W2 : py X == py O + py w) by (unfold w, vsub; simpl; ring). clearbody w.
    assert (K1 : px w * cross lo hi == cross lo w * px hi) by (transitivity (cross lo w * px hi - px lo * cross hi w); [unfold cross; ring|rewrite H1; ring]).
    assert (K2 : py w * cross lo hi == cross lo w * py hi) by (transitivity (cross lo w * py hi - py lo * cross hi w); [unfold cross; ring|rewrite H1; ring]).
    assert (NC : ~ cross lo hi == 0) by lra. set (c := cross lo hi) in *. set (d := cross lo w) in *. clearbody c d.
    split; unfold vsub, vscale; simpl; [rewrite W1; transitivity (px O + (d * px hi) / c); [rewrite <- K1|]|rewrite W2; transitivity (py O + (d * py hi) / c); [rewrite <- K2|]]; field; auto.
Qed.

Section Segment.
Variables A B : pt.
Let f t := (1 - t) * cross lo (vsub A O) + t * cross lo (vsub B O).
Let g t := (1 - t) * cross hi (vsub A O) + t * cross hi (vsub B O).
Lemma meets_iff : meets_range O lo hi A B <-> exists t, 0 <= t <= 1 /\ 0 <= f t /\ g t <= 0.
Proof.
  unfold meets_range, on_segment. split.
  - intros (X & (t & Ht & E) & R). apply in_range_iff in R. rewrite !(cross_pteq _ _ _ _ E), !cross_lerp in R. exists t. split; [exact Ht|exact R].
  - intros (t & Ht & R). exists (lerp A B t). split; [exists t; split; [exact Ht|apply pteq_refl]|]. apply in_range_iff. rewrite !cross_lerp. exact R.
Qed.
Lemma lo_test : forall n, 0 < n -> ~ cross lo (vsub A O) == cross lo (vsub B O) ->
  exists r, crosses (ray_segment_intersection_type direct O (vscale (1 / n) lo) A B) = Some r /\ (r = true <-> exists t, 0 <= t <= 1 /\ f t == 0 /\ g t <= 0).
Proof.
  intros n Hn N. destruct (ray_type_ok O (vscale (1 / n) lo) A B) as (r & R & H).
  { intro Z. apply N. assert (E : cross (vscale (1 / n) lo) (vsub B A) == (1 / n) * (cross lo (vsub B O) - cross lo (vsub A O))) by (unfold cross, vscale, vsub; simpl; ring).
    rewrite E in Z. assert (0 < 1 / n) by (apply Qlt_shift_div_l; lra). apply Qmult_integral in Z. destruct Z; lra. }
  exists r. split; [exact R|]. rewrite H. split.
  - intros (u & Hu & t & Ht & E). exists t. split; [exact Ht|]. unfold f, g. rewrite <- !cross_lerp, <- !(cross_pteq _ _ _ _ E). apply (ray_lo n); [exact Hn|]. exists u. split; [exact Hu|apply pteq_refl].
  - intros (t & Ht & R'). unfold f, g in R'. rewrite <- !cross_lerp in R'. apply (ray_lo n) in R'; [|exact Hn]. destruct R' as (u & Hu & E). exists u. split; [exact Hu|]. exists t. split; [exact Ht|apply pteq_sym, E].
Qed.
Lemma hi_test : forall n, 0 < n -> ~ cross hi (vsub A O) == cross hi (vsub B O) ->
  exists r, crosses (ray_segment_intersection_type direct O (vscale (1 / n) hi) A B) = Some r /\ (r = true <-> exists t, 0 <= t <= 1 /\ g t == 0 /\ 0 <= f t).
Proof.
  intros n Hn N. destruct (ray_type_ok O (vscale (1 / n) hi) A B) as (r & R & H).
  { intro Z. apply N. assert (E : cross (vscale (1 / n) hi) (vsub B A) == (1 / n) * (cross hi (vsub B O) - cross hi (vsub A O))) by (unfold cross, vscale, vsub; simpl; ring).
    rewrite E in Z. assert (0 < 1 / n) by (apply Qlt_shift_div_l; lra). apply Qmult_integral in Z. destruct Z; lra. }
  exists r. split; [exact R|]. rewrite H. split.
  - intros (u & Hu & t & Ht & E). exists t. split; [exact Ht|]. unfold f, g. rewrite <- !cross_lerp, <- !(cross_pteq _ _ _ _ E). apply (ray_hi n); [exact Hn|]. exists u. split; [exact Hu|apply pteq_refl].
  - intros (t & Ht & R'). unfold f, g in R'. rewrite <- !cross_lerp in R'. apply (ray_hi n) in R'; [|exact Hn]. destruct R' as (u & Hu & E). exists u. split; [exact Hu|]. exists t. split; [exact Ht|apply pteq_sym, E].
Qed.

Lemma first_entry : forall f0 f1 g0 g1 t : Q, 0 <= t <= 1 -> 0 <= (1 - t) * f0 + t * f1 -> (1 - t) * g0 + t * g1 <= 0 -> f0 < 0 -> g0 <= 0 -> 0 <= f1 -> 0 < g1 ->
  exists u, 0 <= u <= 1 /\ (1 - u) * f0 + u * f1 == 0 /\ (1 - u) * g0 + u * g1 <= 0.
Proof.
  intros f0 f1 g0 g1 t Ht Hf Hg F0 G0 F1 G1. set (u := - f0 / (f1 - f0)). assert (U : u * (f1 - f0) == - f0) by (unfold u; field; lra).
  assert (0 <= u) by (apply Qle_shift_div_l; lra). assert (u <= t) by (unfold u; apply Qle_shift_div_r; lra). clearbody u. exists u. split; [lra|]. split; [lra|].
  assert (0 <= (t - u) * (g1 - g0)) by (apply Qmult_le_0_compat; lra). lra.
Qed.

Lemma segment_in_range_ok : forall n1 n2, 0 < n1 -> 0 < n2 -> ~ (behind O hi A /\ behind O lo B) -> ~ (behind O lo A /\ behind O hi B) ->
  exists r, is_segment_in_range_2d n1 n2 A B lo hi O = Some r /\ (r = true <-> meets_range O lo hi A B).
Proof.
  intros n1 n2 H1 H2 NB1 NB2. enough (exists r, is_segment_in_range_2d n1 n2 A B lo hi O = Some r /\ (r = true <-> exists t, 0 <= t <= 1 /\ 0 <= f t /\ g t <= 0)) as (r & R & E) by (exists r; split; [exact R|]; rewrite meets_iff; exact E).
  unfold is_segment_in_range_2d. cbv zeta. rewrite !behind_hi, !behind_lo in NB1. rewrite !behind_hi, !behind_lo in NB2.
  assert (TL := lo_test n1 H1). assert (TH := hi_test n2 H2). unfold f, g in *.
  set (f0 := cross lo (vsub A O)) in *. set (f1 := cross lo (vsub B O)) in *. set (g0 := cross hi (vsub A O)) in *. set (g1 := cross hi (vsub B O)) in *.
  set (RL := crosses (ray_segment_intersection_type direct O (vscale (1 / n1) lo) A B)) in *. set (RH := crosses (ray_segment_intersection_type direct O (vscale (1 / n2) hi) A B)) in *. clearbody f0 f1 g0 g1 RL RH.
  destruct (Qgeb f0 0 && Qleb g0 0) eqn:IA.
  { apply andb_true_iff in IA as [I1 I2]. revert I1 I2. destruct (Qgeb_spec f0 0); [|discriminate]. destruct (Qleb_spec g0 0); [|discriminate]. intros _ _. exists true. split; [reflexivity|]. split; [intros _|reflexivity]. exists 0. lra. }
  destruct (Qgeb f1 0 && Qleb g1 0) eqn:IB.
  { apply andb_true_iff in IB as [I1 I2]. revert I1 I2. destruct (Qgeb_spec f1 0); [|discriminate]. destruct (Qleb_spec g1 0); [|discriminate]. intros _ _. exists true. split; [reflexivity|]. split; [intros _|reflexivity]. exists 1. lra. }
  assert (OA : f0 < 0 \/ 0 < g0) by (revert IA; destruct (Qgeb_spec f0 0); [|lra]; destruct (Qleb_spec g0 0); [discriminate|lra]).
  assert (OB : f1 < 0 \/ 0 < g1) by (revert IB; destruct (Qgeb_spec f1 0); [|lra]; destruct (Qleb_spec g1 0); [discriminate|lra]). clear IA IB.
  destruct (Qgtb g0 0 && Qgtb g1 0) eqn:G.
  { apply andb_true_iff in G as [I1 I2]. revert I1 I2. destruct (Qgtb_spec g0 0); [|discriminate]. destruct (Qgtb_spec g1 0); [|discriminate]. intros _ _. exists false. split; [reflexivity|]. split; [discriminate|]. intros (t & Ht & _ & Z). exfalso. nra. }
  destruct (Qltb f0 0 && Qltb f1 0) eqn:F.
  { apply andb_true_iff in F as [I1 I2]. revert I1 I2. destruct (Qltb_spec f0 0); [|discriminate]. destruct (Qltb_spec f1 0); [|discriminate]. intros _ _. exists false. split; [reflexivity|]. split; [discriminate|]. intros (t & Ht & Z & _). exfalso. nra. }
  cbn [orb]. assert (NG : g0 <= 0 \/ g1 <= 0) by (revert G; destruct (Qgtb_spec g0 0); [|lra]; destruct (Qgtb_spec g1 0); [discriminate|lra]).
  assert (NF : 0 <= f0 \/ 0 <= f1) by (revert F; destruct (Qltb_spec f0 0); [|lra]; destruct (Qltb_spec f1 0); [discriminate|lra]). clear F G.
  destruct (Qeqb g0 0 && Qeqb f1 0) eqn:S1.
  { exfalso. apply andb_true_iff in S1 as [I1 I2]. revert I1 I2. destruct (Qeqb_spec g0 0); [|discriminate]. destruct (Qeqb_spec f1 0); [|discriminate]. intros _ _. apply NB1. lra. }
  destruct (Qeqb g1 0 && Qeqb f0 0) eqn:S2.
  { exfalso. apply andb_true_iff in S2 as [I1 I2]. revert I1 I2. destruct (Qeqb_spec g1 0); [|discriminate]. destruct (Qeqb_spec f0 0); [|discriminate]. intros _ _. apply NB2. lra. }
  destruct TL as (r1 & -> & T1); [lra|]. destruct TH as (r2 & -> & T2); [lra|].
  assert (FE : (exists t, 0 <= t <= 1 /\ 0 <= (1 - t) * f0 + t * f1 /\ (1 - t) * g0 + t * g1 <= 0) -> exists t, 0 <= t <= 1 /\ (1 - t) * f0 + t * f1 == 0 /\ (1 - t) * g0 + t * g1 <= 0).
  { intros (t & Ht & Z1 & Z2). destruct (Qlt_le_dec f0 0) as [L|L].
    - apply (first_entry f0 f1 g0 g1 t); try lra; assumption.
    - destruct (first_entry f1 f0 g1 g0 (1 - t)) as (u & Hu & Y1 & Y2); try lra. exists (1 - u). split; [lra|]. split; lra. }
  exists (r1 || r2). split; [destruct r1; [reflexivity|]; destruct r2; reflexivity|]. rewrite orb_true_iff, T1, T2. split.
  - intros [(t & Ht & Z1 & Z2)|(t & Ht & Z1 & Z2)]; exists t; lra.
  - intro M. left. exact (FE M).
Qed.

(** The special case the code treats by orientation. *)
Lemma behind_wrong : forall n1 n2, (behind O hi A /\ behind O lo B) \/ (behind O lo A /\ behind O hi B) ->
  is_segment_in_range_2d n1 n2 A B lo hi O = Some true /\ ~ meets_range O lo hi A B.
Proof.
  intros n1 n2 H. rewrite meets_iff. rewrite !behind_hi, !behind_lo in H. unfold is_segment_in_range_2d. cbv zeta. unfold f, g.
  assert (Or : cross (vsub B A) (vsub O A) * cross lo hi == cross lo (vsub A O) * cross hi (vsub B O) - cross hi (vsub A O) * cross lo (vsub B O)) by (unfold cross, vsub; simpl; ring).
  destruct (orientation_direct A B O) as (o1 & o2 & o3).
  set (f0 := cross lo (vsub A O)) in *. set (f1 := cross lo (vsub B O)) in *. set (g0 := cross hi (vsub A O)) in *. set (g1 := cross hi (vsub B O)) in *.
  set (o := cross (vsub B A) (vsub O A)) in *. assert (Turn' := Turn). set (c := cross lo hi) in *. clearbody f0 f1 g0 g1 c.
  split.
  - destruct H as [[[Z1 Z2] [Z3 Z4]]|[[Z1 Z2] [Z3 Z4]]].
    + destruct (Qgeb_spec f0 0); [lra|]. cbn [andb]. destruct (Qgeb_spec f1 0); [|lra]. destruct (Qleb_spec g1 0); [lra|]. cbn [andb]. destruct (Qgtb_spec g0 0); [lra|]. destruct (Qltb_spec f0 0); [|lra]. destruct (Qltb_spec f1 0); [lra|]. cbn [andb orb].
      destruct (Qeqb_spec g0 0); [|lra]. destruct (Qeqb_spec f1 0); [|lra]. cbn [andb]. destruct (get_orientation direct A B O) eqn:E; try reflexivity. exfalso. assert (P := proj1 o1 eq_refl).
      assert (0 < o * c) by (apply Qmult_lt_0_compat; assumption). rewrite Z1 in Or. assert (0 < - f0 * g1) by (apply Qmult_lt_0_compat; lra). lra.
    + destruct (Qgeb_spec f0 0); [|lra]. destruct (Qleb_spec g0 0); [lra|]. cbn [andb]. destruct (Qgeb_spec f1 0); [lra|]. cbn [andb]. destruct (Qgtb_spec g0 0); [|lra]. destruct (Qgtb_spec g1 0); [lra|]. destruct (Qltb_spec f0 0); [lra|]. cbn [andb orb].
      destruct (Qeqb_spec g0 0); [lra|]. cbn [andb]. destruct (Qeqb_spec g1 0); [|lra]. destruct (Qeqb_spec f0 0); [|lra]. cbn [andb]. destruct (get_orientation direct A B O) eqn:E; try reflexivity. exfalso. assert (P := proj1 o2 eq_refl).
      assert (0 < - o * c) by (apply Qmult_lt_0_compat; lra). rewrite Z1 in Or. assert (0 < g0 * - f1) by (apply Qmult_lt_0_compat; lra). lra.
  - intros (t & Ht & K1 & K2). destruct H as [[[Z1 Z2] [Z3 Z4]]|[[Z1 Z2] [Z3 Z4]]].
    + rewrite Z1 in K2. rewrite Z3 in K1. destruct (Qlt_le_dec 0 t) as [L|L]; [assert (0 < t * g1) by (apply Qmult_lt_0_compat; assumption); lra|]. assert (T0 : t == 0) by lra. rewrite T0 in K1. lra.
    + rewrite Z1 in K1. rewrite Z3 in K2. destruct (Qlt_le_dec 0 t) as [L|L]; [assert (0 < t * - f1) by (apply Qmult_lt_0_compat; lra); lra|]. assert (T0 : t == 0) by lra. rewrite T0 in K2. lra.
Qed.

Lemma points_sound : forall n1 n2 x0 x1, 0 < n1 -> 0 < n2 -> nonzero (vsub B A) -> ~ (behind O hi A /\ behind O lo B) -> ~ (behind O lo A /\ behind O hi B) ->
  is_segment_in_range_2d_points direct n1 n2 A B lo hi O = Some (Some (x0, x1)) -> meets_range O lo hi A B.
Proof.
  intros n1 n2 x0 x1 H1 H2 N NB1 NB2 R. unfold is_segment_in_range_2d_points in R. cbv zeta in R.
  assert (NL : nonzero (vscale (1 / n1) lo)).
  { assert (0 < 1 / n1) by (apply Qlt_shift_div_l; lra). unfold nonzero, vscale; simpl. intros [Z1 Z2]. apply Qmult_integral in Z1, Z2. destruct Z1 as [Z1|Z1]; [lra|]. destruct Z2 as [Z2|Z2]; [lra|]. unfold cross in Turn. rewrite Z1, Z2 in Turn. lra. }
  assert (NH : nonzero (vscale (1 / n2) hi)).
  { assert (0 < 1 / n2) by (apply Qlt_shift_div_l; lra). unfold nonzero, vscale; simpl. intros [Z1 Z2]. apply Qmult_integral in Z1, Z2. destruct Z1 as [Z1|Z1]; [lra|]. destruct Z2 as [Z2|Z2]; [lra|]. unfold cross in Turn. rewrite Z1, Z2 in Turn. lra. }
  assert (TA : 0 <= cross lo (vsub A O) -> cross hi (vsub A O) <= 0 -> meets_range O lo hi A B) by (intros; apply meets_iff; exists 0; unfold f, g; lra).
  assert (TB : 0 <= cross lo (vsub B O) -> cross hi (vsub B O) <= 0 -> meets_range O lo hi A B) by (intros; apply meets_iff; exists 1; unfold f, g; lra).
  assert (TL : forall ty ot pts, ray_segment_intersection direct O (vscale (1 / n1) lo) A B = Some (ty, ot, pts) -> ty <> e_non_crossing -> meets_range O lo hi A B).
  { intros ty ot pts E NC. destruct (ray_points_ok _ _ _ _ _ _ _ NL N E NC) as (t & Ht & HS). eexists. split; [exact HS|]. apply in_range_iff.
    destruct (proj1 (ray_lo n1 (vadd O (vscale t (vscale (1 / n1) lo))) H1)) as [Y1 Y2]; [exists t; split; [exact Ht|apply pteq_refl]|]. split; lra. }
  assert (TH : forall ty ot pts, ray_segment_intersection direct O (vscale (1 / n2) hi) A B = Some (ty, ot, pts) -> ty <> e_non_crossing -> meets_range O lo hi A B).
  { intros ty ot pts E NC. destruct (ray_points_ok _ _ _ _ _ _ _ NH N E NC) as (t & Ht & HS). eexists. split; [exact HS|]. apply in_range_iff.
    destruct (proj1 (ray_hi n2 (vadd O (vscale t (vscale (1 / n2) hi))) H2)) as [Y1 Y2]; [exists t; split; [exact Ht|apply pteq_refl]|]. split; lra. }
  rewrite !behind_hi, !behind_lo in NB1. rewrite !behind_hi, !behind_lo in NB2.
  set (f0 := cross lo (vsub A O)) in *. set (f1 := cross lo (vsub B O)) in *. set (g0 := cross hi (vsub A O)) in *. set (g1 := cross hi (vsub B O)) in *.
  destruct (Qgeb_spec f0 0) as [a1|a1]; destruct (Qleb_spec g0 0) as [a2|a2]; try (apply TA; lra).
  all: destruct (Qgeb_spec f1 0) as [b1|b1]; destruct (Qleb_spec g1 0) as [b2|b2]; try (apply TB; lra).
  all: cbn [andb negb Bool.eqb] in R.
  all: match type of R with (if ?c then _ else _) = _ => destruct c end.
  all: try (destruct (ray_segment_intersection direct O (vscale (1 / n1) lo) A B) as [[[t1 o1] p1]|]; [|discriminate]; destruct (ray_segment_intersection direct O (vscale (1 / n2) hi) A B) as [[[t2 o2] p2]|]; [|discriminate];
    destruct t1; try (apply (TL _ _ _ eq_refl); discriminate); destruct t2; try (apply (TH _ _ _ eq_refl); discriminate); cbn in R; discriminate).
  all: exfalso; revert R; destruct (Qeqb_spec g0 0) as [c1|c1]; destruct (Qeqb_spec f1 0) as [c2|c2]; try (exfalso; apply NB1; lra); cbn [andb orb]; try discriminate.
  all: destruct (Qeqb_spec g1 0) as [c3|c3]; destruct (Qeqb_spec f0 0) as [c4|c4]; try (exfalso; apply NB2; lra); cbn [andb orb]; try discriminate.
Qed.
End Segment.
End Range.
