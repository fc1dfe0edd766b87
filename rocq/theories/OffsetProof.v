(** Proofs about parallel copies of a polyline. *)
From Verif Require Import RBase CurveModel CurveSpec CurveProof OffsetModel OffsetSpec.

Lemma sumsq_nonneg : forall x y : R, 0 <= x * x + y * y.
Proof. intros x y. pose proof (Rle_0_sqr x) as H1. pose proof (Rle_0_sqr y) as H2. unfold Rsqr in *. lra. Qed.
Lemma sq_pos : forall x : R, x <> 0 -> 0 < x * x.
Proof. intros x H. pose proof (Rsqr_pos_lt x H) as P. exact P. Qed.

Lemma rdist_pos : forall A B : rp, A <> B -> 0 < rdist A B.
Proof.
  intros A B N. unfold rdist. apply sqrt_lt_R0.
  assert (P : 0 <= rpd2 A B) by (unfold rpd2; apply sumsq_nonneg).
  destruct (Rle_lt_or_eq_dec 0 (rpd2 A B) P) as [H|H]; [exact H|].
  exfalso. apply N. apply rpd2_zero. symmetry; exact H.
Qed.
Lemma rdist_sq : forall A B : rp, rdist A B * rdist A B = rpdot2 (rpsub B A) (rpsub B A).
Proof. intros A B. unfold rdist, rpdot2, rpsub; simpl. rewrite sqrt_sqrt; [ring|apply sumsq_nonneg]. Qed.

(** What the shift of a side is. *)
Definition shift_of (left : bool) (offset : R) (A B : rp) : rp :=
  (- (wanted left offset / rdist A B) * (snd B - snd A), wanted left offset / rdist A B * (fst B - fst A)).
Lemma side_shift_ok : forall left offset A B, A <> B -> side_shift left offset A B = Some (shift_of left offset A B).
Proof.
  intros left offset A B N. unfold side_shift, rpnormalize. cbn [rpsub fst snd].
  pose proof (rdist_pos A B N) as P. 
  replace (sqrt ((fst B - fst A) * (fst B - fst A) + (snd B - snd A) * (snd B - snd A))) with (rdist A B) by reflexivity.
  destruct (Reqb_spec (rdist A B) 0) as [Z|Z]; [lra|]. f_equal.
  unfold shift_of, rpscale, oriented_normal, left_normal, right_normal, wanted. destruct left; simpl; f_equal; field; exact Z.
Qed.
Lemma side_shift_zero : forall left offset A, side_shift left offset A A = None.
Proof.
  intros left offset A. unfold side_shift, rpnormalize. cbn [rpsub fst snd].
  replace ((fst A - fst A) * (fst A - fst A) + (snd A - snd A) * (snd A - snd A)) with 0 by ring.
  rewrite sqrt_0. destruct (Reqb_spec 0 0); [reflexivity|lra].
Qed.

Section Corner.
Variables (left : bool) (offset : R) (A B C : rp).
Hypothesis (NAB : A <> B) (NBC : B <> C).
Let h := wanted left offset.
Let pA := rpadd A (shift_of left offset A B).
Let pB := rpadd B (shift_of left offset A B).
Let pC := rpadd B (shift_of left offset B C).
Let pD := rpadd C (shift_of left offset B C).
Let b := rdist A B.
Let d := rdist B C.

Lemma beside_start : height A B pA = h /\ beside A B A pA.
Proof.
  pose proof (rdist_pos A B NAB) as P. pose proof (rdist_sq A B) as Q.
  split; [|unfold beside, rpdot2, pA, rpadd, rpsub, shift_of; simpl; ring].
  unfold height. replace (turn A B pA) with (h / rdist A B * rpdot2 (rpsub B A) (rpsub B A))
    by (unfold turn, pA, rpadd, shift_of, rpdot2, rpsub; fold h; simpl; ring).
  rewrite <- Q. field. lra.
Qed.
Lemma beside_end : height A B pB = h /\ beside A B B pB.
Proof.
  pose proof (rdist_pos A B NAB) as P. pose proof (rdist_sq A B) as Q.
  split; [|unfold beside, rpdot2, pB, rpadd, rpsub, shift_of; simpl; ring].
  unfold height. replace (turn A B pB) with (h / rdist A B * rpdot2 (rpsub B A) (rpsub B A))
    by (unfold turn, pB, rpadd, shift_of, rpdot2, rpsub; fold h; simpl; ring).
  rewrite <- Q. field. lra.
Qed.
Lemma denom_turn : line_denom pA pB pC pD = - turn A B C.
Proof. unfold line_denom, turn, pA, pB, pC, pD, rpadd; simpl; ring. Qed.

Lemma on_second : forall k, height B C (rpadd pC (rpscale k (rpsub pD pC))) = h.
Proof.
  intro k. pose proof (rdist_pos B C NBC) as P. pose proof (rdist_sq B C) as Q. unfold height.
  replace (turn B C _) with (h / rdist B C * rpdot2 (rpsub C B) (rpsub C B))
    by (unfold turn, pC, pD, rpadd, rpscale, shift_of, rpdot2, rpsub; fold h; simpl; ring).
  rewrite <- Q. field. lra.
Qed.
Lemma on_first : forall k, height A B (rpadd pA (rpscale k (rpsub pB pA))) = h.
Proof.
  intro k. pose proof (rdist_pos A B NAB) as P. pose proof (rdist_sq A B) as Q. unfold height.
  replace (turn A B _) with (h / rdist A B * rpdot2 (rpsub B A) (rpsub B A))
    by (unfold turn, pA, pB, rpadd, rpscale, shift_of, rpdot2, rpsub; fold h; simpl; ring).
  rewrite <- Q. field. lra.
Qed.
(** Cramer: the two parameters give the same point. *)
Definition param_s : R := (fst pA * (snd pD - snd pC) + fst pC * (snd pA - snd pD) + fst pD * (snd pC - snd pA)) / line_denom pA pB pC pD.
Definition param_t : R := - (fst pA * (snd pC - snd pB) + fst pB * (snd pA - snd pC) + fst pC * (snd pB - snd pA)) / line_denom pA pB pC pD.
Lemma same_crossing : turn A B C <> 0 ->
  rpadd pC (rpscale param_t (rpsub pD pC)) = rpadd pA (rpscale param_s (rpsub pB pA)).
Proof.
  intro N. assert (ND : line_denom pA pB pC pD <> 0) by (rewrite denom_turn; lra).
  unfold param_s, param_t. revert ND. unfold line_denom. generalize pA pB pC pD. intros [ax ay] [bx by_] [cx cy] [dx dy] ND.
  unfold rpadd, rpscale, rpsub; simpl in *. f_equal; field; exact ND.
Qed.
Lemma crossing_ok : turn A B C <> 0 -> exists X, rline_line_intersect pA pB pC pD = (l_crossing, Some X) /\
  rline_line_intersect_params pA pB pC pD = (l_crossing, Some (X, param_s, param_t)) /\
  height A B X = h /\ height B C X = h /\ X = rpadd pC (rpscale param_t (rpsub pD pC)) /\ X = rpadd pA (rpscale param_s (rpsub pB pA)).
Proof.
  intro N. exists (rpadd pC (rpscale param_t (rpsub pD pC))).
  unfold rline_line_intersect, rline_line_intersect_params. rewrite denom_turn.
  destruct (Reqb_spec (- turn A B C) 0) as [Z|Z]; [lra|]. rewrite <- denom_turn. fold param_t. fold param_s.
  split; [reflexivity|]. split; [rewrite same_crossing by exact N; reflexivity|].
  split; [rewrite same_crossing by exact N; apply on_first|]. split; [apply on_second|]. split; [reflexivity|apply same_crossing; exact N].
Qed.
Lemma straight_unwritten : turn A B C = 0 -> snd (rline_line_intersect pA pB pC pD) = None.
Proof.
  intro Z. unfold rline_line_intersect. rewrite denom_turn, Z. destruct (Reqb_spec (- 0) 0) as [F|F]; [|lra].
  destruct (ris_collinear pA pB pC); reflexivity.
Qed.

(** The parameters measure how far the lines reach beyond the side ends. *)
Lemma over_first : forall s, over_side A B (rpadd pA (rpscale s (rpsub pB pA))) <-> 0 <= s <= 1.
Proof.
  intro s. pose proof (rdist_pos A B NAB) as P. pose proof (rdist_sq A B) as Q. unfold over_side.
  replace (rpdot2 (rpsub B A) (rpsub _ A)) with (s * rpdot2 (rpsub B A) (rpsub B A))
    by (unfold pA, pB, rpadd, rpscale, shift_of, rpdot2, rpsub; simpl; ring).
  rewrite <- Q. assert (0 < rdist A B * rdist A B) by nra. set (q := rdist A B * rdist A B) in *. split; intros [H1 H2]; split; nra.
Qed.
Lemma over_second : forall t, over_side B C (rpadd pC (rpscale t (rpsub pD pC))) <-> 0 <= t <= 1.
Proof.
  intro t. pose proof (rdist_pos B C NBC) as P. pose proof (rdist_sq B C) as Q. unfold over_side.
  replace (rpdot2 (rpsub C B) (rpsub _ B)) with (t * rpdot2 (rpsub C B) (rpsub C B))
    by (unfold pC, pD, rpadd, rpscale, shift_of, rpdot2, rpsub; simpl; ring).
  rewrite <- Q. assert (0 < rdist B C * rdist B C) by nra. set (q := rdist B C * rdist B C) in *. split; intros [H1 H2]; split; nra.
Qed.

Let g := rdist A B * rdist B C - rpdot2 (rpsub B A) (rpsub C B).
Lemma gap_pos : turn A B C <> 0 -> 0 < g.
Proof.
  intro N. unfold g. pose proof (rdist_pos A B NAB) as P1. pose proof (rdist_pos B C NBC) as P2.
  assert (L : rpdot2 (rpsub B A) (rpsub C B) * rpdot2 (rpsub B A) (rpsub C B) + turn A B C * turn A B C =
              (rdist A B * rdist B C) * (rdist A B * rdist B C)).
  { replace ((rdist A B * rdist B C) * (rdist A B * rdist B C)) with ((rdist A B * rdist A B) * (rdist B C * rdist B C)) by ring.
    rewrite !rdist_sq. unfold rpdot2, rpsub, turn; simpl. ring. }
  assert (T : 0 < turn A B C * turn A B C) by (apply sq_pos; exact N). assert (M : 0 < rdist A B * rdist B C) by nra.
  set (m := rdist A B * rdist B C) in *. set (x := rpdot2 (rpsub B A) (rpsub C B)) in *. nra.
Qed.
Lemma param_s_eq : turn A B C <> 0 -> (param_s - 1) * turn A B C = - h * g / rdist A B.
Proof.
  intro N. pose proof (rdist_pos A B NAB) as P1. pose proof (rdist_pos B C NBC) as P2. unfold param_s. rewrite denom_turn.
  pose proof (rdist_sq A B) as Q1. pose proof (rdist_sq B C) as Q2.
  replace (fst pA * (snd pD - snd pC) + fst pC * (snd pA - snd pD) + fst pD * (snd pC - snd pA))
    with (- turn A B C + h / rdist B C * rpdot2 (rpsub C B) (rpsub C B) - h / rdist A B * rpdot2 (rpsub B A) (rpsub C B))
    by (unfold pA, pC, pD, rpadd, shift_of, rpdot2, rpsub, turn; fold h; simpl; ring).
  rewrite <- Q2. unfold g. field. lra.
Qed.
Lemma param_t_eq : turn A B C <> 0 -> param_t * turn A B C = h * g / rdist B C.
Proof.
  intro N. pose proof (rdist_pos A B NAB) as P1. pose proof (rdist_pos B C NBC) as P2. unfold param_t. rewrite denom_turn.
  pose proof (rdist_sq A B) as Q1. pose proof (rdist_sq B C) as Q2.
  replace (- (fst pA * (snd pC - snd pB) + fst pB * (snd pA - snd pC) + fst pC * (snd pB - snd pA)))
    with (- (h / rdist A B * rpdot2 (rpsub B A) (rpsub B A)) + h / rdist B C * rpdot2 (rpsub B A) (rpsub C B))
    by (unfold pA, pB, pC, rpadd, shift_of, rpdot2, rpsub, turn; fold h; simpl; ring).
  rewrite <- Q1. unfold g. field. lra.
Qed.
End Corner.

Lemma corner_ok : forall left offset A B C, A <> B -> B <> C ->
  corner_points left offset A B C
    (untrimmed_step (rpadd A (shift_of left offset A B)) (rpadd B (shift_of left offset A B))
                    (rpadd B (shift_of left offset B C)) (rpadd C (shift_of left offset B C))).
Proof.
  intros left offset A B C N1 N2. pose proof (rdist_pos A B N1) as P1. pose proof (rdist_pos B C N2) as P2.
  unfold corner_points. cbv zeta. set (h := wanted left offset).
  destruct (Req_dec (turn A B C) 0) as [Z|Z].
  - right. unfold untrimmed_step, rline_line_intersect_params. rewrite denom_turn, Z.
    destruct (Reqb_spec (- 0) 0) as [F|F]; [clear F|lra].
    assert (D0 : rpdot2 (rpsub B A) (rpsub C B) <> 0).
    { intro E. assert (L : rpdot2 (rpsub B A) (rpsub C B) * rpdot2 (rpsub B A) (rpsub C B) + turn A B C * turn A B C =
              (rdist A B * rdist A B) * (rdist B C * rdist B C)).
      { rewrite !rdist_sq. unfold rpdot2, rpsub, turn; simpl. ring. }
      rewrite E, Z in L. assert (0 < (rdist A B * rdist A B) * (rdist B C * rdist B C)); [|lra].
      repeat apply Rmult_lt_0_compat; assumption. }
    (* the second unit vector is plus or minus the first *)
    assert (K : exists k, fst C - fst B = k * (fst B - fst A) /\ snd C - snd B = k * (snd B - snd A)).
    { exists (rpdot2 (rpsub B A) (rpsub C B) / (rdist A B * rdist A B)).
      assert (E : turn A B C = (fst B - fst A) * (snd C - snd B) - (snd B - snd A) * (fst C - fst B)) by (unfold turn; ring).
      rewrite Z in E. assert (Q : rdist A B * rdist A B <> 0) by nra. pose proof (rdist_sq A B) as QQ.
      split; apply (Rmult_eq_reg_l (rdist A B * rdist A B)); try exact Q.
      - transitivity (rpdot2 (rpsub B A) (rpsub C B) * (fst B - fst A)); [|field; lra].
        rewrite QQ. unfold rpdot2, rpsub; simpl. apply Rminus_diag_uniq.
        transitivity (- (snd B - snd A) * ((fst B - fst A) * (snd C - snd B) - (snd B - snd A) * (fst C - fst B))); [ring|rewrite <- E; ring].
      - transitivity (rpdot2 (rpsub B A) (rpsub C B) * (snd B - snd A)); [|field; lra].
        rewrite QQ. unfold rpdot2, rpsub; simpl. apply Rminus_diag_uniq.
        transitivity ((fst B - fst A) * ((fst B - fst A) * (snd C - snd B) - (snd B - snd A) * (fst C - fst B))); [ring|rewrite <- E; ring]. }
    destruct K as (k & K1 & K2).
    assert (Dk : rpdot2 (rpsub B A) (rpsub C B) = k * (rdist A B * rdist A B)).
    { rewrite rdist_sq. unfold rpdot2, rpsub; simpl. rewrite K1, K2. ring. }
    assert (Rk : rdist B C = Rabs k * rdist A B).
    { unfold rdist. rewrite K1, K2.
      replace (k * (fst B - fst A) * (k * (fst B - fst A)) + k * (snd B - snd A) * (k * (snd B - snd A)))
        with ((k * k) * ((fst B - fst A) * (fst B - fst A) + (snd B - snd A) * (snd B - snd A))) by ring.
      rewrite sqrt_mult; [|apply Rle_0_sqr|apply sumsq_nonneg]. f_equal. apply sqrt_Rsqr_abs. }
    assert (PP : 0 < rdist A B * rdist A B) by nra.
    unfold ris_collinear.
    assert (Cr : rpcross (rpsub (rpadd B (shift_of left offset A B)) (rpadd A (shift_of left offset A B)))
                         (rpsub (rpadd B (shift_of left offset B C)) (rpadd A (shift_of left offset A B))) =
                 h * rdist A B * (k / Rabs k - 1)).
    { assert (k <> 0) by (intro E; rewrite E in Dk; lra). assert (Rabs k <> 0) by (apply Rabs_no_R0; assumption).
      unfold rpcross, rpsub, rpadd, shift_of. cbn [fst snd]. fold h. rewrite Rk.
      replace (snd C - snd B) with (k * (snd B - snd A)) by lra. replace (fst C - fst B) with (k * (fst B - fst A)) by lra.
      transitivity ((h / rdist A B * (k / Rabs k) - h / rdist A B) * rpdot2 (rpsub B A) (rpsub B A)).
      - unfold rpdot2, rpsub; simpl. field. split; lra.
      - rewrite <- rdist_sq. field. split; lra. }
    rewrite Cr. destruct (Rtotal_order k 0) as [Hk|[Hk|Hk]].
    + right. split; [reflexivity|]. split; [rewrite Dk; nra|].
      assert (E : k / Rabs k = -1) by (rewrite Rabs_left by exact Hk; field; lra). rewrite E.
      assert (H0 : h = 0 <-> offset = 0) by (unfold h, wanted; destruct left; split; lra).
      destruct (Reqb_spec (h * rdist A B * (-1 - 1)) 0) as [F|F].
      * assert (Hh : h = 0) by (destruct (Req_dec h 0) as [G|G]; [exact G|exfalso; assert (h * rdist A B <> 0) by (apply Rmult_integral_contrapositive; split; lra); lra]).
        left. split; [apply H0; exact Hh|]. unfold rpadd, shift_of. fold h. rewrite Hh. destruct B as [bx by_]; simpl.
        f_equal. f_equal; field; lra.
      * right. split; [|reflexivity]. intro G. apply F. apply H0 in G. rewrite G. ring.
    + exfalso. rewrite Hk in Dk. lra.
    + left. split; [reflexivity|]. split; [rewrite Dk; nra|].
      assert (E : k / Rabs k = 1) by (rewrite Rabs_right by lra; field; lra). rewrite E.
      destruct (Reqb_spec (h * rdist A B * (1 - 1)) 0) as [F|F]; [|exfalso; apply F; ring].
      eexists; split; [reflexivity|]. apply beside_end; exact N1.
  - left. split; [exact Z|].
    destruct (crossing_ok left offset A B C N1 N2 Z) as (X & _ & E & H1 & H2 & X2 & X1).
    exists X. split; [exact H1|]. split; [exact H2|]. unfold untrimmed_step. rewrite E.
    pose proof (over_first left offset A B N1 (param_s left offset A B C)) as O1. rewrite <- X1 in O1.
    pose proof (over_second left offset B C N2 (param_t left offset A B C)) as O2. rewrite <- X2 in O2.
    rewrite O1, O2. clear O1 O2 X1 X2 E.
    pose proof (param_s_eq left offset A B C N1 N2 Z) as S1. pose proof (param_t_eq left offset A B C N1 N2 Z) as T1. cbv zeta in S1, T1. fold h in S1, T1.
    pose proof (gap_pos A B C N1 N2 Z) as G. cbv zeta in G.
    set (g := rdist A B * rdist B C - rpdot2 (rpsub B A) (rpsub C B)) in *.
    set (s := param_s left offset A B C) in *. set (t := param_t left offset A B C) in *.
    (* multiply by the turn *)
    assert (S2 : (s - 1) * (turn A B C * turn A B C) = - (h * turn A B C) * (g / rdist A B)).
    { transitivity ((s - 1) * turn A B C * turn A B C); [ring|]. rewrite S1. field. lra. }
    assert (T2 : t * (turn A B C * turn A B C) = (h * turn A B C) * (g / rdist B C)).
    { transitivity (t * turn A B C * turn A B C); [ring|]. rewrite T1. field. lra. }
    assert (G1 : 0 < g / rdist A B) by (apply Rdiv_lt_0_compat; assumption).
    assert (G2 : 0 < g / rdist B C) by (apply Rdiv_lt_0_compat; assumption).
    assert (TT : 0 < turn A B C * turn A B C) by (apply sq_pos; exact Z).
    set (q := turn A B C * turn A B C) in *. set (w := h * turn A B C) in *.
    set (g1 := g / rdist A B) in *. set (g2 := g / rdist B C) in *.
    assert (BE : exists P Q, [rpadd B (shift_of left offset A B); rpadd B (shift_of left offset B C)] = [P; Q] /\
        height A B P = h /\ beside A B B P /\ height B C Q = h /\ beside B C B Q).
    { eexists; eexists; split; [reflexivity|]. destruct (beside_end left offset A B N1) as [U1 U2].
      destruct (beside_start left offset B C N2) as [U3 U4]. auto. }
    unfold classify_xpoint_type.
    destruct (Rle_lt_dec w 0) as [Lw|Lw].
    + (* away: s >= 1, t <= 0 *)
      assert (s >= 1) by nra. assert (t <= 0) by nra.
      destruct (Rle_lt_or_eq_dec w 0 Lw) as [Lw'|Ew].
      * assert (s > 1) by nra. assert (t < 0) by nra.
        left. split; [left; exact Lw|].
        destruct (Rltb_spec s 0); [lra|]. destruct (Rltb_spec 1 s); [|lra]. destruct (Rltb_spec t 0); [|lra]. reflexivity.
      * assert (s = 1) by nra. assert (t = 0) by nra.
        left. split; [left; exact Lw|].
        destruct (Rltb_spec s 0); [lra|]. destruct (Rltb_spec 1 s); [lra|]. destruct (Rltb_spec t 0); [lra|].
        destruct (Rltb_spec 1 t); [lra|]. reflexivity.
    + assert (s < 1) by nra. assert (0 < t) by nra.
      destruct (Rltb_spec s 0) as [L1|L1]; [|destruct (Rltb_spec 1 s) as [L3|L3]; [lra|]];
        (destruct (Rltb_spec t 0) as [L2|L2]; [lra|]); destruct (Rltb_spec 1 t) as [L4|L4];
        try (right; split; [intros [F|[F1 F2]]; lra|exact BE]).
      left. split; [right; split; lra|reflexivity].
Qed.

(** The loops. *)
Definition pushed (left : bool) (offset : R) (A B C : rp) : option rp :=
  snd (rline_line_intersect (rpadd A (shift_of left offset A B)) (rpadd B (shift_of left offset A B))
        (rpadd B (shift_of left offset B C)) (rpadd C (shift_of left offset B C))).
Definition corner (left : bool) (offset : R) (A B C : rp) : list rp :=
  untrimmed_step (rpadd A (shift_of left offset A B)) (rpadd B (shift_of left offset A B))
        (rpadd B (shift_of left offset B C)) (rpadd C (shift_of left offset B C)).
Fixpoint at_corners {T : Type} (f : rp -> rp -> rp -> list T) (l : rp -> rp -> T) (poly : list rp) : list T :=
  match poly with
  | A :: poly' =>
      match poly' with
      | B :: poly'' =>
          match poly'' with
          | [] => [l A B]
          | C :: _ => f A B C ++ at_corners f l poly'
          end
      | [] => []
      end
  | [] => []
  end.
Lemma no_zero_cons : forall a b l, no_zero_side (a :: b :: l) <-> a <> b /\ no_zero_side (b :: l).
Proof.
  intros a b l. split.
  - intro H. split; [exact (H [] a b l eq_refl)|]. intros pre x y post E. exact (H (a :: pre) x y post (f_equal (cons a) E)).
  - intros [N H] pre x y post E. destruct pre as [|p pre]; [injection E as -> -> _; exact N|]. injection E as _ E. exact (H pre x y post E).
Qed.
Definition end_of (left : bool) (offset : R) (A B : rp) : rp := rpadd B (shift_of left offset A B).
Lemma offset_loop_ok : forall left offset rest A B res, no_zero_side (A :: B :: rest) -> rest <> [] ->
  offset_loop left offset B (rpadd A (shift_of left offset A B)) (rpadd B (shift_of left offset A B)) rest res =
  Some (res ++ at_corners (fun A B C => [pushed left offset A B C]) (fun A B => Some (end_of left offset A B)) (A :: B :: rest)).
Proof.
  intros left offset rest. induction rest as [|D rest IH]; intros A B res H N; [congruence|].
  apply no_zero_cons in H. destruct H as [_ H]. pose proof H as H'. apply no_zero_cons in H'. destruct H' as [H1 H2].
  cbn [offset_loop]. rewrite side_shift_ok by exact H1. cbv zeta.
  destruct rest as [|E rest].
  - cbn [offset_loop]. rewrite <- app_assoc. reflexivity.
  - rewrite IH by (auto; congruence). rewrite <- app_assoc. reflexivity.
Qed.
Lemma untrimmed_loop_ok : forall left offset rest A B res, no_zero_side (A :: B :: rest) -> rest <> [] ->
  untrimmed_loop left offset B (rpadd A (shift_of left offset A B)) (rpadd B (shift_of left offset A B)) rest res =
  Some (res ++ at_corners (corner left offset) (end_of left offset) (A :: B :: rest)).
Proof.
  intros left offset rest. induction rest as [|D rest IH]; intros A B res H N; [congruence|].
  apply no_zero_cons in H. destruct H as [_ H]. pose proof H as H'. apply no_zero_cons in H'. destruct H' as [H1 H2].
  cbn [untrimmed_loop]. rewrite side_shift_ok by exact H1. cbv zeta.
  destruct rest as [|E rest].
  - cbn [untrimmed_loop]. rewrite <- app_assoc. reflexivity.
  - rewrite IH by (auto; congruence). rewrite <- app_assoc. reflexivity.
Qed.
Definition start_of (left : bool) (offset : R) (A B : rp) : rp := rpadd A (shift_of left offset A B).
Lemma offset_ok : forall left offset A B rest, no_zero_side (A :: B :: rest) ->
  polyline_offset left offset (A :: B :: rest) =
  off_points (Some (start_of left offset A B) ::
    at_corners (fun A B C => [pushed left offset A B C]) (fun A B => Some (end_of left offset A B)) (A :: B :: rest)).
Proof.
  intros left offset A B rest H. unfold polyline_offset. rewrite side_shift_ok by (apply no_zero_cons in H; apply H).
  destruct rest as [|C rest]; [reflexivity|]. rewrite offset_loop_ok by (auto; congruence). reflexivity.
Qed.
Lemma untrimmed_ok : forall left offset A B rest, no_zero_side (A :: B :: rest) ->
  untrimmed_offset left offset (A :: B :: rest) =
  Some (start_of left offset A B :: at_corners (corner left offset) (end_of left offset) (A :: B :: rest)).
Proof.
  intros left offset A B rest H. unfold untrimmed_offset. rewrite side_shift_ok by (apply no_zero_cons in H; apply H).
  destruct rest as [|C rest]; [reflexivity|]. rewrite untrimmed_loop_ok by (auto; congruence). reflexivity.
Qed.
