(** An untrimmed offset computed: an open course whose parallel copy does not meet itself. *)
From Verif Require Import RBase CurveModel OffsetModel.
From Coq Require Import Reals Lra List.
Import ListNotations.
Open Scope R_scope.

Lemma shift_val : forall (lft : bool) d A B L nx ny, 0 < L -> (fst B - fst A) * (fst B - fst A) + (snd B - snd A) * (snd B - snd A) = L * L ->
  nx = (if lft then - (d / L * (snd B - snd A)) else d / L * (snd B - snd A)) -> ny = (if lft then d / L * (fst B - fst A) else - (d / L * (fst B - fst A))) ->
  side_shift lft d A B = Some (nx, ny).
Proof.
  intros lft d A B L nx ny HL E -> ->. unfold side_shift, rpnormalize, rpsub. cbn [fst snd]. rewrite !E, (sqrt_square L) by lra.
  destruct (Reqb_spec L 0); [lra|]. unfold rpscale, oriented_normal, left_normal, right_normal. destruct lft; cbn [fst snd]; apply (f_equal Some), (f_equal2 pair); field; lra.
Qed.
(** The common point is inside both copies. *)
Lemma step_val : forall pA pB pC pD s t X, line_denom pA pB pC pD <> 0 -> 
  fst pA * (snd pD - snd pC) + fst pC * (snd pA - snd pD) + fst pD * (snd pC - snd pA) = s * line_denom pA pB pC pD ->
  - (fst pA * (snd pC - snd pB) + fst pB * (snd pA - snd pC) + fst pC * (snd pB - snd pA)) = t * line_denom pA pB pC pD ->
  0 <= s <= 1 -> 0 <= t <= 1 -> X = rpadd pA (rpscale s (rpsub pB pA)) -> untrimmed_step pA pB pC pD = [X].
Proof.
  intros pA pB pC pD s t X N ES ET S T ->. unfold untrimmed_step, rline_line_intersect_params. destruct (Reqb_spec (line_denom pA pB pC pD) 0); [contradiction|].
  rewrite ES, ET. replace (s * line_denom pA pB pC pD / line_denom pA pB pC pD) with s by (field; assumption). replace (t * line_denom pA pB pC pD / line_denom pA pB pC pD) with t by (field; assumption).
  unfold classify_xpoint_type. destruct (Rltb_spec s 0); [lra|]. destruct (Rltb_spec 1 s); [lra|]. destruct (Rltb_spec t 0); [lra|]. destruct (Rltb_spec 1 t); [lra|]. reflexivity.
Qed.
Ltac shiftv L nx ny := rewrite (shift_val _ _ _ _ L nx ny); cbn [fst snd]; [|lra|lra|lra|lra].
Ltac stepv s t x y := rewrite (step_val _ _ _ _ s t (x, y)); unfold line_denom, rpadd, rpscale, rpsub; cbn [fst snd]; [|lra|lra|lra|lra|lra|f_equal; lra].
Lemma offset_value : untrimmed_offset true 2 [(0, 0); (20, 0); (20, 20); (3, 20); (3, 5); (6, 1)] = Some [(0, 2); (18, 2); (18, 18); (5, 18); (5, 17 / 3); (38 / 5, 11 / 5)].
Proof.
  unfold untrimmed_offset, untrimmed_loop.
  shiftv 20 0 2. shiftv 20 (-2) 0. shiftv 17 0 (-2). shiftv 15 2 0. shiftv 5 (8 / 5) (6 / 5).
  unfold rpadd. cbn [fst snd app].
  stepv (9 / 10) (1 / 10) 18 2. stepv (9 / 10) (2 / 17) 18 18. stepv (15 / 17) (2 / 15) 5 18. stepv (43 / 45) (2 / 15) 5 (17 / 3).
  cbn [app]. f_equal. repeat (f_equal; try lra).
Qed.
(** The same, for points with rational coordinates. *)
From Coq Require Import QArith Qreals.
From Verif Require Base.
Definition toR (p : Base.pt) : R * R := (Q2R (Base.px p), Q2R (Base.py p)).
Definition course : list Base.pt := map (fun c : Q * Q => Base.mkpt (fst c) (snd c)) [(0, 0); (20, 0); (20, 20); (3, 20); (3, 5); (6, 1)]%Q.
Definition copy : list Base.pt := map (fun c : Q * Q => Base.mkpt (fst c) (snd c)) [(0, 2); (18, 2); (18, 18); (5, 18); (5, 17 # 3); (38 # 5, 11 # 5)]%Q.
Lemma copy_ok : untrimmed_offset true (Q2R 2) (map toR course) = Some (map toR copy).
Proof.
  replace (map toR course) with [(0, 0); (20, 0); (20, 20); (3, 20); (3, 5); (6, 1)]%R by (unfold course, toR, Q2R; cbn; repeat (apply f_equal2; [apply f_equal2; field|]); reflexivity).
  replace (map toR copy) with [(0, 2); (18, 2); (18, 18); (5, 18); (5, 17 / 3); (38 / 5, 11 / 5)]%R by (unfold copy, toR, Q2R; cbn; repeat (apply f_equal2; [apply f_equal2; field|]); reflexivity).
  replace (Q2R 2) with 2%R by (unfold Q2R; cbn; field). exact offset_value.
Qed.
