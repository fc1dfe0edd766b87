(** Doubles and real numbers: what comparisons of rounded results mean. *)
From Coq Require Import Reals Floats ZArith Lra Lia Bool.
Require Import Flocq.Core.Core Flocq.Prop.Plus_error Flocq.Prop.Relative Flocq.IEEE754.BinarySingleNaN Flocq.IEEE754.PrimFloat.
From Verif Require Import FloatModel FloatSpec.
Local Open Scope R_scope.

Notation fexp64 := (SpecFloat.fexp prec emax).
Notation rnd := (round radix2 fexp64 ZnearestE).
Notation top := (bpow radix2 emax).
#[local] Existing Instance Hprec.
#[local] Existing Instance Hmax.

Lemma val_B2R : forall x, val x = B2R (Prim2B x).
Proof.
  intro x. unfold val. rewrite <- B2SF_Prim2B. destruct (Prim2B x) as [s|s| |s m e H]; cbn; try reflexivity.
  unfold F2R. cbn [Fnum Fexp]. rewrite bpow_powerRZ. destruct s; cbn; reflexivity.
Qed.
Lemma finite_B : forall x, finite x <-> is_finite (Prim2B x) = true.
Proof. intro x. unfold finite. rewrite is_finite_equiv. tauto. Qed.
Lemma val_format : forall x, generic_format radix2 fexp64 (val x).
Proof. intro x. rewrite val_B2R. apply generic_format_B2R. Qed.
Lemma val_bound : forall x, Rabs (val x) < top.
Proof. intro x. rewrite val_B2R. apply abs_B2R_lt_emax. Qed.
Lemma fexp_monotone : Monotone_exp fexp64.
Proof. intros a b H. unfold SpecFloat.fexp, emin. lia. Qed.
#[local] Existing Instance fexp_monotone.
#[export] Instance fexp_ok : Valid_exp fexp64 := fexp_correct prec emax _.
Lemma rnd_le : forall x y, x <= y -> rnd x <= rnd y.
Proof. intros x y H. apply round_le; [apply fexp_ok|apply valid_rnd_N|exact H]. Qed.
Lemma rnd_opp : forall x, rnd (- x) = - rnd x.
Proof. intro x. apply round_NE_opp. Qed.
Lemma rnd_val : forall x, rnd (val x) = val x.
Proof. intro x. apply round_generic; [apply valid_rnd_N|apply val_format]. Qed.
Lemma rnd_0 : rnd 0 = 0.
Proof. apply round_0, valid_rnd_N. Qed.

(** The answers of the comparison operators on finite doubles. *)
Lemma ltb_val : forall x y, finite x -> finite y -> (x <? y)%float = Rlt_bool (val x) (val y).
Proof. intros x y X Y. rewrite ltb_equiv, !val_B2R. apply Bltb_correct; apply finite_B; assumption. Qed.
Lemma leb_val : forall x y, finite x -> finite y -> (x <=? y)%float = Rle_bool (val x) (val y).
Proof. intros x y X Y. rewrite leb_equiv, !val_B2R. apply Bleb_correct; apply finite_B; assumption. Qed.
Lemma eqb_val : forall x y, finite x -> finite y -> (x =? y)%float = Req_bool (val x) (val y).
Proof. intros x y X Y. rewrite eqb_equiv, !val_B2R. apply Beqb_correct; apply finite_B; assumption. Qed.
Lemma opp_finite : forall x, finite x -> finite (- x)%float.
Proof. intros x X. apply finite_B. rewrite opp_equiv, is_finite_Bopp. apply finite_B, X. Qed.
Lemma opp_val : forall x, val (- x)%float = - val x.
Proof. intro x. rewrite !val_B2R, opp_equiv. apply B2R_Bopp. Qed.

(** A result of an operation whose exact value is [r]: the rounded value, or an infinity of the sign of
    [r] when that is out of range. *)
Definition result_is (x : PrimFloat.float) (r : R) : Prop :=
  (finite x /\ val x = rnd r /\ Rabs (rnd r) < top) \/
  (Prim2B x = B754_infinity true /\ rnd r <= - top) \/
  (Prim2B x = B754_infinity false /\ top <= rnd r).

Lemma result_lt : forall x r t, result_is x r -> finite t ->
  (x <? t)%float = Rlt_bool (rnd r) (val t) /\ (t <? x)%float = Rlt_bool (val t) (rnd r) /\
  (x <=? t)%float = Rle_bool (rnd r) (val t) /\ (t <=? x)%float = Rle_bool (val t) (rnd r).
Proof.
  intros x r t [ (X & V & B)|[ (X & B)|(X & B) ] ] T; pose proof (Rabs_def2 _ _ (val_bound t)) as [TB1 TB2].
  - rewrite !ltb_val, !leb_val, V by assumption. repeat split.
  - rewrite !ltb_equiv, !leb_equiv, X. assert (F : is_finite (Prim2B t) = true) by (apply finite_B, T).
    rewrite Rlt_bool_true, Rlt_bool_false, Rle_bool_true, Rle_bool_false by lra.
    destruct (Prim2B t) as [s|s| |s m e H]; try discriminate; repeat split; try reflexivity; destruct s; reflexivity.
  - rewrite !ltb_equiv, !leb_equiv, X. assert (F : is_finite (Prim2B t) = true) by (apply finite_B, T).
    rewrite Rlt_bool_false, Rlt_bool_true, Rle_bool_false, Rle_bool_true by lra.
    destruct (Prim2B t) as [s|s| |s m e H]; try discriminate; repeat split; try reflexivity; destruct s; reflexivity.
Qed.
Lemma result_lt2 : forall x y r q, result_is x r -> result_is y q -> (x <? y)%float = true -> r < q.
Proof.
  intros x y r q X Y L. apply Rnot_le_lt. intro H. apply rnd_le in H.
  assert (TP : 0 < top) by apply bpow_gt_0.
  destruct Y as [ (Y & V & B)|Y ].
  - destruct (result_lt x r y X Y) as (E & _). rewrite L in E. symmetry in E. rewrite V in E.
    destruct (Rlt_bool_spec (rnd r) (rnd q)); [lra|discriminate].
  - destruct X as [ (X & V & B)|X ].
    + assert (Y' : result_is y q) by (right; exact Y). destruct (result_lt y q x Y' X) as (_ & E & _). rewrite L in E. symmetry in E. rewrite V in E.
      destruct (Rlt_bool_spec (rnd r) (rnd q)); [lra|discriminate].
    + rewrite ltb_equiv in L. destruct X as [ (X & XB)|(X & XB) ], Y as [ (Y & YB)|(Y & YB) ]; rewrite X, Y in L; cbn in L; try discriminate. lra.
Qed.

Lemma overflow_inf : forall s (z : binary_float prec emax), B2SF z = binary_overflow prec emax mode_NE s -> z = B754_infinity s.
Proof. intros s z H. apply B2SF_inj. rewrite H. reflexivity. Qed.
Lemma sign_val : forall x, Bsign (Prim2B x) = true -> val x <= 0.
Proof.
  intros x H. rewrite val_B2R. destruct (Prim2B x) as [s|s| |s m e B]; cbn in *; try lra. subst s. apply F2R_le_0. cbn. lia.
Qed.
Lemma sign_val' : forall x, Bsign (Prim2B x) = false -> 0 <= val x.
Proof.
  intros x H. rewrite val_B2R. destruct (Prim2B x) as [s|s| |s m e B]; cbn in *; try lra. subst s. apply F2R_ge_0. cbn. lia.
Qed.
Lemma overflow_neg : forall r, r <= 0 -> top <= Rabs (rnd r) -> rnd r <= - top.
Proof. intros r H B. apply rnd_le in H. rewrite rnd_0 in H. rewrite Rabs_left1 in B by exact H. lra. Qed.
Lemma overflow_pos : forall r, 0 <= r -> top <= Rabs (rnd r) -> top <= rnd r.
Proof. intros r H B. apply rnd_le in H. rewrite rnd_0 in H. rewrite Rabs_pos_eq in B by exact H. lra. Qed.

Lemma sub_result : forall u v, finite u -> finite v -> result_is (u - v)%float (val u - val v).
Proof.
  intros u v U V. pose proof (Bminus_correct prec emax _ _ mode_NE (Prim2B u) (Prim2B v) (proj1 (finite_B u) U) (proj1 (finite_B v) V)) as C.
  rewrite <- sub_equiv, <- !val_B2R in C. change (round_mode mode_NE) with ZnearestE in C.
  destruct (Rlt_bool_spec (Rabs (rnd (val u - val v))) top) as [B|B].
  - left. destruct C as (C1 & C2 & _). split; [apply finite_B, C2|]. split; [exact C1|exact B].
  - right. destruct C as [C1 C2]. apply overflow_inf in C1. destruct (Bsign (Prim2B u)) eqn:S.
    + left. split; [exact C1|]. apply overflow_neg; [|exact B]. apply sign_val in S.
      destruct (Bsign (Prim2B v)) eqn:S2; [discriminate|]. apply sign_val' in S2. lra.
    + right. split; [exact C1|]. apply overflow_pos; [|exact B]. apply sign_val' in S.
      destruct (Bsign (Prim2B v)) eqn:S2; [|discriminate]. apply sign_val in S2. lra.
Qed.
Lemma add_result : forall u v, finite u -> finite v -> result_is (u + v)%float (val u + val v).
Proof.
  intros u v U V. pose proof (Bplus_correct prec emax _ _ mode_NE (Prim2B u) (Prim2B v) (proj1 (finite_B u) U) (proj1 (finite_B v) V)) as C.
  rewrite <- add_equiv, <- !val_B2R in C. change (round_mode mode_NE) with ZnearestE in C.
  destruct (Rlt_bool_spec (Rabs (rnd (val u + val v))) top) as [B|B].
  - left. destruct C as (C1 & C2 & _). split; [apply finite_B, C2|]. split; [exact C1|exact B].
  - right. destruct C as [C1 C2]. apply overflow_inf in C1. destruct (Bsign (Prim2B u)) eqn:S; symmetry in C2.
    + left. split; [exact C1|]. apply overflow_neg; [|exact B]. apply sign_val in S. apply sign_val in C2. lra.
    + right. split; [exact C1|]. apply overflow_pos; [|exact B]. apply sign_val' in S. apply sign_val' in C2. lra.
Qed.
Lemma mul_result : forall u v, finite u -> finite v -> result_is (u * v)%float (val u * val v).
Proof.
  intros u v U V. pose proof (Bmult_correct prec emax _ _ mode_NE (Prim2B u) (Prim2B v)) as C.
  rewrite <- mul_equiv, <- !val_B2R in C. change (round_mode mode_NE) with ZnearestE in C.
  rewrite (proj1 (finite_B u) U), (proj1 (finite_B v) V) in C.
  destruct (Rlt_bool_spec (Rabs (rnd (val u * val v))) top) as [B|B].
  - left. destruct C as (C1 & C2 & _). split; [apply finite_B, C2|]. split; [exact C1|exact B].
  - right. apply overflow_inf in C. destruct (Bsign (Prim2B u)) eqn:S, (Bsign (Prim2B v)) eqn:S2; cbn in C.
    + right. split; [exact C|]. apply overflow_pos; [|exact B]. apply sign_val in S. apply sign_val in S2. nra.
    + left. split; [exact C|]. apply overflow_neg; [|exact B]. apply sign_val in S. apply sign_val' in S2. nra.
    + left. split; [exact C|]. apply overflow_neg; [|exact B]. apply sign_val' in S. apply sign_val in S2. nra.
    + right. split; [exact C|]. apply overflow_pos; [|exact B]. apply sign_val' in S. apply sign_val' in S2. nra.
Qed.
