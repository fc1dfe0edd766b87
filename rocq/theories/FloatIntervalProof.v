(** The order of all doubles that are numbers, and monotone rounding. *)
From Coq Require Import Reals Floats ZArith List Lia Bool.
Require Import Flocq.Core.Core Flocq.IEEE754.BinarySingleNaN Flocq.IEEE754.PrimFloat.
From Verif Require Import FloatModel FloatSpec FloatProof FloatProof2 FloatProof3 FloatPolyProof FloatGridModel FloatGridProof FloatIntervalModel FloatIntervalSpec.
From Coq Require Import Lra.
Import ListNotations.
Local Open Scope R_scope.
#[local] Existing Instance Hprec.
#[local] Existing Instance Hmax.

(** Infinities are placed beyond all finite doubles. *)
Definition key (x : PrimFloat.float) : R := match Prim2B x with B754_infinity true => - top | B754_infinity false => top | _ => val x end.
Lemma number_B : forall x, number x <-> Prim2B x <> B754_nan.
Proof.
  intro x. unfold number. rewrite eqb_equiv. destruct (Prim2B x) as [s|[|]| |s m e B] eqn:E; split; intro H; try reflexivity; try discriminate; try (exfalso; apply H; reflexivity).
  rewrite Beqb_correct by reflexivity. apply Req_bool_true. reflexivity.
Qed.
Lemma finite_number : forall x, finite x -> number x.
Proof. intros x F. apply number_B. intro E. apply finite_B in F. rewrite E in F. discriminate. Qed.
Lemma key_finite : forall x, finite x -> key x = val x.
Proof. intros x F. apply finite_B in F. unfold key. destruct (Prim2B x) as [s|s| |s m e B]; try reflexivity; discriminate. Qed.
Lemma key_cases : forall x, number x -> finite x /\ key x = val x /\ - top < key x < top \/ Prim2B x = B754_infinity true /\ key x = - top \/ Prim2B x = B754_infinity false /\ key x = top.
Proof.
  intros x N. apply number_B in N. destruct (float_cases x) as [F|[ [s E]|E] ]; [left| |contradiction].
  - split; [exact F|]. rewrite (key_finite _ F). split; [reflexivity|]. pose proof (Rabs_def2 _ _ (val_bound x)). lra.
  - right. unfold key. rewrite E. destruct s; [left|right]; split; try exact E; reflexivity.
Qed.
Lemma top_pos : 0 < top. Proof. apply bpow_gt_0. Qed.
Lemma leb_key : forall x y, number x -> number y -> ((x <=? y)%float = true <-> key x <= key y).
Proof.
  intros x y X Y. pose proof top_pos as T. destruct (key_cases x X) as [ (FX & KX & BX)|[ (EX & KX)|(EX & KX) ] ], (key_cases y Y) as [ (FY & KY & BY)|[ (EY & KY)|(EY & KY) ] ]; set (M := top) in *; clearbody M.
  1: rewrite leb_val, <- KX, <- KY by assumption; destruct (Rle_bool_spec (key x) (key y)); split; intro; try reflexivity; try discriminate; lra.
  all: rewrite leb_equiv, ?EX, ?EY; rewrite ?KX, ?KY in *; try (apply finite_B in FX; destruct (Prim2B x) as [[]|[]| |[] ? ? ?]; try discriminate FX); try (apply finite_B in FY; destruct (Prim2B y) as [[]|[]| |[] ? ? ?]; try discriminate FY);
    cbn; split; intro; try reflexivity; try discriminate; lra.
Qed.
Lemma ltb_key : forall x y, number x -> number y -> ((x <? y)%float = true <-> key x < key y).
Proof.
  intros x y X Y. pose proof top_pos as T. destruct (key_cases x X) as [ (FX & KX & BX)|[ (EX & KX)|(EX & KX) ] ], (key_cases y Y) as [ (FY & KY & BY)|[ (EY & KY)|(EY & KY) ] ]; set (M := top) in *; clearbody M.
  1: rewrite ltb_val, <- KX, <- KY by assumption; destruct (Rlt_bool_spec (key x) (key y)); split; intro; try reflexivity; try discriminate; lra.
  all: rewrite ltb_equiv, ?EX, ?EY; rewrite ?KX, ?KY in *; try (apply finite_B in FX; destruct (Prim2B x) as [[]|[]| |[] ? ? ?]; try discriminate FX); try (apply finite_B in FY; destruct (Prim2B y) as [[]|[]| |[] ? ? ?]; try discriminate FY);
    cbn; split; intro; try reflexivity; try discriminate; lra.
Qed.
Lemma leb_numbers : forall x y, (x <=? y)%float = true -> number x /\ number y.
Proof.
  intros x y H. rewrite leb_equiv in H. split; apply number_B; intro E; rewrite E in H; [|destruct (Prim2B x) as [[]|[]| |[] ? ? ?]]; cbn in H; discriminate.
Qed.
Lemma not_number : forall x, number x \/ Prim2B x = B754_nan.
Proof. intro x. destruct (float_cases x) as [F|[ [s E]|E] ]; [left; apply finite_number, F|left; apply number_B; rewrite E; discriminate|right; exact E]. Qed.

(** Results of operations keep the order of the exact values. *)
Lemma result_number : forall x r, result_is x r -> number x.
Proof. intros x r [ (F & _)|[ (E & _)|(E & _) ] ]; [apply finite_number, F|apply number_B; rewrite E; discriminate|apply number_B; rewrite E; discriminate]. Qed.
Lemma result_order : forall x y r q, result_is x r -> result_is y q -> r <= q -> (x <=? y)%float = true.
Proof.
  intros x y r q X Y L. pose proof (result_number _ _ X) as NX. pose proof (result_number _ _ Y) as NY. apply leb_key; try assumption.
  apply Rnot_lt_le. intro K. apply (ltb_key y x NY NX) in K. pose proof (result_lt2 _ _ _ _ Y X K). lra.
Qed.
Lemma between_finite : forall i x, bounded_ival i -> holds i x -> finite x /\ val (flower i) <= val x <= val (fupper i).
Proof.
  intros i x [FL FU] [L U]. destruct (leb_numbers _ _ L) as [NL NX]. destruct (leb_numbers _ _ U) as [_ NU]. apply leb_key in L; try assumption. apply leb_key in U; try assumption.
  rewrite (key_finite _ FL) in L. rewrite (key_finite _ FU) in U. pose proof (Rabs_def2 _ _ (val_bound (flower i))). pose proof (Rabs_def2 _ _ (val_bound (fupper i))).
  destruct (key_cases x NX) as [ (FX & KX & _)|[ (_ & KX)|(_ & KX) ] ]; [split; [exact FX|rewrite <- KX; lra]|lra|lra].
Qed.
Lemma div_any : forall u v, finite u -> finite v -> 0 < val v -> result_is (u / v)%float (val u / val v).
Proof.
  intros u v U V P. pose proof (Bdiv_correct prec emax _ _ mode_NE (Prim2B u) (Prim2B v)) as C. rewrite <- !val_B2R in C. specialize (C ltac:(lra)).
  rewrite <- div_equiv, <- val_B2R in C. change (round_mode mode_NE) with ZnearestE in C. destruct (Rlt_bool_spec (Rabs (rnd (val u / val v))) top) as [B|B].
  - left. destruct C as (C1 & C2 & _). split; [apply finite_B; rewrite C2; apply finite_B, U|]. split; [exact C1|exact B].
  - right. apply overflow_inf in C. assert (SV : Bsign (Prim2B v) = false). { destruct (Bsign (Prim2B v)) eqn:S; [apply sign_val in S; lra|reflexivity]. } rewrite SV, xorb_false_r in C.
    assert (IP : 0 < / val v) by (apply Rinv_0_lt_compat, P). destruct (Bsign (Prim2B u)) eqn:S.
    + left. split; [exact C|]. apply overflow_neg; [|exact B]. apply sign_val in S. unfold Rdiv. nra.
    + right. split; [exact C|]. apply overflow_pos; [|exact B]. apply sign_val' in S. unfold Rdiv. nra.
Qed.

(** Expansion. *)
Definition seen (vs : list PrimFloat.float) (i : fival) : Prop :=
  (fis_empty i = true /\ forall v, In v vs -> ~ number v) \/
  (In (flower i) vs /\ In (fupper i) vs /\ number (flower i) /\ number (fupper i) /\ key (flower i) <= key (fupper i) /\ forall v, In v vs -> number v -> key (flower i) <= key v <= key (fupper i)).
Lemma expand_step : forall vs i v, seen vs i -> seen (vs ++ [v]) (fexpand i v).
Proof.
  intros vs i v [ [E N]|(IL & IU & NL & NU & LU & A) ]; unfold fexpand.
  - rewrite E. cbn [negb andb]. destruct (not_number v) as [NV|NV].
    + right. cbn [flower fupper]. repeat split; try assumption; try lra; try (apply in_or_app; right; left; reflexivity).
      * apply in_app_or in H as [H|[<-|[] ] ]; [exfalso; exact (N _ H H0)|lra].
      * apply in_app_or in H as [H|[<-|[] ] ]; [exfalso; exact (N _ H H0)|lra].
    + left. assert (NN : ~ number v) by (intro K; apply number_B in K; contradiction). split.
      * unfold fis_empty. cbn [flower fupper]. rewrite leb_equiv, NV. reflexivity.
      * intros w H. apply in_app_or in H as [H|[<-|[] ] ]; [exact (N _ H)|exact NN].
  - assert (E : fis_empty i = false) by (unfold fis_empty; rewrite (proj2 (leb_key _ _ NL NU) LU); reflexivity). rewrite E. cbn [negb andb]. right.
    destruct (not_number v) as [NV|NV].
    + destruct (v <? flower i)%float eqn:C1; [|destruct (fupper i <? v)%float eqn:C2]; cbn [flower fupper].
      * apply ltb_key in C1; try assumption. repeat split; try assumption; try lra; try (apply in_or_app; right; left; reflexivity); try (apply in_or_app; left; assumption);
          apply in_app_or in H as [H|[<-|[] ] ]; try (specialize (A _ H H0)); lra.
      * apply ltb_key in C2; try assumption. repeat split; try assumption; try lra; try (apply in_or_app; right; left; reflexivity); try (apply in_or_app; left; assumption);
          apply in_app_or in H as [H|[<-|[] ] ]; try (specialize (A _ H H0)); lra.
      * assert (K1 : key (flower i) <= key v) by (apply Rnot_lt_le; intro K; apply (ltb_key v (flower i) NV NL) in K; congruence).
        assert (K2 : key v <= key (fupper i)) by (apply Rnot_lt_le; intro K; apply (ltb_key (fupper i) v NU NV) in K; congruence).
        repeat split; try assumption; try (apply in_or_app; left; assumption); apply in_app_or in H as [H|[<-|[] ] ]; try (specialize (A _ H H0)); lra.
    + destruct (nan_less v (flower i) NV) as [-> _]. destruct (nan_less v (fupper i) NV) as [_ ->].
      repeat split; try assumption; try (apply in_or_app; left; assumption); apply in_app_or in H as [H|[<-|[] ] ]; try (specialize (A _ H H0)); try lra; apply number_B in H0; contradiction.
Qed.
Lemma expand_all : forall ws vs i, seen vs i -> seen (vs ++ ws) (fold_left fexpand ws i).
Proof.
  induction ws as [|w ws IH]; intros vs i S; cbn [fold_left]; [rewrite app_nil_r; exact S|]. replace (vs ++ w :: ws) with ((vs ++ [w]) ++ ws) by (rewrite <- app_assoc; reflexivity). apply IH, expand_step, S.
Qed.
