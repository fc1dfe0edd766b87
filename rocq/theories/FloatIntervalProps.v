(** C141: intervals of doubles. *)
From Coq Require Import Reals Floats ZArith List Lia Bool Permutation.
Require Import Flocq.Core.Core Flocq.IEEE754.BinarySingleNaN Flocq.IEEE754.PrimFloat.
From Verif Require Import FloatModel FloatSpec FloatProof FloatProof2 FloatProof3 FloatPolyProof FloatIntervalModel FloatIntervalSpec FloatIntervalProof.
From Coq Require Import Lra.
Import ListNotations.
Local Open Scope R_scope.

(** An interval grown from the default one by any doubles, NaNs and infinities among them, reaches from the least to
    the greatest that is a number; without numbers it is empty. *)
Theorem C141_expand : forall vs, let i := fold_left fexpand vs fival_default in
  ((exists v, In v vs /\ number v) -> In (flower i) vs /\ In (fupper i) vs /\ fis_empty i = false /\ forall v, In v vs -> number v -> holds i v) /\
  ((forall v, In v vs -> ~ number v) -> fis_empty i = true).
Proof.
  intros vs i. assert (S : seen vs i).
  { apply (expand_all vs [] fival_default). left. split; [reflexivity|]. intros v []. }
  destruct S as [ [E N]|(IL & IU & NL & NU & LU & A) ].
  - split; [intros (v & H & K); exfalso; exact (N v H K)|intros _; exact E].
  - split; [intros _|intro N; exfalso; exact (N _ IL NL)]. split; [exact IL|]. split; [exact IU|]. split; [unfold fis_empty; rewrite (proj2 (leb_key _ _ NL NU) LU); reflexivity|].
    intros v H K. destruct (A v H K). split; apply leb_key; assumption.
Qed.
(** The order of the values does not matter. *)
Lemma eq_of_le : forall x y, (x <=? y)%float = true -> (y <=? x)%float = true -> (x =? y)%float = true.
Proof.
  intros x y H K. destruct (leb_numbers _ _ H) as [X Y]. apply leb_key in H; try assumption. apply leb_key in K; try assumption. pose proof top_pos.
  destruct (key_cases x X) as [ (FX & KX & BX)|[ (EX & KX)|(EX & KX) ] ], (key_cases y Y) as [ (FY & KY & BY)|[ (EY & KY)|(EY & KY) ] ]; try lra.
  - rewrite eqb_val by assumption. apply Req_bool_true. lra.
  - rewrite eqb_equiv, EX, EY. reflexivity.
  - rewrite eqb_equiv, EX, EY. reflexivity.
Qed.
Theorem C141_expand_order : forall vs ws, Permutation vs ws -> (exists v, In v vs /\ number v) ->
  let i := fold_left fexpand vs fival_default in let j := fold_left fexpand ws fival_default in
  (flower i =? flower j)%float = true /\ (fupper i =? fupper j)%float = true.
Proof.
  intros vs ws P X i j. assert (Y : exists v, In v ws /\ number v) by (destruct X as (v & V & N); exists v; split; [exact (Permutation_in _ P V)|exact N]).
  destruct (C141_expand vs) as [A _]. destruct (A X) as (A1 & A2 & A3 & A4). destruct (C141_expand ws) as [B _]. destruct (B Y) as (B1 & B2 & B3 & B4). fold i in A1, A2, A3, A4. fold j in B1, B2, B3, B4.
  unfold fis_empty in A3, B3. apply negb_false_iff in A3. apply negb_false_iff in B3. destruct (leb_numbers _ _ A3) as [N1 N2]. destruct (leb_numbers _ _ B3) as [N3 N4].
  destruct (A4 _ (Permutation_in _ (Permutation_sym P) B1) N3). destruct (A4 _ (Permutation_in _ (Permutation_sym P) B2) N4). destruct (B4 _ (Permutation_in _ P A1) N1). destruct (B4 _ (Permutation_in _ P A2) N2).
  split; apply eq_of_le; assumption.
Qed.
(** With a policy, from a non-empty interval: the policy finds neither the value nor what was inside outside. *)
Theorem C141_expand_policy : forall cmp i v, usual cmp -> bounded_ival i -> finite v -> fis_empty i = false ->
  let j := fexpand_cmp cmp i v in
  bounded_ival j /\ f_lt cmp v (flower j) = false /\ f_gt cmp v (fupper j) = false /\ forall x, holds i x -> holds j x.
Proof.
  intros cmp i v C [FL FU] V E j. unfold fis_empty in E. apply negb_false_iff in E. rewrite leb_val in E by assumption. destruct (Rle_bool_spec (val (flower i)) (val (fupper i))) as [LU|]; [|discriminate].
  destruct (usual_lt cmp C) as (t & T & O). unfold j, fexpand_cmp. destruct (f_lt cmp v (flower i)) eqn:A; [|destruct (f_gt cmp v (fupper i)) eqn:B]; cbn [flower fupper].
  - assert (VL : val v < val (flower i)). { destruct (O v (flower i) V FL) as [Q _]. rewrite A in Q. symmetry in Q. destruct (Rlt_bool_spec (rnd (val v - val (flower i))) (- t)); [|discriminate]. apply (proj1 (sub_sign v (flower i))). lra. }
    split; [split; assumption|]. split; [|split].
    + destruct (O v v V V) as [Q _]. rewrite Q. replace (val v - val v) with 0 by ring. rewrite rnd_0. apply Rlt_bool_false. lra.
    + destruct (O v (fupper i) V FU) as [_ Q]. rewrite Q. apply Rlt_bool_false. assert (rnd (val v - val (fupper i)) < 0) by (apply (proj1 (sub_sign v (fupper i))); lra). lra.
    + intros x H. destruct (between_finite i x (conj FL FU) H) as [FX BX]. split; cbn [flower fupper]; rewrite leb_val by assumption; apply Rle_bool_true; lra.
  - assert (VU : val (fupper i) < val v). { destruct (O v (fupper i) V FU) as [_ Q]. rewrite B in Q. symmetry in Q. destruct (Rlt_bool_spec t (rnd (val v - val (fupper i)))); [|discriminate]. apply (proj1 (proj2 (sub_sign v (fupper i)))). lra. }
    split; [split; assumption|]. split; [exact A|]. split.
    + destruct (O v v V V) as [_ Q]. rewrite Q. replace (val v - val v) with 0 by ring. rewrite rnd_0. apply Rlt_bool_false. lra.
    + intros x H. destruct (between_finite i x (conj FL FU) H) as [FX BX]. split; cbn [flower fupper]; rewrite leb_val by assumption; apply Rle_bool_true; lra.
  - split; [split; assumption|]. split; [exact A|]. split; [exact B|]. intros x H; exact H.
Qed.
(** From the default interval the policy form loses values: falling values leave it empty. *)
Theorem C141_expand_policy_refuted : forall tol, finite tol -> 0 <= val tol -> val tol < 1 -> exists v w, finite v /\ finite w /\
  fis_empty (fexpand_cmp (fabsolute tol) fival_default v) = true /\
  fis_empty (fexpand_cmp (fabsolute tol) (fexpand_cmp (fabsolute tol) fival_default v) w) = true.
Proof.
  intros tol T N L. exists 2%float, 1%float. split; [reflexivity|]. split; [reflexivity|].
  assert (U : usual (fabsolute tol)) by (right; exists tol; repeat split; assumption).
  assert (E : fexpand_cmp (fabsolute tol) fival_default 2 = mkfival 2 neg_infinity).
  { unfold fexpand_cmp, fival_default. cbn [flower fupper]. rewrite (usual_lt_start _ 2 U eq_refl). reflexivity. }
  rewrite E. split; [reflexivity|]. unfold fexpand_cmp. cbn [flower fupper]. cbn [f_lt fabsolute]. change (1 - 2)%float with (-1)%float. rewrite ltb_val; [|reflexivity|apply opp_finite, T].
  rewrite opp_val, (val_bpow (-1)%float true 4503599627370496 (-52)) by reflexivity. rewrite Rlt_bool_true; [reflexivity|]. cbn. lra.
Qed.
(** [intersects] on doubles is exact: intervals with different bounds intersect when a real number lies strictly
    inside both. *)
Theorem C141_intersects : forall i j, bounded_ival i -> bounded_ival j -> val (flower i) < val (fupper i) -> val (flower j) < val (fupper j) ->
  (fintersects i j = true <-> overlap i j).
Proof.
  intros i j [A B] [C D] I J. unfold fintersects, overlap. rewrite andb_true_iff, !ltb_val by assumption. split.
  - intros [H K]. destruct (Rlt_bool_spec (val (flower j)) (val (fupper i))); [|discriminate]. destruct (Rlt_bool_spec (val (flower i)) (val (fupper j))); [|discriminate].
    exists ((Rmax (val (flower i)) (val (flower j)) + Rmin (val (fupper i)) (val (fupper j))) / 2). unfold Rmax, Rmin. destruct (Rle_dec (val (flower i)) (val (flower j))), (Rle_dec (val (fupper i)) (val (fupper j))); lra.
  - intros (r & H & K). split; apply Rlt_bool_true; lra.
Qed.
Theorem C141_intersects_symmetric : forall i j, fintersects i j = fintersects j i.
Proof. intros i j. unfold fintersects. apply andb_comm. Qed.
(** What the policies make of it: direct is the plain form, and the tolerance only ever answers less often. *)
Theorem C141_intersects_policy : forall cmp i j, usual cmp -> bounded_ival i -> bounded_ival j ->
  (cmp = fdirect -> fintersects_cmp cmp i j = fintersects i j) /\ (fintersects_cmp cmp i j = true -> fintersects i j = true).
Proof.
  intros cmp i j U [A B] [C D]. split; [intros ->; reflexivity|]. unfold fintersects_cmp, fintersects. rewrite !andb_true_iff. destruct (usual_lt cmp U) as (t & T & O).
  intros [H K]. split; rewrite ltb_val by assumption; apply Rlt_bool_true.
  - destruct (O _ _ C B) as [Q _]. rewrite H in Q. symmetry in Q. destruct (Rlt_bool_spec (rnd (val (flower j) - val (fupper i))) (- t)); [|discriminate]. apply (proj1 (sub_sign _ _)). lra.
  - destruct (O _ _ A D) as [Q _]. rewrite K in Q. symmetry in Q. destruct (Rlt_bool_spec (rnd (val (flower i) - val (fupper j))) (- t)); [|discriminate]. apply (proj1 (sub_sign _ _)). lra.
Qed.
Theorem C141_intersects_tolerance : forall tol i j, finite tol -> 0 <= val tol -> bounded_ival i -> bounded_ival j ->
  let far := val tol * (1 + powerRZ 2 (-52)) + powerRZ 2 (-1074) in
  far < val (fupper i) - val (flower j) -> far < val (fupper j) - val (flower i) -> fintersects_cmp (fabsolute tol) i j = true.
Proof.
  intros tol i j T N [A B] [C D] far H K. unfold fintersects_cmp. apply andb_true_iff. cbn [f_lt fabsolute].
  split; [rewrite (proj1 (result_lt _ _ _ (sub_result _ _ C B) (opp_finite _ T)))|rewrite (proj1 (result_lt _ _ _ (sub_result _ _ A D) (opp_finite _ T)))]; (rewrite opp_val; apply Rlt_bool_true; rewrite rnd_swap; apply Ropp_lt_contravar; apply Rnot_le_lt; intro G; apply rnd_le_inv in G; [|exact N]; unfold far in *; lra).
Qed.
(** Interval arithmetic contains the doubles computed by the same operation on members, overflow included. *)
Theorem C141_sum : forall i j x y, bounded_ival i -> bounded_ival j -> holds i x -> holds j y -> holds (fadd_ival i j) (x + y).
Proof.
  intros i j x y I J X Y. destruct (between_finite i x I X) as [FX BX]. destruct (between_finite j y J Y) as [FY BY]. destruct I as [A B], J as [C D].
  split; (eapply result_order; [apply add_result; assumption|apply add_result; assumption|lra]).
Qed.
Theorem C141_scalar : forall i x v, bounded_ival i -> finite v -> holds i x ->
  holds (fadd_scalar i v) (x + v) /\ holds (fsub_scalar i v) (x - v) /\
  (0 <= val v -> holds (fmul_scalar i v) (x * v)) /\ (0 < val v -> holds (fdiv_scalar i v) (x / v)).
Proof.
  intros i x v I V X. destruct (between_finite i x I X) as [FX BX]. destruct I as [A B].
  split; [split; (eapply result_order; [apply add_result; assumption|apply add_result; assumption|lra])|].
  split; [split; (eapply result_order; [apply sub_result; assumption|apply sub_result; assumption|lra])|].
  split; intro P.
  - split; (eapply result_order; [apply mul_result; assumption|apply mul_result; assumption|apply Rmult_le_compat_r; lra]).
  - split; (eapply result_order; [apply div_any; assumption|apply div_any; assumption|unfold Rdiv; apply Rmult_le_compat_r; [left; apply Rinv_0_lt_compat, P|lra]]).
Qed.
(** The exact sum can lie outside: the bounds are not rounded outwards. *)
Theorem C141_exact_sum_refuted : exists i j x y, bounded_ival i /\ bounded_ival j /\ holds i x /\ holds j y /\
  finite (fupper (fadd_ival i j)) /\ val (fupper (fadd_ival i j)) < val x + val y.
Proof.
  exists (mkfival 1 1), (mkfival 0x1p-60 0x1p-60), 1%float, 0x1p-60%float. do 4 (split; [split; reflexivity|]). split; [reflexivity|].
  unfold fadd_ival. cbn [flower fupper]. change (1 + 0x1p-60)%float with 1%float. rewrite (val_bpow 1%float false 4503599627370496 (-52)), (val_bpow 0x1p-60%float false 4503599627370496 (-112)) by reflexivity.
  assert (0 < 4503599627370496 * bpow radix2 (-112)) by (apply Rmult_lt_0_compat; [lra|apply bpow_gt_0]). lra.
Qed.
(** The difference of two intervals is the difference of the bounds, so it can be empty or miss differences. *)
Theorem C141_difference_refuted : exists i j x y, bounded_ival i /\ bounded_ival j /\ holds i x /\ holds j y /\ fis_empty (fsub_ival i j) = true /\ ~ holds (fsub_ival i j) (x - y).
Proof.
  exists (mkfival 1 1), (mkfival 0 1), 1%float, 0%float. do 4 (split; [split; reflexivity|]). split; [reflexivity|]. intros [_ H]. discriminate H.
Qed.
Theorem C141_difference : forall i j x y, bounded_ival i -> bounded_ival j -> val (flower j) = val (fupper j) -> holds i x -> holds j y -> holds (fsub_ival i j) (x - y).
Proof.
  intros i j x y I J E X Y. destruct (between_finite i x I X) as [FX BX]. destruct (between_finite j y J Y) as [FY BY]. destruct I as [A B], J as [C D].
  split; (eapply result_order; [apply sub_result; assumption|apply sub_result; assumption|lra]).
Qed.
Example C141_witness : fold_left fexpand [nan; 3; 1; nan; 2; infinity]%float fival_default = mkfival 1 infinity /\ holds (mkfival 1 infinity) 3 /\ number 3 /\ ~ number nan /\
  fintersects (mkfival 0 2) (mkfival 1 3) = true.
Proof. repeat (split; [reflexivity|]). split; [split; reflexivity|]. split; [reflexivity|]. split; [intro H; discriminate H|reflexivity]. Qed.
Print Assumptions C141_expand.
Print Assumptions C141_scalar.
