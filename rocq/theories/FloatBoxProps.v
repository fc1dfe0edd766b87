(** C143: boxes of doubles. *)
From Coq Require Import Reals Floats ZArith List Lia Bool.
Require Import Flocq.Core.Core Flocq.IEEE754.BinarySingleNaN Flocq.IEEE754.PrimFloat.
From Verif Require Import FloatModel FloatSpec FloatProof FloatProof2 FloatProof3 FloatProps FloatIntervalSpec FloatIntervalProof FloatOrderModel FloatOrderSpec FloatOrderProof FloatOrderProps.
From Coq Require Import Lra.
Import ListNotations.
Local Open Scope R_scope.

Lemma Forall2_length : forall (P : PrimFloat.float -> PrimFloat.float -> Prop) u v, Forall2 P u v -> length u = length v.
Proof. intros P u v F. induction F; cbn; congruence. Qed.
Ltac keys := repeat match goal with H : (_ <=? _)%float = true |- _ => apply leb_key in H; [|assumption|assumption] end.
Lemma not_less : forall x y, number x -> number y -> ((x <? y)%float = false <-> (y <=? x)%float = true).
Proof.
  intros x y X Y. rewrite leb_key by assumption. pose proof (ltb_key x y X Y) as K. destruct (x <? y)%float; split; intro H; try discriminate; try reflexivity.
  - exfalso. assert (key x < key y) by tauto. lra.
  - apply Rnot_lt_le. intro Q. apply K in Q. discriminate.
Qed.
Lemma one_inside : forall x l h, number x -> number l -> number h -> (negb (f_lt fdirect x l || f_gt fdirect x h) = true <-> (l <=? x)%float = true /\ (x <=? h)%float = true).
Proof.
  intros x l h X L H. rewrite negb_true_iff, orb_false_iff. cbn [f_lt f_gt fdirect]. rewrite !not_less by assumption. tauto.
Qed.
Lemma inside_spec : forall p lo hi, length lo = length p -> length hi = length p -> Forall number p -> Forall number lo -> Forall number hi ->
  (fdim_point fdirect p lo hi = true <-> Forall2 (fun l x => (l <=? x)%float = true) lo p /\ Forall2 (fun x h => (x <=? h)%float = true) p hi).
Proof.
  induction p as [|x p IH]; intros [|l lo] [|h hi] E1 E2 P L H; try discriminate E1; try discriminate E2; cbn [fdim_point]; [split; [split; constructor|reflexivity]|].
  injection E1 as E1. injection E2 as E2. inversion_clear P; inversion_clear L; inversion_clear H. rewrite andb_true_iff, IH, one_inside by assumption. split.
  - intros [ [A B] [C D] ]. split; constructor; assumption.
  - intros [A B]. inversion_clear A; inversion_clear B. tauto.
Qed.
(** With the direct policy a point is reported in a box exactly when it lies in the closed box. *)
Theorem C143_point : forall d b p, good_box d b -> length p = d -> Forall number p -> (fbox_point fdirect b p = true <-> in_fbox b p).
Proof.
  intros d b p (L & NL & NH & O) E P. unfold fbox_point, in_fbox. apply inside_spec; try assumption; [congruence|]. rewrite <- (Forall2_length _ _ _ O). congruence.
Qed.
(** Two boxes are reported to intersect exactly when a point of doubles lies in both. *)
Definition larger (x y : PrimFloat.float) : PrimFloat.float := if (x <? y)%float then y else x.
Definition smaller (x y : PrimFloat.float) : PrimFloat.float := if (y <? x)%float then y else x.
Lemma larger_key : forall x y, number x -> number y -> number (larger x y) /\ key x <= key (larger x y) /\ key y <= key (larger x y) /\ forall z, key x <= z -> key y <= z -> key (larger x y) <= z.
Proof.
  intros x y X Y. unfold larger. destruct (x <? y)%float eqn:L.
  - apply ltb_key in L; try assumption. repeat split; try assumption; try lra. intros; assumption.
  - apply not_less in L; try assumption. apply leb_key in L; try assumption. repeat split; try assumption; try lra. intros; assumption.
Qed.
Lemma smaller_key : forall x y, number x -> number y -> number (smaller x y) /\ key (smaller x y) <= key x /\ key (smaller x y) <= key y /\ forall z, z <= key x -> z <= key y -> z <= key (smaller x y).
Proof.
  intros x y X Y. unfold smaller. destruct (y <? x)%float eqn:L.
  - apply ltb_key in L; try assumption. repeat split; try assumption; try lra. intros; assumption.
  - apply not_less in L; try assumption. apply leb_key in L; try assumption. repeat split; try assumption; try lra. intros; assumption.
Qed.
Lemma boxes_spec : forall alo ahi blo bhi, length ahi = length alo -> length blo = length alo -> length bhi = length alo ->
  Forall number alo -> Forall number ahi -> Forall number blo -> Forall number bhi ->
  Forall2 (fun l h => (l <=? h)%float = true) alo ahi -> Forall2 (fun l h => (l <=? h)%float = true) blo bhi ->
  (fdim_box fdirect alo ahi blo bhi = true <-> exists p, length p = length alo /\ Forall number p /\
    Forall2 (fun l x => (l <=? x)%float = true) alo p /\ Forall2 (fun x h => (x <=? h)%float = true) p ahi /\ Forall2 (fun l x => (l <=? x)%float = true) blo p /\ Forall2 (fun x h => (x <=? h)%float = true) p bhi).
Proof.
  induction alo as [|al alo IH]; intros [|ah ahi] [|bl blo] [|bh bhi] E1 E2 E3 A B C D O1 O2; try discriminate; cbn [fdim_box].
  { split; [intros _; exists []; repeat split; constructor|reflexivity]. }
  injection E1 as E1. injection E2 as E2. injection E3 as E3. inversion_clear A; inversion_clear B; inversion_clear C; inversion_clear D; inversion_clear O1; inversion_clear O2.
  rewrite andb_true_iff, IH, negb_true_iff, orb_false_iff by assumption. cbn [f_lt f_gt fdirect]. rewrite !not_less by assumption. split.
  - intros [ (p & L & N & P1 & P2 & P3 & P4) [Q1 Q2] ]. destruct (larger_key al bl) as (NM & M1 & M2 & M3); try assumption. keys.
    exists (larger al bl :: p). cbn [length]. repeat split; [congruence|constructor; assumption| | | | ]; constructor; try assumption; rewrite leb_key by assumption; try assumption; apply M3; assumption.
  - intros (p & L & N & P1 & P2 & P3 & P4). destruct p as [|x p]; [discriminate|]. injection L as L. inversion_clear N; inversion_clear P1; inversion_clear P2; inversion_clear P3; inversion_clear P4.
    split; [exists p; repeat split; assumption|]. keys. split; apply leb_key; try assumption; lra.
Qed.
Theorem C143_boxes : forall d a b, good_box d a -> good_box d b ->
  (fbox_box fdirect a b = true <-> exists p, length p = d /\ Forall number p /\ in_fbox a p /\ in_fbox b p).
Proof.
  intros d a b (L1 & A & B & O1) (L2 & C & D & O2). unfold fbox_box, in_fbox. rewrite boxes_spec; try assumption; try congruence.
  - split; intros (p & H1 & H2 & H3); exists p; (split; [congruence|split; [exact H2|tauto]]).
  - rewrite (Forall2_length _ _ _ O1). reflexivity.
  - rewrite <- (Forall2_length _ _ _ O2). congruence.
Qed.
(** Exchanging the boxes does not change the answer, for all doubles. *)
Lemma usual_turn : forall cmp x y, usual cmp -> f_gt cmp y x = f_lt cmp x y.
Proof. intros cmp x y [->|(tol & T & _ & ->)]; [reflexivity|]. unfold fabsolute; cbn [f_lt f_gt]. symmetry. apply sub_flip, T. Qed.
Theorem C143_symmetric : forall cmp a b, usual cmp -> fbox_box cmp b a = fbox_box cmp a b.
Proof.
  intros cmp [alo ahi] [blo bhi] U. unfold fbox_box. cbn [flow fhigh]. revert ahi blo bhi. induction alo as [|al alo IH]; intros [|ah ahi] [|bl blo] [|bh bhi]; cbn [fdim_box]; try reflexivity.
  rewrite IH. f_equal. f_equal. rewrite (usual_turn cmp ah bl U), <- (usual_turn cmp bh al U). apply orb_comm.
Qed.
(** [contains] is inclusion. *)
Theorem C143_contains : forall d a b, good_box d a -> good_box d b ->
  (fcontains fdirect a b = true <-> forall p, length p = d -> Forall number p -> in_fbox b p -> in_fbox a p).
Proof.
  intros d a b GA GB. pose proof GB as (L2 & C & D & O2). pose proof (Forall2_length _ _ _ O2) as LH. unfold fcontains. rewrite andb_true_iff, (C143_point d a) by (try assumption; congruence). rewrite (C143_point d a) by (try assumption; congruence).
  assert (R : forall l, Forall number l -> Forall2 (fun u v => (u <=? v)%float = true) l l). { induction l; intro N; inversion_clear N; constructor; auto. apply leb_key; try assumption. lra. }
  assert (TR : forall u v w, Forall number u -> Forall number v -> Forall number w -> Forall2 (fun u v => (u <=? v)%float = true) u v -> Forall2 (fun u v => (u <=? v)%float = true) v w -> Forall2 (fun u v => (u <=? v)%float = true) u w).
  { induction u as [|x u IHu]; intros v w NU NV NW F G; inversion F; subst; inversion G; subst; [constructor|]. inversion_clear NU; inversion_clear NV; inversion_clear NW. constructor.
    - keys. apply leb_key; try assumption; lra.
    - eapply IHu; [| | |eassumption|eassumption]; assumption. }
  destruct GA as (L1 & A & B & O1). split.
  - intros [ [H1 H2] [H3 H4] ] p E P [K1 K2]. split; [apply (TR _ (flow b)); assumption|apply (TR _ (fhigh b)); assumption].
  - intro H. split; apply H; try assumption; try congruence; split; try assumption; try (apply R; assumption).
Qed.
(** [expand] gives the least box around both. *)
Lemma leb_list : forall u v, Forall number u -> Forall number v -> (Forall2 (fun x y => (x <=? y)%float = true) u v <-> Forall2 (fun x y => key x <= key y) u v).
Proof.
  induction u as [|x u IH]; intros v U V; split; intro F; inversion F; subst; constructor; inversion_clear U; inversion_clear V; try (apply (leb_key x y); assumption); apply IH; assumption.
Qed.
Lemma lo_spec : forall u v, length u = length v -> Forall number u -> Forall number v -> Forall number (fupdate_lo u v) /\ length (fupdate_lo u v) = length u /\
  Forall2 (fun x y => key x <= key y) (fupdate_lo u v) u /\ Forall2 (fun x y => key x <= key y) (fupdate_lo u v) v /\
  forall w, Forall2 (fun x y => key x <= key y) w u -> Forall2 (fun x y => key x <= key y) w v -> Forall2 (fun x y => key x <= key y) w (fupdate_lo u v).
Proof.
  induction u as [|x u IH]; intros [|y v] E U V; try discriminate; cbn [fupdate_lo length]; [repeat split; try constructor; intros w W; inversion W; constructor|].
  injection E as E. inversion_clear U; inversion_clear V. destruct (IH v E) as (I1 & I2 & I3 & I4 & I5); try assumption. change (if (y <? x)%float then y else x) with (smaller x y). destruct (smaller_key x y) as (S1 & S2 & S3 & S4); try assumption.
  repeat split; try (constructor; assumption); [congruence|]. intros w W1 W2. inversion W1; subst. inversion W2; subst. constructor; [apply S4; assumption|apply I5; assumption].
Qed.
Lemma hi_spec : forall u v, length u = length v -> Forall number u -> Forall number v -> Forall number (fupdate_hi u v) /\ length (fupdate_hi u v) = length u /\
  Forall2 (fun x y => key x <= key y) u (fupdate_hi u v) /\ Forall2 (fun x y => key x <= key y) v (fupdate_hi u v) /\
  forall w, Forall2 (fun x y => key x <= key y) u w -> Forall2 (fun x y => key x <= key y) v w -> Forall2 (fun x y => key x <= key y) (fupdate_hi u v) w.
Proof.
  induction u as [|x u IH]; intros [|y v] E U V; try discriminate; cbn [fupdate_hi length]; [repeat split; try constructor; intros w W; inversion W; constructor|].
  injection E as E. inversion_clear U; inversion_clear V. destruct (IH v E) as (I1 & I2 & I3 & I4 & I5); try assumption. change (if (x <? y)%float then y else x) with (larger x y). destruct (larger_key x y) as (S1 & S2 & S3 & S4); try assumption.
  repeat split; try (constructor; assumption); [congruence|]. intros w W1 W2. inversion W1; subst. inversion W2; subst. constructor; [apply S4; assumption|apply I5; assumption].
Qed.
Lemma key_trans : forall u v w, Forall2 (fun x y => key x <= key y) u v -> Forall2 (fun x y => key x <= key y) v w -> Forall2 (fun x y => key x <= key y) u w.
Proof. induction u as [|x u IH]; intros v w F G; inversion F; subst; inversion G; subst; constructor; [lra|eapply IH; eassumption]. Qed.
Theorem C143_expand : forall d a b, good_box d a -> good_box d b -> let e := fexpand_box a b in good_box d e /\
  (forall p, length p = d -> Forall number p -> in_fbox a p \/ in_fbox b p -> in_fbox e p) /\
  (forall c, good_box d c -> fcontains fdirect c a = true -> fcontains fdirect c b = true -> fcontains fdirect c e = true).
Proof.
  intros d a b GA GB e. pose proof GA as (L1 & A & B & O1). pose proof GB as (L2 & C & D & O2). pose proof (Forall2_length _ _ _ O1) as H1. pose proof (Forall2_length _ _ _ O2) as H2.
  destruct (lo_spec (flow a) (flow b) ltac:(congruence) A C) as (N1 & M1 & P1 & Q1 & R1). destruct (hi_spec (fhigh a) (fhigh b) ltac:(congruence) B D) as (N2 & M2 & P2 & Q2 & R2).
  assert (GE : good_box d e). { unfold e, fexpand_box, good_box. cbn [flow fhigh]. repeat split; try assumption; [congruence|]. apply leb_list; try assumption. apply (key_trans _ (flow a)); [exact P1|]. apply (key_trans _ (fhigh a)); [apply leb_list; assumption|exact P2]. }
  split; [exact GE|]. split.
  - intros p E P K. unfold e, fexpand_box, in_fbox in *. cbn [flow fhigh] in *. rewrite !leb_list in * by assumption. destruct K as [ [K1 K2]|[K1 K2] ].
    + split; [apply (key_trans _ (flow a)); assumption|apply (key_trans _ (fhigh a)); assumption].
    + split; [apply (key_trans _ (flow b)); assumption|apply (key_trans _ (fhigh b)); assumption].
  - intros c GC K1 K2. pose proof GC as (L3 & NC1 & NC2 & O3). unfold fcontains in *. rewrite andb_true_iff in *. rewrite !(C143_point d c) in * by (try assumption; unfold e, fexpand_box; cbn [flow fhigh]; congruence).
    unfold in_fbox, e, fexpand_box in *. cbn [flow fhigh] in *. rewrite !leb_list in * by assumption. destruct K1 as [ [K1 K3] [K5 K7] ], K2 as [ [K2 K4] [K6 K8] ]. split; split.
    + apply (key_trans _ (fhigh a)); assumption.
    + apply R2; assumption.
    + apply R1; assumption.
    + apply (key_trans _ (flow a)); assumption.
Qed.
(** With a tolerance no point of the box is lost, and a point reported inside is outside by at most the tolerance and a
    rounding error. *)
Theorem C143_tolerance : forall tol d b p, finite tol -> 0 <= val tol -> good_box d b -> Forall finite (flow b) -> Forall finite (fhigh b) -> Forall finite p -> length p = d ->
  (in_fbox b p -> fbox_point (fabsolute tol) b p = true) /\
  (fbox_point (fabsolute tol) b p = true -> let far := val tol * (1 + powerRZ 2 (-52)) + powerRZ 2 (-1074) in
    Forall2 (fun l x => val l - far <= val x) (flow b) p /\ Forall2 (fun x h => val x <= val h + far) p (fhigh b)).
Proof.
  intros tol d [lo hi] p T N (L & _ & _ & O) FL FH FP E. cbn [flow fhigh] in *. unfold in_fbox, fbox_point. cbn [flow fhigh]. apply Forall2_length in O. assert (L2 : length hi = length p) by congruence. assert (L1 : length lo = length p) by congruence. clear E O L d.
  revert lo hi FL FH L1 L2. induction FP as [|x p FX FP IH]; intros [|l lo] [|h hi] FL FH E1 E2; try discriminate E1; try discriminate E2; cbn [fdim_point].
  { split; [intros _; reflexivity|]. intros _. split; constructor. }
  injection E1 as E1. injection E2 as E2. inversion_clear FL as [|? ? F1 FL']; inversion_clear FH as [|? ? F2 FH']. destruct (IH lo hi FL' FH' E1 E2) as [I1 I2].
  pose proof (proj1 (result_lt _ _ _ (sub_result x l FX F1) (opp_finite _ T))) as Q1. pose proof (proj1 (proj2 (result_lt _ _ _ (sub_result x h FX F2) T))) as Q2.
  cbn [f_lt f_gt fabsolute]. rewrite Q1, Q2, opp_val. split.
  - intros [A B]. inversion_clear A as [|? ? ? ? A1 A2]; inversion_clear B as [|? ? ? ? B1 B2]. rewrite leb_val in A1, B1 by assumption. destruct (Rle_bool_spec (val l) (val x)) as [A3|]; [|discriminate]. destruct (Rle_bool_spec (val x) (val h)) as [B3|]; [|discriminate].
    rewrite I1 by (split; assumption). rewrite !Rlt_bool_false; [reflexivity| |].
    + assert (rnd (val x - val h) <= rnd 0) by (apply rnd_le; lra). rewrite rnd_0 in *. lra.
    + assert (rnd 0 <= rnd (val x - val l)) by (apply rnd_le; lra). rewrite rnd_0 in *. lra.
  - intros H. apply andb_true_iff in H as [H1 H2]. apply negb_true_iff, orb_false_iff in H2 as [H2 H3]. destruct (I2 H1) as [J1 J2].
    destruct (Rlt_bool_spec (rnd (val x - val l)) (- val tol)) as [|G1]; [discriminate|]. destruct (Rlt_bool_spec (val tol) (rnd (val x - val h))) as [|G2]; [discriminate|].
    apply rnd_le_inv in G2; [|exact N]. rewrite rnd_swap in G1. apply Ropp_le_cancel in G1. apply rnd_le_inv in G1; [|exact N]. split; constructor; try assumption; lra.
Qed.
(** A point of NaNs is reported in every box, by every policy, and every point in a box with NaN corners. *)
Theorem C143_nan_refuted : forall cmp b x y, usual cmp \/ (exists tol, cmp = frelative tol) ->
  fbox_point cmp b [nan; nan]%float = true /\ fbox_point cmp (mkfbox [nan; nan] [nan; nan])%float [x; y] = true.
Proof.
  intros cmp b x y U. assert (K : forall v, f_lt cmp nan v = false /\ f_gt cmp nan v = false /\ f_lt cmp v nan = false /\ f_gt cmp v nan = false).
  { intro v. destruct U as [ [->|(tol & _ & _ & ->)]|[tol ->] ]; [pose proof (C133_nan 0 v fdirect ltac:(auto)) as Q|pose proof (C133_nan tol v (fabsolute tol) ltac:(auto)) as Q|pose proof (C133_nan tol v (frelative tol) ltac:(auto)) as Q]; tauto. }
  split.
  - unfold fbox_point. destruct (flow b) as [|l [|l2 lo]], (fhigh b) as [|h [|h2 hi]]; cbn [fdim_point]; try reflexivity; repeat (match goal with |- context [f_lt cmp nan ?v] => destruct (K v) as (-> & _) | |- context [f_gt cmp nan ?v] => destruct (K v) as (_ & -> & _) end); reflexivity.
  - unfold fbox_point. cbn [flow fhigh fdim_point]. destruct (K x) as (_ & _ & -> & ->), (K y) as (_ & _ & -> & ->). reflexivity.
Qed.
Example C143_witness : good_box 2 (mkfbox [0; 0] [2; infinity])%float /\ fbox_box fdirect (mkfbox [0; 0] [2; infinity])%float (mkfbox [2; 1] [3; 3])%float = true /\
  fbox_box fdirect (mkfbox [0; 0] [2; 2])%float (mkfbox [3; 1] [4; 3])%float = false /\ fcontains fdirect (mkfbox [0; 0] [2; 2])%float (mkfbox [1; 1] [2; 2])%float = true.
Proof. repeat split; repeat constructor. Qed.
Print Assumptions C143_boxes.
Print Assumptions C143_tolerance.
