(** C102: the stretch of a polygon's border within a distance of a point. *)
From Verif Require Import RBase PathModel PathSpec PathProof StretchModel StretchSpec StretchProof.

Lemma walked_stretch : forall w P p extent j more, walked w P p extent j more -> stretch w P p extent j (p :: more).
Proof.
  intros w P p extent j more (k & vs & la & tg & -> & FV & HT & OS & PL). exists k, vs, la, tg. split; [reflexivity|]. split; [|split; assumption].
  clear OS PL. revert j vs FV HT. induction k as [|k IH]; intros j vs FV HT.
  - inversion FV; subst. repeat constructor. exact HT.
  - inversion FV as [|? v ? vs' H1 H2]; subst. cbn [app]. constructor; [exact H1|]. destruct w; apply IH; assumption.
Qed.

(** Each half is the stretch of the wanted length in its direction; the walk ends. *)
Theorem C102_half : forall w P p extent start, same_dim (length p) P -> has_length P -> 0 < extent ->
  exists f0 pts,
    stretch w P p extent (match w with clockwise => (start + length P - 1) mod length P | counterclockwise => (start + 1) mod length P end) pts /\
    forall fuel, (f0 <= fuel)%nat -> polygon_subsequence_half fuel w P p extent start = Some pts.
Proof.
  intros w P p extent start SD HL E0. destruct (ends_half w P (length p) p extent start SD HL eq_refl E0) as (f0 & more & W & RUN).
  exists f0, (p :: more). split; [apply walked_stretch in W; destruct w; exact W|]. intros fuel F. unfold polygon_subsequence_half. rewrite RUN by exact F. reflexivity.
Qed.

Lemma way_rev : forall p q t, length p = length q -> on_the_way q p t = on_the_way p q (1 - t).
Proof.
  unfold on_the_way. induction p as [|x p IH]; intros [|y q] t L; try discriminate; [reflexivity|]. cbn. f_equal; [ring|]. apply IH. cbn in L. lia.
Qed.
Lemma way_way : forall p q s t, length p = length q -> on_the_way (on_the_way p q s) q t = on_the_way p q (s + t * (1 - s)).
Proof.
  unfold on_the_way. induction p as [|x p IH]; intros [|y q] s t L; try discriminate; [reflexivity|]. cbn. f_equal; [ring|]. apply IH. cbn in L. lia.
Qed.
Lemma on_side_sym : forall A B X, length A = length B -> on_side A B X -> on_side B A X.
Proof. intros A B X L (t & T & ->). exists (1 - t). split; [lra|]. rewrite (way_rev A B) by exact L. f_equal. ring. Qed.
Lemma on_side_end : forall A B p X, length A = length B -> on_side A B p -> on_side p B X -> on_side A B X.
Proof.
  intros A B p X L (s & S & ->) (t & T & ->). exists (s + t * (1 - s)). split; [|apply way_way; exact L]. split; [nra|nra].
Qed.
Lemma adjacent : forall w P d j A B, same_dim d P -> nth_error P j = Some A ->
  nth_error P (match w with clockwise => (j + length P - 1) mod length P | counterclockwise => (j + 1) mod length P end) = Some B ->
  forall X, on_side A B X -> on_border P X.
Proof.
  intros w P d j A B SD HA HB X O. assert (J : (j < length P)%nat) by (apply nth_error_Some; congruence).
  assert (DIM : forall j A, nth_error P j = Some A -> length A = d). { intros j' A' H. unfold same_dim in SD. rewrite Forall_forall in SD. apply SD. apply nth_error_In in H. exact H. }
  destruct w.
  - exists B, A. split; [|apply on_side_sym; [rewrite (DIM _ _ HA), (DIM _ _ HB); reflexivity|exact O]].
    pose proof (inc_down (length P) j J) as ID. cbn in ID. destruct j as [|j].
    + exists (length P - 1)%nat. rewrite ID in HB. split; [exact HB|]. replace (S (length P - 1)) with (length P) by lia. rewrite Nat.mod_same by lia. exact HA.
    + exists j. rewrite ID in HB. split; [exact HB|]. rewrite Nat.mod_small by lia. exact HA.
  - exists A, B. split; [|exact O]. exists j. split; [exact HA|]. replace (S j) with (j + 1)%nat by lia. exact HB.
Qed.
Lemma stretch_border : forall w P d p extent j pts A B, same_dim d P -> length p = d ->
  stretch w P p extent j pts -> border_side P A B -> on_side A B p -> nth_error P j = Some B \/ nth_error P j = Some A -> Forall (on_border P) (tl pts).
Proof.
  intros w P d p extent j pts A B SD LP (k & vs & la & tg & -> & FV & OS & _) BS OP HJ. cbn [tl].
  assert (DIM : forall j A, nth_error P j = Some A -> length A = d). { intros j' A' H. unfold same_dim in SD. rewrite Forall_forall in SD. apply SD. apply nth_error_In in H. exact H. }
  assert (VB : forall i v, nth_error P i = Some v -> on_border P v).
  { intros i v HV. assert (I : (i < length P)%nat) by (apply nth_error_Some; congruence). destruct (nth_error P (S i mod length P)) as [u|] eqn:HU; [|apply nth_error_None in HU; pose proof (Nat.mod_upper_bound (S i) (length P)); lia].
    exists v, u. split; [exists i; auto|]. exists 0. split; [lra|]. symmetry. apply way_0. rewrite (DIM _ _ HV), (DIM _ _ HU). reflexivity. }
  revert j vs FV OS HJ. induction k as [|k IH]; intros j vs FV OS HJ.
  - destruct vs as [|v [|? ?]]; inversion FV as [|? ? ? ? H1 H2]; subst; [|inversion H2|inversion H2]. clear FV H2. repeat constructor.
    destruct BS as (i & HA & HB). exists A, B. split; [exists i; auto|]. cbn in OS. destruct HJ as [HJ|HJ]; rewrite HJ in H1; injection H1 as <-.
    + apply (on_side_end A B p); [rewrite (DIM _ _ HA), (DIM _ _ HB); reflexivity|exact OP|exact OS].
    + apply on_side_sym; [rewrite (DIM _ _ HA), (DIM _ _ HB); reflexivity|]. apply (on_side_end B A p); [rewrite (DIM _ _ HA), (DIM _ _ HB); reflexivity|apply on_side_sym; [rewrite (DIM _ _ HA), (DIM _ _ HB); reflexivity|exact OP]|exact OS].
  - destruct vs as [|v vs]; [inversion FV as [|? ? ? ? ? H2]; inversion H2|]. cbn [app walk] in FV. inversion FV as [|? ? ? ? H1 H2]; subst. cbn [app]. constructor; [apply (VB j); exact H1|].
    (* from the vertex v on *)
    clear HJ FV. rename H2 into FV. assert (G : forall k j v vs, nth_error P j = Some v ->
      Forall2 (fun i u => nth_error P i = Some u) (walk w (length P) (match w with clockwise => (j + length P - 1) mod length P | counterclockwise => (j + 1) mod length P end) (S k)) (vs ++ [tg]) ->
      on_side (last vs v) tg la -> Forall (on_border P) (vs ++ [la])).
    { clear - SD VB. induction k as [|k IH]; intros j v vs HV FV OS.
      - destruct vs as [|u [|? ?]]; inversion FV as [|? ? ? ? H1 H2]; subst; [|inversion H2|inversion H2]. repeat constructor. exact (adjacent w P _ j v tg SD HV H1 la OS).
      - destruct vs as [|u vs]; [inversion FV as [|? ? ? ? ? H2]; inversion H2|]. cbn [app] in FV. cbn [walk] in FV. inversion FV as [|? ? ? ? H1 H2]; subst. cbn [app]. constructor; [apply (VB _ _ H1)|].
        apply (IH _ u vs H1 H2). destruct vs as [|u' vs]; [exact OS|]. rewrite (last_default vs u' u v). exact OS. }
    apply (G k j v vs H1 FV). destruct vs as [|u vs]; [exact OS|]. change (last (v :: u :: vs) p) with (last (u :: vs) p) in OS. rewrite (last_default vs u v p). exact OS.
Qed.

(** The result runs from the end of the backward stretch to the end of the forward stretch, [p] itself
    left out, and all its points are on the border. *)
Theorem C102_subsequence : forall P p extent start A B, same_dim (length p) P -> has_length P -> 0 < extent ->
  nth_error P start = Some A -> nth_error P (S start mod length P) = Some B -> on_side A B p ->
  exists f0 back ahead,
    stretch clockwise P p extent start (p :: back) /\
    stretch counterclockwise P p extent (S start mod length P) (p :: ahead) /\
    Forall (on_border P) (back ++ ahead) /\
    forall fuel, (f0 <= fuel)%nat -> polygon_subsequence fuel P p extent start = Some (rev back ++ ahead).
Proof.
  intros P p extent start A B SD HL E0 HA HB OP. assert (J : (start < length P)%nat) by (apply nth_error_Some; congruence).
  destruct (C102_half clockwise P p extent (start + 1) SD HL E0) as (f1 & r1 & S1 & R1). destruct (C102_half counterclockwise P p extent start SD HL E0) as (f2 & r2 & S2 & R2).
  assert (E1 : ((start + 1 + length P - 1) mod length P)%nat = start). { replace (start + 1 + length P - 1)%nat with (start + 1 * length P)%nat by lia. rewrite Nat.mod_add by lia. apply Nat.mod_small. exact J. }
  rewrite E1 in S1. replace (start + 1)%nat with (S start) in S2 by lia.
  assert (H1 : exists b, r1 = p :: b) by (destruct S1 as (k & vs & la & tg & -> & _); eauto). destruct H1 as [back ->].
  assert (H2 : exists b, r2 = p :: b) by (destruct S2 as (k & vs & la & tg & -> & _); eauto). destruct H2 as [ahead ->].
  exists (f1 + f2)%nat, back, ahead. split; [exact S1|]. split; [exact S2|]. split.
  - apply Forall_app. split.
    + apply (stretch_border _ _ _ _ _ _ _ A B SD eq_refl S1); [exists start; auto|exact OP|right; exact HA].
    + apply (stretch_border _ _ _ _ _ _ _ A B SD eq_refl S2); [exists start; auto|exact OP|left; exact HB].
  - intros fuel F. unfold polygon_subsequence. rewrite R1, R2 by lia. reflexivity.
Qed.
(** Nothing for an extent that is not positive. *)
Theorem C102_nothing : forall P p extent start fuel, extent <= 0 -> polygon_subsequence (S fuel) P p extent start = Some [].
Proof. intros P p extent start fuel E. unfold polygon_subsequence, polygon_subsequence_half. cbn [half_loop]. destruct (Rltb_spec 0 extent); [lra|]. reflexivity. Qed.
(** When all vertices are the point itself the walk never ends. *)
Theorem C102_endless_refuted : forall P p extent start fuel w, (forall v, In v P -> v = p) -> 0 < extent -> polygon_subsequence_half fuel w P p extent start = None.
Proof.
  intros P p extent start fuel w ALL E0. unfold polygon_subsequence_half. generalize (inc w (length P) start). generalize [p]. induction fuel as [|fuel IH]; intros acc j; [reflexivity|].
  cbn [half_loop]. destruct (Rltb_spec 0 extent); [|lra]. destruct (nth_error P j) as [v|] eqn:HV; [|reflexivity]. apply nth_error_In, ALL in HV. subst v.
  assert (Z : rdist p p = 0). { unfold rdist, rnorm. replace (rdot (rsub p p) (rsub p p)) with 0; [apply sqrt_0|]. clear. induction p as [|x p IH]; [reflexivity|]. cbn. rewrite <- IH. ring. }
  rewrite Z. destruct (Rleb_spec 0 extent); [|lra]. rewrite Rminus_0_r. apply IH.
Qed.

(** A square and the middle of its first side. *)
Definition square2 : list rvec := [[0; 0]; [2; 0]; [2; 2]; [0; 2]].
Example C102_witness : same_dim 2 square2 /\ has_length square2 /\ on_side [0; 0] [2; 0] [1; 0].
Proof.
  split; [repeat constructor|]. split.
  - exists [0; 0], [2; 0]. split; [exists O; auto|]. unfold euclid. apply sqrt_lt_R0. cbn. lra.
  - exists (1 / 2). split; [lra|]. unfold on_the_way. cbn. repeat f_equal; lra.
Qed.

Print Assumptions C102_half.
Print Assumptions C102_subsequence.
Print Assumptions C102_endless_refuted.
