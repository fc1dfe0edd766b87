(** A polygon against a box: proofs. *)
From Verif Require Import Base CmpModel BoxModel BoxSpec DistModel DistSpec DistProof OrientSpec PolygonModel PolygonSpec PolygonProof PolygonProps BoxIntModel BoxIntSpec BoxIntProof PolyBoxModel.
From Coq Require Import Lia.

Lemma border_ok : forall eps ps b n i j, (2 <= length ps)%nat -> (i + n = length ps)%nat -> (n <> 0 -> j = S i mod length ps)%nat ->
  exists r, border_aabb eps ps b n i j = Some r /\
  (r = true <-> exists k A B, (i <= k)%nat /\ polygon_edge ps k A B /\ segment_aabb_intersection eps A B b = true).
Proof.
  intros eps ps b. induction n as [|n IH]; intros i j L E Hj.
  - exists false. split; [reflexivity|]. split; [discriminate|]. intros (k & A & B & K & [H _] & _). assert (k < length ps)%nat by (apply nth_error_Some; congruence). lia.
  - specialize (Hj ltac:(lia)). cbn [border_aabb]. destruct (nth_error ps i) as [A|] eqn:EA; [|apply nth_error_None in EA; lia].
    assert (Lj : (j < length ps)%nat) by (rewrite Hj; apply Nat.mod_upper_bound; lia). destruct (nth_error ps j) as [B|] eqn:EB; [|apply nth_error_None in EB; lia].
    assert (Ed : polygon_edge ps i A B) by (split; [exact EA|rewrite <- Hj; exact EB]).
    destruct (segment_aabb_intersection eps A B b) eqn:Q.
    + exists true. split; [reflexivity|]. split; [|reflexivity]. intros _. exists i, A, B. split; [lia|]. split; assumption.
    + destruct (IH (S i) ((j + 1) mod length ps)%nat L ltac:(lia)) as (r & R & H).
      { intro N. rewrite Hj. rewrite (Nat.mod_small (S i)) by lia. f_equal. lia. }
      exists r. split; [exact R|]. rewrite H. split; intros (k & A' & B' & K & Ek & Qk).
      * exists k, A', B'. split; [lia|]. split; assumption.
      * destruct (Nat.eq_dec k i) as [->|N]; [|exists k, A', B'; split; [lia|]; split; assumption].
        exfalso. destruct Ed as [E1 E2], Ek as [E3 E4]. assert (A' = A) as -> by congruence. assert (B' = B) as -> by congruence. congruence.
Qed.

Lemma in2_lerp : forall b X Y Z, in2 b X -> in2 b Y -> on_segment X Y Z -> in2 b Z.
Proof.
  intros b X Y Z [[a1 a2] [a3 a4]] [[b1 b2] [b3 b4]] (t & [t0 t1] & [E1 E2]). unfold in2. unfold lerp, vadd, vscale, vsub in E1, E2; cbn in E1, E2. rewrite E1, E2. repeat split; nra.
Qed.

Lemma polygon_box_defined : forall eps ps b, (2 <= length ps)%nat -> exists r, polygon_aabb_intersection eps ps b = Some r.
Proof.
  intros eps ps b L. unfold polygon_aabb_intersection. destruct (_ || _); [exists true; reflexivity|]. destruct (border_ok eps ps b (length ps) 0 1 L ltac:(lia)) as (r & R & _); [|exists r; exact R].
  intros _. rewrite Nat.mod_small; lia.
Qed.
Lemma polygon_box_ok : forall eps ps b r, 0 <= eps -> (2 <= length ps)%nat -> ok2 b -> polygon_aabb_intersection eps ps b = Some r ->
  ((exists X, in2 b X /\ (point_in_polygon X ps = true \/ on_polygon ps X)) -> r = true) /\
  (r = true -> (exists X, in2 b X /\ point_in_polygon X ps = true) \/ exists i A B, polygon_edge ps i A B /\ segment_aabb_intersection eps A B b = true).
Proof.
  intros eps ps b r He L O R. unfold polygon_aabb_intersection in R.
  assert (C0 : in2 b (lb2 b)) by (destruct O; unfold in2; lra). assert (C1 : in2 b (mkpt (px (ub2 b)) (py (lb2 b)))) by (destruct O; unfold in2; cbn; lra).
  assert (C2 : in2 b (ub2 b)) by (destruct O; unfold in2; lra). assert (C3 : in2 b (mkpt (px (lb2 b)) (py (ub2 b)))) by (destruct O; unfold in2; cbn; lra).
  destruct (point_in_polygon (lb2 b) ps) eqn:P0; [injection R as <-; split; [reflexivity|]; intros _; left; exists (lb2 b); split; assumption|].
  destruct (point_in_polygon (mkpt (px (ub2 b)) (py (lb2 b))) ps) eqn:P1; [injection R as <-; split; [reflexivity|]; intros _; left; eexists; split; [exact C1|exact P1]|].
  destruct (point_in_polygon (ub2 b) ps) eqn:P2; [injection R as <-; split; [reflexivity|]; intros _; left; eexists; split; [exact C2|exact P2]|].
  destruct (point_in_polygon (mkpt (px (lb2 b)) (py (ub2 b))) ps) eqn:P3; [injection R as <-; split; [reflexivity|]; intros _; left; eexists; split; [exact C3|exact P3]|].
  cbn [orb] in R. destruct (border_ok eps ps b (length ps) 0 1 L ltac:(lia)) as (r' & R' & H); [intros _; rewrite Nat.mod_small; lia|].
  rewrite R in R'. injection R' as <-. split.
  - intros (X & HX & [P|(i & A & B & E & HS)]).
    + destruct r; [reflexivity|]. exfalso. assert (point_in_polygon X ps = point_in_polygon (lb2 b) ps); [|congruence].
      apply C26_constant_off_the_boundary. intros i u v E Y HY Hu. assert (false = true); [|discriminate]. apply H. exists i, u, v. split; [lia|]. split; [exact E|].
      apply segment_aabb_eps; [exact He|exact O|]. exists Y. split; [exact Hu|]. exact (in2_lerp b X (lb2 b) Y HX C0 HY).
    + apply H. exists i, A, B. split; [lia|]. split; [exact E|]. apply segment_aabb_eps; [exact He|exact O|]. exists X. split; assumption.
  - intro T. destruct (proj1 H T) as (k & A & B & _ & E & S). right. exists k, A, B. split; assumption.
Qed.
