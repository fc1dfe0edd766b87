(** Property C116: a sphere against a polyline. *)
From Verif Require Import RBase SphereModel SphereSpec SphereProof SphPolyModel SphPolySpec SphPolyProof.

(** C116: for every polyline without repeated successive points, every sphere and every visitor there is a
    number m of edges looked at such that the visitor is called, in order, exactly for the edges below m that
    meet the surface, with the right outputs; m is the number of edges, or the last call was answered with
    stop and is for edge m - 1; no earlier call was; and the result is whether there was a call. *)
Theorem C116_sphere_polyline : forall stop s pl, good_rpolyline s pl ->
  exists m calls, sphere_polyline_intersect stop s pl = SpDone (negb (Nat.eqb (length calls) 0)) calls /\
    (forall c, In c calls -> (sp_edge c < m)%nat /\ call_exact s pl c) /\
    (forall i, (i < m)%nat -> (edge_meets s pl i <-> exists c, In c calls /\ sp_edge c = i)) /\
    (forall n c c', nth_error calls n = Some c -> nth_error calls (S n) = Some c' -> (sp_edge c < sp_edge c')%nat) /\
    ((forall n, (n < length calls)%nat -> stop (rev (firstn (S n) calls)) = false) /\ (length pl <= S m)%nat \/
     exists before c, calls = before ++ [c] /\ S (sp_edge c) = m /\ stop (rev calls) = true /\
       forall n, (n < length before)%nat -> stop (rev (firstn (S n) before)) = false).
Proof.
  intros stop s pl G.
  assert (RV : forall l : list sp_call, (forall n, (n < length l)%nat -> stop (skipn n l) = false) ->
     forall n, (n < length (rev l))%nat -> stop (rev (firstn (S n) (rev l))) = false).
  { intros l U n Hn. rewrite rev_length in Hn. rewrite firstn_rev, rev_involutive. apply U. lia. }
  destruct (loop_ok stop s pl G pl 0 [] ltac:(reflexivity)) as (m & out & E & (H1 & H2 & H3) & D).
  - split; [intros c []|]. split; [intros; lia|]. intros [|n] c c' K; discriminate.
  - intros n Hn. cbn in Hn. lia.
  - exists m, (rev out). split; [rewrite rev_length; exact E|]. split; [intros c I; apply H1, in_rev; exact I|]. split; [|split].
    + intros i Hi. rewrite (H2 i Hi). split; intros (c & I & K); exists c; (split; [|exact K]); [rewrite <- in_rev|rewrite in_rev]; exact I.
    + intros n c c' K1 K2. assert (Ln : (S n < length out)%nat) by (rewrite <- rev_length; apply nth_error_Some; rewrite K2; discriminate).
      assert (NR : forall j, (j < length out)%nat -> nth_error (rev out) j = nth_error out (length out - S j)).
      { intros j Hj. rewrite (nth_error_nth' _ (mkspcall 0 (mktwo false false 0 0 [] []))) by (rewrite rev_length; exact Hj).
        rewrite (nth_error_nth' _ (mkspcall 0 (mktwo false false 0 0 [] []))) by lia. f_equal. apply rev_nth. exact Hj. }
      rewrite NR in K1, K2 by lia. apply (H3 (length out - S (S n))%nat c' c); [exact K2|].
      replace (S (length out - S (S n))) with (length out - S n)%nat by lia. exact K1.
    + destruct D as [[U L]|(c & l & -> & M & St & U)]; [left; split; [apply RV; exact U|exact L]|].
      right. exists (rev l), c. split; [reflexivity|]. split; [exact M|]. split; [rewrite rev_involutive; exact St|apply RV; exact U].
Qed.

(** C116: the surface is tested, not the ball: a polyline inside the ball is reported as not intersecting. *)
Theorem C116_inside_refuted : exists s pl, good_rpolyline s pl /\ (forall i a b X, rpolyline_edge pl i a b -> on_rsegment a b X -> in_rball s X) /\
  (2 <= length pl)%nat /\ forall stop, sphere_polyline_intersect stop s pl = SpDone false [].
Proof.
  set (s := mkball [0; 0] 2). set (pl := [[0; 0]; [1; 0]]). exists s, pl.
  assert (E : forall i a b, rpolyline_edge pl i a b -> i = 0%nat /\ a = [0; 0] /\ b = [1; 0]).
  { intros i a b [E1 E2]. destruct i as [|[|i]]; cbn in E1, E2; [|discriminate|destruct i; discriminate]. injection E1 as <-. injection E2 as <-. auto. }
  assert (G : good_rpolyline s pl).
  { split; [intros p [<-|[<-|[]]]; reflexivity|]. intros i a b H. destruct (E i a b H) as (_ & -> & ->). cbn. lra. }
  assert (I : forall i a b X, rpolyline_edge pl i a b -> on_rsegment a b X -> rdist2 X (b_center s) <= 1).
  { intros i a b X H (t & Ht & ->). destruct (E i a b H) as (_ & -> & ->). unfold rdist2, along; cbn. nra. }
  split; [exact G|]. split; [|split; [cbn; lia|]].
  - intros i a b X H HX. specialize (I i a b X H HX). unfold in_rball, s in *; cbn in *. lra.
  - intro stop. destruct (C116_sphere_polyline stop s pl G) as (m & calls & -> & H1 & H2 & _).
    assert (N : calls = []); [|rewrite N; reflexivity]. destruct calls as [|c l]; [reflexivity|exfalso].
    destruct (H1 c (or_introl eq_refl)) as [Lc _]. destruct (proj2 (H2 _ Lc)) as (a & b & X & Ed & HX & Sf); [exists c; split; [left; reflexivity|reflexivity]|].
    specialize (I _ a b X Ed HX). unfold on_rsphere in Sf. rewrite Sf in I. unfold s in I; cbn in I. lra.
Qed.

(** A polyline that enters and leaves the disc: both edges meet the circle. *)
Example C116_witness : let s := mkball [0; 0] 1 in let pl := [[-2; 0]; [0; 0]; [0; 3]] in
  good_rpolyline s pl /\ edge_meets s pl 0 /\ edge_meets s pl 1.
Proof.
  cbv zeta. split; [split|split].
  - intros p [<-|[<-|[<-|[]]]]; reflexivity.
  - intros i a b [E1 E2]. destruct i as [|[|[|i]]]; cbn in E1, E2; try discriminate; injection E1 as <-; injection E2 as <-; cbn; lra.
  - exists [-2; 0], [0; 0], [-1; 0]. split; [split; reflexivity|]. split; [exists (1 / 2); split; [lra|unfold along; cbn; repeat f_equal; lra]|unfold on_rsphere, rdist2; cbn; lra].
  - exists [0; 0], [0; 3], [0; 1]. split; [split; reflexivity|]. split; [exists (1 / 3); split; [lra|unfold along; cbn; repeat f_equal; lra]|unfold on_rsphere, rdist2; cbn; lra].
Qed.

Print Assumptions C116_sphere_polyline.
Print Assumptions C116_inside_refuted.
