From Verif Require Import RBase SphereModel SphereSpec SphereProof SphPolyModel SphPolySpec.

Section Run.
Variable stop : list sp_call -> bool.
Variable s : ball.
Variable pl : list rvec.
Hypothesis G : good_rpolyline s pl.

(** The calls made for the edges below k; the last call is first. *)
Definition calls_ok (k : nat) (calls : list sp_call) : Prop :=
  (forall c, In c calls -> (sp_edge c < k)%nat /\ call_exact s pl c) /\
  (forall i, (i < k)%nat -> (edge_meets s pl i <-> exists c, In c calls /\ sp_edge c = i)) /\
  (forall n c c', nth_error calls n = Some c -> nth_error calls (S n) = Some c' -> (sp_edge c' < sp_edge c)%nat).

Lemma edge_step : forall i a b, rpolyline_edge pl i a b ->
  match segment_sphere_two a b s with
  | NotANumber => False
  | Miss => ~ edge_meets s pl i
  | Hit h => call_exact s pl (mkspcall i h) /\ (edge_meets s pl i <-> th_in0 h || th_in1 h = true)
  end.
Proof.
  intros i a b E. destruct G as [G1 G2]. assert (IA : In a pl) by (eapply nth_error_In; exact (proj1 E)). assert (IB : In b pl) by (eapply nth_error_In; exact (proj2 E)).
  pose proof (proj2 (segment_sphere_two_ok a b s ltac:(rewrite (G1 a IA), (G1 b IB); reflexivity) (G1 a IA)) (G2 i a b E)) as H.
  assert (U : forall a' b', rpolyline_edge pl i a' b' -> a' = a /\ b' = b) by (intros a' b' [E1 E2]; destruct E as [E3 E4]; split; congruence).
  destruct (segment_sphere_two a b s) as [|h|]; [| |exact H].
  - intros (a' & b' & X & E' & (t & _ & EX) & HX). destruct (U _ _ E') as [-> ->]. apply (H t). rewrite <- EX. exact HX.
  - split; [exists a, b; split; [exact E|exact H]|]. destruct H as (H1 & _ & H3 & H4 & _). split.
    + intros (a' & b' & X & E' & (t & Ht & EX) & HX). destruct (U _ _ E') as [-> ->]. rewrite EX in HX. apply H1 in HX.
      apply Bool.orb_true_iff. destruct HX as [->| ->]; [left; apply H3|right; apply H4]; exact Ht.
    + intro K. apply Bool.orb_true_iff in K. destruct K as [K|K]; [apply H3 in K; exists a, b, (along a (rsub b a) (th_t0 h))|apply H4 in K; exists a, b, (along a (rsub b a) (th_t1 h))];
        (split; [exact E|]); (split; [eexists; split; [exact K|reflexivity]|]); apply H1; auto.
Qed.

Lemma ok_skip : forall k calls, calls_ok k calls -> ~ edge_meets s pl k -> calls_ok (S k) calls.
Proof.
  intros k calls (H1 & H2 & H3) N. split; [|split; [|exact H3]].
  - intros c I. destruct (H1 c I). split; [lia|assumption].
  - intros i Hi. destruct (Nat.eq_dec i k) as [->|]; [|apply H2; lia]. split; [intro; contradiction|].
    intros (c & I & E). destruct (H1 c I). lia.
Qed.
Lemma ok_call : forall k calls h, calls_ok k calls -> edge_meets s pl k -> call_exact s pl (mkspcall k h) -> calls_ok (S k) (mkspcall k h :: calls).
Proof.
  intros k calls h (H1 & H2 & H3) M C. split; [|split].
  - intros c [<-|I]; [split; [cbn; lia|exact C]|]. destruct (H1 c I). split; [lia|assumption].
  - intros i Hi. destruct (Nat.eq_dec i k) as [->|N].
    + split; [intros _; exists (mkspcall k h); split; [left; reflexivity|reflexivity]|intros _; exact M].
    + rewrite H2 by lia. split; intros (c & I & E); exists c; (split; [|exact E]); [right; exact I|]. destruct I as [<-|I]; [cbn in E; lia|exact I].
  - intros [|n] c c' E1 E2; cbn in E1, E2; [|eapply H3; eassumption]. injection E1 as <-.
    assert (I : In c' calls) by (destruct calls; [discriminate|injection E2 as <-; left; reflexivity]). cbn. apply (H1 c' I).
Qed.

(** No call but possibly the last was answered with stop. *)
Definition unstopped (calls : list sp_call) : Prop := forall n, (n < length calls)%nat -> stop (skipn n calls) = false.

Lemma loop_ok : forall rest k calls, (forall j, nth_error rest j = nth_error pl (k + j)) -> calls_ok k calls -> unstopped calls ->
  exists m out, sp_loop stop s k rest calls = SpDone (negb (Nat.eqb (length out) 0)) (rev out) /\ calls_ok m out /\
    ((unstopped out /\ (length pl <= S m)%nat) \/ exists c l, out = c :: l /\ S (sp_edge c) = m /\ stop out = true /\ unstopped l).
Proof.
  induction rest as [|a rest IH]; intros k calls R C U.
  - exists k, calls. split; [reflexivity|]. split; [exact C|]. left. split; [exact U|].
    specialize (R 0%nat). cbn in R. symmetry in R. rewrite Nat.add_0_r in R. apply nth_error_None in R. lia.
  - destruct rest as [|b rest].
    + exists k, calls. split; [reflexivity|]. split; [exact C|]. left. split; [exact U|].
      specialize (R 1%nat). cbn in R. symmetry in R. apply nth_error_None in R. lia.
    + assert (E : rpolyline_edge pl k a b).
      { split; [pose proof (R 0%nat) as R0; rewrite Nat.add_0_r in R0; rewrite <- R0|pose proof (R 1%nat) as R1; rewrite Nat.add_1_r in R1; rewrite <- R1]; reflexivity. }
      assert (R' : forall j, nth_error (b :: rest) j = nth_error pl (S k + j)) by (intro j; specialize (R (S j)); rewrite Nat.add_succ_r in R; exact R).
      pose proof (edge_step k a b E) as S1. cbn [sp_loop]. destruct (segment_sphere_two a b s) as [|h|]; [| |contradiction].
      * apply IH; [exact R'|apply ok_skip; assumption|exact U].
      * destruct S1 as [S1 S2]. destruct (th_in0 h || th_in1 h)%bool eqn:T.
        -- assert (C' := ok_call k calls h C (proj2 S2 eq_refl) S1). cbv zeta. destruct (stop (mkspcall k h :: calls)) eqn:St.
           ++ exists (S k), (mkspcall k h :: calls). split; [reflexivity|]. split; [exact C'|]. right. exists (mkspcall k h), calls. auto.
           ++ apply IH; [exact R'|exact C'|]. intros [|n] Hn; [exact St|]. cbn in Hn. cbn [skipn]. apply U. lia.
        -- apply IH; [exact R'|apply ok_skip; [exact C|]|exact U]. intro M. apply S2 in M. discriminate.
Qed.
End Run.
