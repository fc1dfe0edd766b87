From Verif Require Import Base LupModel LupSpec LupProof.

(** lup_decomposition of an N x N matrix either finds a row permutation and two triangular factors of
    the permuted matrix, with multipliers of size at most one and non-zero pivots, or throws; and it
    throws only for singular matrices. *)
Theorem C41_decomposition : forall N A, match lup_decomposition N A with
  | Some (lu, pi) =>
      permutes N pi /\
      (forall i j, (i < N)%nat -> (j < N)%nat -> A (pi i) j == qsum N (fun l => lower lu i l * upper lu l j)) /\
      (forall i l, (l < i < N)%nat -> qabs (lu i l) <= 1) /\
      (forall l, (l < N)%nat -> ~ lu l l == 0)
  | None => singular N A
  end.
Proof. exact decomposition_ok. Qed.
Print Assumptions C41_decomposition.

(** After that, lup_solve solves the original system for every right hand side. *)
Theorem C41_solve : forall N A lu pi b, lup_decomposition N A = Some (lu, pi) ->
  exists x, lup_solve N lu pi b = Some x /\ solves N A b x.
Proof.
  intros N A lu pi b E. pose proof (decomposition_ok N A) as H. rewrite E in H. destruct H as (P & Q & _ & D). exact (solve_ok N A lu pi b P Q D).
Qed.
Print Assumptions C41_solve.

(** So it throws for every singular matrix, and only for those. *)
Lemma solves_unique : forall N A lu pi x, lup_decomposition N A = Some (lu, pi) -> solves N A (fun _ => 0) x -> forall j, (j < N)%nat -> x j == 0.
Proof.
  intros N A lu pi x E S. pose proof (decomposition_ok N A) as H. rewrite E in H. destruct H as (P & F & _ & D).
  destruct P as (P1 & P2 & P3).
  set (z := fun l => qsum N (fun j => upper lu l j * x j)).
  assert (LZ : forall i, (i < N)%nat -> qsum N (fun l => lower lu i l * z l) == 0).
  { intros i I. rewrite <- (S (pi i) (P1 i I)). rewrite (qsum_ext N (fun j => A (pi i) j * x j) (fun j => qsum N (fun l => lower lu i l * (upper lu l j * x j)))).
    - rewrite qsum_swap. apply qsum_ext. intros l L. rewrite qsum_scale. reflexivity.
    - intros j J. rewrite (F i j I J), Qmult_comm, <- qsum_scale. apply qsum_ext. intros l _. ring. }
  assert (Z0 : forall n i, (i < n)%nat -> (i < N)%nat -> z i == 0).
  { induction n as [|n IH]; intros i I IN; [lia|]. pose proof (LZ i IN) as Q.
    rewrite (qsum_single N i) in Q.
    - unfold lower in Q. destruct (Nat.ltb_spec i i); [lia|]. rewrite Nat.eqb_refl in Q. lra.
    - exact IN.
    - intros l L NE. unfold lower. destruct (Nat.ltb_spec l i); [rewrite (IH l) by lia; ring|]. destruct (Nat.eqb_spec l i); [lia|ring]. }
  assert (X0 : forall n i, (N - n <= i < N)%nat -> x i == 0).
  { induction n as [|n IH]; intros i I; [lia|]. pose proof (Z0 N i ltac:(lia) ltac:(lia)) as Q. unfold z in Q.
    rewrite (qsum_single N i) in Q.
    - unfold upper in Q. rewrite Nat.leb_refl in Q. specialize (D i ltac:(lia)). destruct (Qeq_dec (x i) 0) as [G|G]; [exact G|].
      apply Qmult_integral in Q. destruct Q; [contradiction|assumption].
    - lia.
    - intros j J NE. unfold upper. destruct (Nat.leb_spec i j); [rewrite (IH j) by lia; ring|ring]. }
  intros j J. apply (X0 N). lia.
Qed.
Theorem C41_throws_iff_singular : forall N A, lup_decomposition N A = None <-> singular N A.
Proof.
  intros N A. split.
  - intro E. pose proof (decomposition_ok N A) as H. rewrite E in H. exact H.
  - intros (x & (j & J & X) & S). destruct (lup_decomposition N A) as [[lu pi]|] eqn:E; [|reflexivity].
    exfalso. apply X. exact (solves_unique N A lu pi x E S j J).
Qed.
Print Assumptions C41_throws_iff_singular.

(** The run-time loops leave out the last column: the factorisation is the same, but a zero last pivot
    goes undetected ... *)
Theorem C41_run_time : forall N A, match lup_decomposition_run_time N A with
  | Some (lu, pi) =>
      permutes N pi /\
      (forall i j, (i < N)%nat -> (j < N)%nat -> A (pi i) j == qsum N (fun l => lower lu i l * upper lu l j)) /\
      (forall i l, (l < i < N)%nat -> qabs (lu i l) <= 1) /\
      (forall l, (S l < N)%nat -> ~ lu l l == 0)
  | None => singular N A
  end.
Proof. exact decomposition_run_time_ok. Qed.
Print Assumptions C41_run_time.
Definition all_ones : mat := fun _ _ => 1.
Theorem C41_run_time_refuted : singular 2 all_ones /\
  exists lu pi, lup_decomposition_run_time 2 all_ones = Some (lu, pi) /\ lup_solve 2 lu pi (fun _ => 1) = None.
Proof.
  split.
  - exists (fun j => if Nat.eqb j 0 then 1 else -(1)). split; [exists 0%nat; split; [lia|discriminate]|].
    intros i I. reflexivity.
  - destruct (lup_decomposition_run_time 2 all_ones) as [[lu pi]|] eqn:E; [|vm_compute in E; discriminate].
    exists lu, pi. split; [reflexivity|].
    assert (L : lup_solve 2 lu pi (fun _ => 1) = match lup_decomposition_run_time 2 all_ones with Some (lu, pi) => lup_solve 2 lu pi (fun _ => 1) | None => None end) by (rewrite E; reflexivity).
    rewrite L. vm_compute. reflexivity.
Qed.
Print Assumptions C41_run_time_refuted.

Definition sample : mat := fun i j => nth j (nth i [[0; 2; 1]; [1; 1; 0]; [2; 0; 3]] []) 0.
Example C41_witness : exists lu pi, lup_decomposition 3 sample = Some (lu, pi) /\ map pi [0; 1; 2]%nat = [2; 0; 1]%nat /\
  exists x, lup_solve 3 lu pi (fun i => inject_Z (Z.of_nat (S i))) = Some x /\ Qred (x 0%nat) = 3 # 2 /\ Qred (x 1%nat) = 1 # 2 /\ Qred (x 2%nat) = 0.
Proof.
  destruct (lup_decomposition 3 sample) as [[lu pi]|] eqn:E; [|vm_compute in E; discriminate]. exists lu, pi.
  split; [reflexivity|].
  assert (L : map pi [0; 1; 2]%nat = match lup_decomposition 3 sample with Some (_, pi) => map pi [0; 1; 2]%nat | None => [] end) by (rewrite E; reflexivity).
  split; [rewrite L; vm_compute; reflexivity|]. set (b := fun i => inject_Z (Z.of_nat (S i))).
  assert (M : lup_solve 3 lu pi b = match lup_decomposition 3 sample with Some (lu, pi) => lup_solve 3 lu pi b | None => None end) by (rewrite E; reflexivity).
  destruct (lup_solve 3 lu pi b) as [x|] eqn:EX.
  - exists x. split; [reflexivity|].
    assert (R : forall j, Qred (x j) = match match lup_decomposition 3 sample with Some (lu, pi) => lup_solve 3 lu pi b | None => None end with Some x => Qred (x j) | None => 7 end) by (intro j; rewrite <- M; reflexivity).
    rewrite !R. vm_compute. auto.
  - exfalso. vm_compute in M. discriminate.
Qed.
