From Coq Require Import ZArith Reals Machin Ratan Lia Lra Bool List.
From Coq Require Import Rtrigo1 AltSeries.
Import ListNotations.
Open Scope R_scope.

(** ** Thirty-six digits of pi, from Machin's formula in the standard library *)
Definition big : Z := (10 ^ 50)%Z.
Definition den3 (i : nat) : Z := (3 ^ (2 * Z.of_nat i + 1) * (2 * Z.of_nat i + 1))%Z.
Definition den7 (i : nat) : Z := (7 ^ (2 * Z.of_nat i + 1) * (2 * Z.of_nat i + 1))%Z.
Definition tlo (i : nat) : Z := (2 * (big / den3 i) + big / den7 i)%Z.
Fixpoint blo (n : nat) : Z := match n with O => tlo 0 | S m => (blo m + if Nat.even (S m) then tlo (S m) else - (tlo (S m) + 3))%Z end.
Fixpoint bhi (n : nat) : Z := match n with O => (tlo 0 + 3)%Z | S m => (bhi m + if Nat.even (S m) then tlo (S m) + 3 else - tlo (S m))%Z end.

Lemma div_ok : forall a d, (0 < d)%Z -> IZR (a / d) <= IZR a * / IZR d <= IZR (a / d) + 1.
Proof.
  intros a d H. pose proof (Z.mul_div_le a d H) as D1. pose proof (Z.mul_succ_div_gt a d H) as D2.
  assert (D : 0 < IZR d) by (apply IZR_lt; exact H).
  apply IZR_le in D1. rewrite mult_IZR in D1. apply IZR_lt in D2. rewrite mult_IZR, succ_IZR in D2.
  split.
  - apply Rmult_le_reg_l with (IZR d); [exact D|]. replace (IZR d * (IZR a * / IZR d)) with (IZR a) by (field; lra). exact D1.
  - apply Rmult_le_reg_l with (IZR d); [exact D|]. replace (IZR d * (IZR a * / IZR d)) with (IZR a) by (field; lra). lra.
Qed.

Lemma seq_ok : forall b i, (0 < b)%Z -> IZR big * Ratan_seq (/ IZR b) i = IZR big * / IZR (b ^ (2 * Z.of_nat i + 1) * (2 * Z.of_nat i + 1)).
Proof.
  intros b i H. unfold Ratan_seq. rewrite mult_IZR.
  replace (2 * Z.of_nat i + 1)%Z with (Z.of_nat (2 * i + 1)) by lia. rewrite <- pow_IZR, <- INR_IZR_INZ.
  assert (B : 0 < IZR b) by (apply IZR_lt; exact H). rewrite pow_inv.
  field. split; [apply Rgt_not_eq, lt_0_INR; lia|apply pow_nonzero; lra].
Qed.

Lemma pow_pos_lt : forall b i, (0 < b)%Z -> (0 < b ^ (2 * Z.of_nat i + 1) * (2 * Z.of_nat i + 1))%Z.
Proof. intros b i H. apply Z.mul_pos_pos; [apply Z.pow_pos_nonneg|]; lia. Qed.

Lemma term_ok : forall i, IZR (tlo i) <= IZR big * PI_2_3_7_tg i <= IZR (tlo i) + 3.
Proof.
  intro i. unfold PI_2_3_7_tg, tlo. rewrite plus_IZR, mult_IZR.
  pose proof (seq_ok 3 i ltac:(lia)) as E3. pose proof (seq_ok 7 i ltac:(lia)) as E7.
  pose proof (div_ok big (den3 i) (pow_pos_lt 3 i ltac:(lia))) as B3. pose proof (div_ok big (den7 i) (pow_pos_lt 7 i ltac:(lia))) as B7.
  unfold den3 in B3. unfold den7 in B7. rewrite <- E3 in B3. rewrite <- E7 in B7. fold (den3 i) in B3. fold (den7 i) in B7.
  rewrite Rmult_plus_distr_l. replace (IZR big * (2 * Ratan_seq (/ 3) i)) with (2 * (IZR big * Ratan_seq (/ 3) i)) by ring. lra.
Qed.

Lemma sums_ok : forall n, IZR (blo n) <= IZR big * sum_f_R0 (tg_alt PI_2_3_7_tg) n <= IZR (bhi n).
Proof.
  assert (A : forall i, IZR big * tg_alt PI_2_3_7_tg i = if Nat.even i then IZR big * PI_2_3_7_tg i else - (IZR big * PI_2_3_7_tg i)).
  { intro i. unfold tg_alt. destruct (Nat.even i) eqn:E.
    - apply Nat.even_spec in E. destruct E as [k ->]. rewrite pow_1_even. ring.
    - assert (O : Nat.odd i = true) by (rewrite <- Nat.negb_even, E; reflexivity). apply Nat.odd_spec in O. destruct O as [k ->].
      rewrite Nat.add_1_r, pow_1_odd. ring. }
  induction n as [|n IH].
  - cbn [sum_f_R0 blo bhi]. rewrite A. change (Nat.even 0) with true. cbv iota. rewrite plus_IZR. pose proof (term_ok 0). lra.
  - cbn [sum_f_R0 blo bhi]. rewrite Rmult_plus_distr_l, A, !plus_IZR. pose proof (term_ok (S n)) as T.
    destruct (Nat.even (S n)); rewrite ?opp_IZR, ?plus_IZR; lra.
Qed.

Lemma bounds_num : (314159265358979323846264338327950288 * 10 ^ 15 <= 4 * blo (S (2 * 22)))%Z /\ (4 * bhi (2 * 22) < 314159265358979323846264338327950289 * 10 ^ 15)%Z.
Proof. split; vm_compute; [discriminate|reflexivity]. Qed.

Lemma PI_36 : IZR 314159265358979323846264338327950288 <= PI * IZR (10 ^ 35) < IZR 314159265358979323846264338327950289.
Proof.
  destruct bounds_num as [N1 N2]. pose proof (PI_2_3_7_ineq 22) as [P1 P2].
  pose proof (sums_ok (S (2 * 22))) as [L _]. pose proof (sums_ok (2 * 22)) as [_ U].
  set (s1 := sum_f_R0 _ (S (2 * 22))) in *. set (s2 := sum_f_R0 _ (2 * 22)) in *.
  apply IZR_le in N1. apply IZR_lt in N2. rewrite !mult_IZR in N1, N2.
  assert (B : 0 < IZR big) by (apply IZR_lt; reflexivity).
  assert (E : IZR big = IZR (10 ^ 35) * IZR (10 ^ 15)) by (rewrite <- mult_IZR; reflexivity).
  assert (C : 0 < IZR (10 ^ 15)) by (apply IZR_lt; reflexivity).
  assert (Q1 : IZR big * s1 <= IZR big * (PI / 4)) by (apply Rmult_le_compat_l; lra).
  assert (Q2 : IZR big * (PI / 4) <= IZR big * s2) by (apply Rmult_le_compat_l; lra).
  split.
  - apply Rmult_le_reg_r with (IZR (10 ^ 15)); [exact C|]. replace (PI * IZR (10 ^ 35) * IZR (10 ^ 15)) with (4 * (IZR big * (PI / 4))) by (rewrite E; field). lra.
  - apply Rmult_lt_reg_r with (IZR (10 ^ 15)); [exact C|]. replace (PI * IZR (10 ^ 35) * IZR (10 ^ 15)) with (4 * (IZR big * (PI / 4))) by (rewrite E; field). lra.
Qed.

(** Any number of digits up to thirty-six. *)
Lemma PI_n : forall k, (k <= 35)%nat ->
  IZR (314159265358979323846264338327950288 / 10 ^ (35 - Z.of_nat k)) <= PI * 10 ^ k < IZR (314159265358979323846264338327950288 / 10 ^ (35 - Z.of_nat k)) + 1.
Proof.
  intros k H. destruct PI_36 as [L U]. set (K := 314159265358979323846264338327950288%Z) in *.
  set (d := (10 ^ (35 - Z.of_nat k))%Z). assert (D : (0 < d)%Z) by (apply Z.pow_pos_nonneg; lia).
  pose proof (Z.mul_div_le K d D) as D1. pose proof (Z.mul_succ_div_gt K d D) as D2.
  assert (D3 : (K + 1 <= d * Z.succ (K / d))%Z) by lia.
  apply IZR_le in D1. apply IZR_le in D3. rewrite mult_IZR in D1, D3. rewrite succ_IZR in D3.
  assert (DD : 0 < IZR d) by (apply IZR_lt; exact D).
  assert (E : IZR (10 ^ 35) = IZR d * 10 ^ k).
  { rewrite (pow_IZR 10 k), <- mult_IZR. f_equal. unfold d. rewrite <- Z.pow_add_r by lia. f_equal. lia. }
  rewrite E in L, U. change (314159265358979323846264338327950289)%Z with (K + 1)%Z in U. 
  replace (PI * (IZR d * 10 ^ k)) with (IZR d * (PI * 10 ^ k)) in L, U by ring.
  split.
  - apply Rmult_le_reg_l with (IZR d); [exact DD|]. lra.
  - apply Rmult_lt_reg_l with (IZR d); [exact DD|]. lra.
Qed.
