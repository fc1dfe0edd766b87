(** C123: the constant pi with a chosen number of digits. *)
From Coq Require Import ZArith QArith Reals Qreals List Bool Lia Lra.
Import ListNotations.
From Verif Require Import PiModel PiSpec PiProof PiProof2 PiProof3.
Open Scope R_scope.

(** The precisions for which the constant is right. *)
Definition good : list nat := [1; 2; 3; 4; 5; 6; 8; 9; 12; 13; 16; 17; 20; 21; 24; 25; 28; 29; 32; 34]%nat.

Definition digits36 : Z := 314159265358979323846264338327950288.
Definition head (n : nat) : Z := (digits36 / 10 ^ (35 - Z.of_nat (n - 1)))%Z.

Lemma first_digits_head : forall n q, (n <= 36)%nat -> (first_digits n q <-> q * inject_Z (10 ^ Z.of_nat (n - 1)) == inject_Z (head n))%Q.
Proof.
  intros n q Hn. pose proof (PI_n (n - 1) ltac:(lia)) as [P1 P2]. fold digits36 in P1, P2. fold (head n) in P1, P2.
  assert (E : Q2R (q * inject_Z (10 ^ Z.of_nat (n - 1)))%Q = Q2R q * 10 ^ (n - 1)).
  { rewrite Q2R_mult. f_equal. rewrite pow_IZR. unfold Q2R, inject_Z; cbn [Qnum Qden]. rewrite Rinv_1. ring. }
  assert (I : forall z, Q2R (inject_Z z) = IZR z) by (intro z; unfold Q2R, inject_Z; cbn [Qnum Qden]; rewrite Rinv_1; ring).
  split.
  - intros (m & M1 & M2 & M3). apply eqR_Qeq. rewrite E, M1, I. f_equal.
    assert (A : (m < head n + 1)%Z) by (apply lt_IZR; rewrite plus_IZR; lra).
    assert (B : (head n < m + 1)%Z) by (apply lt_IZR; rewrite plus_IZR; lra). lia.
  - intro H. exists (head n). apply Qeq_eqR in H. rewrite E, I in H. auto.
Qed.

Lemma unfold_7 : forall p, (7 <= p)%nat -> calculate_pi p =
  match turns p (start p) with None => None | Some st => Some (inject_Z (s_num st) / inject_Z (s_den st))%Q end.
Proof. intros p H. do 7 (destruct p as [|p]; [lia|]). reflexivity. Qed.

Definition small_ok (p : nat) : bool :=
  match calculate_pi p with
  | Some q => Bool.eqb (Qeq_bool (q * inject_Z (10 ^ Z.of_nat (p - 1))) (inject_Z (head p))) (existsb (Nat.eqb p) good)
  | None => false
  end.
Lemma smalls : forallb small_ok (seq 1 35) = true.
Proof. vm_compute. reflexivity. Qed.

Lemma good_in : forall p, existsb (Nat.eqb p) good = true <-> In p good.
Proof.
  intro p. rewrite existsb_exists. split.
  - intros (x & I & E). apply Nat.eqb_eq in E. subst x. exact I.
  - intro I. exists p. split; [exact I|apply Nat.eqb_refl].
Qed.

(** From thirty-six digits on the constant is greater than pi: the digits stop being right at the
    thirty-third. *)
Theorem C123_too_large : forall p q, (36 <= p)%nat -> calculate_pi p = Some q -> PI + 2 / 10 ^ 32 < Q2R q.
Proof.
  intros p q Hp E. rewrite unfold_7 in E by lia. destruct (turns p (start p)) as [st|] eqn:T; [|discriminate].
  injection E as <-. destruct (too_large p st Hp T) as [D G].
  assert (DR : 0 < IZR (s_den st)) by (apply IZR_lt; exact D).
  assert (EQ : Q2R (inject_Z (s_num st) / inject_Z (s_den st)) = IZR (s_num st) / IZR (s_den st)).
  { rewrite Q2R_div.
    - unfold Q2R, inject_Z; cbn [Qnum Qden]. rewrite Rinv_1. field. lra.
    - intro Z. apply Qeq_eqR in Z. unfold Q2R, inject_Z in Z; cbn [Qnum Qden] in Z. rewrite Rinv_1 in Z. lra. }
  rewrite EQ. apply IZR_le in G. rewrite !mult_IZR in G. destruct PI_36 as [_ U].
  assert (T35 : IZR (10 ^ 35) = 10 ^ 32 * 1000) by (rewrite (pow_IZR 10 32), <- mult_IZR; reflexivity).
  assert (T32 : 0 < 10 ^ 32) by (apply pow_lt; lra).
  rewrite T35 in G, U. apply Rmult_lt_reg_r with (10 ^ 32 * 1000); [lra|].
  apply Rlt_le_trans with (IZR 314159265358979323846264338327952880).
  - replace ((PI + 2 / 10 ^ 32) * (10 ^ 32 * 1000)) with (PI * (10 ^ 32 * 1000) + 2000) by (field; lra). lra.
  - apply Rmult_le_reg_r with (IZR (s_den st)); [exact DR|].
    replace (IZR (s_num st) / IZR (s_den st) * (10 ^ 32 * 1000) * IZR (s_den st)) with (IZR (s_num st) * (10 ^ 32 * 1000)) by (field; lra). exact G.
Qed.
Print Assumptions C123_too_large.

(** The constant asked for with p digits is pi cut after its p-th digit for twenty values of p only:
    with exactly those it is right. *)
Theorem C123_digits : forall p q, (1 <= p)%nat -> calculate_pi p = Some q -> (first_digits p q <-> In p good).
Proof.
  intros p q H E. destruct (le_lt_dec p 35) as [L|L].
  - rewrite first_digits_head by lia. pose proof smalls as C. rewrite forallb_forall in C. specialize (C p ltac:(apply in_seq; lia)).
    unfold small_ok in C. rewrite E in C. apply eqb_prop in C. rewrite <- good_in, <- C. apply iff_sym, Qeq_bool_iff.
  - pose proof (C123_too_large p q ltac:(lia) E) as G. split.
    + intros (m & M1 & M2 & _). exfalso. assert (T : 0 < 10 ^ (p - 1)) by (apply pow_lt; lra). assert (0 < 2 / 10 ^ 32) by (apply Rdiv_lt_0_compat; [lra|apply pow_lt; lra]). nra.
    + intro I. exfalso. cbn [good In] in I. lia.
Qed.
Print Assumptions C123_digits.

(** Up to 15339 digits no int overflows. *)
Theorem C123_defined : forall p, (1 <= p)%nat -> (Z.of_nat p <= 15339)%Z -> exists q, calculate_pi p = Some q.
Proof.
  intros p H1 H2. destruct (le_lt_dec 7 p) as [L|L].
  - rewrite unfold_7 by exact L. destruct (start_defined p H1 H2) as [st ->]. eexists. reflexivity.
  - do 7 (destruct p as [|p]; [try lia; eexists; reflexivity|]). lia.
Qed.
Print Assumptions C123_defined.

(** Seven digits: 3.141005. *)
Theorem C123_seven_refuted : exists q, calculate_pi 7 = Some q /\ Q2R q = 3141005 / 1000000 /\ ~ first_digits 7 q.
Proof.
  destruct (C123_defined 7 ltac:(lia) ltac:(lia)) as [q E]. exists q. split; [exact E|]. split.
  - vm_compute in E. injection E as <-. unfold Q2R; cbn [Qnum Qden]. field.
  - rewrite (C123_digits 7 q ltac:(lia) E). cbn [good In]. lia.
Qed.
Print Assumptions C123_seven_refuted.

(** The assertion in the code allows fewer than 54900 digits; with 20000 an int overflows. *)
Lemma repeat_split : forall n, (16 <= n)%nat -> repeat 2000%Z n = repeat 2000%Z 16 ++ repeat 2000%Z (n - 16).
Proof. intros n H. rewrite <- repeat_app. f_equal. lia. Qed.
Definition front : list Z := [0; 120426; 120781; 51104; 51407; 51701; 121984; 122270; 122555; 52849; 123124; 123408; 123692; 123976; 124260; 124544; 124828]%Z.
Lemma pass_1 : pass 10000 70000 0 (0%Z :: repeat 2000%Z 16) = Some (front, 19875172%Z).
Proof. vm_compute. reflexivity. Qed.
Lemma pass_2 : pass 10000 69986 0 (skipn 14 front) = None.
Proof. vm_compute. reflexivity. Qed.
Lemma pass_2_app : forall g, pass 10000 69986 0 (skipn 14 (front ++ g)) = None.
Proof.
  intro g. rewrite skipn_app. destruct (pass 10000 69986 0 (skipn 14 front ++ skipn (14 - length front) g)) as [[f d]|] eqn:P; [|reflexivity].
  apply pass_app in P. destruct P as (f1 & d1 & f2 & P & _). rewrite pass_2 in P. discriminate.
Qed.
Lemma first_turn : forall p s1, Z.of_nat p = 20000%Z -> Z.of_nat (size p) = 70000%Z -> turn (start p) = Some s1 ->
  exists g, s_f s1 = skipn 14 (front ++ g) /\ s_c s1 = 69986%Z /\ s_digits s1 = 19996%Z.
Proof.
  intros p s1 Hp Hs T1. unfold turn, start in T1. cbn [s_f s_c s_e] in T1. rewrite Hs in T1.
  rewrite (repeat_split (size p - 1)) in T1 by lia. rewrite app_comm_cons in T1.
  destruct (pass 10000 70000 0 ((0%Z :: repeat 2000%Z 16) ++ repeat 2000%Z (size p - 1 - 16))) as [[f d]|] eqn:P; [|discriminate].
  apply pass_app in P. destruct P as (f1 & d1 & f2 & P & ->). rewrite pass_1 in P.
  assert (F : f1 = front) by congruence. subst f1. exists f2.
  unfold store in T1. cbn [s_digits s_num s_den s_first] in T1. rewrite Hp in T1. change (4 <=? 20000)%Z with true in T1. cbv iota in T1.
  match type of T1 with Some ?s = _ => assert (E : s1 = s) by congruence end. rewrite E. cbn [s_f s_c s_digits]. auto.
Qed.

Theorem C123_overflow_refuted : calculate_pi (Z.to_nat 20000) = None.
Proof.
  set (p := Z.to_nat 20000). assert (Hp : Z.of_nat p = 20000%Z) by (unfold p; apply Z2Nat.id; discriminate). clearbody p.
  assert (Hs : Z.of_nat (size p) = 70000%Z) by (unfold size; rewrite Nat2Z.inj_div, Nat2Z.inj_mul, Hp; reflexivity).
  assert (L7 : (7 <= p)%nat) by lia. rewrite unfold_7 by exact L7.
  destruct (turns p (start p)) as [st'|] eqn:T; [|reflexivity]. exfalso.
  assert (T' : turns (S (S (p - 2))) (start p) = Some st') by (rewrite <- T; f_equal; lia). clear T.
  apply turns_unfold in T'; [|unfold start; cbn [s_c]; lia|unfold start; cbn [s_digits]; lia].
  destruct T' as (s1 & T1 & T). destruct (first_turn p s1 Hp Hs T1) as (g & F & Hc & Hd).
  apply turns_unfold in T; [|rewrite Hc; lia|rewrite Hd; lia]. destruct T as (s2 & T2 & _).
  unfold turn in T2. rewrite F, Hc, pass_2_app in T2. discriminate.
Qed.
Print Assumptions C123_overflow_refuted.

(** The theorems apply: nine digits are right, and forty digits are not. *)
Example C123_witness : (exists q, calculate_pi 9 = Some q /\ Q2R q = 314159265 / 100000000 /\ first_digits 9 q) /\
  (exists q, calculate_pi 40 = Some q /\ PI + 2 / 10 ^ 32 < Q2R q).
Proof.
  split.
  - destruct (C123_defined 9 ltac:(lia) ltac:(lia)) as [q E]. exists q. split; [exact E|]. split.
    + vm_compute in E. injection E as <-. unfold Q2R; cbn [Qnum Qden]. field.
    + apply (C123_digits 9 q ltac:(lia) E). cbn [good In]. lia.
  - destruct (C123_defined 40 ltac:(lia) ltac:(lia)) as [q E]. exists q. split; [exact E|]. apply (C123_too_large 40 q); [lia|exact E].
Qed.
