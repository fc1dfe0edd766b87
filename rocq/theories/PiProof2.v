From Coq Require Import ZArith QArith List Bool Lia Lqa.
Import ListNotations.
From Verif Require Import PiModel PiProof.
Open Scope Z_scope.

(** ** The weights and the starting value in units of 10^-50 *)
Definition unit50 : Z := 10 ^ 50.
Fixpoint aw (n : nat) : Z := match n with O => unit50 | S n => aw n * mul n / (2 * Z.of_nat n + 1) end.

Lemma aw_nonneg : forall n, 0 <= aw n.
Proof.
  induction n as [|n IH]; [unfold aw, unit50; lia|]. cbn [aw]. pose proof (mul_pos n).
  apply Z.div_pos; nia.
Qed.

Lemma aw_ok : forall n, (inject_Z (aw n) <= inject_Z unit50 * wt n <= inject_Z (aw n) + 2)%Q.
Proof.
  assert (A1 : forall n, (inject_Z (aw (S n)) <= inject_Z unit50 * wt (S n) <= inject_Z (aw (S n)) + 2)%Q).
  { induction n as [|n IH].
    - change (aw 1) with (unit50 * 1 / 1). rewrite Z.div_1_r, Z.mul_1_r.
      assert (E : (wt 1 == 1)%Q) by reflexivity. rewrite E. lra.
    - set (m := S n) in *. assert (Hm : 1 <= Z.of_nat m) by (unfold m; lia).
      pose proof (wt_S m) as W. unfold u in W.
      replace (mul m) with (Z.of_nat m) in W by (unfold m; reflexivity).
      change (aw (S m)) with (aw m * mul m / (2 * Z.of_nat m + 1)). replace (mul m) with (Z.of_nat m) by (unfold m; reflexivity).
      set (k := Z.of_nat m) in *. pose proof (aw_nonneg m) as P.
      set (g := 2 * k + 1) in *. assert (Hg : 0 < g) by lia.
      pose proof (Z.mul_div_le (aw m * k) g Hg) as D1. pose proof (Z.mul_succ_div_gt (aw m * k) g Hg) as D2.
      set (z := aw m * k / g) in *.
      assert (G : (0 < inject_Z g)%Q) by (change 0%Q with (inject_Z 0); rewrite <- Zlt_Qlt; exact Hg).
      assert (K : (1 <= inject_Z k)%Q) by (apply inj_le in Hm; exact Hm).
      assert (GK : (inject_Z g == 2 * inject_Z k + 1)%Q) by (unfold g; rewrite inject_Z_plus, inject_Z_mult; reflexivity).
      apply inj_le in D1. assert (D2' : aw m * k <= g * z + g) by lia. apply inj_le in D2'.
      rewrite inject_Z_plus, !inject_Z_mult in D2'. rewrite !inject_Z_mult in D1.
      set (A := inject_Z (aw m)) in *. set (Zq := inject_Z z) in *. set (G' := inject_Z g) in *. set (K' := inject_Z k) in *. set (U := inject_Z unit50) in *.
      set (x := wt m) in *. set (y := wt (S m)) in *.
      assert (E : (G' * (U * y) == K' * (U * x))%Q).
      { transitivity (U * (G' * y))%Q; [ring|]. rewrite W. ring. }
      destruct IH as [I1 I2]. split.
      + apply (Qmult_le_l _ _ G' G). rewrite E. assert (K' * A <= K' * (U * x))%Q by (apply Qmult_le_l; lra). lra.
      + apply (Qmult_le_l _ _ G' G). rewrite E. assert (K' * (U * x) <= K' * (A + 2))%Q by (apply Qmult_le_l; lra). lra. }
  intros [|n]; [|apply A1]. change (aw 0) with unit50. change (wt 0) with 1%Q. lra.
Qed.

Definition reps (m : nat) : Q := val (repeat 2000 m).
Lemma reps_S : forall m, (reps (S m) == 2000 * wt (S m) + reps m)%Q.
Proof. intro m. unfold reps. cbn [repeat val]. rewrite repeat_length. change (inject_Z 2000) with 2000%Q. ring. Qed.
Lemma reps_mono : forall m n, (m <= n)%nat -> (reps m <= reps n)%Q /\ (reps n + 4000 * wt (S n) <= reps m + 4000 * wt (S m))%Q.
Proof.
  intros m n H. induction H as [|n H [IH1 IH2]]; [split; lra|].
  pose proof (reps_S n) as E. pose proof (wt_half n) as W. pose proof (wt_pos (S n)). split; lra.
Qed.
Fixpoint asum (m : nat) : Z := match m with O => 0 | S m => 2000 * aw (S m) + asum m end.
Lemma asum_ok : forall m, (inject_Z (asum m) <= inject_Z unit50 * reps m <= inject_Z (asum m) + 4000 * inject_Z (Z.of_nat m))%Q.
Proof.
  induction m as [|m [IH1 IH2]].
  - unfold reps. cbn [repeat val asum]. change (inject_Z (Z.of_nat 0)) with 0%Q. change (inject_Z 0) with 0%Q. lra.
  - pose proof (reps_S m) as E. pose proof (aw_ok (S m)) as [W1 W2].
    change (asum (S m)) with (2000 * aw (S m) + asum m). rewrite inject_Z_plus, inject_Z_mult. change (inject_Z 2000) with 2000%Q.
    replace (Z.of_nat (S m)) with (Z.of_nat m + 1) by lia. rewrite (inject_Z_plus (Z.of_nat m)). change (inject_Z 1) with 1%Q.
    assert (E' : (inject_Z unit50 * reps (S m) == 2000 * (inject_Z unit50 * wt (S m)) + inject_Z unit50 * reps m)%Q) by (rewrite E; ring).
    rewrite E'. split; lra.
Qed.

(** ** Bounds after k turns, in the same unit *)
Definition UB (n : nat) : Z := 2 * mul n * (aw n + 2).
Lemma UB_ok : forall n, (inject_Z unit50 * (2 * u n) <= inject_Z (UB n))%Q.
Proof.
  intro n. unfold UB, u. rewrite !inject_Z_mult, inject_Z_plus. change (inject_Z 2) with 2%Q. pose proof (aw_ok n) as [_ A].
  assert (M : (0 <= inject_Z (mul n))%Q) by (apply inj_nonneg; pose proof (mul_pos n); lia).
  assert (inject_Z (mul n) * (inject_Z unit50 * wt n) <= inject_Z (mul n) * (inject_Z (aw n) + 2))%Q.
  { rewrite !(Qmult_comm (inject_Z (mul n))). apply Qmult_le_compat_r; assumption. }
  lra.
Qed.
(** The starting value and the corrections, computed. *)
Fixpoint aws (n : nat) : Z * Z := match n with O => (unit50, 0) | S n => let '(a, s) := aws n in let a' := a * mul n / (2 * Z.of_nat n + 1) in (a', 2000 * a' + s) end.
Lemma aws_ok : forall n, aws n = (aw n, asum n).
Proof. induction n as [|n IH]; [reflexivity|]. cbn [aws]. rewrite IH. reflexivity. Qed.
Definition LO0 : Z := 314159265358979323846264338327950288418976651513416000.
Definition HI0 : Z := 314159265358979323846264338327950288419719843551436000.
Definition UBs : list Z :=
  [ 0; 723334419104493056; 11087466979338825011860; 168217512655707650488989216; 2516690297530768412296441944200;
    36896789859938961151206126527969456; 523916736148008495778005993892048662144; 7019121834351931949278405491848595539709672;
    81681897269459525483216424123679474332321283476; 200000000000000000000000000000000000000000000000004 ].
Lemma aw_fst : forall n, aw n = fst (aws n).
Proof. intro n. rewrite aws_ok. reflexivity. Qed.
Lemma asum_snd : forall n, asum n = snd (aws n).
Proof. intro n. rewrite aws_ok. reflexivity. Qed.
Lemma aws_125 : snd (aws 125) = LO0.
Proof. vm_compute. reflexivity. Qed.
Lemma aws_126 : fst (aws 126) = 185798009378.
Proof. vm_compute. reflexivity. Qed.
Lemma HI0_ok : LO0 + 500000 + 4000 * (185798009378 + 2) = HI0.
Proof. reflexivity. Qed.
Lemma LO0_ok : asum 125 = LO0 /\ asum 125 + 500000 + 4000 * (aw 126 + 2) = HI0.
Proof. rewrite asum_snd, aw_fst, aws_125, aws_126. split; [reflexivity|exact HI0_ok]. Qed.
Lemma UBs_table : forallb (fun k => 2 * mul (126 - 14 * k) * (fst (aws (126 - 14 * k)) + 2) =? nth k UBs 0) (seq 1 9) = true.
Proof. vm_compute. reflexivity. Qed.
Lemma UBs_ok : forall k, (1 <= k <= 9)%nat -> UB (126 - 14 * k) = nth k UBs 0.
Proof.
  intros k H. pose proof UBs_table as C. rewrite forallb_forall in C. specialize (C k ltac:(apply in_seq; lia)).
  rewrite aws_ok in C. apply Z.eqb_eq in C. exact C.
Qed.
Fixpoint LO (k : nat) : Z := match k with O => LO0 | S k => 10000 * LO k - nth (S k) UBs 0 end.
Fixpoint HI (k : nat) : Z := match k with O => HI0 | S k => 10000 * HI k end.
(** The first 4 k digits of pi. *)
Definition M (k : nat) : Z := 314159265358979323846264338327950288 / 10000 ^ (9 - Z.of_nat k).
Definition check (k : nat) : bool := (M k * (10000 * unit50) <=? LO k - 2 * unit50) && (HI k <? (M k + 1) * (10000 * unit50)).
Lemma checks : forallb check (seq 1 9) = true.
Proof. vm_compute. reflexivity. Qed.
Lemma checked : forall k, (1 <= k <= 9)%nat -> M k * (10000 * unit50) <= LO k - 2 * unit50 /\ HI k < (M k + 1) * (10000 * unit50).
Proof.
  intros k H. pose proof checks as C. rewrite forallb_forall in C. specialize (C k ltac:(apply in_seq; lia)).
  unfold check in C. apply andb_true_iff in C. destruct C as [C1 C2]. apply Z.leb_le in C1. apply Z.ltb_lt in C2. split; assumption.
Qed.
Definition step_ok (k : nat) : bool := let x := M (S k) - M k * 10000 in (1000 <=? x) && (x <? 10000).
Lemma steps_ok : forall k, (k < 8)%nat -> 1000 <= M (S k) - M k * 10000 < 10000.
Proof.
  assert (C : forallb step_ok (seq 0 8) = true) by (vm_compute; reflexivity).
  intros k H. rewrite forallb_forall in C. specialize (C k ltac:(apply in_seq; lia)). unfold step_ok in C.
  apply andb_true_iff in C. destruct C as [C1 C2]. apply Z.leb_le in C1. apply Z.ltb_lt in C2. split; assumption.
Qed.

Record inv (p k : nat) (st : state) : Prop := {
  i_len : length (s_f st) = (size p - 14 * k)%nat;
  i_c : s_c st = Z.of_nat (size p - 14 * k);
  i_f : nonneg (s_f st);
  i_e : 0 <= s_e st;
  i_num : s_num st = M k;
  i_den : s_den st = 10 ^ (4 * Z.of_nat k - (if (k =? 0)%nat then 0 else 1));
  i_dig : s_digits st = Z.of_nat p - 4 * Z.of_nat k;
  i_first : s_first st = (k =? 0)%nat;
  i_lo : (inject_Z (LO k) <= inject_Z unit50 * (inject_Z (M k * 10000 + s_e st) + val (s_f st)))%Q;
  i_hi : (inject_Z unit50 * (inject_Z (M k * 10000 + s_e st) + val (s_f st)) <= inject_Z (HI k))%Q }.

Lemma size_ge : forall p, (36 <= p)%nat -> (126 <= size p)%nat.
Proof. intros p H. unfold size. apply Nat.div_le_lower_bound; lia. Qed.

Lemma inv_start : forall p, (36 <= p)%nat -> inv p 0 (start p).
Proof.
  intros p H. pose proof (size_ge p H) as S0. pose proof (start_length p ltac:(lia)) as L.
  assert (V : (inject_Z (M 0 * 10000 + s_e (start p)) + val (s_f (start p)) == reps (size p - 1))%Q).
  { change (M 0 * 10000 + s_e (start p)) with 0. unfold start; cbn [s_f val]. change (inject_Z 0) with 0%Q. unfold reps. ring. }
  pose proof (asum_ok 125) as [A1 A2]. pose proof (aw_ok 126) as [_ A3].
  destruct (reps_mono 125 (size p - 1) ltac:(lia)) as [R1 R2].
  assert (U : (0 < inject_Z unit50)%Q) by reflexivity.
  constructor.
  - rewrite L. lia.
  - unfold start; cbn [s_c]. f_equal. lia.
  - apply start_nonneg.
  - cbn. lia.
  - reflexivity.
  - reflexivity.
  - unfold start; cbn [s_digits]. lia.
  - reflexivity.
  - rewrite V. change (LO 0) with LO0. destruct LO0_ok as [<- _]. eapply Qle_trans; [exact A1|]. apply Qmult_le_l; assumption.
  - rewrite V. change (HI 0) with HI0. destruct LO0_ok as [_ <-].
    rewrite !inject_Z_plus, inject_Z_mult, inject_Z_plus.
    pose proof (wt_pos (S (size p - 1))) as W.
    change (inject_Z (Z.of_nat 125)) with 125%Q in A2. change (inject_Z 500000) with 500000%Q. change (inject_Z 4000) with 4000%Q. change (inject_Z 2) with 2%Q.
    clear V A1 L R1. revert A2 A3 R2 W U.
    generalize (inject_Z (asum 125)) (inject_Z (aw 126)) (reps 125) (wt 126) (reps (size p - 1)) (wt (S (size p - 1))) (inject_Z unit50).
    intros a1 a2 r1 w1 r2 w2 Un A2 A3 R2 W U.
    assert (Q1 : (Un * r2 <= Un * (r1 + 4000 * w1))%Q).
    { apply Qmult_le_l; [exact U|]. lra. }
    lra.
Qed.

Lemma turn_inv : forall p k st st', (36 <= p)%nat -> (k < 9)%nat -> inv p k st -> turn st = Some st' ->
  exists x, x = M (S k) - M k * 10000 /\ (s_num st', s_den st', s_digits st', s_first st') = store st (pad x) /\
    length (s_f st') = (size p - 14 * S k)%nat /\ s_c st' = s_c st - 14 /\ inrange (s_f st') /\ 0 <= s_e st' /\
    (inject_Z (LO (S k)) <= inject_Z unit50 * (inject_Z (M (S k) * 10000 + s_e st') + val (s_f st')))%Q /\
    (inject_Z unit50 * (inject_Z (M (S k) * 10000 + s_e st') + val (s_f st')) <= inject_Z (HI (S k)))%Q.
Proof.
  intros p k st st' Hp Hk I T. pose proof (size_ge p Hp) as S0.
  set (V := (inject_Z (M k * 10000 + s_e st) + val (s_f st))%Q).
  destruct (turn_step st st' (M k) V V (size p - 14 * k) T (i_len _ _ _ I) (i_c _ _ _ I) (i_f _ _ _ I) (i_e _ _ _ I)) as (x & Hx & A1 & A2 & A3 & A4 & A5 & B1 & B2).
  { split; apply Qle_refl. }
  assert (U : (0 < inject_Z unit50)%Q) by reflexivity.
  pose proof (i_lo _ _ _ I) as L. pose proof (i_hi _ _ _ I) as H. fold V in L, H.
  set (W := (inject_Z ((M k * 10000 + x) * 10000 + s_e st') + val (s_f st'))%Q) in *.
  assert (L' : (inject_Z (LO (S k)) <= inject_Z unit50 * W)%Q).
  { change (LO (S k)) with (10000 * LO k - nth (S k) UBs 0). rewrite <- UBs_ok by lia. unfold Zminus. rewrite inject_Z_plus, inject_Z_mult, inject_Z_opp. change (inject_Z 10000) with 10000%Q.
    pose proof (UB_ok (126 - 14 * S k)) as UBk.
    assert (UD : (u (size p - 14 * k - 14) <= u (126 - 14 * S k))%Q) by (apply u_dec_le; lia).
    assert (Q1 : (inject_Z unit50 * (10000 * V - 2 * u (size p - 14 * k - 14)) <= inject_Z unit50 * W)%Q) by (apply Qmult_le_l; assumption).
    assert (Q2 : (inject_Z unit50 * u (size p - 14 * k - 14) <= inject_Z unit50 * u (126 - 14 * S k))%Q) by (apply Qmult_le_l; assumption).
    setoid_replace (inject_Z unit50 * (10000 * V - 2 * u (size p - 14 * k - 14)))%Q with (10000 * (inject_Z unit50 * V) - 2 * (inject_Z unit50 * u (size p - 14 * k - 14)))%Q in Q1 by ring.
    setoid_replace (inject_Z unit50 * (2 * u (126 - 14 * S k)))%Q with (2 * (inject_Z unit50 * u (126 - 14 * S k)))%Q in UBk by ring.
    lra. }
  assert (H' : (inject_Z unit50 * W <= inject_Z (HI (S k)))%Q).
  { change (HI (S k)) with (10000 * HI k). rewrite inject_Z_mult. change (inject_Z 10000) with 10000%Q.
    assert (Q1 : (inject_Z unit50 * W <= inject_Z unit50 * (10000 * V))%Q) by (apply Qmult_le_l; assumption).
    setoid_replace (inject_Z unit50 * (10000 * V))%Q with (10000 * (inject_Z unit50 * V))%Q in Q1 by ring. lra. }
  assert (N : M k * 10000 + x = M (S k)).
  { destruct (checked (S k) ltac:(lia)) as [C1 C2].
    pose proof (val_le_2 _ A3) as V2. pose proof (val_nonneg _ (inrange_nonneg _ A3)) as V0.
    set (J := (M k * 10000 + x) * 10000 + s_e st') in *.
    assert (J1 : LO (S k) - 2 * unit50 <= unit50 * J).
    { rewrite Zle_Qle. unfold Zminus. rewrite inject_Z_plus, inject_Z_opp, !inject_Z_mult. change (inject_Z 2) with 2%Q.
      assert (Q1 : (inject_Z unit50 * W <= inject_Z unit50 * (inject_Z J + 2))%Q) by (apply Qmult_le_l; [exact U|unfold W; lra]).
      setoid_replace (inject_Z unit50 * (inject_Z J + 2))%Q with (inject_Z unit50 * inject_Z J + 2 * inject_Z unit50)%Q in Q1 by ring. lra. }
    assert (J2 : unit50 * J <= HI (S k)).
    { rewrite Zle_Qle. rewrite !inject_Z_mult.
      assert (Q1 : (inject_Z unit50 * inject_Z J <= inject_Z unit50 * W)%Q) by (apply Qmult_le_l; [exact U|unfold W; lra]). lra. }
    assert (P50 : 0 < unit50) by reflexivity.
    assert (J3 : M (S k) * 10000 <= J) by nia. assert (J4 : J < (M (S k) + 1) * 10000) by nia.
    unfold J in J3, J4. lia. }
  exists x. split; [lia|]. split; [exact A5|]. split; [rewrite A2; lia|]. split; [exact A1|]. split; [exact A3|]. split; [lia|].
  rewrite <- N. split; assumption.
Qed.

Lemma inv_step : forall p k st st', (36 <= p)%nat -> (k < 8)%nat -> inv p k st -> turn st = Some st' -> inv p (S k) st'.
Proof.
  intros p k st st' Hp Hk I T. destruct (turn_inv p k st st' Hp ltac:(lia) I T) as (x & Ex & A1 & A2 & A3 & A4 & A5 & A6 & A7).
  pose proof (size_ge p Hp) as S0. pose proof (steps_ok k Hk) as X. rewrite <- Ex in X.
  assert (P : pad x = x).
  { unfold pad. destruct (Z.ltb_spec x 10); [lia|]. destruct (Z.ltb_spec x 100); [lia|]. destruct (Z.ltb_spec x 1000); [lia|reflexivity]. }
  rewrite P in A1. unfold store in A1. rewrite (i_dig _ _ _ I) in A1.
  destruct (Z.leb_spec 4 (Z.of_nat p - 4 * Z.of_nat k)) as [G|G]; [|lia].
  assert (B1 : s_num st' = s_num st * 10000 + x) by congruence.
  assert (B2 : s_den st' = if s_first st then s_den st * 1000 else s_den st * 10000) by congruence.
  assert (B3 : s_digits st' = Z.of_nat p - 4 * Z.of_nat k - 4) by congruence.
  assert (B4 : s_first st' = false) by congruence. clear A1.
  constructor; try assumption.
  - rewrite A3, (i_c _ _ _ I). lia.
  - apply inrange_nonneg, A4.
  - rewrite B1, (i_num _ _ _ I). lia.
  - rewrite B2, (i_first _ _ _ I), (i_den _ _ _ I). destruct k as [|k]; [reflexivity|]. cbn [Nat.eqb].
    rewrite <- (Z.pow_add_r 10 _ 4) by lia. f_equal. lia.
  - rewrite B3. lia.
Qed.

Lemma turns_unfold : forall fuel st st', 0 < s_c st -> 0 < s_digits st -> turns (S fuel) st = Some st' ->
  exists s1, turn st = Some s1 /\ turns fuel s1 = Some st'.
Proof.
  intros fuel st st' H1 H2 E. cbn [turns] in E. destruct (Z.ltb_spec 0 (s_c st)); [|lia]. destruct (Z.ltb_spec 0 (s_digits st)); [|lia].
  cbn [andb] in E. destruct (turn st) as [s1|]; [|discriminate]. exists s1. auto.
Qed.

Lemma reach : forall p n st', (36 <= p)%nat -> turns p (start p) = Some st' -> (n <= 8)%nat ->
  exists st, inv p n st /\ turns (p - n) st = Some st'.
Proof.
  intros p n st' Hp E. induction n as [|n IH]; intro Hn.
  - exists (start p). rewrite Nat.sub_0_r. split; [apply inv_start, Hp|exact E].
  - destruct IH as (st & I & E'); [lia|]. pose proof (size_ge p Hp).
    replace (p - n)%nat with (S (p - S n)) in E' by lia.
    apply turns_unfold in E'; [|rewrite (i_c _ _ _ I); lia|rewrite (i_dig _ _ _ I); lia].
    destruct E' as (s1 & T & E1). exists s1. split; [eapply inv_step; [exact Hp|lia|exact I|exact T]|exact E1].
Qed.

(** From precision 36 on: the ninth group of digits, 0288, is stored as 2880. *)
Lemma too_large : forall p st, (36 <= p)%nat -> turns p (start p) = Some st ->
  0 < s_den st /\ 314159265358979323846264338327952880 * s_den st <= s_num st * 10 ^ 35.
Proof.
  intros p st' Hp E. destruct (reach p 8 st' Hp E ltac:(lia)) as (st & I & E'). pose proof (size_ge p Hp) as S0.
  replace (p - 8)%nat with (S (p - 9)) in E' by lia.
  apply turns_unfold in E'; [|rewrite (i_c _ _ _ I); lia|rewrite (i_dig _ _ _ I); lia].
  destruct E' as (s1 & T & E1).
  destruct (turn_inv p 8 st s1 Hp ltac:(lia) I T) as (x & Ex & A1 & A2 & A3 & A4 & A5 & _).
  assert (X : x = 288) by (rewrite Ex; vm_compute; reflexivity). subst x. rewrite X in A1. change (pad 288) with 2880 in A1.
  unfold store in A1. rewrite (i_dig _ _ _ I) in A1.
  destruct (Z.leb_spec 4 (Z.of_nat p - 4 * Z.of_nat 8)) as [G|G]; [|lia].
  injection A1 as B1 B2 B3 B4. rewrite (i_num _ _ _ I) in B1. rewrite (i_first _ _ _ I), (i_den _ _ _ I) in B2.
  assert (B1' : s_num s1 = 314159265358979323846264338327952880) by (rewrite B1; vm_compute; reflexivity).
  assert (B2' : s_den s1 = 10 ^ 35) by (rewrite B2; vm_compute; reflexivity).
  destruct (turns_grow (p - 9) s1 st') as [G1 G2]; [|exact E1|].
  - split; [apply inrange_nonneg, A4|]. split; [exact A5|]. split; [rewrite B2'; reflexivity|]. split; [rewrite B1'; discriminate|].
    intro Hc. rewrite A3, A2, (i_c _ _ _ I) in *. lia.
  - split; [exact G1|]. rewrite B1', B2' in G2. exact G2.
Qed.
