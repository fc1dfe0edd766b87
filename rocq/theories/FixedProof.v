From Verif Require Import Base FixedModel FixedSpec.
From Coq Require Import Qabs Qfield.

Lemma factor_pos : forall s, proper s -> (1 <= factor s)%Z.
Proof.
  intros [r e|e|e] P; cbn in *.
  - pose proof (Z.pow_pos_nonneg r e). lia.
  - pose proof (Z.pow_pos_nonneg 2 e). lia.
  - pose proof (Z.pow_pos_nonneg 2 e). lia.
Qed.
Lemma inj_pos : forall z, (1 <= z)%Z -> 0 < inject_Z z.
Proof. intros z H. change 0 with (inject_Z 0). rewrite <- Zlt_Qlt. lia. Qed.
Lemma value_eq : forall s m, proper s -> value s m * inject_Z (factor s) == inject_Z m.
Proof. intros s m P. pose proof (inj_pos _ (factor_pos s P)). unfold value. field. lra. Qed.
Lemma ulp_eq : forall s, proper s -> ulp s * inject_Z (factor s) == 1.
Proof. intros s P. pose proof (inj_pos _ (factor_pos s P)). unfold ulp. field. lra. Qed.

Section Units.
Variable s : scaling.
Hypothesis P : proper s.
Let F : Q := inject_Z (factor s).
Lemma Fpos : 0 < F.
Proof. apply inj_pos, factor_pos, P. Qed.
Lemma down_iff : forall e m, rounded_down s e m <-> inject_Z m <= e * F < inject_Z m + 1.
Proof.
  intros e m. pose proof Fpos as K. pose proof (value_eq s m P) as V. pose proof (ulp_eq s P) as U. fold F in V, U.
  unfold rounded_down. rewrite <- V. rewrite <- U. setoid_replace (value s m * F + ulp s * F) with ((value s m + ulp s) * F) by ring.
  rewrite Qmult_le_r, Qmult_lt_r by exact K. tauto.
Qed.
Lemma up_iff : forall e m, rounded_up s e m <-> inject_Z m - 1 < e * F <= inject_Z m.
Proof.
  intros e m. pose proof Fpos as K. pose proof (value_eq s m P) as V. pose proof (ulp_eq s P) as U. fold F in V, U.
  unfold rounded_up. rewrite <- V. rewrite <- U. setoid_replace (value s m * F - ulp s * F) with ((value s m - ulp s) * F) by ring.
  rewrite Qmult_le_r, Qmult_lt_r by exact K. tauto.
Qed.
Lemma sign_iff : forall e, (0 <= e <-> 0 <= e * F) /\ (e <= 0 <-> e * F <= 0).
Proof.
  intro e. pose proof Fpos as K. split.
  - rewrite <- (Qmult_le_r 0 e F K). setoid_replace (0 * F) with 0 by ring. tauto.
  - rewrite <- (Qmult_le_r e 0 F K). setoid_replace (0 * F) with 0 by ring. tauto.
Qed.
Lemma trunc_iff : forall e m, truncated s e m <->
  ((0 <= e * F -> inject_Z m <= e * F < inject_Z m + 1) /\ (e * F <= 0 -> inject_Z m - 1 < e * F <= inject_Z m)).
Proof.
  intros e m. unfold truncated. rewrite down_iff, up_iff. destruct (sign_iff e) as [A B]. rewrite A, B. tauto.
Qed.
End Units.

(** Rounding an exact rational to an integer is unique. *)
Lemma inj_lt1 : forall a b, inject_Z a < inject_Z b + 1 -> (a <= b)%Z.
Proof. intros a b H. change 1 with (inject_Z 1) in H. rewrite <- inject_Z_plus, <- Zlt_Qlt in H. lia. Qed.
Lemma down_unique : forall q a b, inject_Z a <= q < inject_Z a + 1 -> inject_Z b <= q < inject_Z b + 1 -> a = b.
Proof. intros q a b [A1 A2] [B1 B2]. apply Z.le_antisymm; apply inj_lt1; lra. Qed.
Lemma up_unique : forall q a b, inject_Z a - 1 < q <= inject_Z a -> inject_Z b - 1 < q <= inject_Z b -> a = b.
Proof. intros q a b [A1 A2] [B1 B2]. apply Z.le_antisymm; apply inj_lt1; lra. Qed.
Definition trunc_int (q : Q) (a : Z) : Prop :=
  (0 <= q -> inject_Z a <= q < inject_Z a + 1) /\ (q <= 0 -> inject_Z a - 1 < q <= inject_Z a).
Lemma trunc_unique : forall q a b, trunc_int q a -> trunc_int q b -> a = b.
Proof.
  intros q a b [A1 A2] [B1 B2]. destruct (Qlt_le_dec q 0) as [H|H].
  - apply (up_unique q); [apply A2|apply B2]; lra.
  - apply (down_unique q); auto.
Qed.
Lemma quot_down : forall n d, (0 < d)%Z -> (0 <= n)%Z -> inject_Z (Z.quot n d) <= inject_Z n / inject_Z d < inject_Z (Z.quot n d) + 1.
Proof.
  intros n d D N. assert (K : 0 < inject_Z d) by (apply inj_pos; lia).
  pose proof (Z.quot_rem' n d) as E. pose proof (Z.rem_bound_pos n d N D) as R.
  assert (A : inject_Z n / inject_Z d * inject_Z d == inject_Z n) by (field; lra).
  split.
  - apply (Qmult_le_r _ _ (inject_Z d) K). rewrite A, <- inject_Z_mult, <- Zle_Qle. nia.
  - apply (Qmult_lt_r _ _ (inject_Z d) K). rewrite A. change 1 with (inject_Z 1). rewrite <- inject_Z_plus, <- inject_Z_mult, <- Zlt_Qlt. nia.
Qed.
Lemma div_neg : forall n d, ~ d == 0 -> (- n) / d == - (n / d).
Proof. intros. field. assumption. Qed.
Lemma quot_trunc_pos : forall n d, (0 < d)%Z -> trunc_int (inject_Z n / inject_Z d) (Z.quot n d).
Proof.
  intros n d D. assert (K : 0 < inject_Z d) by (apply inj_pos; lia).
  destruct (Z.le_gt_cases 0 n) as [N|N].
  - pose proof (quot_down n d D N) as [A B].
    assert (C : 0 <= inject_Z n / inject_Z d) by (apply Qle_shift_div_l; [exact K|]; rewrite Qmult_0_l; change 0 with (inject_Z 0); rewrite <- Zle_Qle; exact N).
    split; [intros _; split; assumption|]. intro H. assert (E : inject_Z n / inject_Z d == 0) by lra.
    assert (Z.quot n d = 0%Z). { apply (down_unique 0); [rewrite <- E; split; assumption|]. change (inject_Z 0) with 0. lra. }
    rewrite H0 in *. change (inject_Z 0) with 0 in *. lra.
  - pose proof (quot_down (- n) d D ltac:(lia)) as [A B]. rewrite Z.quot_opp_l in A, B by lia.
    assert (E : inject_Z (- n) / inject_Z d == - (inject_Z n / inject_Z d)) by (rewrite inject_Z_opp; apply div_neg; lra).
    rewrite E in A, B. rewrite inject_Z_opp in A, B.
    assert (C : inject_Z n / inject_Z d < 0). { apply Qlt_shift_div_r; [exact K|]. rewrite Qmult_0_l. change 0 with (inject_Z 0). rewrite <- Zlt_Qlt. exact N. }
    split; [intro; lra|]. intros _. split; lra.
Qed.
Lemma quot_trunc : forall n d, (d <> 0)%Z -> trunc_int (inject_Z n / inject_Z d) (Z.quot n d).
Proof.
  intros n d D. destruct (Z.lt_trichotomy d 0) as [H|[H|H]]; [|contradiction|apply quot_trunc_pos, H].
  pose proof (quot_trunc_pos (- n) (- d) ltac:(lia)) as Q. rewrite Z.quot_opp_opp in Q by lia.
  assert (K : inject_Z d < 0) by (change 0 with (inject_Z 0); rewrite <- Zlt_Qlt; exact H).
  assert (E : inject_Z (- n) / inject_Z (- d) == inject_Z n / inject_Z d) by (rewrite !inject_Z_opp; field; lra).
  unfold trunc_int in *. rewrite E in Q. exact Q.
Qed.
Lemma trunc_eqv : forall p q a, p == q -> trunc_int p a <-> trunc_int q a.
Proof. intros p q a E. unfold trunc_int. rewrite E. tauto. Qed.

Lemma range_iff : forall f v, in_range f v = true <-> representable f v.
Proof. intros f v. unfold in_range, representable. rewrite andb_true_iff, !Z.leb_le. tauto. Qed.
Lemma range_not : forall f v, in_range f v = false -> ~ representable f v.
Proof. intros f v H R. apply range_iff in R. congruence. Qed.

(** ** Exact operations *)
Lemma exact_ok : forall s f (x y v : Z), proper s -> inject_Z v == inject_Z x + inject_Z y ->
  match arith f v with
  | Ok z => representable f z /\ value s z == value s x + value s y
  | _ => ~ exists z, representable f z /\ value s z == value s x + value s y
  end.
Proof.
  intros s f x y v P E. pose proof (Fpos s P) as K.
  assert (U : forall z, value s z == value s x + value s y <-> z = v).
  { intro z. rewrite <- (Qmult_inj_r _ _ (inject_Z (factor s))) by lra. rewrite Qmult_plus_distr_l, !value_eq by exact P. rewrite <- E. apply inject_Z_injective. }
  unfold arith. destruct (in_range f v) eqn:R.
  - split; [apply range_iff, R|]. apply U. reflexivity.
  - intros (z & Z1 & Z2). apply U in Z2. subst z. exact (range_not _ _ R Z1).
Qed.
Lemma add_ok : forall s f x y, proper s ->
  match add f x y with
  | Ok z => representable f z /\ value s z == value s x + value s y
  | _ => ~ exists z, representable f z /\ value s z == value s x + value s y
  end.
Proof. intros. unfold add. apply exact_ok; [assumption|]. rewrite inject_Z_plus; reflexivity. Qed.
Lemma value_opp : forall s x, proper s -> value s (- x) == - value s x.
Proof. intros s x P. pose proof (Fpos s P). unfold value. rewrite inject_Z_opp. field. lra. Qed.
Lemma sub_ok : forall s f x y, proper s ->
  match sub f x y with
  | Ok z => representable f z /\ value s z == value s x - value s y
  | _ => ~ exists z, representable f z /\ value s z == value s x - value s y
  end.
Proof.
  intros s f x y P. unfold sub. pose proof (exact_ok s f x (- y) (x - y) P) as H. specialize (H ltac:(change (x - y)%Z with (x + - y)%Z; rewrite inject_Z_plus; reflexivity)).
  pose proof (value_opp s y P) as O. destruct (arith f (x - y)); [destruct H as [A B]; split; [exact A|rewrite B, O; ring]|..]; intros (z & Z1 & Z2); apply H; exists z; (split; [exact Z1|rewrite Z2, O; ring]).
Qed.
Lemma neg_ok : forall s f x, proper s ->
  match neg f x with
  | Ok z => representable f z /\ value s z == - value s x
  | _ => ~ exists z, representable f z /\ value s z == - value s x
  end.
Proof.
  intros s f x P. pose proof (sub_ok s f 0 x P) as H. unfold sub in H. unfold neg. change (0 - x)%Z with (- x)%Z in H.
  assert (Z0 : value s 0 == 0) by (unfold value; rewrite <- (Qmult_0_l (/ inject_Z (factor s))); reflexivity).
  destruct (arith f (- x)); [destruct H as [A B]; split; [exact A|rewrite B, Z0; ring]|..]; intros (z & Z1 & Z2); apply H; exists z; (split; [exact Z1|rewrite Z2, Z0; ring]).
Qed.
Lemma value_factor : forall s, proper s -> value s (factor s) == 1.
Proof. intros s P. pose proof (Fpos s P). unfold value. field. lra. Qed.
Lemma incr_ok : forall s w f x, proper s -> wide_for_scaling s f w -> representable f 1 -> representable f (factor s) ->
  (match incr s w f x with
   | Ok z => representable f z /\ value s z == value s x + 1
   | _ => ~ exists z, representable f z /\ value s z == value s x + 1
   end) /\
  (match decr s w f x with
   | Ok z => representable f z /\ value s z == value s x - 1
   | _ => ~ exists z, representable f z /\ value s z == value s x - 1
   end).
Proof.
  intros s w f x P W R1 RF. pose proof (value_factor s P) as V. unfold incr, decr, scale_up, arith at 1 3.
  destruct (W 1%Z R1) as [RW _]. apply range_iff in RW. rewrite RW. cbn [bind]. rewrite Z.mul_1_l.
  unfold numeric_cast. pose proof (proj2 (range_iff f (factor s)) RF) as RF'. rewrite RF'. cbn [bind]. split.
  - pose proof (add_ok s f x (factor s) P) as H. unfold add in H.
    destruct (arith f (x + factor s)); [destruct H as [A B]; split; [exact A|rewrite B, V; ring]|..]; intros (z & Z1 & Z2); apply H; exists z; (split; [exact Z1|rewrite Z2, V; ring]).
  - pose proof (sub_ok s f x (factor s) P) as H. unfold sub in H.
    destruct (arith f (x - factor s)); [destruct H as [A B]; split; [exact A|rewrite B, V; ring]|..]; intros (z & Z1 & Z2); apply H; exists z; (split; [exact Z1|rewrite Z2, V; ring]).
Qed.

(** ** Multiplication *)
Lemma prod_scaled : forall s x y, proper s -> value s x * value s y * inject_Z (factor s) == inject_Z (x * y) / inject_Z (factor s).
Proof. intros s x y P. pose proof (Fpos s P). unfold value. rewrite inject_Z_mult. field. lra. Qed.
Lemma shiftr_down : forall n e, (0 <= e)%Z -> inject_Z (Z.shiftr n e) <= inject_Z n / inject_Z (2 ^ e) < inject_Z (Z.shiftr n e) + 1.
Proof.
  intros n e E. rewrite Z.shiftr_div_pow2 by exact E. set (d := (2 ^ e)%Z). assert (D : (0 < d)%Z) by (apply Z.pow_pos_nonneg; lia).
  assert (K : 0 < inject_Z d) by (apply inj_pos; lia).
  pose proof (Z.div_mod n d ltac:(lia)) as Q. pose proof (Z.mod_pos_bound n d D) as R.
  assert (A : inject_Z n / inject_Z d * inject_Z d == inject_Z n) by (field; lra).
  split.
  - apply (Qmult_le_r _ _ (inject_Z d) K). rewrite A, <- inject_Z_mult, <- Zle_Qle. nia.
  - apply (Qmult_lt_r _ _ (inject_Z d) K). rewrite A. change 1 with (inject_Z 1). rewrite <- inject_Z_plus, <- inject_Z_mult, <- Zlt_Qlt. nia.
Qed.
Lemma product_iff : forall s x y z, proper s -> product_rounded s (value s x * value s y) z <-> z = scale_down_value s (x * y).
Proof.
  intros s x y z P. pose proof (prod_scaled s x y P) as E. destruct s as [r e|e|e]; cbn [product_rounded scale_down_value].
  - pose proof (factor_pos _ P) as FP. cbn [factor] in FP. pose proof (quot_trunc (x * y) (r ^ e) ltac:(lia)) as Q. cbn [factor] in E.
    rewrite trunc_iff by exact P. fold (trunc_int (value (Generic r e) x * value (Generic r e) y * inject_Z (factor (Generic r e))) z). cbn [factor].
    rewrite (trunc_eqv _ _ z E). split; [intro H; apply (trunc_unique _ _ _ H Q)|]. intros ->. exact Q.
  - rewrite down_iff by exact P. cbn [factor] in *. pose proof (shiftr_down (x * y) e P) as Q. rewrite E. split; [intro H; apply (down_unique _ _ _ H Q)|intros ->; exact Q].
  - rewrite down_iff by exact P. cbn [factor] in *. pose proof (shiftr_down (x * y) e P) as Q. rewrite E. split; [intro H; apply (down_unique _ _ _ H Q)|intros ->; exact Q].
Qed.
Lemma mul_ok : forall s w f x y, proper s -> wide_for_products f w -> representable f x -> representable f y ->
  match mul s w f x y with
  | Ok z => representable f z /\ product_rounded s (value s x * value s y) z
  | _ => ~ exists z, representable f z /\ product_rounded s (value s x * value s y) z
  end.
Proof.
  intros s w f x y P W X Y. unfold mul, arith. rewrite (proj2 (range_iff w (x * y)) (W x y X Y)). cbn [bind]. unfold scale_down, numeric_cast.
  destruct (in_range f (scale_down_value s (x * y))) eqn:R.
  - split; [apply range_iff, R|]. apply product_iff; [exact P|reflexivity].
  - intros (z & Z1 & Z2). apply product_iff in Z2; [|exact P]. subst z. exact (range_not _ _ R Z1).
Qed.

(** ** Division *)
Lemma quot_scaled : forall s x y, proper s -> (y <> 0)%Z -> value s x / value s y * inject_Z (factor s) == inject_Z (x * factor s) / inject_Z y.
Proof.
  intros s x y P Y. pose proof (Fpos s P). assert (~ inject_Z y == 0) by (change 0 with (inject_Z 0); rewrite inject_Z_injective; exact Y).
  unfold value. rewrite inject_Z_mult. field. split; (assumption || lra).
Qed.
Lemma quotient_iff : forall s x y z, proper s -> (y <> 0)%Z -> truncated s (value s x / value s y) z <-> z = Z.quot (x * factor s) y.
Proof.
  intros s x y z P Y. pose proof (quot_scaled s x y P Y) as E. rewrite trunc_iff by exact P.
  fold (trunc_int (value s x / value s y * inject_Z (factor s)) z). rewrite (trunc_eqv _ _ z E).
  pose proof (quot_trunc (x * factor s) y Y) as Q. split; [intro H; apply (trunc_unique _ _ _ H Q)|intros ->; exact Q].
Qed.
Lemma div_ok : forall s w f x y, proper s -> wide_for_scaling s f w -> representable f x -> y <> 0%Z ->
  match div s w f x y with
  | Ok z => representable f z /\ truncated s (value s x / value s y) z
  | _ => ~ exists z, representable f z /\ truncated s (value s x / value s y) z
  end.
Proof.
  intros s w f x y P W X Y. unfold div, scale_up, arith. destruct (W x X) as [WX WX']. rewrite (proj2 (range_iff w _) WX). cbn [bind]. unfold numeric_cast at 1.
  rewrite (proj2 (range_iff w _) WX). cbn [bind]. destruct (Z.eqb_spec y 0) as [|_]; [contradiction|].
  assert (WQ : representable w (Z.quot (x * factor s) y)).
  { unfold representable in *. set (n := (x * factor s)%Z) in *.
    assert (B : (Z.abs (Z.quot n y) <= Z.abs n)%Z).
    { rewrite <- Z.quot_abs by exact Y. apply Z.quot_le_upper_bound; [lia|]. assert (1 <= Z.abs y)%Z by lia. clear -H. nia. }
    lia. }
  rewrite (proj2 (range_iff w _) WQ). cbn [bind]. unfold numeric_cast.
  destruct (in_range f (Z.quot (x * factor s) y)) eqn:R.
  - split; [apply range_iff, R|]. apply quotient_iff; [exact P|exact Y|reflexivity].
  - intros (z & Z1 & Z2). apply quotient_iff in Z2; [|exact P|exact Y]. subst z. exact (range_not _ _ R Z1).
Qed.
Lemma div_zero : forall s w f x, wide_for_scaling s f w -> representable f x -> div s w f x 0 = DivZero.
Proof.
  intros s w f x W X. unfold div, scale_up, arith. destruct (W x X) as [WX _]. rewrite (proj2 (range_iff w _) WX). cbn [bind]. unfold numeric_cast at 1.
  rewrite (proj2 (range_iff w _) WX). reflexivity.
Qed.

(** ** Conversions *)
Lemma floor_spec : forall q, inject_Z (Qfloor q) <= q < inject_Z (Qfloor q) + 1.
Proof.
  intro q. split; [apply Qfloor_le|]. pose proof (Qlt_floor q) as H. rewrite inject_Z_plus in H. exact H.
Qed.
Lemma ceil_spec : forall q, inject_Z (Qceiling q) - 1 < q <= inject_Z (Qceiling q).
Proof.
  intro q. split; [|apply Qle_ceiling]. pose proof (Qceiling_lt q) as H. unfold Z.sub in H. rewrite inject_Z_plus in H. exact H.
Qed.
Lemma ceil_floor : forall q, Qceiling q = Qfloor q /\ q == inject_Z (Qfloor q) \/ Qceiling q = (Qfloor q + 1)%Z.
Proof.
  intro q. destruct (floor_spec q) as [A B]. destruct (ceil_spec q) as [C D].
  destruct (Qeq_dec q (inject_Z (Qfloor q))) as [E|E].
  - left. split; [|exact E]. apply (up_unique q); [split; assumption|]. lra.
  - right. apply (up_unique q); [split; assumption|]. rewrite inject_Z_plus. change (inject_Z 1) with 1. split; [lra|lra].
Qed.
Lemma even_iff : forall z, (2 * Qfloor (inject_Z z / 2) =? z)%Z = Z.even z.
Proof.
  intro z. assert (E : Qfloor (inject_Z z / 2) = (z / 2)%Z).
  { apply (down_unique (inject_Z z / 2)); [apply floor_spec|].
    pose proof (shiftr_down z 1 ltac:(lia)) as H. rewrite Z.shiftr_div_pow2 in H by lia. exact H. }
  rewrite E. destruct (Z.even z) eqn:V.
  - apply Z.eqb_eq. apply Z.even_spec in V. destruct V as [k ->]. rewrite (Z.mul_comm 2 k), Z.div_mul by lia. lia.
  - apply Z.eqb_neq. intro X. assert (Z.even z = true) by (apply Z.even_spec; exists (z / 2)%Z; lia). congruence.
Qed.
Lemma half_even : forall q, Qabs (q - inject_Z (round HalfToEven q)) <= (1 # 2) /\
  (Qabs (q - inject_Z (round HalfToEven q)) == (1 # 2) -> Z.even (round HalfToEven q) = true).
Proof.
  intro q. cbn [round]. cbv zeta. rewrite even_iff. destruct (floor_spec q) as [A B].
  assert (AB : forall v (k : Prop), - (1 # 2) <= v -> v <= (1 # 2) -> (v == (1 # 2) -> k) -> (v == -(1 # 2) -> k) -> Qabs v <= (1 # 2) /\ (Qabs v == (1 # 2) -> k : Prop)).
  { intros v k V1 V2 K1 K2. split; [apply Qabs_Qle_condition; split; assumption|]. apply Qabs_case; intros H E; [apply K1, E|apply K2; lra]. }
  destruct (ceil_floor q) as [[C E]|C]; rewrite C.
  - assert (Z0 : q - inject_Z (Qfloor q) == 0) by lra.
    destruct (Qltb_spec (q - inject_Z (Qfloor q) - (inject_Z (Qfloor q) - q)) 0); [lra|].
    destruct (Qltb_spec 0 (q - inject_Z (Qfloor q) - (inject_Z (Qfloor q) - q))); [lra|].
    destruct (Z.even (Qfloor q)); apply AB; intros; try lra; exfalso; lra.
  - rewrite inject_Z_plus. change (inject_Z 1) with 1.
    destruct (Qltb_spec (q - inject_Z (Qfloor q) - (inject_Z (Qfloor q) + 1 - q)) 0).
    { apply AB; intros; try lra; exfalso; lra. }
    destruct (Qltb_spec 0 (q - inject_Z (Qfloor q) - (inject_Z (Qfloor q) + 1 - q))).
    { rewrite inject_Z_plus. change (inject_Z 1) with 1. apply AB; intros; try lra; exfalso; lra. }
    destruct (Z.even (Qfloor q)) eqn:V.
    + apply AB; intros; try lra; try exact V; reflexivity.
    + rewrite inject_Z_plus. change (inject_Z 1) with 1. assert (V' : Z.even (Qfloor q + 1) = true) by (rewrite Z.even_add, V; reflexivity).
      apply AB; intros; try lra; exact V'.
Qed.
Lemma nearest_iff : forall s e m, proper s -> nearest_even s e m <->
  (Qabs (e * inject_Z (factor s) - inject_Z m) <= (1 # 2) /\ (Qabs (e * inject_Z (factor s) - inject_Z m) == (1 # 2) -> Z.even m = true)).
Proof.
  intros s e m P. pose proof (Fpos s P) as K. pose proof (value_eq s m P) as V. pose proof (ulp_eq s P) as U. set (F := inject_Z (factor s)) in *.
  assert (A : Qabs (e * F - inject_Z m) == Qabs (e - value s m) * F).
  { rewrite <- V. setoid_replace (e * F - value s m * F) with ((e - value s m) * F) by ring. rewrite Qabs_Qmult, (Qabs_pos F) by lra. reflexivity. }
  assert (H : ulp s / 2 * F == (1 # 2)) by (setoid_replace (ulp s / 2 * F) with (ulp s * F / 2) by field; rewrite U; reflexivity).
  unfold nearest_even. rewrite A, <- H. rewrite (Qmult_le_r _ _ F K). rewrite (Qmult_inj_r _ _ F) by lra. tauto.
Qed.
Lemma nearest_unique : forall q a b, Qabs (q - inject_Z a) <= (1 # 2) /\ (Qabs (q - inject_Z a) == (1 # 2) -> Z.even a = true) ->
  Qabs (q - inject_Z b) <= (1 # 2) /\ (Qabs (q - inject_Z b) == (1 # 2) -> Z.even b = true) -> a = b.
Proof.
  assert (L : forall q a b, (a < b)%Z -> Qabs (q - inject_Z a) <= (1 # 2) /\ (Qabs (q - inject_Z a) == (1 # 2) -> Z.even a = true) ->
    Qabs (q - inject_Z b) <= (1 # 2) /\ (Qabs (q - inject_Z b) == (1 # 2) -> Z.even b = true) -> False).
  { intros q a b H [A1 A2] [B1 B2]. apply Qabs_Qle_condition in A1. apply Qabs_Qle_condition in B1.
    assert (I : inject_Z a + 1 <= inject_Z b) by (change 1 with (inject_Z 1); rewrite <- inject_Z_plus, <- Zle_Qle; lia).
    assert (E1 : q - inject_Z a == (1 # 2)) by lra. assert (E2 : q - inject_Z b == - (1 # 2)) by lra.
    assert (E3 : b = (a + 1)%Z). { apply inject_Z_injective. rewrite inject_Z_plus. change (inject_Z 1) with 1. lra. }
    specialize (A2 ltac:(rewrite E1; reflexivity)). specialize (B2 ltac:(rewrite E2; reflexivity)). rewrite E3, Z.even_add, A2 in B2. discriminate. }
  intros q a b A B. destruct (Z.lt_trichotomy a b) as [H|[H|H]]; [exfalso; apply (L q a b H A B)|exact H|exfalso; apply (L q b a H B A)].
Qed.
Lemma rounded_iff : forall p s e z, proper s -> rounded p s e z <-> z = round p (e * inject_Z (factor s)).
Proof.
  intros p s e z P. set (q := e * inject_Z (factor s)). destruct p; cbn [rounded].
  - rewrite nearest_iff by exact P. fold q. pose proof (half_even q) as Q. split; [intro H; apply (nearest_unique q); assumption|intros ->; exact Q].
  - rewrite trunc_iff by exact P. fold q. fold (trunc_int q z). assert (Q : trunc_int q (round TowardZero q)).
    { cbn [round]. pose proof (floor_spec q). pose proof (ceil_spec q). destruct (Qleb_spec 0 q) as [H1|H1].
      - split; [intros _; assumption|]. intro H2. assert (E : q == 0) by lra. assert (Z0 : Qfloor q = 0%Z) by (apply (down_unique q); [assumption|change (inject_Z 0) with 0; lra]).
        rewrite Z0. change (inject_Z 0) with 0. lra.
      - split; [intro; lra|]. intros _. assumption. }
    split; [intro H; apply (trunc_unique q); assumption|intros ->; exact Q].
  - rewrite up_iff by exact P. fold q. pose proof (ceil_spec q) as Q. split; [intro H; apply (up_unique q); assumption|intros ->; exact Q].
  - rewrite down_iff by exact P. fold q. pose proof (floor_spec q) as Q. split; [intro H; apply (down_unique q); assumption|intros ->; exact Q].
Qed.
Lemma from_rational_ok : forall s p f v, proper s ->
  match from_rational s p f v with
  | Ok z => representable f z /\ rounded p s v z
  | _ => ~ exists z, representable f z /\ rounded p s v z
  end.
Proof.
  intros s p f v P. unfold from_rational, numeric_cast. destruct (in_range f (round p (v * inject_Z (factor s)))) eqn:R.
  - split; [apply range_iff, R|]. apply rounded_iff; [exact P|reflexivity].
  - intros (z & Z1 & Z2). apply rounded_iff in Z2; [|exact P]. subst z. exact (range_not _ _ R Z1).
Qed.
Lemma round_int : forall p z, round p (inject_Z z) = z.
Proof.
  intros p z. assert (F : Qfloor (inject_Z z) = z) by apply Qfloor_Z. assert (C : Qceiling (inject_Z z) = z) by apply Qceiling_Z.
  destruct p; cbn [round]; cbv zeta; rewrite ?F, ?C.
  - destruct (Qltb_spec (inject_Z z - inject_Z z - (inject_Z z - inject_Z z)) 0); [reflexivity|].
    destruct (Qltb_spec 0 (inject_Z z - inject_Z z - (inject_Z z - inject_Z z))); [reflexivity|]. destruct (_ =? _)%Z; reflexivity.
  - destruct (Qleb 0 (inject_Z z)); reflexivity.
  - reflexivity.
  - reflexivity.
Qed.
Lemma integer_round_trip : forall s wt t f v z, proper s -> representable t v -> from_integer s wt t f v = Ok z ->
  value s z == inject_Z v /\ convert_to_integer s t z = Ok v.
Proof.
  intros s wt t f v z P T H. unfold from_integer, scale_up in H. unfold arith in H.
  destruct (in_range wt (v * factor s)); [|discriminate]. cbn [bind] in H. unfold numeric_cast at 1 in H.
  destruct (in_range t (v * factor s)); [|discriminate]. cbn [bind] in H. unfold numeric_cast in H. destruct (in_range f (v * factor s)); [|discriminate].
  assert (E : z = (v * factor s)%Z) by congruence. subst z. pose proof (factor_pos s P) as FP. split.
  - pose proof (Fpos s P). unfold value. rewrite inject_Z_mult. field. lra.
  - unfold convert_to_integer, scale_down, numeric_cast. assert (D : scale_down_value s (v * factor s) = v).
    { destruct s as [r e|e|e]; cbn [scale_down_value factor] in *.
      - apply Z.quot_mul. lia.
      - rewrite Z.shiftr_div_pow2 by exact P. apply Z.div_mul. lia.
      - rewrite Z.shiftr_div_pow2 by exact P. apply Z.div_mul. lia. }
    rewrite D, (proj2 (range_iff t v) T). reflexivity.
Qed.

(** ** Comparisons and remainders *)
Lemma less_ok : forall s x y, proper s -> (less x y = true <-> value s x < value s y) /\ (equal x y = true <-> value s x == value s y).
Proof.
  intros s x y P. pose proof (Fpos s P) as K. unfold less, equal. rewrite Z.ltb_lt, Z.eqb_eq. rewrite <- (Qmult_lt_r (value s x) _ _ K), !value_eq by exact P.
  rewrite <- (Qmult_inj_r (value s x) (value s y) (inject_Z (factor s))) by lra. rewrite !value_eq by exact P. rewrite <- Zlt_Qlt, inject_Z_injective. tauto.
Qed.
Lemma fmod_ok : forall s x y, proper s -> y <> 0%Z -> exists z k, fmod x y = Ok z /\
  value s x == inject_Z k * value s y + value s z /\ Qabs (value s z) < Qabs (value s y) /\ 0 <= value s z * value s x.
Proof.
  intros s x y P Y. pose proof (Fpos s P) as K. exists (Z.rem x y), (Z.quot x y). unfold fmod. destruct (Z.eqb_spec y 0); [contradiction|].
  split; [reflexivity|]. pose proof (Z.quot_rem' x y) as E. pose proof (Z.rem_bound_abs x y Y) as B. pose proof (Z.rem_sign_nz x y) as S.
  split; [|split].
  - rewrite E at 1. unfold value. rewrite inject_Z_plus, inject_Z_mult. field. lra.
  - apply (Qmult_lt_r _ _ (inject_Z (factor s)) K). rewrite <- (Qabs_pos (inject_Z (factor s))) by lra. rewrite <- !Qabs_Qmult, !value_eq by exact P.
    change (inject_Z (Z.abs (Z.rem x y)) < inject_Z (Z.abs y)). rewrite <- Zlt_Qlt. exact B.
  - assert (N : (0 <= Z.rem x y * x)%Z).
    { destruct (Z.eq_dec (Z.rem x y) 0) as [Z0|Z0]; [rewrite Z0; lia|]. specialize (S Y Z0). 
      destruct (Z.sgn_spec (Z.rem x y)) as [[? ?]|[[? ?]|[? ?]]]; destruct (Z.sgn_spec x) as [[? ?]|[[? ?]|[? ?]]]; nia. }
    assert (M : value s (Z.rem x y) * value s x == inject_Z (Z.rem x y * x) * (ulp s * ulp s)) by (unfold value, ulp; rewrite inject_Z_mult; field; lra).
    rewrite M. apply Qmult_le_0_compat; [change 0 with (inject_Z 0); rewrite <- Zle_Qle; exact N|apply sq_nonneg].
Qed.
Lemma abs_ok : forall s f x, proper s -> representable f x ->
  match abs f x with
  | Ok z => representable f z /\ value s z == Qabs (value s x)
  | _ => ~ exists z, representable f z /\ value s z == Qabs (value s x)
  end.
Proof.
  intros s f x P X. pose proof (Fpos s P) as K. unfold abs. destruct (Z.ltb_spec 0 x) as [H|H].
  - split; [exact X|]. rewrite Qabs_pos; [reflexivity|]. apply Qmult_le_0_compat; [change 0 with (inject_Z 0); rewrite <- Zle_Qle; lia|apply Qinv_le_0_compat; lra].
  - assert (N : Qabs (value s x) == - value s x).
    { apply Qabs_neg. apply (Qmult_le_r _ _ _ K). rewrite value_eq by exact P. rewrite Qmult_0_l. change 0 with (inject_Z 0). rewrite <- Zle_Qle. exact H. }
    pose proof (neg_ok s f x P) as Q. destruct (neg f x); [rewrite N; exact Q|..]; intros (z & Z1 & Z2); apply Q; exists z; (split; [exact Z1|rewrite Z2; exact N]).
Qed.

(** ** Conversion to a floating type *)
Lemma to_float_trunc : forall s x, proper s -> match s with BinaryRuntime _ => False | _ => True end ->
  exists k, convert_to_float s x = Ok (inject_Z k) /\ trunc_int (value s x) k.
Proof.
  intros [r e|e|e] x P H; [| |contradiction]; cbn [convert_to_float scale_down_float].
  - exists (Z.quot x (r ^ e)). split; [reflexivity|]. apply quot_trunc. pose proof (factor_pos _ P) as FP. cbn [factor] in FP. lia.
  - exists (Z.quot x (2 ^ e)). split; [reflexivity|]. apply quot_trunc. pose proof (factor_pos _ P) as FP. cbn [factor] in FP. lia.
Qed.
