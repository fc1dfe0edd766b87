From Coq Require Import ZArith QArith Qround List Bool Lia Lqa.
Import ListNotations.
From Verif Require Import PiModel.
Open Scope Z_scope.

(** ** The weight of the value at index n: 1 * 2 * ... * (n-1) / (3 * 5 * ... * (2n-1)) *)
Definition mul (n : nat) : Z := match n with O => 1 | _ => Z.of_nat n end.
Definition odd (n : nat) : positive := Pos.of_succ_nat (2 * n).
Fixpoint wt (n : nat) : Q := match n with O => 1 | S n => wt n * (mul n # odd n) end.
Definition u (n : nat) : Q := inject_Z (mul n) * wt n.
Fixpoint val (f : list Z) : Q :=
  match f with [] => 0 | x :: f => wt (S (length f)) * inject_Z x + val f end.

Lemma mul_pos : forall n, 1 <= mul n.
Proof. destruct n; cbn [mul]; lia. Qed.
Lemma odd_Z : forall n, Zpos (odd n) = 2 * Z.of_nat n + 1.
Proof. intro n. unfold odd. lia. Qed.
Lemma wt_pos : forall n, (0 < wt n)%Q.
Proof.
  induction n as [|n IH]; [reflexivity|]. cbn [wt]. apply Qmult_lt_0_compat; [exact IH|].
  unfold Qlt; cbn. pose proof (mul_pos n). lia.
Qed.
Lemma wt_S : forall n, (inject_Z (2 * Z.of_nat n + 1) * wt (S n) == u n)%Q.
Proof.
  intro n. unfold u. cbn [wt]. rewrite (Qmake_Qdiv (mul n) (odd n)). rewrite odd_Z. field.
  intro H. assert (2 * Z.of_nat n + 1 = 0); [|lia]. unfold Qeq, inject_Z in H; cbn [Qnum Qden] in H; lia.
Qed.
Lemma inj_le : forall a b, a <= b -> (inject_Z a <= inject_Z b)%Q.
Proof. intros. rewrite <- Zle_Qle. assumption. Qed.
Lemma inj_nonneg : forall a, 0 <= a -> (0 <= inject_Z a)%Q.
Proof. intros a H. apply inj_le in H. exact H. Qed.
Lemma wt_half : forall n, (2 * wt (S (S n)) <= wt (S n))%Q.
Proof.
  intro n. pose proof (wt_S (S n)) as E. unfold u in E. cbn [mul] in E. pose proof (wt_pos (S n)) as P. pose proof (wt_pos (S (S n))) as P'.
  set (k := Z.of_nat (S n)) in *. assert (Hk : 1 <= k) by lia. apply inj_le in Hk.
  rewrite inject_Z_plus, inject_Z_mult in E. change (inject_Z 2) with 2%Q in E. change (inject_Z 1) with 1%Q in *.
  set (q := inject_Z k) in *. nra.
Qed.
Lemma u_dec : forall n, (u (S n) <= u n)%Q.
Proof.
  intro n. rewrite <- (wt_S n). unfold u. cbn [mul]. pose proof (wt_pos (S n)) as P.
  apply Qmult_le_compat_r; [|lra]. apply inj_le. lia.
Qed.
Lemma u_dec_le : forall n m, (m <= n)%nat -> (u n <= u m)%Q.
Proof. intros n m H. induction H as [|n H IH]; [lra|]. pose proof (u_dec n). lra. Qed.
Lemma u_pos : forall n, (0 < u n)%Q.
Proof. intro n. unfold u. apply Qmult_lt_0_compat; [|apply wt_pos]. pose proof (mul_pos n). change 0%Q with (inject_Z 0). rewrite <- Zlt_Qlt. lia. Qed.
Lemma u_diff : forall n, (wt (S n) * inject_Z (2 * Z.of_nat n) == 2 * (u n - u (S n)))%Q.
Proof.
  intro n. rewrite <- (wt_S n). unfold u. cbn [mul]. replace (Z.of_nat (S n)) with (Z.of_nat n + 1) by lia.
  rewrite !inject_Z_plus, !inject_Z_mult. change (inject_Z 2) with 2%Q. change (inject_Z 1) with 1%Q. ring.
Qed.

(** ** A pass multiplies the value exactly *)
Fixpoint inrange (f : list Z) : Prop :=
  match f with [] => True | x :: f => 0 <= x <= 2 * Z.of_nat (length f) /\ inrange f end.
Definition nonneg (f : list Z) : Prop := Forall (fun x => 0 <= x) f.

Lemma inrange_nonneg : forall f, inrange f -> nonneg f.
Proof. induction f as [|x f IH]; intro H; constructor; [apply H|apply IH, H]. Qed.

Lemma int_op_some : forall z r, int_op z = Some r -> r = z /\ z <= int_max.
Proof. intros z r. unfold int_op. destruct (Z.leb_spec z int_max); intro E; [injection E as <-; auto|discriminate]. Qed.

Lemma pass_ok : forall a f b d f' d', 0 <= a -> b = Z.of_nat (length f) -> 0 <= d -> nonneg f -> pass a b d f = Some (f', d') ->
  length f' = length f /\ inrange f' /\ 0 <= d' /\ (wt (length f) * inject_Z d + inject_Z a * val f == inject_Z d' + val f')%Q.
Proof.
  intros a. induction f as [|x f IH]; intros b d f' d' Ha Hb Hd Hf E; cbn [pass] in E.
  - injection E as <- <-. cbn. repeat split; try assumption. ring.
  - destruct (int_op (x * a)) as [m|] eqn:E1; [|discriminate]. apply int_op_some in E1. destruct E1 as [-> _].
    destruct (int_op (d + x * a)) as [d1|] eqn:E2; [|discriminate]. apply int_op_some in E2. destruct E2 as [-> _].
    assert (Hx : 0 <= x) by (inversion Hf; assumption). assert (Hf' : nonneg f) by (inversion Hf; assumption).
    replace (b - 1) with (Z.of_nat (length f)) in E by (cbn [length] in *; lia).
    assert (G : 2 * Z.of_nat (length (x :: f)) - 1 = 2 * Z.of_nat (length f) + 1) by (cbn [length]; lia).
    rewrite Hb, G in E. set (g := 2 * Z.of_nat (length f) + 1) in *.
    assert (Hg : 0 < g) by (unfold g; lia). set (D := d + x * a) in *. assert (HD : 0 <= D) by (unfold D; nia).
    set (q := D / g) in *. assert (Hq : 0 <= q) by (apply Z.div_pos; assumption).
    assert (ED : D = g * q + D mod g) by (apply Z.div_mod; lia).
    pose proof (Z.mod_pos_bound D g Hg) as Hr.
    assert (M : exists d2, (if Z.of_nat (length f) =? 0 then Some q else int_op (q * Z.of_nat (length f))) = Some d2 /\ d2 = q * mul (length f)).
    { destruct (Z.eqb_spec (Z.of_nat (length f)) 0) as [Z|Z].
      - exists q. split; [reflexivity|]. replace (length f) with 0%nat by lia. cbn [mul]. ring.
      - destruct (int_op (q * Z.of_nat (length f))) as [d2|] eqn:E3; [|discriminate]. apply int_op_some in E3. destruct E3 as [-> _].
        eexists. split; [reflexivity|]. destruct (length f); [lia|reflexivity]. }
    destruct M as (d2 & M1 & M2). rewrite M1 in E.
    destruct (pass a (Z.of_nat (length f)) d2 f) as [[f2 d3]|] eqn:E4; [|discriminate]. injection E as <- <-.
    pose proof (mul_pos (length f)) as Hm.
    apply IH in E4; [|assumption|reflexivity|rewrite M2; nia|assumption].
    destruct E4 as (L & I & P & V). split; [cbn [length]; lia|]. split; [cbn [inrange]; split; [rewrite L; assert (g = 2 * Z.of_nat (length f) + 1) by reflexivity; lia|exact I]|]. split; [exact P|].
    cbn [length val]. rewrite L.
    transitivity (wt (S (length f)) * inject_Z D + inject_Z a * val f)%Q.
    { unfold D. rewrite inject_Z_plus, inject_Z_mult. ring. }
    rewrite ED at 1. rewrite inject_Z_plus, inject_Z_mult.
    transitivity ((inject_Z g * wt (S (length f))) * inject_Z q + wt (S (length f)) * inject_Z (D mod g) + inject_Z a * val f)%Q; [ring|].
    unfold g at 1. rewrite wt_S. unfold u.
    rewrite M2, inject_Z_mult in V.
    transitivity (wt (length f) * (inject_Z q * inject_Z (mul (length f))) + inject_Z a * val f + wt (S (length f)) * inject_Z (D mod g))%Q; [ring|].
    rewrite V. ring.
Qed.

Lemma val_nonneg : forall f, nonneg f -> (0 <= val f)%Q.
Proof.
  induction f as [|x f IH]; intro H; cbn [val]; [lra|]. inversion H as [|? ? Hx Hf]; subst.
  pose proof (wt_pos (S (length f))). apply inj_nonneg in Hx. specialize (IH Hf).
  assert (0 <= wt (S (length f)) * inject_Z x)%Q by (apply Qmult_le_0_compat; lra). lra.
Qed.

Lemma skipn_inrange : forall k f, inrange f -> inrange (skipn k f).
Proof.
  induction k as [|k IH]; intros f H; [exact H|]. destruct f as [|x f]; [exact I|]. cbn [skipn]. apply IH, H.
Qed.

Lemma val_skipn : forall k f, inrange f ->
  (0 <= val f - val (skipn k f) <= 2 * (u (length f - k) - u (length f)))%Q.
Proof.
  induction k as [|k IH]; intros f H; cbn [skipn].
  - rewrite Nat.sub_0_r. lra.
  - destruct f as [|x f]; cbn [length].
    + cbn [val]. replace (0 - S k)%nat with 0%nat by lia. lra.
    + destruct H as [Hx H]. specialize (IH f H). cbn [val]. rewrite Nat.sub_succ.
      assert (P : (0 <= wt (S (length f)) * inject_Z x <= 2 * (u (length f) - u (S (length f))))%Q).
      { pose proof (wt_pos (S (length f))) as W. split.
        - apply Qmult_le_0_compat; [lra|]. apply inj_nonneg; lia.
        - rewrite <- u_diff. apply Qmult_le_l; [exact W|]. apply inj_le; lia. }
      lra.
Qed.

Lemma val_le_2 : forall f, inrange f -> (val f <= 2)%Q.
Proof.
  intros f H. pose proof (val_skipn (length f) f H) as V. rewrite skipn_all in V. cbn [val] in V.
  rewrite Nat.sub_diag in V. pose proof (u_pos (length f)). assert (u 0 == 1)%Q by reflexivity. lra.
Qed.

(** ** One turn *)
Lemma turn_step : forall st st' N lo hi n, turn st = Some st' ->
  length (s_f st) = n -> s_c st = Z.of_nat n -> nonneg (s_f st) -> 0 <= s_e st ->
  (lo <= inject_Z (N * 10000 + s_e st) + val (s_f st) <= hi)%Q ->
  exists x, 0 <= x /\
    s_c st' = s_c st - 14 /\ length (s_f st') = (n - 14)%nat /\ inrange (s_f st') /\ 0 <= s_e st' < 10000 /\
    (s_num st', s_den st', s_digits st', s_first st') = store st (pad x) /\
    (10000 * lo - 2 * u (n - 14) <= inject_Z ((N * 10000 + x) * 10000 + s_e st') + val (s_f st') <= 10000 * hi)%Q.
Proof.
  intros st st' N lo hi n E Hn Hc Hf He B. unfold turn in E.
  destruct (pass 10000 (s_c st) 0 (s_f st)) as [[f d]|] eqn:E1; [|discriminate].
  apply pass_ok in E1; [|lia|congruence|lia|assumption]. destruct E1 as (L & R & P & V).
  exists (s_e st + d / 10000). assert (0 <= d / 10000) by (apply Z.div_pos; lia). split; [lia|].
  destruct (store st (pad (s_e st + d / 10000))) as [[[num den] digits] first] eqn:ES. assert (E' : st' = mkst (skipn 14 f) (s_c st - 14) (d mod 10000) num den digits first) by congruence. subst st'. cbn [s_f s_c s_e s_num s_den s_digits s_first].
  split; [reflexivity|]. split; [rewrite skipn_length; lia|]. split; [apply skipn_inrange, R|].
  split; [apply Z.mod_pos_bound; lia|]. split; [reflexivity|].
  pose proof (val_skipn 14 f R) as S. rewrite L, Hn in S.
  replace ((N * 10000 + (s_e st + d / 10000)) * 10000 + d mod 10000) with (10000 * (N * 10000 + s_e st) + d).
  2: { pose proof (Z.div_mod d 10000 ltac:(lia)). lia. }
  rewrite inject_Z_plus, inject_Z_mult. change (inject_Z 10000) with 10000%Q in *.
  assert (V' : (10000 * val (s_f st) == inject_Z d + val f)%Q) by (rewrite <- V; change (inject_Z 0) with 0%Q; ring).
  pose proof (u_pos n). lra.
Qed.

(** ** The fraction never gets smaller *)
Lemma pad_nonneg : forall x, 0 <= x -> 0 <= pad x.
Proof. intros x H. unfold pad. destruct (x <? 10); [destruct (x * 1000 <? 100); [destruct (x * 1000 * 100 <? 1000)|destruct (x * 1000 <? 1000)]|destruct (x <? 100); [destruct (x * 100 <? 1000)|destruct (x <? 1000)]]; lia. Qed.

Definition ready (st : state) : Prop :=
  nonneg (s_f st) /\ 0 <= s_e st /\ 0 < s_den st /\ 0 <= s_num st /\ (0 < s_c st -> s_c st = Z.of_nat (length (s_f st))).

Lemma store_grows : forall st x num den digits first, 0 <= x -> 0 < s_den st -> 0 <= s_num st ->
  store st x = (num, den, digits, first) -> 0 < den /\ 0 <= num /\ s_num st * den <= num * s_den st.
Proof.
  intros st x num den digits first Hx Hd Hn E. unfold store in E.
  destruct (4 <=? s_digits st).
  - injection E as <- <- <- <-. destruct (s_first st); repeat split; nia.
  - destruct (Z.ltb_spec 0 (s_digits st)).
    + injection E as <- <- <- <-. assert (0 < 10 ^ s_digits st) by (apply Z.pow_pos_nonneg; lia).
      assert (0 <= x / 1000) by (apply Z.div_pos; lia). repeat split; nia.
    + injection E as <- <- <- <-. repeat split; nia.
Qed.

Lemma turns_grow : forall fuel st st', ready st -> turns fuel st = Some st' ->
  0 < s_den st' /\ s_num st * s_den st' <= s_num st' * s_den st.
Proof.
  induction fuel as [|fuel IH]; intros st st' H E; cbn [turns] in E.
  - injection E as <-. destruct H as (_ & _ & H & _). split; lia.
  - destruct H as (H1 & H2 & H3 & H4 & H5).
    destruct (Z.ltb_spec 0 (s_c st)) as [C|C]; cbn [andb] in E; [|injection E as <-; split; lia].
    destruct (0 <? s_digits st); [|injection E as <-; split; lia].
    destruct (turn st) as [s1|] eqn:T; [|discriminate]. specialize (H5 C).
    destruct (turn_step st s1 0 (inject_Z (0 * 10000 + s_e st) + val (s_f st)) (inject_Z (0 * 10000 + s_e st) + val (s_f st)) (length (s_f st)) T eq_refl H5 H1 H2) as (x & Hx & A1 & A2 & A3 & A4 & A5 & _).
    { split; apply Qle_refl. }
    destruct (store st (pad x)) as [[[num den] digits] first] eqn:ES. injection A5 as B1 B2 B3 B4.
    destruct (store_grows st (pad x) num den digits first (pad_nonneg x Hx) H3 H4 ES) as (G1 & G2 & G3).
    assert (R : ready s1).
    { split; [apply inrange_nonneg, A3|]. split; [lia|]. split; [congruence|]. split; [congruence|]. intro. rewrite A2. lia. }
    destruct (IH s1 st' R E) as [G4 G5]. split; [exact G4|]. rewrite B1, B2 in G5.
    assert (s_num st * den * s_den st' <= num * s_den st * s_den st') by nia.
    assert (num * s_den st' * s_den st <= s_num st' * den * s_den st) by nia.
    assert (den * (s_num st * s_den st') <= den * (s_num st' * s_den st)) by nia. nia.
Qed.

(** ** No overflow for precisions up to 15339 *)
Lemma int_op_ok : forall z, z <= int_max -> int_op z = Some z.
Proof. intros z H. unfold int_op. destruct (Z.leb_spec z int_max); [reflexivity|lia]. Qed.

Lemma pass_defined : forall f b d, b = Z.of_nat (length f) -> Z.of_nat (length f) <= 53687 ->
  0 <= d <= 20000 * b -> inrange f -> exists r, pass 10000 b d f = Some r.
Proof.
  induction f as [|x f IH]; intros b d Hb HL Hd H; cbn [pass]; [eexists; reflexivity|].
  destruct H as [Hx H]. cbn [length] in *. unfold int_max in *.
  rewrite int_op_ok by (unfold int_max; lia). rewrite int_op_ok by (unfold int_max; lia).
  replace (b - 1) with (Z.of_nat (length f)) by lia.
  replace (2 * b - 1) with (2 * Z.of_nat (length f) + 1) by lia.
  set (k := Z.of_nat (length f)) in *.
  assert (Q : 0 <= (d + x * 10000) / (2 * k + 1) <= 20000).
  { split; [apply Z.div_pos; lia|]. apply Z.div_le_upper_bound; lia. }
  set (q := (d + x * 10000) / (2 * k + 1)) in *.
  destruct (Z.eqb_spec k 0) as [Z|Z].
  - destruct f; [|cbn in k; lia]. cbn [pass]. eexists; reflexivity.
  - rewrite int_op_ok by (unfold int_max; nia).
    destruct (IH k (q * k)) as ((f2 & d2) & E); [reflexivity|lia|nia|exact H|]. rewrite E. eexists; reflexivity.
Qed.

Lemma pass_defined_first : forall f b d, b = Z.of_nat (length f) -> 0 <= d <= 20000000 ->
  Forall (fun x => 0 <= x <= 2000) f -> exists r, pass 10000 b d f = Some r.
Proof.
  induction f as [|x f IH]; intros b d Hb Hd H; cbn [pass]; [eexists; reflexivity|].
  inversion H as [|? ? Hx Hf]; subst. cbn [length]. unfold int_max in *.
  rewrite int_op_ok by (unfold int_max; lia). rewrite int_op_ok by (unfold int_max; lia).
  replace (Z.of_nat (S (length f)) - 1) with (Z.of_nat (length f)) by lia.
  replace (2 * Z.of_nat (S (length f)) - 1) with (2 * Z.of_nat (length f) + 1) by lia.
  set (k := Z.of_nat (length f)) in *. set (D := d + x * 10000). assert (HD : 0 <= D <= 40000000) by (unfold D; lia).
  destruct (Z.eqb_spec k 0) as [Z|Z].
  - destruct f; [|cbn in k; lia]. cbn [pass]. eexists; reflexivity.
  - assert (Q : 0 <= D / (2 * k + 1) * k <= 20000000).
    { assert (0 <= D / (2 * k + 1)) by (apply Z.div_pos; lia). split; [nia|].
      pose proof (Z.mul_div_le D (2 * k + 1) ltac:(lia)). nia. }
    rewrite int_op_ok by (unfold int_max; lia).
    destruct (IH k (D / (2 * k + 1) * k)) as ((f2 & d2) & E); [reflexivity|lia|exact Hf|]. rewrite E. eexists; reflexivity.
Qed.

Lemma turns_defined : forall fuel st, inrange (s_f st) -> Z.of_nat (length (s_f st)) <= 53687 ->
  (0 < s_c st -> s_c st = Z.of_nat (length (s_f st))) -> 0 <= s_e st -> exists st', turns fuel st = Some st'.
Proof.
  induction fuel as [|fuel IH]; intros st R L C E; cbn [turns]; [eexists; reflexivity|].
  destruct (Z.ltb_spec 0 (s_c st)) as [Hc|Hc]; cbn [andb]; [|eexists; reflexivity].
  destruct (0 <? s_digits st); [|eexists; reflexivity]. specialize (C Hc).
  destruct (pass_defined (s_f st) (s_c st) 0 C L ltac:(lia) R) as ((f & d) & P).
  destruct (turn st) as [s1|] eqn:T; [|exfalso; unfold turn in T; rewrite P in T; destruct (store st (pad (s_e st + d / 10000))) as [[[? ?] ?] ?]; discriminate].
  destruct (turn_step st s1 0 (inject_Z (0 * 10000 + s_e st) + val (s_f st)) (inject_Z (0 * 10000 + s_e st) + val (s_f st)) (length (s_f st)) T eq_refl C (inrange_nonneg _ R) E) as (x & Hx & A1 & A2 & A3 & A4 & _).
  { split; apply Qle_refl. }
  apply IH; [exact A3|lia| |lia]. intro. rewrite A2. lia.
Qed.

Lemma start_nonneg : forall p, nonneg (s_f (start p)).
Proof. intro p. unfold start, nonneg; cbn [s_f]. constructor; [lia|]. apply Forall_forall. intros x H. apply repeat_spec in H. lia. Qed.
Lemma start_length : forall p, (1 <= p)%nat -> length (s_f (start p)) = size p.
Proof.
  intros p H. unfold start; cbn [s_f length]. rewrite repeat_length.
  assert (1 <= size p)%nat; [|lia]. unfold size. apply Nat.div_le_lower_bound; lia.
Qed.

Lemma start_defined : forall p, (1 <= p)%nat -> Z.of_nat p <= 15339 -> exists st, turns p (start p) = Some st.
Proof.
  intros p H H15. destruct p as [|p']; [lia|]. set (p := S p') in *.
  pose proof (start_length p ltac:(lia)) as L.
  assert (S1 : Z.of_nat (size p) <= 53686) by (unfold size; rewrite Nat2Z.inj_div, Nat2Z.inj_mul; apply Z.lt_succ_r; apply Z.div_lt_upper_bound; lia).
  unfold p at 1. cbn [turns].
  destruct (Z.ltb_spec 0 (s_c (start p))) as [Hc|Hc]; cbn [andb]; [|eexists; reflexivity].
  destruct (0 <? s_digits (start p)); [|eexists; reflexivity].
  assert (C : s_c (start p) = Z.of_nat (length (s_f (start p)))) by (rewrite L; reflexivity).
  destruct (pass_defined_first (s_f (start p)) (s_c (start p)) 0 C ltac:(lia)) as ((f & d) & P).
  { unfold start; cbn [s_f]. constructor; [lia|]. apply Forall_forall. intros x Hx. apply repeat_spec in Hx. lia. }
  destruct (turn (start p)) as [s1|] eqn:T; [|exfalso; unfold turn in T; rewrite P in T; destruct (store (start p) (pad (s_e (start p) + d / 10000))) as [[[? ?] ?] ?]; discriminate].
  destruct (turn_step (start p) s1 0 (inject_Z (0 * 10000 + s_e (start p)) + val (s_f (start p))) (inject_Z (0 * 10000 + s_e (start p)) + val (s_f (start p))) (length (s_f (start p))) T eq_refl C (start_nonneg p) ltac:(cbn; lia)) as (x & Hx & A1 & A2 & A3 & A4 & _).
  { split; apply Qle_refl. }
  apply turns_defined; [exact A3|lia| |lia]. intro. rewrite A2. lia.
Qed.

(** ** A pass on the first values does not depend on the others *)
Lemma pass_app : forall a l1 l2 b d f' d', pass a b d (l1 ++ l2) = Some (f', d') ->
  exists f1 d1 f2, pass a b d l1 = Some (f1, d1) /\ f' = f1 ++ f2.
Proof.
  intros a. induction l1 as [|x l1 IH]; intros l2 b d f' d' E.
  - exists [], d, f'. split; reflexivity.
  - cbn [app pass] in *. destruct (int_op (x * a)) as [m|]; [|discriminate]. destruct (int_op (d + m)) as [d1|]; [|discriminate].
    destruct (if b - 1 =? 0 then Some (d1 / (2 * b - 1)) else int_op (d1 / (2 * b - 1) * (b - 1))) as [d2|]; [|discriminate].
    destruct (pass a (b - 1) d2 (l1 ++ l2)) as [[f2 d3]|] eqn:E1; [|discriminate]. injection E as <- <-.
    apply IH in E1. destruct E1 as (f1 & d4 & f3 & E1 & ->). rewrite E1. do 3 eexists. split; reflexivity.
Qed.
