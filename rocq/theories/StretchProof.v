From Verif Require Import RBase PathModel PathSpec PathProof StretchModel StretchSpec.

Notation inc := polygon_incrementer.
Fixpoint iter_inc (w : winding) (n s j : nat) : nat := match s with O => j | S s' => iter_inc w n s' (inc w n j) end.
Lemma inc_lt : forall w n j, (0 < n)%nat -> (inc w n j < n)%nat.
Proof. intros [|] n j L; cbn; apply Nat.mod_upper_bound; lia. Qed.
Lemma inc_down : forall n j, (j < n)%nat -> inc clockwise n j = match j with O => (n - 1)%nat | S j' => j' end.
Proof.
  intros n j L. cbn. destruct j as [|j']; [apply Nat.mod_small; lia|].
  replace (S j' + n - 1)%nat with (j' + 1 * n)%nat by lia. rewrite Nat.mod_add by lia. apply Nat.mod_small. lia.
Qed.
Lemma inc_up : forall n j, (j < n)%nat -> inc counterclockwise n j = if (S j =? n)%nat then O else S j.
Proof.
  intros n j L. cbn [polygon_incrementer]. destruct (Nat.eqb_spec (S j) n).
  - replace (j + 1)%nat with n by lia. apply Nat.mod_same. lia.
  - replace (j + 1)%nat with (S j) by lia. apply Nat.mod_small. lia.
Qed.
Lemma iter_add : forall w n s t j, iter_inc w n (s + t) j = iter_inc w n t (iter_inc w n s j).
Proof. intros w n. induction s as [|s IH]; intros t j; cbn; [reflexivity|]. apply IH. Qed.
Lemma down_by : forall n s j, (j < n)%nat -> (s <= j)%nat -> iter_inc clockwise n s j = (j - s)%nat.
Proof. intros n. induction s as [|s IH]; intros j L S; cbn [iter_inc]; [lia|]. rewrite inc_down by exact L. destruct j as [|j']; [lia|]. rewrite IH; lia. Qed.
Lemma up_by : forall n s j, (j + s < n)%nat -> iter_inc counterclockwise n s j = (j + s)%nat.
Proof. intros n. induction s as [|s IH]; intros j L; cbn [iter_inc]; [lia|]. rewrite inc_up by lia. destruct (Nat.eqb_spec (S j) n); [lia|]. rewrite IH; lia. Qed.
Lemma reach : forall w n j j0, (j < n)%nat -> (j0 < n)%nat -> exists s, iter_inc w n s j = j0.
Proof.
  intros [|] n j j0 L L0.
  - exists (j + (1 + (n - 1 - j0)))%nat. rewrite iter_add, (down_by n j j L (le_n j)), Nat.sub_diag. cbn [iter_inc Nat.add]. rewrite inc_down by lia. rewrite down_by; lia.
  - exists ((n - 1 - j) + (1 + j0))%nat. rewrite iter_add, (up_by n (n - 1 - j) j) by lia. cbn [iter_inc Nat.add]. rewrite inc_up by lia. destruct (Nat.eqb_spec (S (j + (n - 1 - j))) n); [|lia]. rewrite up_by; lia.
Qed.
Lemma euclid_sym : forall p q, euclid p q = euclid q p.
Proof. intros p q. exact (rsub_norm_sym q p). Qed.
Lemma forward_edge : forall w P, has_length P -> exists j A B, (j < length P)%nat /\ nth_error P j = Some A /\ nth_error P (inc w (length P) j) = Some B /\ 0 < euclid A B.
Proof.
  intros w P (A & B & (i & HA & HB) & L). assert (I : (i < length P)%nat) by (apply nth_error_Some; congruence). destruct w.
  - exists (S i mod length P)%nat, B, A. assert (M : (S i mod length P < length P)%nat) by (apply Nat.mod_upper_bound; lia). split; [exact M|]. split; [exact HB|]. split; [|rewrite euclid_sym; exact L].
    rewrite inc_down by exact M. destruct (Nat.eq_dec (S i) (length P)) as [E|N].
    + rewrite E, Nat.mod_same by lia. replace (length P - 1)%nat with i by lia. exact HA.
    + rewrite Nat.mod_small by lia. exact HA.
  - exists i, A, B. split; [exact I|]. split; [exact HA|]. split; [|exact L]. cbn. replace (i + 1)%nat with (S i) by lia. exact HB.
Qed.

(** From [current], with [extent] left and vertex [j] next, the loop ends and has walked [extent]. *)
Definition walked (w : winding) (P : list rvec) (current : rvec) (extent : R) (j : nat) (more : list rvec) : Prop :=
  exists k vs last_ target, more = vs ++ [last_] /\
    Forall2 (fun i v => nth_error P i = Some v) (walk w (length P) j k) vs /\
    nth_error P (iter_inc w (length P) k j) = Some target /\
    on_side (List.last vs current) target last_ /\
    path_length (current :: vs ++ [last_]) = extent.
Definition ends (w : winding) (P : list rvec) (current : rvec) (extent : R) (j : nat) : Prop :=
  exists f0 more, walked w P current extent j more /\ forall f acc, (f0 <= f)%nat -> half_loop f w P current extent j acc = Some (acc ++ more).

Lemma way_of : forall p q l, length p = length q -> radd p (rscale l (rnormalize (rsub q p))) = on_the_way p q (l / euclid p q).
Proof.
  intros p q l L. unfold rnormalize, on_the_way. f_equal. unfold rscale. rewrite map_map. apply map_ext. intro x. change (rnorm (rsub q p)) with (euclid p q). unfold Rdiv. ring.
Qed.
Lemma last_default : forall (l : list rvec) v a b, last (v :: l) a = last (v :: l) b.
Proof. induction l as [|x l IH]; intros v a b; [reflexivity|]. exact (IH x a b). Qed.
Lemma ends_step : forall w P d current extent j A, same_dim d P -> length current = d -> 0 < extent -> nth_error P j = Some A ->
  (euclid current A < extent -> ends w P A (extent - euclid current A) (inc w (length P) j)) -> ends w P current extent j.
Proof.
  intros w P d current extent j A SD LC E0 HA H.
  assert (LA : length A = d). { unfold same_dim in SD. rewrite Forall_forall in SD. apply SD. apply nth_error_In in HA. exact HA. }
  destruct (Rlt_le_dec (euclid current A) extent) as [LT|GE].
  - destruct (H LT) as (f0 & more & (k & vs & la & tg & -> & FV & HT & OS & PL) & RUN). exists (S f0), (A :: vs ++ [la]). split.
    + exists (S k), (A :: vs), la, tg. split; [reflexivity|]. split; [constructor; [exact HA|]; destruct w; exact FV|]. split; [exact HT|]. split.
      * destruct vs as [|v vs]; [exact OS|]. change (last (A :: v :: vs) current) with (last (v :: vs) current). rewrite (last_default vs v current A). exact OS.
      * cbn [app]. rewrite path_cons, PL. ring.
    + intros [|f] acc F; [lia|]. cbn [half_loop]. destruct (Rltb_spec 0 extent); [|lra]. rewrite HA, rdist_euclid. destruct (Rleb_spec (euclid current A) extent); [|lra].
      rewrite RUN by lia. rewrite <- app_assoc. reflexivity.
  - set (la := on_the_way current A (extent / euclid current A)). exists 2%nat, [la]. assert (EP : 0 < euclid current A) by lra.
    assert (T : 0 <= extent / euclid current A <= 1). { split; [apply Rlt_le, Rdiv_lt_0_compat; assumption|]. apply (Rmult_le_reg_r (euclid current A)); [exact EP|]. unfold Rdiv. rewrite Rmult_assoc, Rinv_l by lra. lra. }
    split.
    + exists O, [], la, A. split; [reflexivity|]. split; [constructor|]. split; [exact HA|]. split; [exists (extent / euclid current A); split; [exact T|reflexivity]|].
      cbn [app]. rewrite path_cons. cbn. unfold la. rewrite euclid_way_l by (try lra; congruence). field. lra.
    + intros [|[|f]] acc F; try lia. cbn [half_loop]. destruct (Rltb_spec 0 extent); [|lra]. rewrite HA, rdist_euclid. destruct (Rleb_spec (euclid current A) extent) as [LE|_].
      * assert (E : extent = euclid current A) by lra. replace (extent - euclid current A) with 0 by lra. destruct (Rltb_spec 0 0); [lra|]. f_equal. f_equal. f_equal. unfold la. rewrite E. unfold Rdiv. rewrite Rinv_r by lra. rewrite way_1 by congruence. reflexivity.
      * destruct (Rltb_spec 0 0); [lra|]. rewrite way_of by congruence. reflexivity.
Qed.
Lemma ends_vertex : forall w P d, same_dim d P -> has_length P ->
  forall j A extent, nth_error P j = Some A -> 0 < extent -> ends w P A extent (inc w (length P) j).
Proof.
  intros w P d SD HL. destruct (forward_edge w P HL) as (j0 & A0 & B0 & L0 & HA0 & HB0 & D0). set (delta := euclid A0 B0) in *.
  assert (N : (0 < length P)%nat) by lia.
  assert (DIM : forall j A, nth_error P j = Some A -> length A = d). { intros j A H. unfold same_dim in SD. rewrite Forall_forall in SD. apply SD. apply nth_error_In in H. exact H. }
  assert (NX : forall j, exists B, nth_error P (inc w (length P) j) = Some B). { intro j. destruct (nth_error P (inc w (length P) j)) eqn:E; [eauto|]. apply nth_error_None in E. pose proof (inc_lt w (length P) j N). lia. }
  assert (G : forall K s j A extent, iter_inc w (length P) s j = j0 -> nth_error P j = Some A -> 0 < extent -> extent <= INR K * delta -> ends w P A extent (inc w (length P) j)).
  { induction K as [|K IHK]; [intros; cbn in *; lra|]. induction s as [|s IHs]; intros j A extent IT HA E0 EK; cbn [iter_inc] in IT.
    - subst j. rewrite HA0 in HA. injection HA as <-. apply (ends_step w P d A0 extent _ B0); auto; [apply (DIM j0); exact HA0|]. intro LT. fold delta in LT |- *.
      destruct (reach w (length P) (inc w (length P) j0) j0 (inc_lt _ _ _ N) L0) as (s & S). apply (IHK s _ B0); auto; [lra|]. rewrite S_INR in EK. lra.
    - destruct (NX j) as (B & HB). apply (ends_step w P d A extent _ B); auto; [apply (DIM j); exact HA|]. intro LT. apply (IHs _ B); auto; [lra|]. pose proof (euclid_nonneg A B). lra. }
  intros j A extent HA E0. assert (LJ : (j < length P)%nat) by (apply nth_error_Some; congruence). destruct (reach w (length P) j j0 LJ L0) as (s & S).
  assert (UB : exists K, extent / delta < INR K).
  { destruct (archimed (extent / delta)) as [U _]. assert (0 <= extent / delta) by (apply Rlt_le, Rdiv_lt_0_compat; assumption). exists (Z.to_nat (up (extent / delta))). rewrite INR_IZR_INZ, Z2Nat.id; [lra|]. apply le_IZR. lra. }
  destruct UB as (K & HK). apply (G K s j A extent S HA E0). apply Rlt_le. apply (Rmult_lt_compat_r delta) in HK; [|exact D0]. unfold Rdiv in HK. rewrite Rmult_assoc, Rinv_l in HK by lra. lra.
Qed.
Lemma ends_half : forall w P d p extent start, same_dim d P -> has_length P -> length p = d -> 0 < extent -> ends w P p extent (inc w (length P) start).
Proof.
  intros w P d p extent start SD HL LP E0. assert (N : (0 < length P)%nat). { destruct HL as (A & B & (i & HA & _) & _). assert (i < length P)%nat by (apply nth_error_Some; congruence). lia. }
  destruct (nth_error P (inc w (length P) start)) as [A|] eqn:HA; [|apply nth_error_None in HA; pose proof (inc_lt w (length P) start N); lia].
  apply (ends_step w P d p extent _ A); auto. intro LT. apply (ends_vertex w P d SD HL _ A); [exact HA|lra].
Qed.
