(** Proofs about clipping. *)
From Verif Require Import Base CmpModel BoxModel BoxSpec ClipModel ClipSpec.

(** One coordinate along a line. *)
Definition along (a b s : Q) : Q := a + s * (b - a).

Definition nflags (c : out_code) : nat :=
  ((if oc_left c || oc_right c then 1 else 0) + (if oc_bottom c || oc_top c then 1 else 0))%nat.

(** Cutting at a value: y0 beyond the bound m, y1 not; the ratio k is the new parameter. *)
Lemma cut_ratio : forall y0 y1 m, m < y0 -> y1 <= m -> 0 <= (m - y0) / (y1 - y0) <= 1.
Proof.
  intros y0 y1 m H0 H1.
  assert (E : (m - y0) / (y1 - y0) == (y0 - m) / (y0 - y1)) by (field; split; lra).
  rewrite E. split.
  - apply Qle_shift_div_l; [lra|]. ring_simplify. lra.
  - apply Qle_shift_div_r; [lra|]. ring_simplify. lra.
Qed.
Lemma cut_ratio_low : forall y0 y1 m, y0 < m -> m <= y1 -> 0 <= (m - y0) / (y1 - y0) <= 1.
Proof.
  intros y0 y1 m H0 H1. split.
  - apply Qle_shift_div_l; [lra|]. ring_simplify. lra.
  - apply Qle_shift_div_r; [lra|]. ring_simplify. lra.
Qed.

(** The four cuts: the parameter at which the line leaves the half plane. *)
Lemma cut_at : forall a b m, ~ b - a == 0 -> along a b ((m - a) / (b - a)) == m.
Proof. intros a b m H; unfold along; field; exact H. Qed.
Lemma cut_hi0 : forall a b m, m < a -> b <= m ->
  0 <= (m - a) / (b - a) <= 1 /\ forall s, along a b s <= m -> (m - a) / (b - a) <= s.
Proof.
  intros a b m H0 H1. split; [apply cut_ratio; assumption|].
  pose proof (cut_at a b m ltac:(lra)) as E. revert E. generalize ((m - a) / (b - a)). intros k E s Hs.
  unfold along in *. destruct (Qlt_le_dec s k); [nra|assumption].
Qed.
Lemma cut_hi1 : forall a b m, a <= m -> m < b ->
  0 <= (m - a) / (b - a) <= 1 /\ forall s, along a b s <= m -> s <= (m - a) / (b - a).
Proof.
  intros a b m H0 H1. split.
  - split; [apply Qle_shift_div_l|apply Qle_shift_div_r]; lra.
  - pose proof (cut_at a b m ltac:(lra)) as E. revert E. generalize ((m - a) / (b - a)). intros k E s Hs.
    unfold along in *. destruct (Qlt_le_dec k s); [nra|assumption].
Qed.
Lemma cut_lo0 : forall a b m, a < m -> m <= b ->
  0 <= (m - a) / (b - a) <= 1 /\ forall s, m <= along a b s -> (m - a) / (b - a) <= s.
Proof.
  intros a b m H0 H1. split; [apply cut_ratio_low; assumption|].
  pose proof (cut_at a b m ltac:(lra)) as E. revert E. generalize ((m - a) / (b - a)). intros k E s Hs.
  unfold along in *. destruct (Qlt_le_dec s k); [nra|assumption].
Qed.
Lemma cut_lo1 : forall a b m, m <= a -> b < m ->
  0 <= (m - a) / (b - a) <= 1 /\ forall s, m <= along a b s -> s <= (m - a) / (b - a).
Proof.
  intros a b m H0 H1. split.
  - assert (E : (m - a) / (b - a) == (a - m) / (a - b)) by (field; split; lra). rewrite E.
    split; [apply Qle_shift_div_l|apply Qle_shift_div_r]; lra.
  - pose proof (cut_at a b m ltac:(lra)) as E. revert E. generalize ((m - a) / (b - a)). intros k E s Hs.
    unfold along in *. destruct (Qlt_le_dec k s); [nra|assumption].
Qed.

Lemma in2_pteq : forall w p q, p =p= q -> in2 w p -> in2 w q.
Proof. intros w p q [E1 E2] [H1 H2]; split; split; lra. Qed.
Lemma lerp_along : forall A B s, px (lerp A B s) == along (px A) (px B) s /\ py (lerp A B s) == along (py A) (py B) s.
Proof. intros; unfold lerp, along; cbn; split; ring. Qed.

(** Cutting off the piece before k, or after k. *)
Lemma lerp_tail : forall A B P k s, P =p= lerp A B k -> lerp P B s =p= lerp A B (k + s * (1 - k)).
Proof.
  intros A B P k s [E1 E2]. unfold lerp in *; cbn in *. split; cbn; rewrite ?E1, ?E2; ring.
Qed.
Lemma lerp_head : forall A B P k s, P =p= lerp A B k -> lerp A P s =p= lerp A B (k * s).
Proof.
  intros A B P k s [E1 E2]. unfold lerp in *; cbn in *. split; cbn; rewrite ?E1, ?E2; ring.
Qed.
Lemma tail_clipped : forall A B P w k p q, 0 <= k <= 1 -> P =p= lerp A B k ->
  (forall s, 0 <= s <= 1 -> in2 w (lerp A B s) -> k <= s) ->
  clipped_to P B w p q -> clipped_to A B w p q.
Proof.
  intros A B P w k p q Hk EP Hin (t & u & Ht & Htu & Hu & Ep & Eq & H).
  exists (k + t * (1 - k)), (k + u * (1 - k)).
  split; [nra|]. split; [nra|]. split; [nra|].
  split; [eapply pteq_trans; [exact Ep|apply lerp_tail; exact EP]|].
  split; [eapply pteq_trans; [exact Eq|apply lerp_tail; exact EP]|].
  intros s Hs. destruct (Qeq_dec k 1) as [E|E].
  - assert (L : forall x, lerp P B x =p= lerp A B 1).
    { intro x. eapply pteq_trans; [apply lerp_tail; exact EP|]. unfold lerp; split; cbn; rewrite E; ring. }
    assert (I : in2 w (lerp A B 1)).
    { apply (in2_pteq _ _ _ (L t)). apply H; [|]; split; lra. }
    split.
    + intro X. pose proof (Hin s Hs X). split; rewrite E; lra.
    + intros [X Y]. assert (s == 1) by (rewrite E in X; lra).
      apply (in2_pteq w (lerp A B 1)); [unfold lerp; split; cbn; rewrite H0; ring|exact I].
  - destruct (Qlt_le_dec s k) as [L|L].
    + split; [intro X; pose proof (Hin s Hs X); lra|]. intros [X Y]. exfalso. nra.
    + assert (F : k + (s - k) / (1 - k) * (1 - k) == s) by (field; lra).
      assert (R : 0 <= (s - k) / (1 - k) <= 1).
      { split; [apply Qle_shift_div_l|apply Qle_shift_div_r]; lra. }
      revert F R. generalize ((s - k) / (1 - k)). intros r F R.
      assert (G : lerp P B r =p= lerp A B s).
      { eapply pteq_trans; [apply lerp_tail; exact EP|]. unfold lerp; split; cbn; rewrite F; reflexivity. }
      specialize (H r R). split.
      * intro X. apply (in2_pteq _ _ _ (pteq_sym _ _ G)) in X. apply H in X. split; nra.
      * intros [X Y]. apply (in2_pteq _ _ _ G). apply H. split; nra.
Qed.
Lemma head_clipped : forall A B P w k p q, 0 <= k <= 1 -> P =p= lerp A B k ->
  (forall s, 0 <= s <= 1 -> in2 w (lerp A B s) -> s <= k) ->
  clipped_to A P w p q -> clipped_to A B w p q.
Proof.
  intros A B P w k p q Hk EP Hin (t & u & Ht & Htu & Hu & Ep & Eq & H).
  exists (k * t), (k * u).
  split; [nra|]. split; [nra|]. split; [nra|].
  split; [eapply pteq_trans; [exact Ep|apply lerp_head; exact EP]|].
  split; [eapply pteq_trans; [exact Eq|apply lerp_head; exact EP]|].
  intros s Hs. destruct (Qeq_dec k 0) as [E|E].
  - assert (L : forall x, lerp A P x =p= lerp A B 0).
    { intro x. eapply pteq_trans; [apply lerp_head; exact EP|]. unfold lerp; split; cbn; rewrite E; ring. }
    assert (I : in2 w (lerp A B 0)).
    { apply (in2_pteq _ _ _ (L t)). apply H; [|]; split; lra. }
    split.
    + intro X. pose proof (Hin s Hs X). split; rewrite E; lra.
    + intros [X Y]. assert (s == 0) by (rewrite E in Y; lra).
      apply (in2_pteq w (lerp A B 0)); [unfold lerp; split; cbn; rewrite H0; ring|exact I].
  - destruct (Qlt_le_dec k s) as [L|L].
    + split; [intro X; pose proof (Hin s Hs X); lra|]. intros [X Y]. exfalso. nra.
    + assert (F : k * (s / k) == s) by (field; lra).
      assert (R : 0 <= s / k <= 1).
      { split; [apply Qle_shift_div_l|apply Qle_shift_div_r]; lra. }
      revert F R. generalize (s / k). intros r F R.
      assert (G : lerp A P r =p= lerp A B s).
      { eapply pteq_trans; [apply lerp_head; exact EP|]. unfold lerp; split; cbn; rewrite F; reflexivity. }
      specialize (H r R). split.
      * intro X. apply (in2_pteq _ _ _ (pteq_sym _ _ G)) in X. apply H in X. split; nra.
      * intros [X Y]. apply (in2_pteq _ _ _ G). apply H. split; nra.
Qed.
Lemma tail_misses : forall A B P w k, 0 <= k <= 1 -> P =p= lerp A B k ->
  (forall s, 0 <= s <= 1 -> in2 w (lerp A B s) -> k <= s) -> misses_window P B w -> misses_window A B w.
Proof.
  intros A B P w k Hk EP Hin H s Hs X. pose proof (Hin s Hs X) as L.
  destruct (Qeq_dec k 1) as [E|E].
  - apply (H 0 ltac:(lra)). apply (in2_pteq w (lerp A B s)); [|exact X].
    eapply pteq_trans; [|apply pteq_sym, (lerp_tail A B P k); exact EP].
    assert (s == 1) by lra. unfold lerp; split; cbn; rewrite H0, E; ring.
  - assert (F : k + (s - k) / (1 - k) * (1 - k) == s) by (field; lra).
    apply (H ((s - k) / (1 - k))).
    + split; [apply Qle_shift_div_l|apply Qle_shift_div_r]; lra.
    + apply (in2_pteq w (lerp A B s)); [|exact X]. apply pteq_sym.
      eapply pteq_trans; [apply lerp_tail; exact EP|]. revert F. generalize ((s - k) / (1 - k)). intros r F.
      unfold lerp; split; cbn; rewrite F; reflexivity.
Qed.
Lemma head_misses : forall A B P w k, 0 <= k <= 1 -> P =p= lerp A B k ->
  (forall s, 0 <= s <= 1 -> in2 w (lerp A B s) -> s <= k) -> misses_window A P w -> misses_window A B w.
Proof.
  intros A B P w k Hk EP Hin H s Hs X. pose proof (Hin s Hs X) as L.
  destruct (Qeq_dec k 0) as [E|E].
  - apply (H 0 ltac:(lra)). apply (in2_pteq w (lerp A B s)); [|exact X].
    assert (s == 0) by lra. unfold lerp; split; cbn; rewrite H0; ring.
  - assert (F : k * (s / k) == s) by (field; lra).
    apply (H (s / k)).
    + split; [apply Qle_shift_div_l|apply Qle_shift_div_r]; lra.
    + apply (in2_pteq w (lerp A B s)); [|exact X]. apply pteq_sym.
      eapply pteq_trans; [apply lerp_head; exact EP|]. revert F. generalize (s / k). intros r F.
      unfold lerp; split; cbn; rewrite F; reflexivity.
Qed.

Notation code := (compute_out_classification direct).

Lemma along_between : forall a b k, 0 <= k <= 1 -> (a <= along a b k <= b) \/ (b <= along a b k <= a).
Proof. intros a b k H; unfold along; destruct (Qlt_le_dec a b); [left|right]; split; nra. Qed.
Lemma frac_along : forall a b c d, ~ d == 0 -> a + (b - a) * c / d == along a b (c / d).
Proof. intros; unfold along; field; assumption. Qed.

(** A coordinate between two others is flagged only as one of them is. *)
Ltac flags :=
  cbn [code_any code_common nflags oc_left oc_right oc_bottom oc_top];
  repeat (qcase; cbn [negb andb orb Nat.add Nat.ltb Nat.leb]); try (exfalso; lra);
  try (left; reflexivity); try (right; lia).

Lemma progress_y : forall w A B P, window w -> code_common (code A w) (code B w) = false ->
  oc_bottom (code A w) || oc_top (code A w) = true ->
  (px A <= px P <= px B \/ px B <= px P <= px A) -> py (lb2 w) <= py P <= py (ub2 w) ->
  code_common (code P w) (code B w) = true \/ (nflags (code P w) < nflags (code A w))%nat.
Proof.
  intros w A B P [W1 W2] C F M I. revert C F.
  unfold compute_out_classification; cbn [direct less_than greater_than code_any code_common oc_left oc_right oc_bottom oc_top].
  unfold nflags; cbn [oc_left oc_right oc_bottom oc_top].
  destruct (Qltb_spec (py P) (py (lb2 w))); [exfalso; lra|].
  destruct (Qgtb_spec (py P) (py (ub2 w))); [exfalso; lra|].
  cbn [negb andb orb].
  generalize (Qltb (py A) (py (lb2 w))) as ab. generalize (Qgtb (py A) (py (ub2 w))) as at_.
  generalize (Qltb (py B) (py (lb2 w))) as bb. generalize (Qgtb (py B) (py (ub2 w))) as bt.
  intros bt bb at_ ab C F. replace (ab || negb ab && at_) with true.
  assert (K : forall (x y : nat), x = y -> (x + 0 < y + 1)%nat) by lia.
  clear C. assert (F' := F). clear F.
  destruct (Qltb_spec (px A) (px (lb2 w))); destruct (Qltb_spec (px B) (px (lb2 w)));
  destruct (Qltb_spec (px P) (px (lb2 w))); cbn [negb andb orb]; try (left; reflexivity);
  destruct (Qgtb_spec (px A) (px (ub2 w))); try (exfalso; lra);
  destruct (Qgtb_spec (px B) (px (ub2 w))); try (exfalso; lra);
  destruct (Qgtb_spec (px P) (px (ub2 w))); try (exfalso; lra);
  cbn [negb andb orb]; try (left; reflexivity); try (right; lia); destruct M; exfalso; lra.
Qed.
Lemma progress_x : forall w A B P, window w ->
  oc_bottom (code A w) || oc_top (code A w) = false -> code_any (code A w) = true ->
  (py A <= py P <= py B \/ py B <= py P <= py A) -> px (lb2 w) <= px P <= px (ub2 w) ->
  code_common (code P w) (code B w) = true \/ (nflags (code P w) < nflags (code A w))%nat.
Proof.
  intros w A B P [W1 W2] F C M I. revert C F.
  unfold compute_out_classification; cbn [direct less_than greater_than code_common oc_left oc_right oc_bottom oc_top].
  unfold nflags, code_any; cbn [oc_left oc_right oc_bottom oc_top].
  destruct (Qltb_spec (px P) (px (lb2 w))); [exfalso; lra|].
  destruct (Qgtb_spec (px P) (px (ub2 w))); [exfalso; lra|].
  cbn [negb andb orb].
  generalize (Qltb (px A) (px (lb2 w))) as ab. generalize (Qgtb (px A) (px (ub2 w))) as at_.
  generalize (Qltb (px B) (px (lb2 w))) as bb. generalize (Qgtb (px B) (px (ub2 w))) as bt.
  intros bt bb at_ ab C F.
  rewrite F. assert (X : ab || negb ab && at_ = true).
  { destruct (ab || negb ab && at_) eqn:E; [reflexivity|]. cbn in C. congruence. }
  rewrite X. clear C X. revert F.
  destruct (Qltb_spec (py A) (py (lb2 w))); destruct (Qltb_spec (py B) (py (lb2 w)));
  destruct (Qltb_spec (py P) (py (lb2 w))); cbn [negb andb orb]; try (intros; discriminate);
  try (left; reflexivity);
  destruct (Qgtb_spec (py A) (py (ub2 w))); try (intros; discriminate); try (exfalso; lra);
  destruct (Qgtb_spec (py B) (py (ub2 w))); try (exfalso; lra);
  destruct (Qgtb_spec (py P) (py (ub2 w))); try (exfalso; lra);
  cbn [negb andb orb]; intros F; rewrite ?orb_true_r; try (left; reflexivity); try (right; lia); destruct M; exfalso; lra.
Qed.
Lemma code_common_sym : forall a b, code_common a b = code_common b a.
Proof. intros [a b c d] [e f g h]; unfold code_common; cbn. rewrite (andb_comm e), (andb_comm f), (andb_comm g), (andb_comm h). reflexivity. Qed.

Lemma flags_y : forall w A, window w ->
  (oc_top (code A w) = true -> py (ub2 w) < py A) /\ (oc_bottom (code A w) = true -> py A < py (lb2 w)) /\
  (oc_top (code A w) = false -> py A <= py (ub2 w)) /\ (oc_bottom (code A w) = false -> py (lb2 w) <= py A) /\
  (oc_right (code A w) = true -> px (ub2 w) < px A) /\ (oc_left (code A w) = true -> px A < px (lb2 w)) /\
  (oc_right (code A w) = false -> px A <= px (ub2 w)) /\ (oc_left (code A w) = false -> px (lb2 w) <= px A).
Proof.
  intros w A [W1 W2]. unfold compute_out_classification; cbn.
  destruct (Qltb_spec (px A) (px (lb2 w))), (Qltb_spec (py A) (py (lb2 w))), (Qgtb_spec (px A) (px (ub2 w))), (Qgtb_spec (py A) (py (ub2 w)));
  cbn; repeat split; intros; try discriminate; lra.
Qed.

(** One pass that moves the first end, and one that moves the second. *)
Lemma step_first : forall w A B, window w -> code_any (code A w) = true -> code_common (code A w) (code B w) = false ->
  exists P k, clip_point w (code A w) A B = Some P /\ 0 <= k <= 1 /\ P =p= lerp A B k /\
    (forall s, 0 <= s <= 1 -> in2 w (lerp A B s) -> k <= s) /\
    (code_common (code P w) (code B w) = true \/ (nflags (code P w) < nflags (code A w))%nat).
Proof.
  intros w A B W C N.
  destruct (flags_y w A W) as (T1 & T2 & T3 & T4 & T5 & T6 & T7 & T8).
  destruct (flags_y w B W) as (U1 & U2 & U3 & U4 & U5 & U6 & U7 & U8).
  unfold clip_point.
  destruct (oc_top (code A w)) eqn:Et.
  { assert (Eb : oc_top (code B w) = false).
    { destruct (oc_top (code B w)) eqn:E; [|reflexivity]. unfold code_common in N. rewrite Et, E in N. rewrite orb_true_r in N. discriminate. }
    specialize (T1 eq_refl). specialize (U3 Eb). clear - W C N Et Eb T1 U3.
    destruct (Qeqb_spec (py B - py A) 0) as [Z|Z]; [exfalso; lra|].
    destruct (cut_hi0 (py A) (py B) (py (ub2 w)) T1 U3) as [K M].
    eexists. exists ((py (ub2 w) - py A) / (py B - py A)). split; [reflexivity|]. split; [exact K|].
    pose proof (frac_along (px A) (px B) (py (ub2 w) - py A) (py B - py A) Z) as Fx.
    pose proof (cut_at (py A) (py B) (py (ub2 w)) Z) as Fy.
    destruct (lerp_along A B ((py (ub2 w) - py A) / (py B - py A))) as [L1 L2].
    split; [split; cbn [px py]; lra|]. split.
    - intros s Hs I. apply M. destruct (lerp_along A B s) as [_ L]. destruct I as [_ I]. lra.
    - apply progress_y; cbn [px py]; auto.
      + rewrite Et. apply orb_true_r.
      + destruct (along_between (px A) (px B) _ K); [left|right]; lra.
      + destruct W; lra. }
  destruct (oc_bottom (code A w)) eqn:Eb.
  { assert (Eb' : oc_bottom (code B w) = false).
    { destruct (oc_bottom (code B w)) eqn:E; [|reflexivity]. unfold code_common in N. rewrite Eb, E in N. cbn in N. rewrite orb_true_r in N. discriminate. }
    specialize (T2 eq_refl). specialize (U4 Eb'). clear - W C N Eb Eb' T2 U4.
    destruct (Qeqb_spec (py B - py A) 0) as [Z|Z]; [exfalso; lra|].
    destruct (cut_lo0 (py A) (py B) (py (lb2 w)) T2 U4) as [K M].
    eexists. exists ((py (lb2 w) - py A) / (py B - py A)). split; [reflexivity|]. split; [exact K|].
    pose proof (frac_along (px A) (px B) (py (lb2 w) - py A) (py B - py A) Z) as Fx.
    pose proof (cut_at (py A) (py B) (py (lb2 w)) Z) as Fy.
    destruct (lerp_along A B ((py (lb2 w) - py A) / (py B - py A))) as [L1 L2].
    split; [split; cbn [px py]; lra|]. split.
    - intros s Hs I. apply M. destruct (lerp_along A B s) as [_ L]. destruct I as [_ I]. lra.
    - apply progress_y; cbn [px py]; auto.
      + rewrite Eb. reflexivity.
      + destruct (along_between (px A) (px B) _ K); [left|right]; lra.
      + destruct W; lra. }
  destruct (oc_right (code A w)) eqn:Er.
  { assert (Er' : oc_right (code B w) = false).
    { destruct (oc_right (code B w)) eqn:E; [|reflexivity]. unfold code_common in N. rewrite Er, E in N. cbn in N. rewrite orb_true_r in N. discriminate. }
    specialize (T5 eq_refl). specialize (U7 Er'). clear - W C N Et Eb Er T5 U7.
    destruct (Qeqb_spec (px B - px A) 0) as [Z|Z]; [exfalso; lra|].
    destruct (cut_hi0 (px A) (px B) (px (ub2 w)) T5 U7) as [K M].
    eexists. exists ((px (ub2 w) - px A) / (px B - px A)). split; [reflexivity|]. split; [exact K|].
    pose proof (frac_along (py A) (py B) (px (ub2 w) - px A) (px B - px A) Z) as Fx.
    pose proof (cut_at (px A) (px B) (px (ub2 w)) Z) as Fy.
    destruct (lerp_along A B ((px (ub2 w) - px A) / (px B - px A))) as [L1 L2].
    split; [split; cbn [px py]; lra|]. split.
    - intros s Hs I. apply M. destruct (lerp_along A B s) as [L _]. destruct I as [I _]. lra.
    - apply progress_x; cbn [px py]; auto.
      + rewrite Et, Eb. reflexivity.
      + destruct (along_between (py A) (py B) _ K); [left|right]; lra.
      + destruct W; lra. }
  { assert (El : oc_left (code A w) = true).
    { unfold code_any in C. rewrite Et, Eb, Er in C. rewrite !orb_false_r in C. exact C. }
    assert (El' : oc_left (code B w) = false).
    { destruct (oc_left (code B w)) eqn:E; [|reflexivity]. unfold code_common in N. rewrite El, E in N. discriminate. }
    specialize (T6 El). specialize (U8 El'). clear - W C N Et Eb El T6 U8.
    destruct (Qeqb_spec (px B - px A) 0) as [Z|Z]; [exfalso; lra|].
    destruct (cut_lo0 (px A) (px B) (px (lb2 w)) T6 U8) as [K M].
    eexists. exists ((px (lb2 w) - px A) / (px B - px A)). split; [reflexivity|]. split; [exact K|].
    pose proof (frac_along (py A) (py B) (px (lb2 w) - px A) (px B - px A) Z) as Fx.
    pose proof (cut_at (px A) (px B) (px (lb2 w)) Z) as Fy.
    destruct (lerp_along A B ((px (lb2 w) - px A) / (px B - px A))) as [L1 L2].
    split; [split; cbn [px py]; lra|]. split.
    - intros s Hs I. apply M. destruct (lerp_along A B s) as [L _]. destruct I as [I _]. lra.
    - apply progress_x; cbn [px py]; auto.
      + rewrite Et, Eb. reflexivity.
      + destruct (along_between (py A) (py B) _ K); [left|right]; lra.
      + destruct W; lra. }
Qed.
Lemma step_second : forall w A B, window w -> code_any (code B w) = true -> code_common (code A w) (code B w) = false ->
  exists P k, clip_point w (code B w) A B = Some P /\ 0 <= k <= 1 /\ P =p= lerp A B k /\
    (forall s, 0 <= s <= 1 -> in2 w (lerp A B s) -> s <= k) /\
    (code_common (code A w) (code P w) = true \/ (nflags (code P w) < nflags (code B w))%nat).
Proof.
  intros w A B W C N. rewrite code_common_sym in N.
  destruct (flags_y w B W) as (T1 & T2 & T3 & T4 & T5 & T6 & T7 & T8).
  destruct (flags_y w A W) as (U1 & U2 & U3 & U4 & U5 & U6 & U7 & U8).
  unfold clip_point.
  destruct (oc_top (code B w)) eqn:Et.
  { assert (Eb : oc_top (code A w) = false).
    { destruct (oc_top (code A w)) eqn:E; [|reflexivity]. unfold code_common in N. rewrite Et, E in N. rewrite orb_true_r in N. discriminate. }
    specialize (T1 eq_refl). specialize (U3 Eb). clear - W C N Et Eb T1 U3.
    destruct (Qeqb_spec (py B - py A) 0) as [Z|Z]; [exfalso; lra|].
    destruct (cut_hi1 (py A) (py B) (py (ub2 w)) U3 T1) as [K M].
    eexists. exists ((py (ub2 w) - py A) / (py B - py A)). split; [reflexivity|]. split; [exact K|].
    pose proof (frac_along (px A) (px B) (py (ub2 w) - py A) (py B - py A) Z) as Fx.
    pose proof (cut_at (py A) (py B) (py (ub2 w)) Z) as Fy.
    destruct (lerp_along A B ((py (ub2 w) - py A) / (py B - py A))) as [L1 L2].
    split; [split; cbn [px py]; lra|]. split.
    - intros s Hs I. apply M. destruct (lerp_along A B s) as [_ L]. destruct I as [_ I]. lra.
    - rewrite code_common_sym; apply progress_y; cbn [px py]; auto.
      + rewrite Et. apply orb_true_r.
      + destruct (along_between (px A) (px B) _ K); [right|left]; lra.
      + destruct W; lra. }
  destruct (oc_bottom (code B w)) eqn:Eb.
  { assert (Eb' : oc_bottom (code A w) = false).
    { destruct (oc_bottom (code A w)) eqn:E; [|reflexivity]. unfold code_common in N. rewrite Eb, E in N. cbn in N. rewrite orb_true_r in N. discriminate. }
    specialize (T2 eq_refl). specialize (U4 Eb'). clear - W C N Eb Eb' T2 U4.
    destruct (Qeqb_spec (py B - py A) 0) as [Z|Z]; [exfalso; lra|].
    destruct (cut_lo1 (py A) (py B) (py (lb2 w)) U4 T2) as [K M].
    eexists. exists ((py (lb2 w) - py A) / (py B - py A)). split; [reflexivity|]. split; [exact K|].
    pose proof (frac_along (px A) (px B) (py (lb2 w) - py A) (py B - py A) Z) as Fx.
    pose proof (cut_at (py A) (py B) (py (lb2 w)) Z) as Fy.
    destruct (lerp_along A B ((py (lb2 w) - py A) / (py B - py A))) as [L1 L2].
    split; [split; cbn [px py]; lra|]. split.
    - intros s Hs I. apply M. destruct (lerp_along A B s) as [_ L]. destruct I as [_ I]. lra.
    - rewrite code_common_sym; apply progress_y; cbn [px py]; auto.
      + rewrite Eb. reflexivity.
      + destruct (along_between (px A) (px B) _ K); [right|left]; lra.
      + destruct W; lra. }
  destruct (oc_right (code B w)) eqn:Er.
  { assert (Er' : oc_right (code A w) = false).
    { destruct (oc_right (code A w)) eqn:E; [|reflexivity]. unfold code_common in N. rewrite Er, E in N. cbn in N. rewrite orb_true_r in N. discriminate. }
    specialize (T5 eq_refl). specialize (U7 Er'). clear - W C N Et Eb Er T5 U7.
    destruct (Qeqb_spec (px B - px A) 0) as [Z|Z]; [exfalso; lra|].
    destruct (cut_hi1 (px A) (px B) (px (ub2 w)) U7 T5) as [K M].
    eexists. exists ((px (ub2 w) - px A) / (px B - px A)). split; [reflexivity|]. split; [exact K|].
    pose proof (frac_along (py A) (py B) (px (ub2 w) - px A) (px B - px A) Z) as Fx.
    pose proof (cut_at (px A) (px B) (px (ub2 w)) Z) as Fy.
    destruct (lerp_along A B ((px (ub2 w) - px A) / (px B - px A))) as [L1 L2].
    split; [split; cbn [px py]; lra|]. split.
    - intros s Hs I. apply M. destruct (lerp_along A B s) as [L _]. destruct I as [I _]. lra.
    - rewrite code_common_sym; apply progress_x; cbn [px py]; auto.
      + rewrite Et, Eb. reflexivity.
      + destruct (along_between (py A) (py B) _ K); [right|left]; lra.
      + destruct W; lra. }
  { assert (El : oc_left (code B w) = true).
    { unfold code_any in C. rewrite Et, Eb, Er in C. rewrite !orb_false_r in C. exact C. }
    assert (El' : oc_left (code A w) = false).
    { destruct (oc_left (code A w)) eqn:E; [|reflexivity]. unfold code_common in N. rewrite El, E in N. discriminate. }
    specialize (T6 El). specialize (U8 El'). clear - W C N Et Eb El T6 U8.
    destruct (Qeqb_spec (px B - px A) 0) as [Z|Z]; [exfalso; lra|].
    destruct (cut_lo1 (px A) (px B) (px (lb2 w)) U8 T6) as [K M].
    eexists. exists ((px (lb2 w) - px A) / (px B - px A)). split; [reflexivity|]. split; [exact K|].
    pose proof (frac_along (py A) (py B) (px (lb2 w) - px A) (px B - px A) Z) as Fx.
    pose proof (cut_at (px A) (px B) (px (lb2 w)) Z) as Fy.
    destruct (lerp_along A B ((px (lb2 w) - px A) / (px B - px A))) as [L1 L2].
    split; [split; cbn [px py]; lra|]. split.
    - intros s Hs I. apply M. destruct (lerp_along A B s) as [L _]. destruct I as [I _]. lra.
    - rewrite code_common_sym; apply progress_x; cbn [px py]; auto.
      + rewrite Et, Eb. reflexivity.
      + destruct (along_between (py A) (py B) _ K); [right|left]; lra.
      + destruct W; lra. }
Qed.

Lemma below_mix : forall a b s m, 0 <= s <= 1 -> a < m -> b < m -> along a b s < m.
Proof. intros a b s m H H1 H2. unfold along. destruct (Qlt_le_dec a b); nra. Qed.
Lemma above_mix : forall a b s m, 0 <= s <= 1 -> m < a -> m < b -> m < along a b s.
Proof. intros a b s m H H1 H2. unfold along. destruct (Qlt_le_dec a b); nra. Qed.
Lemma common_misses : forall w A B, window w -> code_common (code A w) (code B w) = true -> misses_window A B w.
Proof.
  intros w A B W C s Hs [I1 I2].
  destruct (flags_y w A W) as (T1 & T2 & _ & _ & T5 & T6 & _ & _).
  destruct (flags_y w B W) as (U1 & U2 & _ & _ & U5 & U6 & _ & _).
  destruct (lerp_along A B s) as [L1 L2].
  unfold code_common in C. rewrite !orb_true_iff, !andb_true_iff in C.
  destruct C as [[[[C1 C2]|[C1 C2]]|[C1 C2]]|[C1 C2]].
  - pose proof (below_mix _ _ s _ Hs (T6 C1) (U6 C2)). lra.
  - pose proof (above_mix _ _ s _ Hs (T5 C1) (U5 C2)). lra.
  - pose proof (below_mix _ _ s _ Hs (T2 C1) (U2 C2)). lra.
  - pose proof (above_mix _ _ s _ Hs (T1 C1) (U1 C2)). lra.
Qed.
Lemma none_inside : forall w A, window w -> code_any (code A w) = false -> in2 w A.
Proof.
  intros w A W C. destruct (flags_y w A W) as (_ & _ & T3 & T4 & _ & _ & T7 & T8).
  unfold code_any in C. rewrite !orb_false_iff in C. destruct C as [[[C1 C2] C3] C4].
  split; split; auto.
Qed.
Lemma nflags_any : forall c, code_any c = true -> (1 <= nflags c)%nat.
Proof. intros [[] [] [] []]; cbn; intros; try discriminate; lia. Qed.
Lemma nflags_le : forall c, (nflags c <= 2)%nat.
Proof. intros [[] [] [] []]; cbn; lia. Qed.

Definition clip_ok (A B : pt) (w : box2) (r : clip_result) : Prop :=
  match r with
  | Clipped p q => clipped_to A B w p q
  | Rejected => misses_window A B w
  | _ => False
  end.

Lemma clip_loop_ok : forall w fuel A B, window w -> (nflags (code A w) + nflags (code B w) < fuel)%nat ->
  clip_ok A B w (clip_loop direct w fuel A B).
Proof.
  intros w fuel. induction fuel as [|fuel IH]; intros A B W F; [lia|].
  cbn [clip_loop].
  destruct (code_any (code A w)) eqn:EA; cbn [orb negb].
  - destruct (code_common (code A w) (code B w)) eqn:EC; [exact (common_misses w A B W EC)|].
    destruct (step_first w A B W EA EC) as (P & k & E & K & EP & M & G). rewrite E.
    assert (R : clip_ok P B w (clip_loop direct w fuel P B)).
    { destruct G as [G|G]; [|apply IH; [exact W|lia]].
      pose proof (nflags_any _ EA) as NA. destruct fuel as [|fuel]; [lia|].
      cbn [clip_loop]. destruct (code_any (code P w) || code_any (code B w)) eqn:EO; cbn [negb].
      - rewrite G. exact (common_misses w P B W G).
      - exfalso. apply orb_false_iff in EO. destruct EO as [EO _].
        revert EO G. generalize (code P w) (code B w). intros [[] [] [] []] [[] [] [] []]; cbn; congruence. }
    destruct (clip_loop direct w fuel P B) as [p q| | |]; cbn [clip_ok] in *; try contradiction.
    + exact (tail_clipped A B P w k p q K EP M R).
    + exact (tail_misses A B P w k K EP M R).
  - destruct (code_any (code B w)) eqn:EB; cbn [negb].
    + destruct (code_common (code A w) (code B w)) eqn:EC; [exact (common_misses w A B W EC)|].
      destruct (step_second w A B W EB EC) as (P & k & E & K & EP & M & G). rewrite E.
      assert (R : clip_ok A P w (clip_loop direct w fuel A P)).
      { destruct G as [G|G]; [|apply IH; [exact W|lia]].
        exfalso. revert EA G. generalize (code P w) (code A w). intros [[] [] [] []] [[] [] [] []]; cbn; congruence. }
      destruct (clip_loop direct w fuel A P) as [p q| | |]; cbn [clip_ok] in *; try contradiction.
      * exact (head_clipped A B P w k p q K EP M R).
      * exact (head_misses A B P w k K EP M R).
    + cbn [clip_ok]. exists 0, 1.
      split; [lra|]. split; [lra|]. split; [lra|].
      split; [unfold lerp; split; cbn; ring|]. split; [unfold lerp; split; cbn; ring|].
      intros s Hs. split; [intros _; exact Hs|]. intros _.
      destruct (none_inside w A W EA) as [IA1 IA2]. destruct (none_inside w B W EB) as [IB1 IB2].
      destruct (lerp_along A B s) as [L1 L2]. unfold along in *. split; split; nra.
Qed.

Theorem clip_exact : forall A B w fuel, window w -> (5 <= fuel)%nat ->
  match cohen_sutherland_line_clip direct fuel A B w with
  | Clipped p q => clipped_to A B w p q
  | Rejected => misses_window A B w
  | _ => False
  end.
Proof.
  intros A B w fuel W F. apply (clip_loop_ok w fuel A B W).
  pose proof (nflags_le (code A w)). pose proof (nflags_le (code B w)). lia.
Qed.

Theorem clip_accepts : forall A B w fuel, window w -> (5 <= fuel)%nat ->
  (exists p q, cohen_sutherland_line_clip direct fuel A B w = Clipped p q) <-> exists s, 0 <= s <= 1 /\ in2 w (lerp A B s).
Proof.
  intros A B w fuel W F. pose proof (clip_exact A B w fuel W F) as H. split.
  - intros (p & q & E). rewrite E in H. destruct H as (t & u & H1 & H2 & H3 & _ & _ & H).
    exists t. split; [lra|]. apply H; lra.
  - intros (s & Hs & I). destruct (cohen_sutherland_line_clip direct fuel A B w) as [p q| | |]; try contradiction.
    + eauto.
    + destruct (H s Hs I).
Qed.

(** The clipped ends are inside the window and on the segment. *)
Theorem clip_inside : forall A B w fuel p q, window w -> (5 <= fuel)%nat ->
  cohen_sutherland_line_clip direct fuel A B w = Clipped p q -> in2 w p /\ in2 w q.
Proof.
  intros A B w fuel p q W F E. pose proof (clip_exact A B w fuel W F) as H. rewrite E in H.
  destruct H as (t & u & H1 & H2 & H3 & E1 & E2 & H). split.
  - apply (in2_pteq _ _ _ (pteq_sym _ _ E1)). apply H; lra.
  - apply (in2_pteq _ _ _ (pteq_sym _ _ E2)). apply H; lra.
Qed.

(** A segment inside the window is returned unchanged. *)
Theorem clip_inside_unchanged : forall A B w fuel, window w -> (1 <= fuel)%nat -> in2 w A -> in2 w B ->
  cohen_sutherland_line_clip direct fuel A B w = Clipped A B.
Proof.
  intros A B w fuel W F [A1 A2] [B1 B2]. destruct fuel as [|fuel]; [lia|].
  assert (C : forall X, in2 w X -> code_any (code X w) = false).
  { intros X [X1 X2]. unfold code_any, compute_out_classification; cbn.
    destruct (Qltb_spec (px X) (px (lb2 w))), (Qltb_spec (py X) (py (lb2 w))), (Qgtb_spec (px X) (px (ub2 w))), (Qgtb_spec (py X) (py (ub2 w))); try (exfalso; lra); reflexivity. }
  unfold cohen_sutherland_line_clip. cbn [clip_loop].
  rewrite (C A (conj A1 A2)), (C B (conj B1 B2)). reflexivity.
Qed.
