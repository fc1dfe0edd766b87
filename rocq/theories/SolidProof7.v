(** The score of an element, and the element chosen, of the scored rule. *)
From Verif Require Import Base CmpModel OrientModel OrientSpec BspModel BspSpec BspProof SolidModel SolidSpec SolidProof SolidProof4.
From Coq Require Import Lia.

Definition picked (f : seg -> bool) (k n : nat) (items : list item) (j : nat) : bool :=
  negb (Nat.eqb j k) && match nth_error items (j - n) with Some it => f (it_seg it) | None => false end.
Lemma count_items_length : forall f k items n, count_items f k n items = Z.of_nat (length (filter (picked f k n items) (seq n (length items)))).
Proof.
  intros f k items. induction items as [|it items IH]; intro n; [reflexivity|]. cbn [count_items length seq filter].
  assert (E : filter (picked f k n (it :: items)) (seq (S n) (length items)) = filter (picked f k (S n) items) (seq (S n) (length items))).
  { apply filter_ext_in. intros j H. apply in_seq in H. unfold picked. replace (j - n)%nat with (S (j - S n)) by lia. reflexivity. }
  rewrite IH, E. unfold picked at 2. rewrite Nat.sub_diag. cbn [nth_error]. destruct (negb (Nat.eqb n k) && f (it_seg it)); cbn [length]; lia.
Qed.
Lemma count_others : forall f (P : seg -> Prop) k items, (forall e, f e = true <-> P e) -> exists n, others items k P n /\ count_items f k 0 items = Z.of_nat n.
Proof.
  intros f P k items H. exists (length (filter (picked f k 0 items) (seq 0 (length items)))). split; [|apply count_items_length].
  exists (filter (picked f k 0 items) (seq 0 (length items))). split; [apply NoDup_filter, seq_NoDup|]. split; [reflexivity|]. intro j. rewrite filter_In, in_seq. unfold picked. rewrite Nat.sub_0_r, andb_true_iff, negb_true_iff, Nat.eqb_neq. split.
  - intros (_ & N & E). split; [exact N|]. destruct (nth_error items j) as [it|]; [|discriminate]. exists it. split; [reflexivity|]. apply H, E.
  - intros (N & it & E & K). split; [|split; [exact N|rewrite E; apply H, K] ]. split; [lia|]. cbn. apply nth_error_Some. congruence.
Qed.
Lemma side_cases : forall e s,
  ((match classify_simplex_to_plane e s with coplanar_with_plane | in_front_of_plane => true | _ => false end) = true <-> not_behind s e) /\
  ((match classify_simplex_to_plane e s with in_back_of_plane => true | _ => false end) = true <-> only_behind s e) /\
  ((match classify_simplex_to_plane e s with straddling_plane => true | _ => false end) = true <-> cut_by s e).
Proof.
  assert (N : forall a b : Q, a * b < 0 <-> (0 < a /\ b < 0) \/ (a < 0 /\ 0 < b)).
  { intros a b. split; [|intros [ [A B]|[A B] ]; nra]. intro H. destruct (Qlt_le_dec 0 a) as [A|A]; [left|right].
    - split; [exact A|]. destruct (Qlt_le_dec b 0) as [B|B]; [exact B|]. assert (0 <= a * b) by (apply Qmult_le_0_compat; lra). lra.
    - destruct (Qlt_le_dec 0 b) as [B|B]; [|assert (0 <= - a * - b) by (apply Qmult_le_0_compat; lra); lra]. split; [|exact B].
      destruct (Qlt_le_dec a 0) as [C|C]; [exact C|]. assert (Z : a == 0) by lra. rewrite Z in H. lra. }
  intros e s. pose proof (classify_simplex e s) as C. unfold not_behind, only_behind, cut_by, in_front, behind, along in *. rewrite N.
  destruct (classify_simplex_to_plane e s); (split; [|split]); (split; intro H; [try discriminate H; clear H; intuition lra|try reflexivity; exfalso; intuition lra]).
Qed.
Lemma score_meaning : forall items k s, exists f b c, others items k (not_behind s) f /\ others items k (only_behind s) b /\ others items k (cut_by s) c /\
  score items k s == (4 # 5) * inject_Z (Z.of_nat c) + (1 # 5) * inject_Z (Z.abs (Z.of_nat f - Z.of_nat b)).
Proof.
  intros items k s. unfold score. cbv zeta.
  destruct (count_others _ _ k items (fun e => proj1 (side_cases e s))) as (f & F & ->).
  destruct (count_others _ _ k items (fun e => proj1 (proj2 (side_cases e s)))) as (b & B & ->).
  destruct (count_others _ _ k items (fun e => proj2 (proj2 (side_cases e s)))) as (c & C & ->).
  exists f, b, c. split; [exact F|]. split; [exact B|]. split; [exact C|]. reflexivity.
Qed.
Lemma others_unique : forall items k P n m, others items k P n -> others items k P m -> n = m.
Proof.
  intros items k P n m (l & N & <- & H) (l' & N' & <- & H'). apply Nat.le_antisymm; apply NoDup_incl_length; try assumption; intros j I; [apply H', H, I|apply H, H', I].
Qed.
Lemma scored_first : forall items k, scored_selector_policy items = Some k -> forall j jt it, (j < k)%nat -> nth_error items j = Some jt -> it_used jt = false -> nth_error items k = Some it ->
  score items k (it_seg it) < score items j (it_seg jt).
Proof.
  intros items. unfold scored_selector_policy.
  assert (G : forall l k best m, (match best with Some (q, i) => (i < k)%nat /\ exists it, nth_error items i = Some it /\ q = score items i (it_seg it) | None => True end) -> (forall j it, nth_error l j = Some it -> nth_error items (k + j) = Some it) ->
    scored_loop items k l best = Some m -> exists it, nth_error items m = Some it /\ (match best with Some (q, i) => m = i \/ (k <= m)%nat /\ score items m (it_seg it) < q | None => True end) /\ forall j jt, nth_error l j = Some jt -> it_used jt = false -> (k + j < m)%nat -> score items m (it_seg it) < score items (k + j) (it_seg jt)).
  { induction l as [|it l IH]; intros k best m B L E; cbn [scored_loop] in E.
    - destruct best as [ [q i]|]; [|discriminate]. injection E as <-. destruct B as (_ & x & N & ->). exists x. split; [exact N|]. split; [left; reflexivity|]. intros [|j] jt J; discriminate.
    - assert (L' : forall j x, nth_error l j = Some x -> nth_error items (S k + j) = Some x) by (intros j x N; rewrite Nat.add_succ_comm; apply (L (S j)); exact N).
      assert (H0 : nth_error items k = Some it) by (rewrite <- (Nat.add_0_r k); apply (L 0%nat); reflexivity).
      assert (TAIL : forall m x, (it_used it = false -> (k < m)%nat -> score items m (it_seg x) < score items k (it_seg it)) -> (forall j jt, nth_error l j = Some jt -> it_used jt = false -> (S k + j < m)%nat -> score items m (it_seg x) < score items (S k + j) (it_seg jt)) ->
        forall j jt, nth_error (it :: l) j = Some jt -> it_used jt = false -> (k + j < m)%nat -> score items m (it_seg x) < score items (k + j) (it_seg jt)).
      { intros m' x H1 H2 [|j] jt J U M; cbn in J; [injection J as <-; rewrite Nat.add_0_r in *; auto|]. rewrite <- Nat.add_succ_comm. apply H2; auto. lia. }
      destruct (it_used it) eqn:U.
      + assert (B' : match best with Some (q, i) => (i < S k)%nat /\ exists it, nth_error items i = Some it /\ q = score items i (it_seg it) | None => True end) by (destruct best as [ [q i]|]; [destruct B; split; [lia|assumption]|exact I]).
        destruct (IH (S k) best m B' L' E) as (x & N & Q1 & Q2). exists x. split; [exact N|]. split; [destruct best as [ [q i]|]; [|exact I]; destruct Q1 as [Q1|[M Q1] ]; [left; exact Q1|right; split; [lia|exact Q1] ]|]. apply TAIL; [discriminate|exact Q2].
      + cbv zeta in E. assert (NEW : match Some (score items k (it_seg it), k) with Some (q, i) => (i < S k)%nat /\ exists it, nth_error items i = Some it /\ q = score items i (it_seg it) | None => True end) by (split; [lia|exists it; auto]).
        destruct best as [ [q i]|]; [destruct (Qltb_spec (score items k (it_seg it)) q) as [LT|LT]|].
        * destruct (IH (S k) (Some (score items k (it_seg it), k)) m NEW L' E) as (x & N & Q1 & Q2). exists x. split; [exact N|]. split; [right; destruct Q1 as [ ->|[M Q1] ]; [split; [lia|]; rewrite H0 in N; injection N as <-; exact LT|split; [lia|lra] ]|].
          apply TAIL; [intros _ K; destruct Q1 as [Q1|[M Q1] ]; [lia|exact Q1]|exact Q2].
        * destruct B as [B0 B1]. destruct (IH (S k) (Some (q, i)) m (conj (Nat.lt_lt_succ_r _ _ B0) B1) L' E) as (x & N & Q1 & Q2). exists x. split; [exact N|]. split; [destruct Q1 as [Q1|[M Q1] ]; [left; exact Q1|right; split; [lia|exact Q1] ]|].
          apply TAIL; [intros _ K; destruct Q1 as [Q1|[M Q1] ]; [lia|lra]|exact Q2].
        * destruct (IH (S k) (Some (score items k (it_seg it), k)) m NEW L' E) as (x & N & Q1 & Q2). exists x. split; [exact N|]. split; [exact I|].
          apply TAIL; [intros _ K; destruct Q1 as [Q1|[M Q1] ]; [lia|exact Q1]|exact Q2]. }
  intros k E j jt it M J U K. destruct (G items 0%nat None k I (fun j it N => N) E) as (x & N & _ & Q2). rewrite K in N. injection N as <-. apply (Q2 j jt J U M).
Qed.
Lemma autopartition_first : forall items k j jt, autopartition_policy items = Some k -> (j < k)%nat -> nth_error items j = Some jt -> it_used jt = true.
Proof.
  assert (G : forall l n k j jt, autopartition_from n l = Some k -> (n + j < k)%nat -> nth_error l j = Some jt -> it_used jt = true).
  { induction l as [|it l IH]; intros n k j jt E M J; [destruct j; discriminate|]. cbn [autopartition_from] in E. destruct (it_used it) eqn:U; [|injection E as <-; lia].
    destruct j as [|j]; cbn in J; [injection J as <-; exact U|]. apply (IH (S n) k j jt E); [lia|exact J]. }
  intros items k j jt E M J. apply (G items 0%nat k j jt E M J).
Qed.
