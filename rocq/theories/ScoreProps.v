(** C130: the scored choice of a splitting segment. *)
From Verif Require Import Base CmpModel OrientModel OrientSpec OrientProof PolygonSpec LinIntModel BspModel BspSpec BspProof BspProof2 ScoreModel ScoreSpec.

Lemma side_proper : forall s X, ~ side s X == 0 -> proper s.
Proof.
  intros [A B] X H [Z1 Z2]. apply H. unfold side, tri2, cross in *; cbn [fst snd] in *. rewrite Z1, Z2; ring.
Qed.
Lemma side_same : forall s e, ~ side s (fst e) == side s (snd e) -> proper e.
Proof.
  intros [A B] [C D] H [Z1 Z2]. apply H. unfold side, tri2, cross, vsub in *; cbn [fst snd px py] in *.
  assert (E1 : px D == px C) by lra. assert (E2 : py D == py C) by lra. rewrite E1, E2; reflexivity.
Qed.

Lemma score_classify_ok : forall s e, exists k, score_classify direct s e = Some k /\
  match k with
  | k_crosses => cuts s e = true /\ leaves_behind s e = false /\ leaves_in_front s e = false
  | k_negative => cuts s e = false /\ leaves_behind s e = true /\ leaves_in_front s e = false
  | _ => cuts s e = false /\ leaves_behind s e = false /\ leaves_in_front s e = true
  end.
Proof.
  intros s e. pose proof (orient_side s (fst e)) as O1. pose proof (orient_side s (snd e)) as O2.
  assert (OPP : side s (fst e) * side s (snd e) < 0 -> exists k, score_classify direct s e = Some k /\ k = k_crosses).
  { intros H. assert (PS : proper s) by (apply (side_proper s (fst e)); nra).
    assert (PE : proper e).
    { apply (side_same s e). intros K. rewrite K in H. nra. }
    destruct (classify_ok s e PS PE) as (c & E & H'). unfold score_classify; rewrite E.
    destruct c as [p n| | |]; [exists k_crosses; split; reflexivity|exfalso|exfalso|exfalso];
      unfold in_front, behind, along in H'; nra. }
  unfold leaves_in_front, leaves_behind, cuts.
  destruct (Qltb_spec (side s (fst e) * side s (snd e)) 0) as [L|L].
  - destruct (OPP L) as (k & E & ->). exists k_crosses; split; [exact E|]. repeat split.
  - cbn [negb andb].
    assert (NO : forall k, score_classify direct s e = Some k ->
      match k with k_crosses => False | k_negative => side s (fst e) < 0 \/ side s (snd e) < 0 | _ => 0 <= side s (fst e) /\ 0 <= side s (snd e) end ->
      exists k, score_classify direct s e = Some k /\
        match k with
        | k_crosses => false = true /\ (Qltb (side s (fst e)) 0 || Qltb (side s (snd e)) 0) = false /\ negb (Qltb (side s (fst e)) 0 || Qltb (side s (snd e)) 0) = false
        | k_negative => false = false /\ (Qltb (side s (fst e)) 0 || Qltb (side s (snd e)) 0) = true /\ negb (Qltb (side s (fst e)) 0 || Qltb (side s (snd e)) 0) = false
        | _ => false = false /\ (Qltb (side s (fst e)) 0 || Qltb (side s (snd e)) 0) = false /\ negb (Qltb (side s (fst e)) 0 || Qltb (side s (snd e)) 0) = true
        end).
    { intros k E H. exists k; split; [exact E|].
      destruct k; destruct (Qltb_spec (side s (fst e)) 0), (Qltb_spec (side s (snd e)) 0); cbn [orb negb];
        try contradiction; repeat split; lra. }
    unfold score_classify, classify in NO |- *.
    destruct (get_orientation direct (fst s) (snd s) (fst e)) eqn:G1; destruct (get_orientation direct (fst s) (snd s) (snd e)) eqn:G2;
      try (exfalso; nra);
      (refine (NO _ eq_refl _); cbn; (lra || (left; lra) || (right; lra))).
Qed.


Lemma filter_map_length : forall (A B : Type) (g : A -> B) (p : B -> bool) l, length (filter p (map g l)) = length (filter (fun a => p (g a)) l).
Proof. induction l as [|a l IH]; cbn; [reflexivity|]. destruct (p (g a)); cbn; rewrite IH; reflexivity. Qed.

(** Counting from position [j] on. *)
Fixpoint count_from (f : seg -> bool) (i j : nat) (r : list seg) : Z :=
  match r with
  | [] => 0
  | e :: r' => (if negb (Nat.eqb i j) && f e then 1 else 0) + count_from f i (S j) r'
  end%Z.
Lemma count_from_ok : forall f r i j,
  count_from f i j r = Z.of_nat (length (filter (fun k => match nth_error r k with Some e => negb (Nat.eqb i (j + k)) && f e | None => false end) (seq 0 (length r)))).
Proof.
  intros f; induction r as [|e r IH]; intros i j; [reflexivity|].
  cbn [count_from length seq filter nth_error]. rewrite Nat.add_0_r. rewrite IH.
  match goal with |- (_ + Z.of_nat ?a = Z.of_nat (length (if _ then _ :: ?l else ?l)))%Z => assert (T : a = length l) end.
  { rewrite <- seq_shift, filter_map_length. cbn [nth_error]. f_equal. apply filter_ext. intros a.
    replace (j + S a)%nat with (S j + a)%nat by lia. reflexivity. }
  rewrite T. destruct (negb (i =? j)%nat && f e); cbn [length]; lia.
Qed.
Lemma count_from_how_many : forall f i r, count_from f i 0 r = how_many f i r.
Proof. intros; rewrite count_from_ok; reflexivity. Qed.

Lemma score_counts_ok : forall plane i r j,
  score_counts direct plane i j r =
  Some (count_from (fun e => leaves_in_front e plane) i j r, count_from (fun e => leaves_behind e plane) i j r, count_from (fun e => cuts e plane) i j r).
Proof.
  intros plane i; induction r as [|e r IH]; intros j; [reflexivity|].
  cbn [score_counts count_from]. destruct (Nat.eqb i j); cbn [negb andb]; [rewrite IH; reflexivity|].
  rewrite IH. destruct (score_classify_ok e plane) as (k & -> & H).
  destruct k; destruct H as (-> & -> & ->); apply (f_equal Some), (f_equal2 pair); [apply (f_equal2 pair)| |apply (f_equal2 pair)| |apply (f_equal2 pair)| |apply (f_equal2 pair)|]; lia.
Qed.

Lemma score_cost : forall r i s, score_counts direct s i 0 r = 
  Some (how_many (fun e => leaves_in_front e s) i r, how_many (fun e => leaves_behind e s) i r, how_many (fun e => cuts e s) i r).
Proof. intros; rewrite score_counts_ok, !count_from_how_many; reflexivity. Qed.

Lemma skipn_next : forall (A : Type) (l : list A) i a r, skipn i l = a :: r -> skipn (S i) l = r.
Proof.
  induction l as [|x l IH]; intros [|i] a r H; try discriminate; [injection H as -> ->; reflexivity|].
  exact (IH i a r H).
Qed.

(** The best so far is the first of least cost among the positions before [i]. *)
Definition best_ok (all : list seg) (i : nat) (best : option (Q * seg)) : Prop :=
  match best with
  | None => i = 0%nat
  | Some (sc, s) => exists k, (k < i)%nat /\ nth_error all k = Some s /\ sc = cost_suffered all k s /\
      forall j sj, (j < i)%nat -> nth_error all j = Some sj -> sc <= cost_suffered all j sj /\ ((j < k)%nat -> sc < cost_suffered all j sj)
  end.
Lemma score_loop_ok : forall all r i best, skipn i all = r -> best_ok all i best -> (i <= length all)%nat ->
  exists best', score_loop direct all i r best = Some best' /\ best_ok all (length all) best'.
Proof.
  intros all; induction r as [|s r IH]; intros i best Hs Hb Hi.
  - cbn [score_loop]. exists best; split; [reflexivity|].
    assert (length all - i = 0)%nat by (rewrite <- skipn_length, Hs; reflexivity).
    replace (length all) with i by lia. exact Hb.
  - cbn [score_loop]. rewrite score_cost.
    assert (Hn : nth_error all i = Some s).
    { rewrite <- (firstn_skipn i all) at 1. rewrite nth_error_app2 by (rewrite firstn_length; lia).
      rewrite firstn_length, Nat.min_l, Nat.sub_diag, Hs by lia. reflexivity. }
    assert (Hs' : skipn (S i) all = r).
    { exact (skipn_next _ all i s r Hs). }
    assert (Hi' : (S i <= length all)%nat) by (apply nth_error_Some; congruence).
    apply IH; [exact Hs'| |exact Hi'].
    change (score (how_many (fun e => leaves_in_front e s) i all) (how_many (fun e => leaves_behind e s) i all) (how_many (fun e => cuts e s) i all))
      with (cost_suffered all i s).
    destruct best as [[bs b]|]; cbn [best_ok] in Hb |- *.
    + destruct Hb as (k & Hk & Hkb & Ebs & Hmin).
      destruct (Qltb_spec (cost_suffered all i s) bs) as [L|L]; cbn [best_ok].
      * exists i. split; [lia|]. split; [exact Hn|]. split; [reflexivity|].
        intros j sj Hj Hjs. destruct (Nat.eq_dec j i) as [->|Ne].
        -- rewrite Hn in Hjs; injection Hjs as <-. split; [lra|lia].
        -- destruct (Hmin j sj ltac:(lia) Hjs) as [M _]. split; [lra|intros; lra].
      * exists k. split; [lia|]. split; [exact Hkb|]. split; [exact Ebs|].
        intros j sj Hj Hjs. destruct (Nat.eq_dec j i) as [->|Ne].
        -- rewrite Hn in Hjs; injection Hjs as <-. split; [lra|lia].
        -- apply (Hmin j sj ltac:(lia) Hjs).
    + subst i. exists 0%nat. split; [lia|]. split; [exact Hn|]. split; [reflexivity|].
      intros j sj Hj Hjs. replace j with 0%nat in * by lia. rewrite Hn in Hjs; injection Hjs as <-. split; [lra|lia].
Qed.

(** The scored choice always takes one of the segments: the first whose cost is least, where the
    cost counts what the lines of the other segments do to it. *)
Theorem C130_scored : forall r, r <> [] ->
  exists k s, scored_segment_selector direct r = Some s /\ nth_error r k = Some s /\
    forall j sj, nth_error r j = Some sj ->
      cost_suffered r k s <= cost_suffered r j sj /\ ((j < k)%nat -> cost_suffered r k s < cost_suffered r j sj).
Proof.
  intros r Hr. unfold scored_segment_selector.
  destruct (score_loop_ok r r 0 None eq_refl eq_refl (Nat.le_0_l _)) as (best & -> & Hb).
  destruct best as [[sc s]|]; cbn [best_ok] in Hb.
  - destruct Hb as (k & Hk & Hks & -> & Hmin). exists k, s. split; [reflexivity|]. split; [exact Hks|].
    intros j sj Hj. apply Hmin; [apply nth_error_Some; congruence|exact Hj].
  - destruct r; [contradiction|discriminate].
Qed.

(** So it is a rule for which the partition trees of C34 and C88 are right. *)
Theorem C130_selects : selects (fun r => match scored_segment_selector direct r with Some s => s | None => (mkpt 0 0, mkpt 0 0) end).
Proof.
  intros r Hr. destruct (C130_scored r Hr) as (k & s & -> & Hk & _). apply (nth_error_In _ _ Hk).
Qed.

(** But the cost is of the wrong thing.  The choice is meant to balance the two sides and to avoid
    cutting segments; here it takes the segment whose line cuts the other one, and leaves the one
    whose line cuts nothing. *)
Theorem C130_cost_refuted : exists r k s j sj, scored_segment_selector direct r = Some s /\ nth_error r k = Some s /\ nth_error r j = Some sj /\
  cost_of_split r j sj < cost_of_split r k s /\
  how_many (cuts s) k r = Z.of_nat (length r - 1) /\ how_many (cuts sj) j r = 0%Z.
Proof.
  exists [(mkpt 0 0, mkpt 10 0); (mkpt 5 1, mkpt 5 2)], 1%nat, (mkpt 5 1, mkpt 5 2), 0%nat, (mkpt 0 0, mkpt 10 0).
  repeat split; vm_compute; reflexivity.
Qed.

Example C130_witness :
  let r := [(mkpt 0 0, mkpt 4 0); (mkpt 4 0, mkpt 4 4); (mkpt 4 4, mkpt 2 1); (mkpt 2 1, mkpt 0 4); (mkpt 0 4, mkpt 0 0)] in
  scored_segment_selector direct r = Some (mkpt 4 0, mkpt 4 4) /\ cost_suffered r 1 (mkpt 4 0, mkpt 4 4) == 2 # 5 /\
  cost_suffered r 0 (mkpt 0 0, mkpt 4 0) == 2.
Proof. repeat split; vm_compute; reflexivity. Qed.

Print Assumptions C130_scored.
Print Assumptions C130_selects.
Print Assumptions C130_cost_refuted.
