(** Convex polygons that touch without a common interior point: the walk visits common points only. *)
From Verif Require Import Base CmpModel OrientModel OrientSpec OrientProof DistModel DistSpec LinIntModel LinIntSpec LinIntProof PolygonModel PolygonSpec PolygonProof PolygonConvexProof CvxModel CvxSpec CvxProof CvxProof2 CvxProof3 CvxProof4 CvxProof5 CvxProof6 CvxProof7 CvxProof8 CvxProof9 CvxProof10 CvxProof11 PfillProof3.

Section Touch.
Variables P Q : list pt.
Hypothesis CP : convex_polygon P.
Hypothesis CQ : convex_polygon Q.
Hypothesis NI : forall X, strictly_inside P X -> strictly_inside Q X -> False.
Let n := length P.
Let m := length Q.
Definition one_common : Prop := forall Y Z, common_point P Q Y -> common_point P Q Z -> Y =p= Z.
Definition touch_ok (r : cx_result) : Prop := exists t l, r = CxDone t l /\
  ((t = px_face /\ exists k X Y, l = k ++ [X; Y] /\ Forall (common_point P Q) k) \/
   (t = px_overlapping /\ l <> [] /\ Forall (common_point P Q) l /\ one_common)).
Definition rcd (i j : nat) (X : pt) (s : cx_state) : cx_state :=
  record_crossing (get_orientation direct (from Q j) (vtx Q j) (vtx P i)) (get_orientation direct (from P i) (vtx P i) (vtx Q j)) X s.
Lemma NI' : forall X, strictly_inside Q X -> strictly_inside P X -> False.
Proof. intros X H1 H2. exact (NI X H2 H1). Qed.
Lemma n3 : (3 <= n)%nat. Proof. exact (proj2 CP). Qed.
Lemma m3 : (3 <= m)%nat. Proof. exact (proj2 CQ). Qed.
Lemma rcd_p : forall i j X s, 0 < aB P Q i j -> cx_in (rcd i j X s) = pgon1_in.
Proof. intros i j X s H. unfold rcd, record_crossing. cbn [cx_in]. apply (left_is (from Q j) (vtx Q j) (vtx P i)) in H. rewrite H. reflexivity. Qed.
Lemma rcd_q : forall i j X s, aB P Q i j <= 0 -> 0 < bA P Q i j -> cx_in (rcd i j X s) = pgon2_in.
Proof.
  intros i j X s H1 H. unfold rcd, record_crossing. cbn [cx_in]. apply (left_is (from P i) (vtx P i) (vtx Q j)) in H. rewrite H.
  destruct (cx_is_left (get_orientation direct (from Q j) (vtx Q j) (vtx P i))) eqn:F; [|reflexivity]. apply left_is in F. unfold aB in H1. lra.
Qed.
Lemma rcd_same : forall i j X s, aB P Q i j <= 0 -> bA P Q i j <= 0 -> cx_in (rcd i j X s) = cx_in s.
Proof.
  intros i j X s H1 H2. unfold rcd, record_crossing. cbn [cx_in].
  destruct (cx_is_left (get_orientation direct (from Q j) (vtx Q j) (vtx P i))) eqn:F; [apply left_is in F; unfold aB in H1; lra|].
  destruct (cx_is_left (get_orientation direct (from P i) (vtx P i) (vtx Q j))) eqn:F2; [apply left_is in F2; unfold bA in H2; lra|]. reflexivity.
Qed.
Lemma meet_common : forall i j X, edge_on P i X -> edge_on Q j X -> common_point P Q X.
Proof. intros i j X H1 H2. split; [apply (around_in P CP i); exact H1|apply (around_in Q CQ j); exact H2]. Qed.
Lemma face_ok : forall X Y out, Forall (common_point P Q) out -> touch_ok (CxDone px_face (rev (Y :: X :: out))).
Proof.
  intros X Y out H. exists px_face, (rev (Y :: X :: out)). split; [reflexivity|]. left. split; [reflexivity|]. exists (rev out), X, Y.
  split; [cbn [rev]; rewrite <- app_assoc; reflexivity|]. apply Forall_rev. exact H.
Qed.
Lemma end_ok : forall s, cx_in s <> in_unknown -> (1 <= cx_n s)%nat -> cx_out s <> [] -> Forall (common_point P Q) (cx_out s) -> one_common -> touch_ok (cx_finish P Q s).
Proof.
  intros s H1 H2 H3 H4 H5. exists px_overlapping, (rev (cx_out s)). split.
  - unfold cx_finish. destruct (cx_in s); [| |contradiction]; cbn [is_in_unknown]; destruct (Nat.eqb_spec (cx_n s) 0); try lia; reflexivity.
  - right. split; [reflexivity|]. split; [|split; [apply Forall_rev; exact H4|exact H5]]. intro K. apply H3. rewrite <- (rev_involutive (cx_out s)), K. reflexivity.
Qed.

(** The first polygon to the right of edge j of the second: the walk goes around the first polygon. *)
Section TrapQ.
Variables (j : nat) (W : pt).
Hypothesis R : right_of P Q j.
Hypothesis WP : in_hull P W.
Hypothesis WQ : edge_on Q j W.
Hypothesis WV : ~ W =p= vtx Q j.
Lemma trap_q : forall i s, cx_in s <> pgon1_in -> advanced P Q i j s = inl (advance_a n [] s).
Proof.
  intros i s NF. assert (F : is_pgon1_in (cx_in s) = false) by (destruct (cx_in s); [contradiction|reflexivity|reflexivity]).
  destruct (adv_cases P Q i j s) as [(_ & _ & _ & E)|[(_ & _ & E)|(NC & GO & _)]]; [| | |exfalso].
  - intros (K1 & K2 & K3). exact (not_apart P Q CP CQ W WP (around_in Q CQ j W WQ) i j K1 K2 K3).
  - rewrite E, F. reflexivity.
  - rewrite E, F. reflexivity.
  - pose proof (R _ (vtx_in P CP i)) as RA. fold (aB P Q i j) in RA. destruct GO as [[G1 G2]|[_ G2]]; [|lra].
    destruct (to_end_strict Q j W WQ WV) as (h & Hh & EV). pose proof (tri2_moved P i W _ _ h EV) as T. fold (bA P Q i j) in T. fold (AB P Q i j) in T.
    pose proof (around_left P CP i W WP) as LW. assert (H0 : 0 <= h * AB P Q i j) by (apply Qmult_le_0_compat; lra).
    assert (TZ : tri2 (from P i) (vtx P i) W == 0) by lra. assert (AZ : AB P Q i j == 0) by nra. apply NC. split; [exact AZ|]. split; [|lra].
    pose proof (around_on P CP i W WP TZ) as OW. destruct (to_end P i W OW) as (h' & _ & EV'). unfold aB. rewrite (tri2_moved Q j W _ _ h' EV'), (edge_zero Q j W WQ), (cross_swap P Q), AZ. ring.
Qed.
Lemma trap_q_step : forall i s, cx_a s = (i mod n)%nat -> cx_b s = (j mod m)%nat -> cx_in s <> pgon1_in -> (1 <= cx_n s)%nat -> cx_out s <> [] -> Forall (common_point P Q) (cx_out s) ->
  (exists X Y, cx_step direct P Q s = inr (CxDone px_face (rev (Y :: X :: cx_out s)))) \/
  (exists s', cx_step direct P Q s = inl s' /\ cx_a s' = (S i mod n)%nat /\ cx_b s' = (j mod m)%nat /\ cx_in s' <> pgon1_in /\ (1 <= cx_n s')%nat /\ cx_out s' <> [] /\
    Forall (common_point P Q) (cx_out s') /\ cx_aa s' = (cx_aa s + 1)%nat /\ cx_ba s' = cx_ba s /\ (cx_in s = pgon2_in -> cx_in s' = pgon2_in) /\
    ~ (hit P Q i j /\ AB P Q i j == 0) /\ (hit P Q i j -> 0 <= AB P Q i j -> cx_in s' = pgon2_in)).
Proof.
  intros i s Ea Eb NF Hn HO HC. pose proof n3. pose proof m3.
  assert (EN : ((i mod n + 1) mod n = S i mod n)%nat) by (apply (mod_S P Q); lia).
  destruct (step_cases P Q CP CQ i j s Ea Eb) as [(_ & N & X & XP & XQ & E)|[(_ & _ & X & Y & E)|(NH & E)]]; [right|left; exists X, Y; exact E|right].
  - fold (rcd i j X s) in E. pose proof (R _ (vtx_in P CP i)) as RA. fold (aB P Q i j) in RA.
    assert (FL : cx_in (rcd i j X s) = if Qlt_le_dec 0 (bA P Q i j) then pgon2_in else cx_in s).
    { destruct (Qlt_le_dec 0 (bA P Q i j)) as [K|K]; [apply rcd_q; assumption|apply rcd_same; assumption]. }
    rewrite trap_q in E by (rewrite FL; destruct (Qlt_le_dec 0 (bA P Q i j)); [discriminate|exact NF]). eexists. split; [exact E|].
    unfold advance_a at 1 2 4 5 6 7 8. cbn [cx_a cx_b cx_aa cx_ba cx_n cx_out rev app length].
    assert (RS : is_in_unknown (cx_in s) && Nat.eqb (cx_n s + 1) 1 = false) by (destruct (Nat.eqb_spec (cx_n s + 1) 1); [lia|apply andb_false_r]).
    unfold rcd at 1 2 4 5 6 7 8, record_crossing. cbn [cx_a cx_b cx_aa cx_ba cx_n cx_out]. rewrite RS, Ea, Eb, EN. cbn [advance_a cx_in].
    split; [reflexivity|]. split; [reflexivity|]. rewrite FL. split; [destruct (Qlt_le_dec 0 (bA P Q i j)); [discriminate|exact NF]|]. split; [lia|]. split; [discriminate|].
    split; [constructor; [exact (meet_common i j X XP XQ)|exact HC]|]. split; [reflexivity|]. split; [reflexivity|]. split; [intro K; rewrite K; destruct (Qlt_le_dec 0 (bA P Q i j)); reflexivity|].
    split; [intros [_ K]; contradiction|]. intros _ G. destruct (Qlt_le_dec 0 (bA P Q i j)) as [K|K]; [reflexivity|exfalso].
    pose proof (leave_row P Q CP i j W WP WQ WV). destruct (Qeq_dec (AB P Q i j) 0); [contradiction|]. specialize (H1 ltac:(lra)). lra.
  - rewrite trap_q in E by exact NF. eexists. split; [exact E|]. unfold advance_a. cbn [cx_a cx_b cx_aa cx_ba cx_n cx_out cx_in rev app length]. rewrite Ea, Eb, EN.
    split; [reflexivity|]. split; [reflexivity|]. split; [exact NF|]. split; [lia|]. split; [exact HO|]. split; [exact HC|]. split; [reflexivity|]. split; [reflexivity|]. split; [auto|].
    split; [intros [K _]; contradiction|intro K; contradiction].
Qed.
Lemma trap_q_loop : forall fuel i s, cx_a s = (i mod n)%nat -> cx_b s = (j mod m)%nat -> cx_in s <> pgon1_in -> (1 <= cx_n s)%nat -> cx_out s <> [] -> Forall (common_point P Q) (cx_out s) ->
  (cx_aa s < 2 * n)%nat -> (cx_ba s < m)%nat -> (cx_measure n m s < fuel)%nat ->
  (cx_in s = pgon2_in \/ exists r, (i <= r < i + (2 * n - cx_aa s))%nat /\ hit P Q r j /\ 0 <= AB P Q r j) ->
  (one_common \/ exists r, (i <= r < i + (2 * n - cx_aa s))%nat /\ hit P Q r j /\ AB P Q r j == 0) ->
  touch_ok (cx_loop direct P Q fuel s).
Proof.
  induction fuel as [|fuel IH]; intros i s Ea Eb NF Hn HO HC Ha Hb F K1 K2; [lia|]. cbn [cx_loop].
  destruct (trap_q_step i s Ea Eb NF Hn HO HC) as [(X & Y & E)|(s' & E & E1 & E2 & E3 & E4 & E5 & E6 & E7 & E8 & E9 & E10 & E11)]; rewrite E.
  - apply face_ok. exact HC.
  - pose proof (step_measure direct P Q s s' E Ha ltac:(fold m; lia)) as M. fold n in M. fold m in M. change (length P) with n. change (length Q) with m.
    assert (K1' : cx_in s' = pgon2_in \/ exists r, (S i <= r < S i + (2 * n - cx_aa s'))%nat /\ hit P Q r j /\ 0 <= AB P Q r j).
    { destruct K1 as [K|(r & Hr & H1 & H2)]; [left; apply E9; exact K|]. destruct (Nat.eq_dec r i) as [->|Ne]; [left; apply E11; assumption|right]. exists r. split; [lia|auto]. }
    assert (K2' : one_common \/ exists r, (S i <= r < S i + (2 * n - cx_aa s'))%nat /\ hit P Q r j /\ AB P Q r j == 0).
    { destruct K2 as [K|(r & Hr & H1 & H2)]; [left; exact K|right]. destruct (Nat.eq_dec r i) as [->|Ne]; [exfalso; apply E10; auto|]. exists r. split; [lia|auto]. }
    destruct (Nat.ltb_spec (cx_ba s') m) as [_|L]; [|lia]. rewrite orb_true_r. destruct (Nat.ltb_spec (cx_ba s') (m * 2)) as [_|L]; [|lia].
    destruct (Nat.ltb_spec (cx_aa s') (n * 2)) as [L|L]; cbn [andb].
    + apply (IH (S i)); try assumption; lia.
    + apply end_ok; try assumption; [destruct K1' as [K|(r & Hr & _)]; [rewrite K; discriminate|lia]|destruct K2' as [K|(r & Hr & _)]; [exact K|lia]].
Qed.
Lemma trap_q_ok : forall fuel i s, cx_a s = (i mod n)%nat -> cx_b s = (j mod m)%nat -> cx_in s <> pgon1_in -> (1 <= cx_n s)%nat -> cx_out s <> [] -> Forall (common_point P Q) (cx_out s) ->
  (cx_aa s <= n)%nat -> (cx_ba s < m)%nat -> (cx_measure n m s < fuel)%nat -> touch_ok (cx_loop direct P Q fuel s).
Proof.
  intros fuel i s Ea Eb NF Hn HO HC Ha Hb F. pose proof n3.
  assert (MV : forall r, exists k, (i <= k < i + n)%nat /\ vtx P k = vtx P r /\ from P k = from P r).
  { intro r. destruct (index_near P CP (i + n) r ltac:(fold n; lia)) as (k & Hk & H1). fold n in Hk. exists k. split; [lia|exact H1]. }
  apply (trap_q_loop fuel i s); try assumption; [lia| |].
  - right. destruct (key_row P Q CP CQ j W R WP WQ) as (r & H1 & H2). destruct (MV r) as (k & Hk & V1 & V2). exists k. split; [lia|].
    unfold hit, touch, edge_on, AB, edg in *. rewrite V1, V2. auto.
  - destruct (face_or_one P Q CP CQ j R) as [(r & H1 & H2)|K]; [right|left; exact K]. destruct (MV r) as (k & Hk & V1 & V2). exists k. split; [lia|].
    unfold hit, touch, edge_on, AB, edg in *. rewrite V1, V2. auto.
Qed.
End TrapQ.

(** The second polygon to the right of edge i of the first: the walk goes around the second polygon. *)
Section TrapP.
Variables (i : nat) (W : pt).
Hypothesis R : right_of Q P i.
Hypothesis WQ : in_hull Q W.
Hypothesis WP : edge_on P i W.
Hypothesis WV : ~ W =p= vtx P i.
Lemma trap_p : forall j s, cx_in s = pgon1_in -> advanced P Q i j s = inl (advance_b m [] s).
Proof.
  intros j s F. pose proof (R _ (vtx_in Q CQ j)) as RB. fold (bA P Q i j) in RB. 
  destruct (to_end_strict P i W WP WV) as (h & Hh & EV). pose proof (tri2_moved Q j W _ _ h EV) as T. rewrite (cross_swap P Q) in T. fold (aB P Q i j) in T.
  pose proof (around_left Q CQ j W WQ) as LW.
  destruct (adv_cases P Q i j s) as [(_ & _ & _ & E)|[(NC & GO & _)|(_ & _ & E)]]; [| |exfalso|].
  - intros (K1 & K2 & K3). exact (not_apart P Q CP CQ W (around_in P CP i W WP) WQ i j K1 K2 K3).
  - rewrite E, F. reflexivity.
  - destruct GO as [[_ G2]|[G1 G2]]; [lra|]. assert (H0 : 0 < h * - AB P Q i j) by (apply Qmult_lt_0_compat; lra). lra.
  - rewrite E, F. reflexivity.
Qed.
Lemma trap_p_loop : forall fuel j s, cx_a s = (i mod n)%nat -> cx_b s = (j mod m)%nat -> cx_in s = pgon1_in -> (1 <= cx_n s)%nat -> cx_out s <> [] -> Forall (common_point P Q) (cx_out s) ->
  (cx_aa s < n)%nat -> (cx_ba s < 2 * m)%nat -> (cx_measure n m s < fuel)%nat ->
  (one_common \/ exists r, (j <= r < j + (2 * m - cx_ba s))%nat /\ hit P Q i r /\ AB P Q i r == 0) ->
  touch_ok (cx_loop direct P Q fuel s).
Proof.
  pose proof n3 as L3. pose proof m3 as M3.
  induction fuel as [|fuel IH]; intros j s Ea Eb EF Hn HO HC Ha Hb F K2; [lia|]. cbn [cx_loop].
  assert (EN : ((j mod m + 1) mod m = S j mod m)%nat) by (apply (mod_S P Q); lia).
  assert (CONT : forall s0, cx_in s0 = pgon1_in -> cx_a s0 = cx_a s -> cx_b s0 = cx_b s -> cx_aa s0 = cx_aa s -> cx_ba s0 = cx_ba s -> (1 <= cx_n s0)%nat -> cx_out s0 <> [] -> Forall (common_point P Q) (cx_out s0) ->
     ~ (hit P Q i j /\ AB P Q i j == 0) -> cx_step direct P Q s = advanced P Q i j s0 -> 
     touch_ok (match cx_step direct P Q s with inl s1 => if (Nat.ltb (cx_aa s1) n || Nat.ltb (cx_ba s1) m) && Nat.ltb (cx_aa s1) (n * 2) && Nat.ltb (cx_ba s1) (m * 2) then cx_loop direct P Q fuel s1 else cx_finish P Q s1 | inr r => r end)).
  { intros s0 F0 A0 B0 AA0 BA0 N0 O0 C0 NF E. rewrite (trap_p j s0 F0) in E. rewrite E.
    pose proof (step_measure direct P Q s _ E ltac:(fold n; lia) ltac:(fold m; lia)) as M. fold n in M. fold m in M. set (s1 := advance_b m [] s0) in *.
    assert (A1 : cx_aa s1 = cx_aa s) by exact AA0. assert (B1 : cx_ba s1 = (cx_ba s + 1)%nat) by (unfold s1, advance_b; cbn [cx_ba]; lia).
    assert (K2' : one_common \/ exists r, (S j <= r < S j + (2 * m - cx_ba s1))%nat /\ hit P Q i r /\ AB P Q i r == 0).
    { destruct K2 as [K|(r & Hr & H1 & H2)]; [left; exact K|right]. destruct (Nat.eq_dec r j) as [->|Ne]; [exfalso; apply NF; auto|]. exists r. split; [lia|auto]. }
    destruct (Nat.ltb_spec (cx_aa s1) n) as [_|L]; [|lia]. cbn [orb]. destruct (Nat.ltb_spec (cx_aa s1) (n * 2)) as [_|L]; [|lia].
    destruct (Nat.ltb_spec (cx_ba s1) (m * 2)) as [L|L]; cbn [andb].
    - apply (IH (S j)); try assumption; try lia; unfold s1, advance_b; cbn [cx_a cx_b cx_n rev app length]; [rewrite A0; exact Ea|rewrite B0, Eb; exact EN|lia].
    - apply end_ok; try assumption; [change (cx_in s0 <> in_unknown); rewrite F0; discriminate|unfold s1, advance_b; cbn [cx_n rev app length]; lia|destruct K2' as [K|(r & Hr & _)]; [exact K|lia]]. }
  change (length P) with n. change (length Q) with m.
  destruct (step_cases P Q CP CQ i j s Ea Eb) as [(_ & N & X & XP & XQ & E)|[(_ & _ & X & Y & E)|(NH & E)]].
  - fold (rcd i j X s) in E. pose proof (R _ (vtx_in Q CQ j)) as RB. fold (bA P Q i j) in RB.
    assert (RS : is_in_unknown (cx_in s) && Nat.eqb (cx_n s + 1) 1 = false) by (destruct (Nat.eqb_spec (cx_n s + 1) 1); [lia|apply andb_false_r]).
    apply (CONT (rcd i j X s)); [|reflexivity|reflexivity| | | | | |intros [_ K]; contradiction|exact E].
    + destruct (Qlt_le_dec 0 (aB P Q i j)) as [K|K]; [apply rcd_p; exact K|rewrite rcd_same by assumption; exact EF].
    + unfold rcd, record_crossing. cbn [cx_aa]. rewrite RS. reflexivity.
    + unfold rcd, record_crossing. cbn [cx_ba]. rewrite RS. reflexivity.
    + unfold rcd, record_crossing. cbn [cx_n]. lia.
    + discriminate.
    + constructor; [exact (meet_common i j X XP XQ)|exact HC].
  - rewrite E. apply face_ok. exact HC.
  - apply (CONT s); try assumption; try reflexivity. intros [K _]. contradiction.
Qed.
Lemma trap_p_ok : forall fuel j s, cx_a s = (i mod n)%nat -> cx_b s = (j mod m)%nat -> cx_in s = pgon1_in -> (1 <= cx_n s)%nat -> cx_out s <> [] -> Forall (common_point P Q) (cx_out s) ->
  (cx_aa s < n)%nat -> (cx_ba s <= m)%nat -> (cx_measure n m s < fuel)%nat -> touch_ok (cx_loop direct P Q fuel s).
Proof.
  intros fuel j s Ea Eb NF Hn HO HC Ha Hb F. pose proof m3.
  apply (trap_p_loop fuel j s); try assumption; [lia|].
  destruct (face_or_one Q P CQ CP i R) as [(r & H1 & H2)|K]; [right|left].
  - destruct (index_near Q CQ (j + m) r ltac:(fold m; lia)) as (k & Hk & V1 & V2). fold m in Hk. exists k. split; [lia|].
    assert (H3 : hit Q P k i /\ AB Q P k i == 0) by (unfold hit, touch, edge_on, AB, edg in *; rewrite V1, V2; auto).
    destruct H3 as [H3 H4]. split; [apply (swap_hit Q P k i H3)|]. rewrite swap_AB in H4. lra.
  - intros Y Z [Y1 Y2] [Z1 Z2]. apply K; split; assumption.
Qed.
End TrapP.

(** States of the walk. *)
Definition good (s : cx_state) : Prop := forall fuel, (cx_measure n m s < fuel)%nat -> touch_ok (cx_loop direct P Q fuel s).
Definition rec (i j ka kb : nat) (s : cx_state) : Prop := cx_a s = (i mod n)%nat /\ cx_b s = (j mod m)%nat /\ Forall (common_point P Q) (cx_out s) /\ (1 <= cx_n s)%nat /\ cx_out s <> [] /\ (cx_aa s <= ka)%nat /\ (cx_ba s <= kb)%nat.
Definition start (i j : nat) (s : cx_state) : Prop := cx_a s = (i mod n)%nat /\ cx_b s = (j mod m)%nat /\ cx_out s = [] /\ cx_n s = 0%nat /\ cx_in s = in_unknown /\ (cx_aa s < 2 * n)%nat /\ (cx_ba s < 2 * m)%nat.
Definition here (i j ka kb : nat) (s : cx_state) : Prop := rec i j ka kb s \/ start i j s.
Lemma face_on : forall s X Y, cx_step direct P Q s = inr (CxDone px_face (rev (Y :: X :: cx_out s))) -> Forall (common_point P Q) (cx_out s) -> good s.
Proof. intros s X Y E H fuel F. destruct fuel as [|fuel]; [lia|]. cbn [cx_loop]. rewrite E. apply face_ok. exact H. Qed.
Lemma go_on : forall s s', cx_step direct P Q s = inl s' -> (cx_aa s < 2 * n)%nat -> (cx_ba s < 2 * m)%nat -> (cx_aa s' < n \/ cx_ba s' < m)%nat -> (cx_aa s' < 2 * n)%nat -> (cx_ba s' < 2 * m)%nat -> good s' -> good s.
Proof.
  intros s s' E H1 H2 H3 H4 H5 G fuel F. destruct fuel as [|fuel]; [lia|]. cbn [cx_loop]. rewrite E.
  pose proof (step_measure direct P Q s s' E H1 H2) as M. fold n in M. fold m in M. change (length P) with n. change (length Q) with m.
  assert (B1 : Nat.ltb (cx_aa s') n || Nat.ltb (cx_ba s') m = true) by (destruct H3 as [K|K]; apply Nat.ltb_lt in K; rewrite K; [reflexivity|apply orb_true_r]).
  rewrite B1. destruct (Nat.ltb_spec (cx_aa s') (n * 2)); [|lia]. destruct (Nat.ltb_spec (cx_ba s') (m * 2)); [|lia]. cbn [andb]. apply G. lia.
Qed.
Lemma here_live : forall i j ka kb s, (ka <= 3)%nat -> (kb <= 3)%nat -> here i j ka kb s -> cx_a s = (i mod n)%nat /\ cx_b s = (j mod m)%nat /\ Forall (common_point P Q) (cx_out s) /\ (cx_aa s < 2 * n)%nat /\ (cx_ba s < 2 * m)%nat.
Proof.
  intros i j ka kb s H1 H2 H. pose proof n3. pose proof m3. destruct H as [(A & B & C & _ & _ & D1 & D2)|(A & B & C & _ & _ & D1 & D2)]; (split; [exact A|]; split; [exact B|]).
  - split; [exact C|]. lia.
  - rewrite C. split; [constructor|]. lia.
Qed.
Lemma rcd_rec : forall i j ka kb s X, here i j ka kb s -> edge_on P i X -> edge_on Q j X -> rec i j ka kb (rcd i j X s).
Proof.
  intros i j ka kb s X H OP OQ. unfold rec, rcd, record_crossing. cbn [cx_a cx_b cx_aa cx_ba cx_n cx_out]. pose proof (meet_common i j X OP OQ) as MC.
  destruct H as [(A & B & C & N & O & D1 & D2)|(A & B & C & N & I & D1 & D2)]; (split; [exact A|]; split; [exact B|]).
  - split; [constructor; assumption|]. split; [lia|]. split; [discriminate|].
    assert (RS : is_in_unknown (cx_in s) && Nat.eqb (cx_n s + 1) 1 = false) by (destruct (Nat.eqb_spec (cx_n s + 1) 1); [lia|apply andb_false_r]). rewrite RS. auto.
  - rewrite C. split; [constructor; [assumption|constructor]|]. split; [lia|]. split; [discriminate|]. rewrite I, N. cbn. lia.
Qed.
Lemma mv_a : forall i j ka kb s s0, (cx_aa s < 2 * n)%nat -> (cx_ba s < 2 * m)%nat -> cx_step direct P Q s = advanced P Q i j s0 -> advanced P Q i j s0 = inl (advance_a n [] s0) -> rec i j ka kb s0 ->
  (ka <= 2)%nat -> (kb <= 2)%nat -> (forall s', rec (S i) j (S ka) kb s' -> cx_in s' = cx_in s0 -> good s') -> good s.
Proof.
  intros i j ka kb s s0 L1 L2 E E' (A & B & C & N & O & D1 & D2) Ka Kb G. rewrite E' in E. pose proof n3. pose proof m3.
  apply (go_on s (advance_a n [] s0) E L1 L2); unfold advance_a; cbn [cx_aa cx_ba]; [lia|lia|lia|]. apply G; [|reflexivity].
  unfold rec. cbn [cx_a cx_b cx_aa cx_ba cx_n cx_out rev app length]. rewrite A, (mod_S P Q n i) by lia. repeat (split; [assumption || reflexivity || lia|]). lia.
Qed.
Lemma mv_b : forall i j ka kb s s0, (cx_aa s < 2 * n)%nat -> (cx_ba s < 2 * m)%nat -> cx_step direct P Q s = advanced P Q i j s0 -> advanced P Q i j s0 = inl (advance_b m [] s0) -> rec i j ka kb s0 ->
  (ka <= 2)%nat -> (kb <= 2)%nat -> (forall s', rec i (S j) ka (S kb) s' -> cx_in s' = cx_in s0 -> good s') -> good s.
Proof.
  intros i j ka kb s s0 L1 L2 E E' (A & B & C & N & O & D1 & D2) Ka Kb G. rewrite E' in E. pose proof n3. pose proof m3.
  apply (go_on s (advance_b m [] s0) E L1 L2); unfold advance_b; cbn [cx_aa cx_ba]; [lia|lia|lia|]. apply G; [|reflexivity].
  unfold rec. cbn [cx_a cx_b cx_aa cx_ba cx_n cx_out rev app length]. rewrite B, (mod_S P Q m j) by lia. repeat (split; [assumption || reflexivity || lia|]). lia.
Qed.

(** The sides of the ends of the edges, seen from a common point of the edges. *)
Lemma side_a : forall i j X, edge_on P i X -> edge_on Q j X -> exists h, 0 <= h /\ aB P Q i j == - (h * AB P Q i j) /\ (~ X =p= vtx P i -> 0 < h).
Proof.
  intros i j X OP OQ. destruct (pteq_either X (vtx P i)) as [E|E].
  - exists 0. split; [lra|]. split; [|intro K; contradiction]. unfold aB. rewrite <- (tri2_pteq _ _ _ _ E), (edge_zero Q j X OQ). ring.
  - destruct (to_end_strict P i X OP E) as (h & Hh & EV). exists h. split; [lra|]. split; [|auto]. unfold aB. rewrite (tri2_moved Q j X _ _ h EV), (edge_zero Q j X OQ), (cross_swap P Q). ring.
Qed.
Lemma side_b : forall i j X, edge_on P i X -> edge_on Q j X -> exists h, 0 <= h /\ bA P Q i j == h * AB P Q i j /\ (~ X =p= vtx Q j -> 0 < h).
Proof.
  intros i j X OP OQ. destruct (pteq_either X (vtx Q j)) as [E|E].
  - exists 0. split; [lra|]. split; [|intro K; contradiction]. unfold bA. rewrite <- (tri2_pteq _ _ _ _ E), (edge_zero P i X OP). ring.
  - destruct (to_end_strict Q j X OQ E) as (h & Hh & EV). exists h. split; [lra|]. split; [|auto]. unfold bA. rewrite (tri2_moved P i X _ _ h EV), (edge_zero P i X OP). unfold AB. ring.
Qed.
Lemma at_end_a : forall i j X, edge_on Q j X -> X =p= vtx P i -> aB P Q i j == 0.
Proof. intros i j X OQ E. unfold aB. rewrite <- (tri2_pteq _ _ _ _ E). apply (edge_zero Q j X OQ). Qed.
Lemma at_end_b : forall i j X, edge_on P i X -> X =p= vtx Q j -> bA P Q i j == 0.
Proof. intros i j X OP E. unfold bA. rewrite <- (tri2_pteq _ _ _ _ E). apply (edge_zero P i X OP). Qed.
Lemma meets_step : forall i j ka kb s X, here i j ka kb s -> (ka <= 2)%nat -> (kb <= 2)%nat -> edge_on P i X -> edge_on Q j X -> ~ AB P Q i j == 0 ->
  (cx_aa s < 2 * n)%nat /\ (cx_ba s < 2 * m)%nat /\ exists Y, cx_step direct P Q s = advanced P Q i j (rcd i j Y s) /\ rec i j ka kb (rcd i j Y s).
Proof.
  intros i j ka kb s X H Ka Kb OP OQ N. destruct (here_live i j ka kb s ltac:(lia) ltac:(lia) H) as (A & B & _ & L1 & L2). split; [exact L1|]. split; [exact L2|].
  destruct (step_cases P Q CP CQ i j s A B) as [(_ & _ & Y & YP & YQ & E)|[(_ & K & _)|(NH & _)]]; [|contradiction|exfalso; apply NH; split; [exists X; auto|auto]].
  exists Y. split; [exact E|]. apply rcd_rec; assumption.
Qed.
Lemma pnc : forall i j X, edge_on P i X -> edge_on Q j X -> ~ (AB P Q i j == 0 /\ aB P Q i j < 0 /\ bA P Q i j < 0).
Proof. intros i j X OP OQ (K1 & K2 & K3). exact (not_apart P Q CP CQ X (around_in P CP i X OP) (around_in Q CQ j X OQ) i j K1 K2 K3). Qed.
Lemma move1 : forall i j ka kb s X, here i j ka kb s -> (ka <= 2)%nat -> (kb <= 2)%nat -> edge_on P i X -> edge_on Q j X -> 0 < AB P Q i j -> ~ X =p= vtx Q j ->
  (forall s', rec (S i) j (S ka) kb s' -> cx_in s' = pgon2_in -> good s') -> good s.
Proof.
  intros i j ka kb s X H Ka Kb OP OQ G NE K. destruct (meets_step i j ka kb s X H Ka Kb OP OQ ltac:(lra)) as (L1 & L2 & Y & E & RY).
  destruct (side_a i j X OP OQ) as (h & Hh & EA & _). destruct (side_b i j X OP OQ) as (h' & Hh' & EB & PB). specialize (PB NE).
  assert (HA : 0 <= h * AB P Q i j) by (apply Qmult_le_0_compat; lra). assert (HB : 0 < h' * AB P Q i j) by (apply Qmult_lt_0_compat; lra).
  assert (FL : cx_in (rcd i j Y s) = pgon2_in) by (apply rcd_q; lra).
  apply (mv_a i j ka kb s (rcd i j Y s)); try assumption; [|intros s' R I; apply K; [exact R|rewrite I; exact FL]].
  destruct (adv_cases P Q i j (rcd i j Y s) (pnc i j X OP OQ)) as [(K1 & _)|[(_ & _ & EV)|(_ & K1 & _)]]; [lra| |lra]. rewrite EV, FL. reflexivity.
Qed.
Lemma move2 : forall i j ka kb s X, here i j ka kb s -> (ka <= 2)%nat -> (kb <= 2)%nat -> edge_on P i X -> edge_on Q j X -> 0 < AB P Q i j -> X =p= vtx Q j -> cx_in s = in_unknown ->
  (forall s', rec i (S j) ka (S kb) s' -> cx_in s' = in_unknown -> good s') -> good s.
Proof.
  intros i j ka kb s X H Ka Kb OP OQ G NE I0 K. destruct (meets_step i j ka kb s X H Ka Kb OP OQ ltac:(lra)) as (L1 & L2 & Y & E & RY).
  destruct (side_a i j X OP OQ) as (h & Hh & EA & _). pose proof (at_end_b i j X OP NE) as EB.
  assert (HA : 0 <= h * AB P Q i j) by (apply Qmult_le_0_compat; lra).
  assert (FL : cx_in (rcd i j Y s) = in_unknown) by (rewrite rcd_same by lra; exact I0).
  apply (mv_b i j ka kb s (rcd i j Y s)); try assumption; [|intros s' R I; apply K; [exact R|rewrite I; exact FL]].
  destruct (adv_cases P Q i j (rcd i j Y s) (pnc i j X OP OQ)) as [(K1 & _)|[(_ & K1 & EV)|(_ & K1 & EV)]]; [lra|lra|]. rewrite EV, FL. reflexivity.
Qed.
Lemma move3 : forall i j ka kb s X, here i j ka kb s -> (ka <= 2)%nat -> (kb <= 2)%nat -> edge_on P i X -> edge_on Q j X -> AB P Q i j < 0 -> ~ X =p= vtx P i ->
  (forall s', rec i (S j) ka (S kb) s' -> cx_in s' = pgon1_in -> good s') -> good s.
Proof.
  intros i j ka kb s X H Ka Kb OP OQ G NE K. destruct (meets_step i j ka kb s X H Ka Kb OP OQ ltac:(lra)) as (L1 & L2 & Y & E & RY).
  destruct (side_a i j X OP OQ) as (h & Hh & EA & PA). specialize (PA NE). 
  assert (HA : 0 < h * - AB P Q i j) by (apply Qmult_lt_0_compat; lra).
  assert (FL : cx_in (rcd i j Y s) = pgon1_in) by (apply rcd_p; lra).
  apply (mv_b i j ka kb s (rcd i j Y s)); try assumption; [|intros s' R I; apply K; [exact R|rewrite I; exact FL]].
  destruct (adv_cases P Q i j (rcd i j Y s) (pnc i j X OP OQ)) as [(K1 & _)|[(_ & K1 & EV)|(_ & K1 & EV)]]; [lra|lra|]. rewrite EV, FL. reflexivity.
Qed.
Lemma move4 : forall i j ka kb s X, here i j ka kb s -> (ka <= 2)%nat -> (kb <= 2)%nat -> edge_on P i X -> edge_on Q j X -> AB P Q i j < 0 -> X =p= vtx P i -> cx_in s = in_unknown ->
  (forall s', rec (S i) j (S ka) kb s' -> cx_in s' = in_unknown -> good s') -> good s.
Proof.
  intros i j ka kb s X H Ka Kb OP OQ G NE I0 K. destruct (meets_step i j ka kb s X H Ka Kb OP OQ ltac:(lra)) as (L1 & L2 & Y & E & RY).
  destruct (side_b i j X OP OQ) as (h & Hh & EB & _). pose proof (at_end_a i j X OQ NE) as EA.
  assert (HB : 0 <= h * - AB P Q i j) by (apply Qmult_le_0_compat; lra).
  assert (FL : cx_in (rcd i j Y s) = in_unknown) by (rewrite rcd_same by lra; exact I0).
  apply (mv_a i j ka kb s (rcd i j Y s)); try assumption; [|intros s' R I; apply K; [exact R|rewrite I; exact FL]].
  destruct (adv_cases P Q i j (rcd i j Y s) (pnc i j X OP OQ)) as [(K1 & _)|[(_ & K1 & EV)|(_ & K1 & EV)]]; [lra| |lra]. rewrite EV, FL. reflexivity.
Qed.
Lemma move5 : forall i j ka kb s X, here i j ka kb s -> (ka <= 3)%nat -> (kb <= 3)%nat -> edge_on P i X -> edge_on Q j X -> AB P Q i j == 0 -> dot (edg P i) (edg Q j) < 0 -> good s.
Proof.
  intros i j ka kb s X H Ka Kb OP OQ Z D. destruct (here_live i j ka kb s Ka Kb H) as (A & B & C & _ & _).
  destruct (step_cases P Q CP CQ i j s A B) as [(_ & K & _)|[(_ & _ & X1 & Y1 & E)|(NH & _)]]; [contradiction|apply (face_on s X1 Y1); assumption|].
  exfalso. apply NH. split; [exists X; auto|auto].
Qed.
Lemma move6 : forall i j ka kb s X, rec i j ka kb s -> (ka <= 2)%nat -> (kb <= 2)%nat -> edge_on P i X -> edge_on Q j X -> AB P Q i j == 0 -> 0 < dot (edg P i) (edg Q j) -> cx_in s = in_unknown ->
  (forall s', rec (S i) j (S ka) kb s' -> cx_in s' = in_unknown -> good s') -> good s.
Proof.
  intros i j ka kb s X H Ka Kb OP OQ Z D I0 K. destruct (here_live i j ka kb s ltac:(lia) ltac:(lia) (or_introl H)) as (A & B & _ & L1 & L2).
  destruct (side_a i j X OP OQ) as (h & _ & EA & _). destruct (side_b i j X OP OQ) as (h' & _ & EB & _). rewrite Z in EA, EB.
  destruct (step_cases P Q CP CQ i j s A B) as [(_ & K1 & _)|[((_ & [K1|K1]) & _)|(NH & E)]]; [contradiction|contradiction|lra|].
  apply (mv_a i j ka kb s s); try assumption; [|intros s' R I; apply K; [exact R|rewrite I; exact I0]].
  destruct (adv_cases P Q i j s (pnc i j X OP OQ)) as [(_ & _ & _ & EV)|[(NC & _)|(NC & _)]]; [|exfalso; apply NC; lra|exfalso; apply NC; lra]. rewrite EV, I0. reflexivity.
Qed.

Lemma go_trap_q : forall i j ka kb s X, rec i j ka kb s -> (ka <= 3)%nat -> (kb <= 2)%nat -> cx_in s <> pgon1_in -> right_of P Q j -> in_hull P X -> edge_on Q j X -> ~ X =p= vtx Q j -> good s.
Proof.
  intros i j ka kb s X (A & B & C & N & O & D1 & D2) Ka Kb I R HP OQ NE fuel F. pose proof n3. pose proof m3.
  apply (trap_q_ok j X R HP OQ NE fuel i s); try assumption; lia.
Qed.
Lemma go_trap_p : forall i j ka kb s X, rec i j ka kb s -> (ka <= 2)%nat -> (kb <= 3)%nat -> cx_in s = pgon1_in -> right_of Q P i -> in_hull Q X -> edge_on P i X -> ~ X =p= vtx P i -> good s.
Proof.
  intros i j ka kb s X (A & B & C & N & O & D1 & D2) Ka Kb I R HP OQ NE fuel F. pose proof n3. pose proof m3.
  apply (trap_p_ok i X R HP OQ NE fuel j s); try assumption; lia.
Qed.
Lemma dot_cases : forall i j, AB P Q i j == 0 -> dot (edg P i) (edg Q j) < 0 \/ 0 < dot (edg P i) (edg Q j).
Proof.
  intros i j Z. destruct (Qlt_le_dec (dot (edg P i) (edg Q j)) 0) as [K|K]; [left; exact K|right].
  destruct (Qeq_dec (dot (edg P i) (edg Q j)) 0) as [K0|K0]; [exfalso|lra]. exact (cross_dot_nonzero (edg P i) (edg Q j) (edg_nonzero P CP i) (edg_nonzero Q CQ j) Z K0).
Qed.
Lemma ab_cases : forall i j, 0 < AB P Q i j \/ AB P Q i j < 0 \/ AB P Q i j == 0.
Proof. intros i j. destruct (Qlt_le_dec 0 (AB P Q i j)); [auto|]. destruct (Qlt_le_dec (AB P Q i j) 0); [auto|]. right. right. lra. Qed.
Lemma at_from : forall ps i X, X =p= from ps i -> edge_on ps i X.
Proof. intros ps i X E. apply (segment_pteq _ _ (from ps i)); [apply pteq_sym; exact E|apply edge_start]. Qed.
(** Both edges start at the point. *)
Lemma corner : forall i j ka kb s X, here i j ka kb s -> (ka <= 2)%nat -> (kb <= 2)%nat -> X =p= from P i -> X =p= from Q j -> good s.
Proof.
  intros i j ka kb s X H Ka Kb EP EQ. pose proof (at_from P i X EP) as OP. pose proof (at_from Q j X EQ) as OQ.
  assert (N1 : ~ X =p= vtx P i) by (intro K; exact (ends_differ P CP i X EP K)). assert (N2 : ~ X =p= vtx Q j) by (intro K; exact (ends_differ Q CQ j X EQ K)).
  pose proof (around_in P CP i X OP) as HP. pose proof (around_in Q CQ j X OQ) as HQ.
  destruct (ab_cases i j) as [G|[G|G]].
  - destruct (rec_geo P Q CP CQ NI i j X OP OQ G N2) as [R|(K & _)]; [|contradiction].
    apply (move1 i j ka kb s X H Ka Kb OP OQ G N2). intros s' R' I'. apply (go_trap_q (S i) j (S ka) kb s' X); try assumption; [lia|rewrite I'; discriminate].
  - destruct (rec_geo Q P CQ CP NI' j i X OQ OP ltac:(rewrite swap_AB; lra) N1) as [R|(K & _)]; [|contradiction].
    apply (move3 i j ka kb s X H Ka Kb OP OQ G N1). intros s' R' I'. apply (go_trap_p i (S j) ka (S kb) s' X); try assumption. lia.
  - destruct (dot_cases i j G) as [D|D]; [apply (move5 i j ka kb s X); try assumption; lia|]. exfalso. apply N1. exact (alike_geo P Q CP CQ NI i j X OP OQ G D N2).
Qed.
Lemma settle_q : forall i j ka kb s X, here i j ka kb s -> (ka <= 1)%nat -> (kb <= 1)%nat -> edge_on P i X -> edge_on Q j X -> 0 < AB P Q i j -> ~ X =p= vtx Q j -> good s.
Proof.
  intros i j ka kb s X H Ka Kb OP OQ G N2. apply (move1 i j ka kb s X H ltac:(lia) ltac:(lia) OP OQ G N2). intros s' R' I'.
  destruct (rec_geo P Q CP CQ NI i j X OP OQ G N2) as [R|(K1 & K2 & _)].
  - apply (go_trap_q (S i) j (S ka) kb s' X); try assumption; [lia|lia|rewrite I'; discriminate|exact (around_in P CP i X OP)].
  - apply (corner (S i) j (S ka) kb s' X); [left; exact R'|lia|lia|rewrite (from_S P CP i); exact K1|exact K2].
Qed.
Lemma settle_p : forall i j ka kb s X, here i j ka kb s -> (ka <= 1)%nat -> (kb <= 1)%nat -> edge_on P i X -> edge_on Q j X -> AB P Q i j < 0 -> ~ X =p= vtx P i -> good s.
Proof.
  intros i j ka kb s X H Ka Kb OP OQ G N2. apply (move3 i j ka kb s X H ltac:(lia) ltac:(lia) OP OQ G N2). intros s' R' I'.
  destruct (rec_geo Q P CQ CP NI' j i X OQ OP ltac:(rewrite swap_AB; lra) N2) as [R|(K1 & K2 & _)].
  - apply (go_trap_p i (S j) ka (S kb) s' X); try assumption; [lia|lia|exact (around_in Q CQ j X OQ)].
  - apply (corner i (S j) ka (S kb) s' X); [left; exact R'|lia|lia|exact K2|rewrite (from_S Q CQ j); exact K1].
Qed.
Lemma second_q : forall i j ka kb s X, rec i j ka kb s -> (ka <= 1)%nat -> (kb <= 1)%nat -> edge_on P i X -> X =p= from Q j -> cx_in s = in_unknown -> good s.
Proof.
  intros i j ka kb s X H Ka Kb OP EQ I0. pose proof (at_from Q j X EQ) as OQ. assert (N2 : ~ X =p= vtx Q j) by (intro K; exact (ends_differ Q CQ j X EQ K)).
  destruct (ab_cases i j) as [G|[G|G]].
  - apply (settle_q i j ka kb s X (or_introl H)); assumption.
  - destruct (pteq_either X (vtx P i)) as [E|E]; [|apply (settle_p i j ka kb s X (or_introl H)); assumption].
    apply (move4 i j ka kb s X (or_introl H) ltac:(lia) ltac:(lia) OP OQ G E I0). intros s' R' I'. apply (corner (S i) j (S ka) kb s' X); [left; exact R'|lia|lia|rewrite (from_S P CP i); exact E|exact EQ].
  - destruct (dot_cases i j G) as [D|D]; [apply (move5 i j ka kb s X (or_introl H)); try assumption; lia|].
    pose proof (alike_geo P Q CP CQ NI i j X OP OQ G D N2) as E.
    apply (move6 i j ka kb s X H ltac:(lia) ltac:(lia) OP OQ G D I0). intros s' R' I'. apply (corner (S i) j (S ka) kb s' X); [left; exact R'|lia|lia|rewrite (from_S P CP i); exact E|exact EQ].
Qed.
(** Past the end of an edge of the second polygon with the same direction. *)
Lemma skipped : forall i j X, X =p= from P i -> X =p= vtx Q j -> AB P Q i j == 0 -> 0 < dot (edg P i) (edg Q j) -> AB P Q (S i) j < 0 /\ 0 < aB P Q (S i) j /\ ~ touch P Q (S i) j.
Proof.
  intros i j X EP EQ Z D. destruct (same_scale (edg P i) (edg Q j) (edg_nonzero P CP i) Z D) as (k & K & SC).
  pose proof (edg_left P CP i) as La. assert (AN : forall u v, cross u v == - cross v u) by (intros; unfold cross; ring).
  assert (KK : 0 < k * cross (edg P i) (edg P (S i))) by (apply Qmult_lt_0_compat; lra).
  assert (G : AB P Q (S i) j < 0) by (unfold AB; rewrite AN, SC; lra). split; [exact G|].
  assert (OQ : edge_on Q j X) by (apply (segment_pteq _ _ (vtx Q j)); [apply pteq_sym; exact EQ|apply edge_end]).
  assert (EV : vtx P i =p= vadd X (vscale 1 (edg P i))) by (destruct EP as [E1 E2]; unfold edg; split; cbn [px py vadd vscale vsub]; [rewrite E1|rewrite E2]; ring).
  assert (T0 : tri2 (from Q j) (vtx Q j) (from P (S i)) == 0) by (rewrite (from_S P CP i), (tri2_moved Q j X _ _ 1 EV), (edge_zero Q j X OQ), (cross_swap P Q), Z; ring).
  assert (TE : forall t Y, Y =p= lerp (from P (S i)) (vtx P (S i)) t -> tri2 (from Q j) (vtx Q j) Y == - (t * AB P Q (S i) j)).
  { intros t Y E. assert (E' : Y =p= vadd (from P (S i)) (vscale t (edg P (S i)))) by (apply (pteq_trans _ _ _ E); unfold edg, lerp; split; cbn [px py vadd vscale vsub]; ring).
    rewrite (tri2_moved Q j _ _ _ t E'), T0, (cross_swap P Q). ring. }
  split.
  - assert (E1 : vtx P (S i) =p= lerp (from P (S i)) (vtx P (S i)) 1) by (unfold lerp; split; cbn [px py vadd vscale vsub]; ring). pose proof (TE 1 _ E1) as TT. fold (aB P Q (S i) j) in TT. lra.
  - intros (Y & (t & Ht & EY) & YQ). pose proof (TE t Y EY) as TT. rewrite (edge_zero Q j Y YQ) in TT. assert (T00 : t == 0) by nra.
    assert (EY' : Y =p= vtx P i) by (apply (pteq_trans _ _ _ EY); rewrite (from_S P CP i); unfold lerp; split; cbn [px py vadd vscale vsub]; rewrite T00; ring).
    destruct YQ as (u & Hu & EU). destruct EQ as [Q1 Q2]. destruct EY' as [Y1 Y2]. destruct EU as [U1 U2]. destruct EP as [P1 P2].
    unfold dot, edg in D. cbn [px py vsub] in D. unfold lerp in U1, U2. cbn [px py vadd vscale vsub] in U1, U2.
    assert (D1 : px (vtx P i) - px (from P i) == - ((1 - u) * (px (vtx Q j) - px (from Q j)))) by (rewrite <- Y1, <- P1, U1, Q1; ring).
    assert (D2 : py (vtx P i) - py (from P i) == - ((1 - u) * (py (vtx Q j) - py (from Q j)))) by (rewrite <- Y2, <- P2, U2, Q2; ring).
    rewrite D1, D2 in D. set (bx := px (vtx Q j) - px (from Q j)) in *. set (by_ := py (vtx Q j) - py (from Q j)) in *.
    assert (NN : 0 <= (1 - u) * (bx * bx + by_ * by_)) by (apply Qmult_le_0_compat; [lra|]; pose proof (sq_nonneg bx); pose proof (sq_nonneg by_); lra). lra.
Qed.
Lemma second_p : forall i j ka kb s X, rec (S i) j ka kb s -> (ka <= 1)%nat -> (kb <= 1)%nat -> X =p= vtx P i -> edge_on Q j X -> cx_in s = in_unknown -> good s.
Proof.
  intros i j ka kb s X H Ka Kb EV OQ I0. assert (EP : X =p= from P (S i)) by (rewrite (from_S P CP i); exact EV).
  pose proof (at_from P (S i) X EP) as OP. assert (N1 : ~ X =p= vtx P (S i)) by (intro K; exact (ends_differ P CP (S i) X EP K)).
  destruct (ab_cases (S i) j) as [G|[G|G]].
  - destruct (pteq_either X (vtx Q j)) as [E|E]; [|apply (settle_q (S i) j ka kb s X (or_introl H)); assumption].
    apply (move2 (S i) j ka kb s X (or_introl H) ltac:(lia) ltac:(lia) OP OQ G E I0). intros s' R' I'. apply (corner (S i) (S j) ka (S kb) s' X); [left; exact R'|lia|lia|exact EP|rewrite (from_S Q CQ j); exact E].
  - apply (settle_p (S i) j ka kb s X (or_introl H)); assumption.
  - destruct (dot_cases (S i) j G) as [D|D]; [apply (move5 (S i) j ka kb s X (or_introl H)); try assumption; lia|].
    destruct (pteq_either X (vtx Q j)) as [E|E]; [|exfalso; apply N1; exact (alike_geo P Q CP CQ NI (S i) j X OP OQ G D E)].
    apply (move6 (S i) j ka kb s X H ltac:(lia) ltac:(lia) OP OQ G D I0). intros s' R' I'.
    destruct (skipped (S i) j X EP E G D) as (S1 & S2 & S3). destruct (here_live (S (S i)) j (S ka) kb s' ltac:(lia) ltac:(lia) (or_introl R')) as (A & B & _ & L1 & L2).
    destruct (step_cases P Q CP CQ (S (S i)) j s' A B) as [((T & _) & _)|[((T & _) & _)|(_ & ES)]]; [contradiction|contradiction|].
    apply (mv_b (S (S i)) j (S ka) kb s' s' L1 L2 ES); [|exact R'|lia|lia|].
    + destruct (adv_cases P Q (S (S i)) j s' ltac:(intros (K0 & _); lra)) as [(K1 & _)|[(_ & K1 & _)|(_ & _ & EV')]]; [lra|lra|]. rewrite EV', I'. reflexivity.
    + intros s'' R'' I''. assert (OS : X =p= from Q (S j)) by (rewrite (from_S Q CQ j); exact E).
      apply (go_trap_q (S (S i)) (S j) (S ka) (S kb) s'' X R''); [lia|lia|rewrite I'', I'; discriminate|exact (skip_geo P Q CP CQ NI i j X EV E G D)|exact (around_in P CP (S i) X OP)|exact (at_from Q (S j) X OS)|].
      intro K. exact (ends_differ Q CQ (S j) X OS K).
Qed.
Lemma first_touch : forall i j s, start i j s -> hit P Q i j -> good s.
Proof.
  intros i j s ST ((X & OP & OQ) & HK). assert (H : here i j 0 0 s) by (right; exact ST). assert (I0 : cx_in s = in_unknown) by (apply ST).
  destruct (ab_cases i j) as [G|[G|G]].
  - destruct (pteq_either X (vtx Q j)) as [E|E]; [|apply (settle_q i j 0 0 s X H); try assumption; lia].
    apply (move2 i j 0 0 s X H ltac:(lia) ltac:(lia) OP OQ G E I0). intros s' R' I'. apply (second_q i (S j) 0 1 s' X R' ltac:(lia) ltac:(lia) OP); [rewrite (from_S Q CQ j); exact E|exact I'].
  - destruct (pteq_either X (vtx P i)) as [E|E]; [|apply (settle_p i j 0 0 s X H); try assumption; lia].
    apply (move4 i j 0 0 s X H ltac:(lia) ltac:(lia) OP OQ G E I0). intros s' R' I'. apply (second_p i j 1 0 s' X R' ltac:(lia) ltac:(lia) E OQ I').
  - destruct HK as [K|D]; [contradiction|]. apply (move5 i j 0 0 s X H ltac:(lia) ltac:(lia) OP OQ G D).
Qed.
End Touch.

Theorem contact_exact : forall P Q fuel X, convex_polygon P -> convex_polygon Q -> (4 * (length P + length Q) < fuel)%nat ->
  (forall X, strictly_inside P X -> strictly_inside Q X -> False) -> on_polygon P X -> on_polygon Q X ->
  touch_ok P Q (convex_polygon_polygon_intersection direct fuel P Q).
Proof.
  intros P Q fuel X CP CQ F NI OP OQ. destruct (on_polygon_edge P X CP OP) as [i Hi]. destruct (on_polygon_edge Q X CQ OQ) as [j Hj].
  apply (boundary_found P Q CP CQ (touch_ok P Q)) with (i := i) (j := j); [|exists X; auto|exact F].
  intros i' j' fl H1 H2 H3 H4. apply (first_touch P Q CP CQ NI i' j' (st P Q i' j')); [|exact H1|exact H4].
  unfold start, st. cbn [cx_a cx_b cx_aa cx_ba cx_n cx_out cx_in]. repeat (split; [reflexivity || assumption|]). assumption.
Qed.
