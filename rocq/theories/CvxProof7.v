(** [none] is returned for disjoint polygons only. *)
From Verif Require Import Base CmpModel OrientModel OrientSpec OrientProof DistModel DistSpec LinIntModel LinIntSpec LinIntProof PolygonModel PolygonSpec PolygonProof PolygonConvexProof CvxModel CvxSpec CvxProof CvxProof2 CvxProof3 CvxProof4 CvxProof5 CvxProof6.

Section Reach.
Variables P Q : list pt.
Hypothesis CP : convex_polygon P.
Hypothesis CQ : convex_polygon Q.
Let n := length P.
Let m := length Q.

Lemma st_inv : forall i j, cx_inv P Q (st P Q i j).
Proof.
  intros i j. unfold cx_inv, st; cbn. split; [apply (vtx_lt P CP)|]. split; [apply (vtx_lt Q CQ)|]. split; [reflexivity|]. split; [reflexivity|]. split; [constructor|exact I].
Qed.
Lemma hit_loop : forall i j fuel, hit P Q i j -> (i < 2 * n)%nat -> (j < 2 * m)%nat -> (cx_measure n m (st P Q i j) < fuel)%nat ->
  not_none (cx_loop direct P Q fuel (st P Q i j)).
Proof.
  intros i j fuel H Hi Hj F. destruct fuel as [|fuel]; [lia|]. cbn [cx_loop].
  pose proof (hit_step P Q CP CQ i j H) as HS. pose proof (turn P Q CP CQ _ (st_inv i j)) as T.
  destruct (cx_step direct P Q (st P Q i j)) as [s'|r] eqn:E; [|exact HS].
  assert (M := step_measure direct P Q _ s' E Hi Hj).
  destruct (_ && _) eqn:C; [|apply finish_not_none; assumption].
  apply andb_prop in C as [C C3]. apply andb_prop in C as [_ C2]. apply Nat.ltb_lt in C2, C3.
  apply found_loop; try assumption; unfold n, m in *; lia.
Qed.
(** One turn without a hit. *)
Lemma loop_next : forall i j i1 j1 fuel, cx_step direct P Q (st P Q i j) = inl (st P Q i1 j1) -> (i < 2 * n)%nat -> (j < 2 * m)%nat ->
  (i1 < n \/ j1 < m)%nat -> (i1 < 2 * n)%nat -> (j1 < 2 * m)%nat -> (cx_measure n m (st P Q i j) < fuel)%nat ->
  exists fuel', (cx_measure n m (st P Q i1 j1) < fuel')%nat /\ cx_loop direct P Q fuel (st P Q i j) = cx_loop direct P Q fuel' (st P Q i1 j1).
Proof.
  intros i j i1 j1 fuel E Hi Hj H1 H2 H3 F. destruct fuel as [|fuel]; [lia|]. exists fuel.
  assert (M := step_measure direct P Q _ _ E Hi Hj). split; [unfold n, m in *; lia|].
  cbn [cx_loop]. rewrite E. fold n m.
  assert (C : (Nat.ltb (cx_aa (st P Q i1 j1)) n || Nat.ltb (cx_ba (st P Q i1 j1)) m) && Nat.ltb (cx_aa (st P Q i1 j1)) (n * 2) && Nat.ltb (cx_ba (st P Q i1 j1)) (m * 2) = true); [|rewrite C; reflexivity].
  cbn [st cx_aa cx_ba]. apply andb_true_intro. split; [apply andb_true_intro; split|]; [apply orb_true_intro; destruct H1 as [H1|H1]; [left|right]; apply Nat.ltb_lt; exact H1|apply Nat.ltb_lt; lia|apply Nat.ltb_lt; lia].
Qed.
Lemma hit_dec : forall i j, hit P Q i j \/ ~ hit P Q i j.
Proof. intros i j. destruct (step_cases P Q CP CQ i j (st P Q i j) eq_refl eq_refl) as [[H _]|[[H _]|[H _]]]; auto. Qed.

(** What is to be shown of the result of a search that has come to a common point. *)
Section Found.
Variable Res : cx_result -> Prop.
Hypothesis HR : forall i j fuel, hit P Q i j -> (i < 2 * n)%nat -> (j < 2 * m)%nat -> (cx_measure n m (st P Q i j) < fuel)%nat -> Res (cx_loop direct P Q fuel (st P Q i j)).
Section Target.
Variable z : Z.
Variable X : pt.
Variables i' j' : nat.
Hypothesis HP : half_on P i' X.
Hypothesis HQ : half_on Q j' X.
Hypothesis BT : in_band P Q z i' j'.
Hypothesis T2 : ~ delta P Q z i' j' == 0 \/ edge_on Q j' (vtx P i') /\ (S i' < n \/ j' < m)%nat /\ (S i' < 2 * n)%nat.
Hypothesis T3 : (i' < n \/ j' < m)%nat.
Hypothesis T4 : (i' < 2 * n)%nat.
Hypothesis T5 : (j' < 2 * m)%nat.

Lemma reach : forall k i j fuel, (i <= i')%nat -> (j <= j')%nat -> (i' - i + (j' - j) = k)%nat -> in_band P Q z i j ->
  (cx_measure n m (st P Q i j) < fuel)%nat -> Res (cx_loop direct P Q fuel (st P Q i j)).
Proof.
  assert (XP : in_hull P X) by (apply (around_in P CP i'), half_edge; exact HP).
  assert (XQ : in_hull Q X) by (apply (around_in Q CQ j'), half_edge; exact HQ).
  assert (ST : forall i j, ~ hit P Q i j -> (go_a P Q i j /\ cx_step direct P Q (st P Q i j) = inl (st P Q (S i) j)) \/ (go_b P Q i j /\ cx_step direct P Q (st P Q i j) = inl (st P Q i (S j)))).
  { intros i j NH. destruct (blank_step P Q CP CQ i j NH) as [(Z1 & Z2 & Z3)|H]; [|exact H]. exfalso. exact (not_apart P Q CP CQ X XP XQ i j Z1 Z2 Z3). }
  induction k as [|k IH]; intros i j fuel Li Lj EK B F; (destruct (hit_dec i j) as [H|NH]; [apply HR; try assumption; lia|]).
  - assert (i = i') by lia. assert (j = j') by lia. subst i j.
    assert (TCH : touch P Q i' j') by (exists X; split; apply half_edge; assumption).
    destruct (d_signs P Q CP CQ z i' j') as (S1 & S2 & S3 & S4 & _).
    destruct (Qeq_dec (delta P Q z i' j') 0) as [Z|Z].
    + destruct T2 as [T2'|(O & T6 & T7)]; [contradiction|]. destruct (S3 Z) as [Z0 Z1].
      assert (D1 : -2 < delta P Q z (S i') j' < 0) by (pose proof (delta_a P Q CP z i' j'); lra).
      assert (H1 : hit P Q (S i') j').
      { split; [exists (vtx P i'); split; [|exact O]|].
        - unfold edge_on. rewrite (from_S P CP). exists 0. split; [lra|]. split; unfold lerp; cbn [px py vadd vscale vsub]; ring.
        - left. destruct (d_signs P Q CP CQ z (S i') j') as (_ & S2' & _). specialize (S2' D1). lra. }
      assert (AZ : aB P Q i' j' == 0 /\ bA P Q i' j' == 0).
      { assert (T0 : forall u v W, on_segment u v W -> tri2 u v W == 0).
        { intros u v W HW. apply (tri2_on_segment u v) in HW as (t & _ & ->). rewrite tri2_AA, tri2_AB. ring. }
        assert (A0 : aB P Q i' j' == 0) by (apply T0; exact O). split; [exact A0|].
        unfold aB in A0. rewrite left_cross in A0. unfold bA. rewrite left_cross.
        destruct (same_scale (edg P i') (edg Q j') (edg_nonzero P CP i') Z0 Z1) as (c & C0 & EC). rewrite !EC in A0. nra. }
      destruct (ST i' j' NH) as [[G E]|[G E]].
      * destruct (loop_next i' j' (S i') j' fuel E T4 T5 T6 T7 T5 F) as (fuel' & F' & ->). apply HR; assumption.
      * exfalso. destruct G as [(G1 & G2 & G3)|[G1 G2]]; [apply G3; lra|lra].
    + exfalso. apply NH. split; [exact TCH|]. unfold in_band in B. destruct (Qeq_dec (delta P Q z i' j') 2) as [E2|E2]; [right; apply (S4 (or_introl E2))|left].
      destruct (Qlt_le_dec (delta P Q z i' j') 0) as [K|K]; [specialize (S2 ltac:(lra)); lra|specialize (S1 ltac:(lra)); lra].
  - destruct (ST i j NH) as [[G E]|[G E]].
    + assert (Li' : (i < i')%nat).
      { destruct (Nat.eq_dec i i') as [->|N]; [|lia]. exfalso. apply (column P Q CP CQ z X XQ i' j' HP HQ BT j); try assumption; lia. }
      destruct (loop_next i j (S i) j fuel E) as (fuel' & F' & ->); try lia.
      destruct (band_a P Q CP CQ z X XP XQ i j B G) as [B'|H']; [|apply HR; try assumption; lia].
      apply IH; try assumption; lia.
    + assert (Lj' : (j < j')%nat).
      { destruct (Nat.eq_dec j j') as [->|N]; [|lia]. exfalso. apply (row P Q CP CQ z X XP i' j' HP HQ BT i); try assumption; lia. }
      destruct (loop_next i j i (S j) fuel E) as (fuel' & F' & ->); try lia.
      destruct (band_b P Q CP CQ z X XP XQ i j B NH G) as [B'|H']; [|apply HR; try assumption; lia].
      apply IH; try assumption; lia.
Qed.
End Target.

(** ** The pair of edges to aim at *)
Lemma half_exists : forall ps i X, convex_polygon ps -> edge_on ps i X -> exists k, half_on ps k X.
Proof.
  intros ps i X C (t & Ht & E). destruct (Qeq_dec t 0) as [Z|Z]; [|exists i, t; split; [lra|exact E]].
  pose proof (proj2 C) as L. exists (i + length ps - 1)%nat. exists 1. split; [lra|].
  assert (EV : vtx ps (i + length ps - 1) = from ps i).
  { rewrite <- (from_S ps C). replace (S (i + length ps - 1)) with (i + length ps)%nat by lia. apply (from_turn ps C). }
  rewrite EV. destruct E as [E1 E2]. split; [rewrite E1|rewrite E2]; unfold lerp; cbn [px py vadd vscale vsub]; rewrite Z; ring.
Qed.
Definition same_way (i j : nat) : Prop := AB P Q i j == 0 /\ 0 < dot (edg P i) (edg Q j).
Definition good (i j : nat) : Prop := exists X, half_on P i X /\ half_on Q j X /\ ~ same_way i j.
Definition bad (i j : nat) : Prop := exists X, half_on P i X /\ half_on Q j X /\ same_way i j.
Lemma good_or_bad : forall i j X, half_on P i X -> half_on Q j X -> good i j \/ bad i j.
Proof.
  intros i j X H1 H2. destruct (Qeq_dec (AB P Q i j) 0) as [E|E]; [|left; exists X; split; [exact H1|split; [exact H2|intros [K _]; contradiction]]].
  destruct (Qlt_le_dec 0 (dot (edg P i) (edg Q j))) as [D|D]; [right|left]; exists X; (split; [exact H1|split; [exact H2|]]); [split; assumption|intros [_ K]; lra].
Qed.
Lemma same_vector : forall A B, nonzero A -> cross A B == 0 -> 0 < dot A B -> exists k, 0 < k /\ B =p= vscale k A.
Proof.
  intros A B N C D. destruct (same_scale A B N C D) as (k & K & E). exists k. split; [exact K|].
  pose proof (E (mkpt 0 1)) as E1. pose proof (E (mkpt 1 0)) as E2. unfold cross in E1, E2. cbn [px py] in E1, E2. split; cbn [px py vscale]; lra.
Qed.
Lemma back : forall i j, bad (S i) (S j) -> (exists k l, good k l) \/ (vtx P i =p= vtx Q j /\ bad i j).
Proof.
  intros i j (X & (t & Ht & E1) & (s & Hs & E2) & Z & D). rewrite (from_S P CP) in E1. rewrite (from_S Q CQ) in E2.
  destruct (same_vector _ _ (edg_nonzero P CP (S i)) Z D) as (k & K & EV).
  assert (NP : ~ AB P Q (S i) j == 0).
  { pose proof (edg_left Q CQ j) as C. destruct EV as [V1 V2]. cbn [px py vscale] in V1, V2. unfold AB, cross in *. rewrite V1, V2 in C. nra. }
  assert (NQ : ~ AB P Q i (S j) == 0).
  { pose proof (edg_left P CP i) as C. destruct EV as [V1 V2]. cbn [px py vscale] in V1, V2. unfold AB, cross in *. rewrite V1, V2. nra. }
  assert (HP1 : half_on P i (vtx P i)) by (exists 1; split; [lra|]; split; unfold lerp; cbn [px py vadd vscale vsub]; ring).
  assert (HQ1 : half_on Q j (vtx Q j)) by (exists 1; split; [lra|]; split; unfold lerp; cbn [px py vadd vscale vsub]; ring).
  destruct EV as [V1 V2]. unfold edg in V1, V2. rewrite (from_S P CP), (from_S Q CQ) in V1, V2. destruct E1 as [A1 A2], E2 as [B1 B2].
  unfold lerp in A1, A2, B1, B2. cbn [px py vadd vscale vsub] in V1, V2, A1, A2, B1, B2. rewrite V1 in B1. rewrite V2 in B2.
  set (p := vtx P i) in *. set (q := vtx Q j) in *. set (a := vtx P (S i)) in *. set (b := vtx Q (S j)) in *.
  assert (QX : px q == px p + (t - s * k) * (px a - px p)) by lra. assert (QY : py q == py p + (t - s * k) * (py a - py p)) by lra.
  assert (SK : 0 < s * k) by nra.
  destruct (Q_dec (t - s * k) 0) as [[R|R]|R].
  - left. exists i, (S j), p. split; [exact HP1|]. split; [|intros [W _]; contradiction].
    exists ((s * k - t) / k). split.
    + split; [apply Qlt_shift_div_l; [exact K|lra]|apply Qle_shift_div_r; [exact K|]]. assert (s * k <= 1 * k) by (apply Qmult_le_r; [exact K|lra]). lra.
    + rewrite (from_S Q CQ). fold q b. assert (KE : (s * k - t) / k * k == s * k - t) by (field; lra).
      split; unfold lerp; cbn [px py vadd vscale vsub]; [rewrite V1|rewrite V2]; rewrite Qmult_assoc, KE; lra.
  - left. exists (S i), j, q. split; [|split; [exact HQ1|intros [W _]; contradiction]].
    exists (t - s * k). split; [lra|]. rewrite (from_S P CP). fold p a. split; unfold lerp; cbn [px py vadd vscale vsub]; assumption.
  - assert (E : p =p= q) by (split; [rewrite QX|rewrite QY]; rewrite R; ring).
    assert (HQ2 : half_on Q j p) by (destruct HQ1 as (c & C1 & C2); exists c; split; [exact C1|apply (pteq_trans _ q); assumption]).
    destruct (good_or_bad i j p HP1 HQ2) as [G|G]; [left; exists i, j; exact G|right; split; assumption].
Qed.
Lemma back_k : forall k i j, bad (k + i) (k + j) -> (exists a b, good a b) \/ bad i j.
Proof.
  induction k as [|k IH]; intros i j B; [right; exact B|]. destruct (back _ _ B) as [G|[_ B']]; [left; exact G|]. apply IH. exact B'.
Qed.
Lemma turn_P : forall c i, vtx P (i + c * n) = vtx P i /\ from P (i + c * n) = from P i.
Proof. pose proof (proj2 CP) as L. intros c i. unfold vtx, from. fold n. rewrite Nat.mod_add by (unfold n; lia). auto. Qed.
Lemma turn_Q : forall c j, vtx Q (j + c * m) = vtx Q j /\ from Q (j + c * m) = from Q j.
Proof. pose proof (proj2 CQ) as L. intros c i. unfold vtx, from. fold m. rewrite Nat.mod_add by (unfold m; lia). auto. Qed.
Lemma half_turn_P : forall c i X, half_on P i X <-> half_on P (i + c * n) X.
Proof. intros c i X. unfold half_on. destruct (turn_P c i) as [-> ->]. reflexivity. Qed.
Lemma half_turn_Q : forall c j X, half_on Q j X <-> half_on Q (j + c * m) X.
Proof. intros c i X. unfold half_on. destruct (turn_Q c i) as [-> ->]. reflexivity. Qed.
Lemma same_turn_P : forall c i j, same_way i j <-> same_way (i + c * n) j.
Proof. intros c i j. unfold same_way, AB, edg. destruct (turn_P c i) as [-> ->]. reflexivity. Qed.
Lemma same_turn_Q : forall c i j, same_way i j <-> same_way i (j + c * m).
Proof. intros c i j. unfold same_way, AB, edg. destruct (turn_Q c j) as [-> ->]. reflexivity. Qed.
Lemma mod_P : forall i, exists c, (i = i mod n + c * n)%nat.
Proof. intro i. exists (i / n)%nat. pose proof (proj2 CP). pose proof (Nat.div_mod i n ltac:(unfold n; lia)). lia. Qed.
Lemma mod_Q : forall i, exists c, (i = i mod m + c * m)%nat.
Proof. intro i. exists (i / m)%nat. pose proof (proj2 CQ). pose proof (Nat.div_mod i m ltac:(unfold m; lia)). lia. Qed.
Lemma bad_mod : forall i j, bad i j -> bad (i mod n) (j mod m).
Proof.
  intros i j (X & H1 & H2 & H3). destruct (mod_P i) as [c Ec]. destruct (mod_Q j) as [d Ed]. exists X.
  rewrite Ec in H1, H3. rewrite Ed in H2, H3. apply (proj2 (half_turn_P _ _ _)) in H1. apply (proj2 (half_turn_Q _ _ _)) in H2. apply (proj2 (same_turn_P _ _ _)) in H3. apply (proj2 (same_turn_Q _ _ _)) in H3. auto.
Qed.
Lemma good_mod : forall i j, good i j -> good (i mod n) (j mod m).
Proof.
  intros i j (X & H1 & H2 & H3). destruct (mod_P i) as [c Ec]. destruct (mod_Q j) as [d Ed]. exists X.
  rewrite Ec in H1. rewrite Ed in H2. apply (proj2 (half_turn_P _ _ _)) in H1. apply (proj2 (half_turn_Q _ _ _)) in H2. split; [exact H1|]. split; [exact H2|].
  intro K. apply H3. rewrite Ec, Ed. exact (proj1 (same_turn_P c _ _) (proj1 (same_turn_Q d _ _) K)).
Qed.
Lemma bad_turn : forall c d i j, bad i j -> bad (i + c * n) (j + d * m).
Proof.
  intros c d i j (X & H1 & H2 & H3). exists X. split; [exact (proj1 (half_turn_P c i X) H1)|]. split; [exact (proj1 (half_turn_Q d j X) H2)|].
  exact (proj1 (same_turn_P c _ _) (proj1 (same_turn_Q d _ _) H3)).
Qed.
(** If all pairs run the same way, vertex 0 of each polygon is a vertex of the other. *)
Lemma bad_first : forall i j, bad i j -> (exists a b, good a b) \/
  ((exists J, (J < m)%nat /\ vtx P 0 =p= vtx Q J /\ bad 0 J) /\ (exists I, (I < n)%nat /\ vtx P I =p= vtx Q 0 /\ bad I 0)).
Proof.
  pose proof (proj2 CP) as LP. pose proof (proj2 CQ) as LQ. fold n in LP. fold m in LQ. intros i j B.
  assert (B1 := bad_turn 1 (i + n) i j B). set (i1 := (i + 1 * n)%nat) in *.
  assert (NM : (i + n <= (i + n) * m)%nat) by (rewrite <- (Nat.mul_1_r (i + n)) at 1; apply Nat.mul_le_mono_l; lia).
  set (j1 := (j + (i + n) * m)%nat) in *.
  assert (E1 : i1 = (i1 - 1 + 1)%nat) by (unfold i1; lia). assert (E2 : j1 = (i1 - 1 + S (j1 - i1))%nat) by (unfold i1, j1 in *; lia).
  rewrite E1, E2 in B1. destruct (back_k _ _ _ B1) as [G|B2]; [left; exact G|]. destruct (back _ _ B2) as [G|[V B3]]; [left; exact G|].
  assert (MN : (j + m <= (j + m) * n)%nat) by (rewrite <- (Nat.mul_1_r (j + m)) at 1; apply Nat.mul_le_mono_l; lia).
  assert (C1 := bad_turn (j + m) 1 i j B). set (j2 := (j + 1 * m)%nat) in *. set (i2 := (i + (j + m) * n)%nat) in *.
  assert (F1 : j2 = (j2 - 1 + 1)%nat) by (unfold j2; lia). assert (F2 : i2 = (j2 - 1 + S (i2 - j2))%nat) by (unfold i2, j2 in *; lia).
  rewrite F1, F2 in C1. destruct (back_k _ _ _ C1) as [G|C2]; [left; exact G|]. destruct (back _ _ C2) as [G|[W C3]]; [left; exact G|].
  right. split.
  - exists ((j1 - i1) mod m)%nat. split; [apply Nat.mod_upper_bound; lia|]. split.
    + assert (VE : vtx Q ((j1 - i1) mod m) = vtx Q (j1 - i1)) by (unfold vtx; fold m; rewrite Nat.mod_mod by lia; reflexivity). rewrite VE. exact V.
    + apply bad_mod in B3. rewrite Nat.mod_0_l in B3 by lia. exact B3.
  - exists ((i2 - j2) mod n)%nat. split; [apply Nat.mod_upper_bound; lia|]. split.
    + assert (VE : vtx P ((i2 - j2) mod n) = vtx P (i2 - j2)) by (unfold vtx; fold n; rewrite Nat.mod_mod by lia; reflexivity). rewrite VE. exact W.
    + apply bad_mod in C3. rewrite (Nat.mod_0_l m) in C3 by lia. exact C3.
Qed.

Lemma start_shift : exists z, in_band P Q z 0 0.
Proof.
  pose proof (dia_range _ (edg_nonzero P CP 0)) as D1. pose proof (dia_range _ (edg_nonzero Q CQ 0)) as D2. unfold in_band, delta. cbn [theta].
  destruct (Qlt_le_dec (-2) (dia (edg Q 0) - dia (edg P 0))) as [K|K].
  - destruct (Qlt_le_dec 2 (dia (edg Q 0) - dia (edg P 0))) as [K'|K'].
    + exists (-1)%Z. change (inject_Z (-1)) with (-1). lra.
    + exists 0%Z. change (inject_Z 0) with 0. lra.
  - exists 1%Z. change (inject_Z 1) with 1. lra.
Qed.

Lemma boundary_found : forall i j fuel, touch P Q i j -> (4 * (n + m) < fuel)%nat -> Res (convex_polygon_polygon_intersection direct fuel P Q).
Proof.
  intros i j fuel (X0 & O1 & O2) F. pose proof (proj2 CP) as LP. pose proof (proj2 CQ) as LQ. fold n in LP. fold m in LQ.
  assert (E : convex_polygon_polygon_intersection direct fuel P Q = cx_loop direct P Q fuel (st P Q 0 0)).
  { unfold convex_polygon_polygon_intersection, st. fold n m. rewrite !Nat.mod_0_l by lia. destruct P; [cbn in LP; lia|]. destruct Q; [cbn in LQ; lia|]. reflexivity. }
  rewrite E. assert (F0 : (cx_measure n m (st P Q 0 0) < fuel)%nat) by (unfold cx_measure, st; cbn; lia).
  destruct start_shift as [z B0]. unfold in_band in B0.
  assert (RP : forall k, (k < n)%nat -> theta P 0 <= theta P k < theta P 0 + 4) by (intros k K; split; [apply (theta_mono_le P CP); lia|apply (theta_first P CP); exact K]).
  assert (RQ : forall k, (k < m)%nat -> theta Q 0 <= theta Q k < theta Q 0 + 4) by (intros k K; split; [apply (theta_mono_le Q CQ); lia|apply (theta_first Q CQ); exact K]).
  assert (GO : forall X a b, half_on P a X -> half_on Q b X -> in_band P Q z a b ->
     ~ delta P Q z a b == 0 \/ edge_on Q b (vtx P a) /\ (S a < n \/ b < m)%nat /\ (S a < 2 * n)%nat -> (a < n \/ b < m)%nat -> (a < 2 * n)%nat -> (b < 2 * m)%nat ->
     Res (cx_loop direct P Q fuel (st P Q 0 0))).
  { intros X a b H1 H2 H3 H4 H5 H6 H7. apply (reach z X a b H1 H2 H3 H4 H5 H6 H7 (a - 0 + (b - 0)) 0 0); [lia|lia|reflexivity|exact B0|exact F0]. }
  assert (GG : (exists a b, good a b) \/ ((exists J, (J < m)%nat /\ vtx P 0 =p= vtx Q J /\ bad 0 J) /\ (exists I, (I < n)%nat /\ vtx P I =p= vtx Q 0 /\ bad I 0))).
  { destruct (half_exists P i X0 CP O1) as [a HA]. destruct (half_exists Q j X0 CQ O2) as [b HB].
    destruct (good_or_bad a b X0 HA HB) as [G|G]; [left; exists a, b; exact G|]. apply (bad_first a b G). }
  destruct GG as [(a0 & b0 & G)|[(J & LJ & VJ & (XJ & J1 & J2 & J3 & J4)) (I & LI & VI & (XI & I1 & I2 & I3 & I4))]].
  - apply good_mod in G. set (a := (a0 mod n)%nat) in *. set (b := (b0 mod m)%nat) in *.
    assert (La : (a < n)%nat) by (apply Nat.mod_upper_bound; lia). assert (Lb : (b < m)%nat) by (apply Nat.mod_upper_bound; lia).
    destruct G as (X & H1 & H2 & H3). pose proof (RP a La) as Ra. pose proof (RQ b Lb) as Rb. unfold in_band, delta in *.
    destruct (d_signs P Q CP CQ z a b) as (_ & _ & S3 & _). unfold delta in S3.
    destruct (Qlt_le_dec 2 (theta Q b + 4 * inject_Z z - theta P a)) as [K|K].
    + assert (ET := theta_turn P CP a). fold n in ET. apply (GO X (a + 1 * n)%nat b).
      * exact (proj1 (half_turn_P 1 a X) H1).
      * exact H2.
      * rewrite Nat.mul_1_l, ET. lra.
      * left. rewrite Nat.mul_1_l, ET. intro Z. apply H3. apply (proj2 (same_turn_P 1 _ _)).
        destruct (d_signs P Q CP CQ z (a + 1 * n) b) as (_ & _ & S3' & _). apply S3'. unfold delta. rewrite Nat.mul_1_l, ET. exact Z.
      * right; exact Lb.
      * lia.
      * lia.
    + destruct (Qlt_le_dec (-2) (theta Q b + 4 * inject_Z z - theta P a)) as [K'|K'].
      * apply (GO X a b H1 H2); [lra| |left; exact La|lia|lia]. left. intro Z. apply H3. apply S3. exact Z.
      * assert (ET := theta_turn Q CQ b). fold m in ET. apply (GO X a (b + 1 * m)%nat).
        -- exact H1.
        -- exact (proj1 (half_turn_Q 1 b X) H2).
        -- rewrite Nat.mul_1_l, ET. lra.
        -- left. rewrite Nat.mul_1_l, ET. intro Z. apply H3. apply (proj2 (same_turn_Q 1 _ _)).
           destruct (d_signs P Q CP CQ z a (b + 1 * m)) as (_ & _ & S3' & _). apply S3'. unfold delta. rewrite Nat.mul_1_l, ET. exact Z.
        -- left; exact La.
        -- lia.
        -- lia.
  - assert (SAME : forall a b, same_way a b -> -4 < delta P Q z a b < 4 -> delta P Q z a b == 0).
    { intros a b [Z D] R. destruct (d_signs P Q CP CQ z a b) as (S1 & S2 & S3 & S4 & S5 & S6).
      destruct (Qeq_dec (delta P Q z a b) 0) as [E0|E0]; [exact E0|exfalso].
      destruct (Qeq_dec (delta P Q z a b) 2) as [E2|E2]; [destruct (S4 (or_introl E2)); lra|].
      destruct (Qeq_dec (delta P Q z a b) (-2)) as [E3|E3]; [destruct (S4 (or_intror E3)); lra|].
      assert (CS : (0 < delta P Q z a b < 2 \/ -2 < delta P Q z a b < 0) \/ 2 < delta P Q z a b < 4 \/ -4 < delta P Q z a b < -2) by lra.
      destruct CS as [[C|C]|[C|C]]; [specialize (S1 C)|specialize (S2 C)|specialize (S5 C)|specialize (S6 C)]; lra. }
    assert (ON : forall a b, vtx P a =p= vtx Q b -> edge_on Q b (vtx P a)).
    { intros a b [V1 V2]. exists 1. split; [lra|]. split; [rewrite V1|rewrite V2]; unfold lerp; cbn [px py vadd vscale vsub]; ring. }
    pose proof (RQ J LJ) as RJ. pose proof (RP I LI) as RI. unfold delta in B0.
    destruct (Qlt_le_dec 0 (theta Q 0 + 4 * inject_Z z - theta P 0)) as [K|K].
    + assert (D : delta P Q z I 0 == 0) by (apply SAME; [split; assumption|unfold delta; lra]).
      apply (GO XI I 0%nat I1 I2); [unfold in_band; lra|right; split; [apply ON; exact VI|split; lia]|left; exact LI|lia|lia].
    + assert (D : delta P Q z 0 J == 0) by (apply SAME; [split; assumption|unfold delta; lra]).
      apply (GO XJ 0%nat J J1 J2); [unfold in_band; lra|right; split; [apply ON; exact VJ|split; lia]|left; lia|lia|lia].
Qed.
End Found.
End Reach.

(** ** Boundaries that do not meet *)
From Verif Require Import PfillProof3.
Lemma edge_on_next : forall ps i X, convex_polygon ps -> (i < length ps)%nat -> on_segment (pnth ps i) (pnth ps (S i mod length ps)) X -> edge_on ps (S i) X.
Proof.
  intros ps i X C H O. unfold edge_on. rewrite (from_S ps C). unfold vtx. rewrite (Nat.mod_small i) by exact H. exact O.
Qed.
Lemma strictly_off : forall ps X, convex_polygon ps -> in_hull ps X -> (forall i, ~ edge_on ps i X) -> strictly_inside ps X.
Proof.
  intros ps X C H N i A B E. apply edge_is in E as (Hi & -> & ->). destruct (Qlt_le_dec 0 (tri2 (pnth ps i) (pnth ps (S i mod length ps)) X)) as [K|K]; [exact K|exfalso].
  apply (N (S i)). apply edge_on_next; [exact C|exact Hi|]. apply hull_zero_edge; try assumption.
  pose proof (around_left ps C (S i) X H) as T. rewrite (from_S ps C) in T. unfold vtx in T. rewrite (Nat.mod_small i) in T by exact Hi. lra.
Qed.
Lemma lerp_part : forall A B t u, 0 <= t <= 1 -> 0 <= u <= 1 -> on_segment A B (lerp (lerp A B t) B u).
Proof.
  intros A B t u Ht Hu. exists (t + u * (1 - t)). split.
  - assert (0 <= u * (1 - t)) by (apply Qmult_le_0_compat; lra). assert (0 <= (1 - u) * (1 - t)) by (apply Qmult_le_0_compat; lra). lra.
  - split; unfold lerp; cbn [px py vadd vscale vsub]; ring.
Qed.
Lemma apart_nested : forall P Q, convex_polygon P -> convex_polygon Q -> (forall i j, ~ touch P Q i j) -> (exists X, common_point P Q X) ->
  strictly_inside Q (pnth P 0) \/ strictly_inside P (pnth Q 0).
Proof.
  intros P Q CP CQ N (Z & Z1 & Z2). pose proof (proj2 CP) as LP. pose proof (proj2 CQ) as LQ.
  assert (P0 : vtx P 0 = pnth P 0) by (unfold vtx; rewrite Nat.mod_0_l by lia; reflexivity).
  assert (Q0 : vtx Q 0 = pnth Q 0) by (unfold vtx; rewrite Nat.mod_0_l by lia; reflexivity).
  assert (OV : forall ps i, edge_on ps i (vtx ps i)) by (intros ps i; exists 1; split; [lra|]; split; unfold lerp; cbn [px py vadd vscale vsub]; ring).
  destruct (exit_polygon Q Z (pnth P 0) CQ Z2) as [H|(s & i & Hi & Hs & HW & OW)].
  - left. apply strictly_off; [exact CQ|exact H|]. intros j Hj. apply (N 0%nat j). exists (pnth P 0). split; [rewrite <- P0; apply OV|exact Hj].
  - right. set (W := lerp Z (pnth P 0) s) in *.
    assert (WP : in_hull P W) by (apply hull_lerp; [exact CP|exact Z1|apply vertex_in_hull, pnth_In; lia|lra]).
    apply (edge_on_next Q i W CQ Hi) in OW.
    assert (STEP : forall j Y, in_hull P Y -> edge_on Q j Y -> in_hull P (vtx Q j)).
    { intros j Y HY (t & Ht & EY). destruct (exit_polygon P Y (vtx Q j) CP HY) as [K|(u & k & Hk & Hu & _ & OK)]; [exact K|exfalso].
      apply (edge_on_next P k _ CP Hk) in OK. apply (N (S k) j). exists (lerp Y (vtx Q j) u). split; [exact OK|].
      apply (segment_pteq _ _ (lerp (lerp (from Q j) (vtx Q j) t) (vtx Q j) u)); [|apply lerp_part; lra].
      destruct EY as [E1 E2]. split; unfold lerp in *; cbn [px py vadd vscale vsub] in *; rewrite ?E1, ?E2; ring. }
    assert (ALL : forall k, in_hull P (vtx Q (S i + k))).
    { induction k as [|k IH]; [rewrite Nat.add_0_r; exact (STEP _ W WP OW)|].
      rewrite Nat.add_succ_r. apply (STEP _ (vtx Q (S i + k)) IH). unfold edge_on. rewrite (from_S Q CQ). exists 0. split; [lra|]. split; unfold lerp; cbn [px py vadd vscale vsub]; ring. }
    assert (IH0 : in_hull P (pnth Q 0)).
    { rewrite <- Q0. replace (vtx Q 0) with (vtx Q (S i + (length Q - S i))); [apply ALL|]. replace (S i + (length Q - S i))%nat with (0 + length Q)%nat by lia. apply (vtx_turn Q CQ). }
    apply strictly_off; [exact CP|exact IH0|]. intros k Hk. apply (N k 0%nat). exists (pnth Q 0). split; [exact Hk|rewrite <- Q0; apply OV].
Qed.
Lemma touch_dec : forall P Q, convex_polygon P -> convex_polygon Q -> (exists i j, touch P Q i j) \/ (forall i j, ~ touch P Q i j).
Proof.
  intros P Q CP CQ.
  assert (D1 : forall i j, touch P Q i j \/ ~ touch P Q i j).
  { intros i j. destruct (segseg_ok (from P i) (vtx P i) (from Q j) (vtx Q j) (edg_nonzero P CP i) (edg_nonzero Q CQ j)) as (ty & pts & _ & H). cbv zeta in H.
    destruct ty.
    - contradiction.
    - right. intros (X & H1 & H2). destruct H as [_ H]. apply (H X). split; assumption.
    - left. destruct H as (X & _ & S1 & _). exists X. exact (proj2 (S1 X) (pteq_refl X)).
    - left. destruct H as (X & Y & _ & S1 & _). exists X. apply S1. exists 0. split; [lra|]. split; unfold lerp; cbn [px py vadd vscale vsub]; ring.
    - left. destruct H as (X & _ & S1 & _). exists X. exact (proj2 (S1 X) (pteq_refl X)). }
  assert (D2 : forall b, (exists i j, (i < length P)%nat /\ (j < b)%nat /\ touch P Q i j) \/ (forall i j, (i < length P)%nat -> (j < b)%nat -> ~ touch P Q i j)).
  { assert (D3 : forall a j, (exists i, (i < a)%nat /\ touch P Q i j) \/ (forall i, (i < a)%nat -> ~ touch P Q i j)).
    { intros a j. induction a as [|a [(i & Hi & IH)|IH]]; [right; intros; lia|left; exists i; split; [lia|exact IH]|].
      destruct (D1 a j) as [T|T]; [left; exists a; split; [lia|exact T]|right]. intros i Hi. destruct (Nat.eq_dec i a) as [->|Ne]; [exact T|apply IH; lia]. }
    induction b as [|b [(i & j & Hi & Hj & IH)|IH]]; [right; intros; lia|left; exists i, j; split; [exact Hi|split; [lia|exact IH]]|].
    destruct (D3 (length P) b) as [(i & Hi & T)|T]; [left; exists i, b; split; [exact Hi|split; [lia|exact T]]|right].
    intros i j Hi Hj. destruct (Nat.eq_dec j b) as [->|Ne]; [apply T; exact Hi|apply IH; [exact Hi|lia]]. }
  destruct (D2 (length Q)) as [(i & j & _ & _ & T)|N]; [left; exists i, j; exact T|right].
  intros i j (X & H1 & H2). pose proof (proj2 CP) as LP. pose proof (proj2 CQ) as LQ.
  apply (N (i mod length P) (j mod length Q)); [apply Nat.mod_upper_bound; lia|apply Nat.mod_upper_bound; lia|].
  exists X. unfold edge_on, from, vtx in *. rewrite !Nat.mod_mod by lia. split; assumption.
Qed.
Lemma common_not_none : forall P Q fuel, convex_polygon P -> convex_polygon Q -> (4 * (length P + length Q) < fuel)%nat ->
  (exists X, common_point P Q X) -> not_none (convex_polygon_polygon_intersection direct fuel P Q).
Proof.
  intros P Q fuel CP CQ F (X & HX). pose proof (proj2 CP) as LP. pose proof (proj2 CQ) as LQ.
  destruct (touch_dec P Q CP CQ) as [(i & j & T)|N]; [apply (boundary_found P Q CP CQ not_none (hit_loop P Q CP CQ) i j fuel T F)|].
  destruct (apart_run P Q CP CQ) with (fuel := fuel) as [[_ R]|R]; [|exact F|exfalso; exact (R X HX)|].
  - intros i j Y Hi Hj H1 H2. apply (N i j). exists Y. unfold edge_on, from, vtx. rewrite !Nat.mod_small by assumption. split; assumption.
  - rewrite R. assert (H := apart_nested P Q CP CQ N (ex_intro _ X HX)). unfold cx_finish; cbn.
    destruct P as [|p P'] eqn:EP; [cbn in LP; lia|]. destruct Q as [|q Q'] eqn:EQ; [cbn in LQ; lia|]. rewrite <- EP, <- EQ in *.
    assert (Hp : p = pnth P 0) by (rewrite EP; reflexivity). assert (Hq : q = pnth Q 0) by (rewrite EQ; reflexivity).
    unfold first_points. rewrite Nat.leb_refl. destruct H as [H|H].
    + rewrite Hp, (pip_convex_inside Q _ (proj1 CQ) LQ H). destruct (Nat.leb _ _); exact Logic.I.
    + destruct (point_in_polygon p Q); [destruct (Nat.leb _ _); exact Logic.I|]. rewrite Hq, (pip_convex_inside P _ (proj1 CP) LP H). exact Logic.I.
Qed.
