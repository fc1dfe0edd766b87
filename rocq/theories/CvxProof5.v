(** The walk around both polygons finds a common point of the boundaries. *)
From Verif Require Import Base CmpModel OrientModel OrientSpec OrientProof DistModel DistSpec LinIntModel LinIntSpec LinIntProof PolygonModel PolygonSpec PolygonProof PolygonConvexProof CvxModel CvxSpec CvxProof CvxProof2 CvxProof4.

Section Walk.
Variables P Q : list pt.
Hypothesis CP : convex_polygon P.
Hypothesis CQ : convex_polygon Q.
Let n := length P.
Let m := length Q.

Definition edge_on (ps : list pt) (i : nat) (X : pt) : Prop := on_segment (from ps i) (vtx ps i) X.
Definition touch (i j : nat) : Prop := exists X, edge_on P i X /\ edge_on Q j X.
Definition AB (i j : nat) := cross (edg P i) (edg Q j).
Definition aB (i j : nat) := tri2 (from Q j) (vtx Q j) (vtx P i).
Definition bA (i j : nat) := tri2 (from P i) (vtx P i) (vtx Q j).
(** The edges meet, and are not parallel in the same direction. *)
Definition hit (i j : nat) : Prop := touch i j /\ (~ AB i j == 0 \/ dot (edg P i) (edg Q j) < 0).
Definition go_a (i j : nat) : Prop := (AB i j == 0 /\ aB i j == 0 /\ bA i j == 0) \/ (0 <= AB i j /\ 0 < bA i j) \/ (AB i j < 0 /\ aB i j <= 0).
Definition go_b (i j : nat) : Prop := (0 <= AB i j /\ bA i j <= 0 /\ ~ (AB i j == 0 /\ aB i j == 0 /\ bA i j == 0)) \/ (AB i j < 0 /\ 0 < aB i j).
(** The state of the search when nothing was found yet. *)
Definition st (i j : nat) : cx_state := mkcx (i mod n) (j mod m) i j in_unknown 0 [].

Lemma segseg_parallel : forall A B C D, nonzero (vsub B A) -> nonzero (vsub D C) -> cross (vsub B A) (vsub D C) == 0 ->
  exists ty pts, segment_segment_intersection direct A B C D = Some (ty, pts) /\ (ty = e_non_crossing \/ ty = e_overlapping).
Proof.
  intros A B C D N1 N2 EP. assert (E : xdenom A B C D == 0) by (rewrite xdenom_cross, EP; reflexivity).
  destruct (parallel_ok A B C D N1 N2 EP) as [[R H]|(X & Y & R & H)].
  - exists e_non_crossing, []. split; [|auto]. unfold segment_segment_intersection; simpl. destruct (Qeqb_spec (xdenom A B C D) 0); [|contradiction]. rewrite R; reflexivity.
  - exists e_overlapping, [X; Y]. split; [|auto]. unfold segment_segment_intersection; simpl. destruct (Qeqb_spec (xdenom A B C D) 0); [|contradiction]. rewrite R; reflexivity.
Qed.

(** What a turn looks like in terms of the edges. *)
Definition advanced (i j : nat) (s : cx_state) : cx_state + cx_result :=
  match cx_advance n m (get_orientation_v direct (edg P i) (edg Q j)) (get_orientation direct (from Q j) (vtx Q j) (vtx P i)) (get_orientation direct (from P i) (vtx P i) (vtx Q j)) (vtx P i) (vtx Q j) s with
  | None => inr (CxDone px_none (rev (cx_out s)))
  | Some s => inl s
  end.
Lemma step_cases : forall i j s, cx_a s = (i mod n)%nat -> cx_b s = (j mod m)%nat ->
  (hit i j /\ ~ AB i j == 0 /\ exists X, edge_on P i X /\ edge_on Q j X /\
     cx_step direct P Q s = advanced i j (record_crossing (get_orientation direct (from Q j) (vtx Q j) (vtx P i)) (get_orientation direct (from P i) (vtx P i) (vtx Q j)) X s)) \/
  (hit i j /\ AB i j == 0 /\ exists X Y, cx_step direct P Q s = inr (CxDone px_face (rev (Y :: X :: cx_out s)))) \/
  (~ hit i j /\ cx_step direct P Q s = advanced i j s).
Proof.
  intros i j s Ea Eb. unfold cx_step. cbv zeta. fold n m. rewrite Ea, Eb.
  fold (prev n (i mod n)) (prev m (j mod m)).
  assert (Ia := vtx_lt P CP i). assert (Ib := vtx_lt Q CQ j). fold n in Ia. fold m in Ib.
  assert (Ha1 := prev_lt _ _ Ia). assert (Hb1 := prev_lt _ _ Ib).
  rewrite (pnth_error P _ Ha1), (pnth_error P _ Ia), (pnth_error Q _ Hb1), (pnth_error Q _ Ib).
  change (pnth P (prev n (i mod n))) with (from P i). change (pnth P (i mod n)) with (vtx P i).
  change (pnth Q (prev m (j mod m))) with (from Q j). change (pnth Q (j mod m)) with (vtx Q j).
  assert (NA := edg_nonzero P CP i). assert (NB := edg_nonzero Q CQ j).
  change (vsub (vtx P i) (from P i)) with (edg P i). change (vsub (vtx Q j) (from Q j)) with (edg Q j).
  destruct (segseg_ok (from P i) (vtx P i) (from Q j) (vtx Q j) NA NB) as (ty & pts & R & H). rewrite R. cbv zeta in H.
  assert (PAR : AB i j == 0 -> ty = e_non_crossing \/ ty = e_overlapping).
  { intro Z. destruct (segseg_parallel _ _ _ _ NA NB Z) as (ty' & pts' & R' & K). rewrite R in R'. injection R' as -> _. exact K. }
  fold (advanced i j s).
  destruct ty.
  - contradiction.
  - destruct H as [-> H]. right; right. split; [|reflexivity]. intros [(X & X1 & X2) _]. apply (H X). split; assumption.
  - destruct H as (X & -> & S1 & _). destruct (proj2 (S1 X) (pteq_refl X)) as [K1 K2].
    assert (NZ : ~ AB i j == 0) by (intro Z; apply PAR in Z as [Z|Z]; discriminate).
    left. split; [split; [exists X; split; assumption|left; exact NZ]|]. split; [exact NZ|]. exists X. split; [exact K1|]. split; [exact K2|reflexivity].
  - destruct H as (X & Y & -> & S1 & PL). assert (Z : AB i j == 0) by (apply parallel_cross; assumption).
    assert (SX : both (on_segment (from P i) (vtx P i)) (on_segment (from Q j) (vtx Q j)) X) by (apply S1; exists 0; split; [lra|]; split; unfold lerp; cbn [px py vadd vscale vsub]; ring).
    destruct (Qltb_spec (dot (edg P i) (edg Q j)) 0) as [D|D].
    + right; left. split; [split; [exists X; exact SX|right; exact D]|]. split; [exact Z|]. exists X, Y. reflexivity.
    + right; right. split; [|reflexivity]. intros [_ [K|K]]; [contradiction|lra].
  - destruct H as (X & -> & S1 & _). destruct (proj2 (S1 X) (pteq_refl X)) as [K1 K2].
    assert (NZ : ~ AB i j == 0) by (intro Z; apply PAR in Z as [Z|Z]; discriminate).
    left. split; [split; [exists X; split; assumption|left; exact NZ]|]. split; [exact NZ|]. exists X. split; [exact K1|]. split; [exact K2|reflexivity].
Qed.

Lemma mod_S : forall k i, (0 < k)%nat -> ((i mod k + 1) mod k = S i mod k)%nat.
Proof. intros k i H. rewrite <- (Nat.add_1_r i), (Nat.add_mod i 1 k), Nat.add_mod_idemp_r by lia. reflexivity. Qed.

Lemma blank_step : forall i j, ~ hit i j ->
  (AB i j == 0 /\ aB i j < 0 /\ bA i j < 0) \/ (go_a i j /\ cx_step direct P Q (st i j) = inl (st (S i) j)) \/ (go_b i j /\ cx_step direct P Q (st i j) = inl (st i (S j))).
Proof.
  intros i j NH. assert (n0 : (0 < n)%nat) by (pose proof (proj2 CP); unfold n; lia). assert (m0 : (0 < m)%nat) by (pose proof (proj2 CQ); unfold m; lia).
  destruct (step_cases i j (st i j) eq_refl eq_refl) as [[H _]|[[H _]|[_ E]]]; [contradiction|contradiction|]. rewrite E.
  unfold advanced, cx_advance. unfold go_a, go_b, AB, aB, bA.
  pose proof (orientation_direct_v (edg P i) (edg Q j)) as (O1 & O2 & O3).
  pose proof (orientation_direct (from Q j) (vtx Q j) (vtx P i)) as (A1 & A2 & A3). pose proof (orientation_direct (from P i) (vtx P i) (vtx Q j)) as (B1 & B2 & B3).
  fold (tri2 (from Q j) (vtx Q j) (vtx P i)) in A1, A2, A3. fold (tri2 (from P i) (vtx P i) (vtx Q j)) in B1, B2, B3.
  assert (SA : advance_a n [] (st i j) = st (S i) j) by (unfold advance_a, st; cbn; rewrite mod_S, Nat.add_1_r by exact n0; reflexivity).
  assert (SB : advance_b m [] (st i j) = st i (S j)) by (unfold advance_b, st; cbn; rewrite mod_S, Nat.add_1_r by exact m0; reflexivity).
  cbn [is_pgon1_in is_pgon2_in cx_in st]. fold (st i j).
  destruct (get_orientation_v direct (edg P i) (edg Q j)); destruct (get_orientation direct (from Q j) (vtx Q j) (vtx P i)); destruct (get_orientation direct (from P i) (vtx P i) (vtx Q j));
    cbn [cx_is_left cx_is_right cx_is_collinear andb negb]; rewrite ?SA, ?SB;
    repeat match goal with H : ?o = ?o <-> _ |- _ => apply proj1 in H; specialize (H eq_refl) | H : _ = _ <-> _ |- _ => clear H end;
    first [left; split; [lra|split; lra] | right; left; split; [lra|reflexivity] | right; right; split; [lra|reflexivity]].
Qed.

(** Once something was found the result is not [none]. *)
Definition not_none (r : cx_result) : Prop := match r with CxDone px_none _ | CxNoFuel => False | _ => True end.
Lemma advanced_out : forall i j s, cx_inv P Q s -> cx_out s <> [] -> cx_a s = (i mod n)%nat -> cx_b s = (j mod m)%nat ->
  match advanced i j s with inl s' => cx_out s' <> [] | inr r => not_none r end.
Proof.
  intros i j s I N Ea Eb. unfold advanced. destruct (cx_advance _ _ _ _ _ _ _ s) as [s'|] eqn:E.
  - unfold cx_advance in E. repeat match type of E with context [if ?c then _ else _] => destruct c end; try discriminate; injection E as <-; cbn; congruence.
  - exfalso. apply advance_none in E as (E1 & E2 & E3). destruct I as (_ & _ & _ & _ & F & H).
    destruct (rev (cx_out s)) as [|X l] eqn:R; [apply N; rewrite <- (rev_involutive (cx_out s)), R; reflexivity|]. destruct H as [H1 H2].
    apply (separated (from P i) (vtx P i) (from Q j) (vtx Q j) X).
    + apply (proj2 (proj2 (orientation_direct_v (edg P i) (edg Q j)))). exact E1.
    + apply (proj1 (proj2 (orientation_direct (from Q j) (vtx Q j) (vtx P i)))). exact E2.
    + apply (proj1 (proj2 (orientation_direct (from P i) (vtx P i) (vtx Q j)))). exact E3.
    + apply around_left; assumption.
    + apply around_left; assumption.
Qed.
Lemma out_step : forall s, cx_inv P Q s -> cx_out s <> [] -> match cx_step direct P Q s with inl s' => cx_out s' <> [] | inr r => not_none r end.
Proof.
  intros s I N. assert (Ia : cx_a s = (cx_a s mod n)%nat) by (symmetry; apply Nat.mod_small, I). assert (Ib : cx_b s = (cx_b s mod m)%nat) by (symmetry; apply Nat.mod_small, I).
  destruct (step_cases (cx_a s) (cx_b s) s Ia Ib) as [(_ & _ & X & X1 & X2 & ->)|[(_ & _ & X & Y & ->)|[_ ->]]].
  - apply advanced_out; [apply record_inv; [exact I|split; [apply (around_in P CP _ _ X1)|apply (around_in Q CQ _ _ X2)]]|discriminate|exact Ia|exact Ib].
  - exact Coq.Init.Logic.I.
  - apply advanced_out; assumption.
Qed.
Lemma hit_step : forall i j, hit i j -> match cx_step direct P Q (st i j) with inl s' => cx_out s' <> [] | inr r => not_none r end.
Proof.
  intros i j H.
  assert (I : cx_inv P Q (st i j)).
  { unfold cx_inv, st; cbn. split; [apply (vtx_lt P CP)|]. split; [apply (vtx_lt Q CQ)|]. split; [reflexivity|]. split; [reflexivity|]. split; [constructor|exact Coq.Init.Logic.I]. }
  destruct (step_cases i j (st i j) eq_refl eq_refl) as [(_ & _ & X & X1 & X2 & ->)|[(_ & _ & X & Y & ->)|[K _]]]; [| |contradiction].
  - apply advanced_out; [apply record_inv; [exact I|split; [apply (around_in P CP _ _ X1)|apply (around_in Q CQ _ _ X2)]]|discriminate|reflexivity|reflexivity].
  - exact Coq.Init.Logic.I.
Qed.
Lemma finish_not_none : forall s, cx_inv P Q s -> cx_out s <> [] -> not_none (cx_finish P Q s).
Proof.
  intros s I N. destruct I as (_ & _ & E & _ & _). assert (Z : cx_n s <> 0%nat) by (destruct (cx_out s); [contradiction|rewrite E; discriminate]).
  unfold cx_finish. cbv zeta. destruct (Nat.eqb_spec (cx_n s) 0); [contradiction|].
  destruct (is_in_unknown (cx_in s)); [|exact Coq.Init.Logic.I]. destruct P, Q; try exact Coq.Init.Logic.I.
  unfold first_points. repeat match goal with |- context [if ?c then _ else _] => destruct c end; exact Coq.Init.Logic.I.
Qed.
Lemma found_loop : forall fuel s, cx_inv P Q s -> cx_out s <> [] -> (cx_aa s < 2 * n)%nat -> (cx_ba s < 2 * m)%nat -> (cx_measure n m s < fuel)%nat ->
  not_none (cx_loop direct P Q fuel s).
Proof.
  intros fuel s I N Ha Hb F. apply (loop_ind direct P Q (fun s => cx_inv P Q s /\ cx_out s <> []) not_none); try assumption.
  - intros s0 s' [I0 N0] R. pose proof (turn P Q CP CQ s0 I0) as T. pose proof (out_step s0 I0 N0) as O. rewrite R in T, O. auto.
  - intros s0 r [I0 N0] R. pose proof (out_step s0 I0 N0) as O. rewrite R in O. exact O.
  - intros s0 [I0 N0]. apply finish_not_none; assumption.
  - auto.
Qed.
End Walk.
