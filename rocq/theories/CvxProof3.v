From Verif Require Import Base CmpModel OrientModel OrientSpec OrientProof DistModel DistSpec LinIntModel LinIntSpec LinIntProof PolygonModel PolygonSpec PolygonProof PolygonConvexProof CvxModel CvxSpec CvxProof CvxProof2.

(** ** Boundaries that do not meet *)
Section Apart.
Variables P Q : list pt.
Hypothesis CP : convex_polygon P.
Hypothesis CQ : convex_polygon Q.
Hypothesis AP : forall i j X, (i < length P)%nat -> (j < length Q)%nat ->
  on_segment (pnth P (prev (length P) i)) (pnth P i) X -> on_segment (pnth Q (prev (length Q) j)) (pnth Q j) X -> False.

Definition blank (s : cx_state) : Prop :=
  (cx_a s < length P)%nat /\ (cx_b s < length Q)%nat /\ cx_in s = in_unknown /\ cx_n s = 0%nat /\ cx_out s = [].

Lemma blank_turn : forall s, blank s ->
  match cx_step direct P Q s with
  | inl s' => blank s'
  | inr r => r = CxDone px_none [] /\ forall X, ~ common_point P Q X
  end.
Proof.
  intros s (Ia & Ib & Iu & In_ & Io). unfold cx_step. cbv zeta.
  fold (prev (length P) (cx_a s)) (prev (length Q) (cx_b s)).
  assert (Ha1 := prev_lt _ _ Ia). assert (Hb1 := prev_lt _ _ Ib).
  rewrite (pnth_error P _ Ha1), (pnth_error P _ Ia), (pnth_error Q _ Hb1), (pnth_error Q _ Ib).
  pose proof (convex_nonzero P _ CP Ia) as NA. pose proof (convex_nonzero Q _ CQ Ib) as NB.
  assert (N := AP _ _ : forall X, (cx_a s < length P)%nat -> (cx_b s < length Q)%nat -> _).
  set (pa1 := pnth P (prev (length P) (cx_a s))) in *. set (pa := pnth P (cx_a s)) in *.
  set (pb1 := pnth Q (prev (length Q) (cx_b s))) in *. set (pb := pnth Q (cx_b s)) in *.
  assert (G : match match cx_advance (length P) (length Q) (get_orientation_v direct (vsub pa pa1) (vsub pb pb1)) (get_orientation direct pb1 pb pa) (get_orientation direct pa1 pa pb) pa pb s with None => inr (CxDone px_none (rev (cx_out s))) | Some s => inl s end with inl s' => blank s' | inr r => r = CxDone px_none [] /\ forall X, ~ common_point P Q X end).
  { destruct (cx_advance _ _ _ _ _ _ _ s) as [s1|] eqn:E.
    - assert (La : ((cx_a s + 1) mod length P < length P)%nat) by (apply Nat.mod_upper_bound; lia).
      assert (Lb : ((cx_b s + 1) mod length Q < length Q)%nat) by (apply Nat.mod_upper_bound; lia).
      assert (A : blank (advance_a (length P) [] s)) by (unfold blank, advance_a; cbn; rewrite In_; auto).
      assert (B : blank (advance_b (length Q) [] s)) by (unfold blank, advance_b; cbn; rewrite In_; auto).
      unfold cx_advance in E. rewrite Iu in E. cbn [is_pgon1_in is_pgon2_in] in E. cbv zeta in E.
      repeat match type of E with context [if ?c then _ else _] => destruct c end; try discriminate; injection E as <-; assumption.
    - apply advance_none in E as (E1 & E2 & E3). rewrite Io. split; [reflexivity|]. intros X [H1 H2].
      apply (separated pa1 pa pb1 pb X).
      + apply (proj2 (proj2 (orientation_direct_v (vsub pa pa1) (vsub pb pb1)))). exact E1.
      + apply (proj1 (proj2 (orientation_direct pb1 pb pa))). exact E2.
      + apply (proj1 (proj2 (orientation_direct pa1 pa pb))). exact E3.
      + apply hull_prev; assumption.
      + apply hull_prev; assumption. }
  assert (NC : forall X, both (on_segment pa1 pa) (on_segment pb1 pb) X -> False) by (intros X [X1 X2]; exact (N X Ia Ib X1 X2)).
  destruct (segseg_ok pa1 pa pb1 pb NA NB) as (ty & pts & -> & H). cbv zeta in H. destruct ty.
  - contradiction.
  - destruct H as [-> _]. exact G.
  - exfalso. destruct H as (X & _ & S1 & _). apply (NC X), S1, pteq_refl.
  - exfalso. destruct H as (X & Y & _ & S1 & _). apply (NC X), S1. exists 0. split; [lra|]. split; unfold lerp; cbn [px py vadd vscale vsub]; ring.
  - exfalso. destruct H as (X & _ & S1 & _). apply (NC X), S1, pteq_refl.
Qed.

(** Either the polygons are found apart, or everything is left to the final tests. *)
Lemma apart_run : forall fuel, (4 * (length P + length Q) < fuel)%nat ->
  let r := convex_polygon_polygon_intersection direct fuel P Q in
  (r = CxDone px_none [] /\ forall X, ~ common_point P Q X) \/ r = cx_finish P Q (mkcx 0 0 0 0 in_unknown 0 []).
Proof.
  intros fuel F. assert (LQ := proj2 CQ). assert (LP := proj2 CP). cbv zeta.
  assert (E : convex_polygon_polygon_intersection direct fuel P Q = cx_loop direct P Q fuel (mkcx 0 0 0 0 in_unknown 0 [])).
  { unfold convex_polygon_polygon_intersection. destruct P; [cbn in LP; lia|]. destruct Q; [cbn in LQ; lia|]. reflexivity. }
  rewrite E. apply (loop_ind direct P Q blank (fun r => (r = CxDone px_none [] /\ forall X, ~ common_point P Q X) \/ r = cx_finish P Q (mkcx 0 0 0 0 in_unknown 0 []))).
  - intros s s' I R. pose proof (blank_turn s I) as T. rewrite R in T. exact T.
  - intros s r I R. pose proof (blank_turn s I) as T. rewrite R in T. left. exact T.
  - intros s (_ & _ & B1 & B2 & B3). right. unfold cx_finish. rewrite B1, B2, B3. reflexivity.
  - unfold blank; cbn. repeat split; lia.
  - cbn. lia.
  - cbn. lia.
  - unfold cx_measure; cbn. lia.
Qed.
End Apart.

Lemma disjoint_none : forall P Q fuel, convex_polygon P -> convex_polygon Q -> (4 * (length P + length Q) < fuel)%nat ->
  (forall X, ~ common_point P Q X) -> convex_polygon_polygon_intersection direct fuel P Q = CxDone px_none [].
Proof.
  intros P Q fuel CP CQ F N. assert (LQ := proj2 CQ). assert (LP := proj2 CP).
  destruct (apart_run P Q CP CQ) with (fuel := fuel) as [[R _]|R]; [|exact F|exact R|].
  - intros i j X Hi Hj H1 H2. apply (N X). split; [apply (edge_in_hull P (prev (length P) i) i)|apply (edge_in_hull Q (prev (length Q) j) j)]; auto using prev_lt.
  - rewrite R. unfold cx_finish; cbn.
    destruct P as [|p P'] eqn:EP; [cbn in LP; lia|]. destruct Q as [|q Q'] eqn:EQ; [cbn in LQ; lia|]. rewrite <- EP, <- EQ in *.
    assert (IP : In p P) by (rewrite EP; left; reflexivity). assert (IQ : In q Q) by (rewrite EQ; left; reflexivity).
    rewrite (pip_convex_outside Q p (proj1 CQ) LQ), (pip_convex_outside P q (proj1 CP) LP); [reflexivity| |].
    + intro H. apply (N q). split; [exact H|apply vertex_in_hull; exact IQ].
    + intro H. apply (N p). split; [apply vertex_in_hull; exact IP|exact H].
Qed.

(** ** One polygon strictly inside the other *)
Lemma edge_of : forall ps j, (j < length ps)%nat -> polygon_edge ps (prev (length ps) j) (pnth ps (prev (length ps) j)) (pnth ps j).
Proof. intros ps j H. split; [apply pnth_error, prev_lt, H|]. rewrite (prev_next _ _ H). apply pnth_error, H. Qed.
Lemma nested_hull : forall P Q X, (forall V, In V P -> strictly_inside Q V) -> in_hull P X -> strictly_inside Q X.
Proof.
  intros P Q X N (A & B & C & IA & IB & IC & a & b & c & Ha & Hb & Hc & S1 & E) i u v HE.
  rewrite (tri2_pteq _ _ _ _ E), tri2_comb by exact S1.
  assert (TA := N A IA i u v HE). assert (TB := N B IB i u v HE). assert (TC := N C IC i u v HE).
  set (x := tri2 u v A) in *. set (y := tri2 u v B) in *. set (z := tri2 u v C) in *. clearbody x y z.
  assert (0 <= a * x) by (apply Qmult_le_0_compat; lra). assert (0 <= b * y) by (apply Qmult_le_0_compat; lra). assert (0 <= c * z) by (apply Qmult_le_0_compat; lra).
  destruct (Qlt_le_dec 0 a) as [Pa|Pa]; [assert (0 < a * x) by nra; lra|]. destruct (Qlt_le_dec 0 b) as [Pb|Pb]; [assert (0 < b * y) by nra; lra|].
  assert (0 < c * z) by nra. lra.
Qed.
Lemma boundary_not_inside : forall ps j X, (j < length ps)%nat -> on_segment (pnth ps (prev (length ps) j)) (pnth ps j) X -> strictly_inside ps X -> False.
Proof.
  intros ps j X H HS HI. specialize (HI _ _ _ (edge_of ps j H)). apply (tri2_on_segment (pnth ps (prev (length ps) j)) (pnth ps j)) in HS as (t & _ & E).
  rewrite tri2_AA, tri2_AB in E. lra.
Qed.
Lemma inside_hull : forall ps X, convex_polygon ps -> strictly_inside ps X -> in_hull ps X.
Proof.
  intros ps X [C L] H. apply left_of_all_hull; [exact C|exact L|]. intros i Hi. apply Qlt_le_weak, (H i).
  split; apply pnth_error; [exact Hi|apply Nat.mod_upper_bound; lia].
Qed.

Lemma nested_first : forall P Q fuel, convex_polygon P -> convex_polygon Q -> (4 * (length P + length Q) < fuel)%nat ->
  (forall V, In V P -> strictly_inside Q V) ->
  convex_polygon_polygon_intersection direct fuel P Q =
    if Nat.leb (length Q) (length P) then CxDone px_overlapping (firstn (length Q) P) else CxUndefined.
Proof.
  intros P Q fuel CP CQ F N. assert (LQ := proj2 CQ). assert (LP := proj2 CP).
  assert (I0 : In (pnth P 0) P) by (apply pnth_In; lia).
  destruct (apart_run P Q CP CQ) with (fuel := fuel) as [[_ R]|R]; [|exact F| |].
  - intros i j X Hi Hj H1 H2. apply (boundary_not_inside Q j X Hj H2). apply (nested_hull P Q X N). apply (edge_in_hull P (prev (length P) i) i); auto using prev_lt.
  - exfalso. apply (R (pnth P 0)). split; [apply vertex_in_hull; exact I0|apply inside_hull; [exact CQ|apply N; exact I0]].
  - rewrite R. unfold cx_finish; cbn. destruct P as [|p P'] eqn:EP; [cbn in LP; lia|]. destruct Q as [|q Q'] eqn:EQ; [cbn in LQ; lia|]. rewrite <- EP, <- EQ in *.
    rewrite (pip_convex_inside Q p (proj1 CQ) LQ) by (apply N; rewrite EP; left; reflexivity).
    unfold first_points. destruct (Nat.leb (length Q) (length P)); reflexivity.
Qed.
Lemma nested_second : forall P Q fuel, convex_polygon P -> convex_polygon Q -> (4 * (length P + length Q) < fuel)%nat ->
  (forall V, In V Q -> strictly_inside P V) ->
  convex_polygon_polygon_intersection direct fuel P Q = CxDone px_overlapping Q.
Proof.
  intros P Q fuel CP CQ F N. assert (LQ := proj2 CQ). assert (LP := proj2 CP).
  assert (I0 : In (pnth Q 0) Q) by (apply pnth_In; lia).
  destruct (apart_run P Q CP CQ) with (fuel := fuel) as [[_ R]|R]; [|exact F| |].
  - intros i j X Hi Hj H1 H2. apply (boundary_not_inside P i X Hi H1). apply (nested_hull Q P X N). apply (edge_in_hull Q (prev (length Q) j) j); auto using prev_lt.
  - exfalso. apply (R (pnth Q 0)). split; [apply inside_hull; [exact CP|apply N; exact I0]|apply vertex_in_hull; exact I0].
  - rewrite R. unfold cx_finish; cbn.
    assert (B : ~ in_hull Q (pnth P 0)).
    { intro H. apply (boundary_not_inside P 0 (pnth P 0)); [lia| |apply (nested_hull Q P); assumption].
      exists 1. split; [lra|]. split; unfold lerp; cbn [px py vadd vscale vsub]; ring. }
    destruct P as [|p P'] eqn:EP; [cbn in LP; lia|]. destruct Q as [|q Q'] eqn:EQ; [cbn in LQ; lia|]. rewrite <- EP, <- EQ in *.
    assert (Hp : p = pnth P 0) by (rewrite EP; reflexivity). rewrite Hp, (pip_convex_outside Q (pnth P 0) (proj1 CQ) LQ B).
    rewrite (pip_convex_inside P q (proj1 CP) LP) by (apply N; rewrite EQ; left; reflexivity).
    unfold first_points. rewrite Nat.leb_refl, firstn_all. reflexivity.
Qed.
