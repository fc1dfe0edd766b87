From Verif Require Import Base CmpModel OrientModel OrientSpec OrientProof DistModel DistSpec LinIntModel LinIntSpec LinIntProof PolygonModel PolygonSpec PolygonProof PolygonConvexProof CvxModel CvxSpec CvxProof.

Section Run.
Variables P Q : list pt.
Hypothesis CP : convex_polygon P.
Hypothesis CQ : convex_polygon Q.

Definition visited_ok (X : pt) : Prop := common_point P Q X \/ In X P \/ In X Q.
(** The points visited so far; the first of them is common. *)
Definition out_ok (out : list pt) : Prop :=
  Forall visited_ok out /\ match rev out with [] => True | X :: _ => common_point P Q X end.
Definition cx_inv (s : cx_state) : Prop :=
  (cx_a s < length P)%nat /\ (cx_b s < length Q)%nat /\ cx_n s = length (cx_out s) /\
  (cx_out s = [] -> cx_in s = in_unknown) /\ out_ok (cx_out s).

Lemma out_push : forall V out, out_ok out -> visited_ok V -> out <> [] -> out_ok (V :: out).
Proof.
  intros V out [F H] HV N. split; [constructor; assumption|]. cbn [rev].
  destruct (rev out) as [|X l] eqn:E; [|exact H]. exfalso. apply N. rewrite <- (rev_involutive out), E. reflexivity.
Qed.
Lemma out_push_common : forall V out, out_ok out -> common_point P Q V -> out_ok (V :: out).
Proof.
  intros V out [F H] HV. split; [constructor; [left; exact HV|exact F]|]. cbn [rev]. destruct (rev out); [exact HV|exact H].
Qed.

Lemma advance_inv : forall AB aHB bHA pa pb s s', cx_inv s -> In pa P -> In pb Q ->
  cx_advance (length P) (length Q) AB aHB bHA pa pb s = Some s' -> cx_inv s'.
Proof.
  intros AB aHB bHA pa pb s s' (Ia & Ib & In_ & Iu & Io) Hpa Hpb E.
  assert (La : ((cx_a s + 1) mod length P < length P)%nat) by (apply Nat.mod_upper_bound; lia).
  assert (Lb : ((cx_b s + 1) mod length Q < length Q)%nat) by (apply Nat.mod_upper_bound; lia).
  assert (A0 : cx_inv (advance_a (length P) [] s)).
  { unfold cx_inv, advance_a; cbn. rewrite Nat.add_0_r. auto. }
  assert (B0 : cx_inv (advance_b (length Q) [] s)).
  { unfold cx_inv, advance_b; cbn. rewrite Nat.add_0_r. auto. }
  assert (A1 : is_pgon1_in (cx_in s) = true -> cx_inv (advance_a (length P) [pa] s)).
  { intro K. unfold cx_inv, advance_a; cbn. split; [exact La|]. split; [exact Ib|]. split; [lia|]. split; [discriminate|].
    apply out_push; [exact Io|right; left; exact Hpa|]. intro Z. rewrite (Iu Z) in K. discriminate. }
  assert (B1 : is_pgon2_in (cx_in s) = true -> cx_inv (advance_b (length Q) [pb] s)).
  { intro K. unfold cx_inv, advance_b; cbn. split; [exact Ia|]. split; [exact Lb|]. split; [lia|]. split; [discriminate|].
    apply out_push; [exact Io|right; right; exact Hpb|]. intro Z. rewrite (Iu Z) in K. discriminate. }
  assert (A : cx_inv (advance_a (length P) (if is_pgon1_in (cx_in s) then [pa] else []) s)) by (destruct (is_pgon1_in (cx_in s)); auto).
  assert (B : cx_inv (advance_b (length Q) (if is_pgon2_in (cx_in s) then [pb] else []) s)) by (destruct (is_pgon2_in (cx_in s)); auto).
  unfold cx_advance in E. destruct (cx_is_collinear AB && cx_is_right aHB && cx_is_right bHA); [discriminate|].
  destruct (cx_is_collinear AB && cx_is_collinear aHB && cx_is_collinear bHA); [injection E as <-; destruct (is_pgon1_in (cx_in s)); assumption|].
  cbv zeta in E. destruct (negb (cx_is_right AB)); injection E as <-; [destruct (cx_is_left bHA)|destruct (cx_is_left aHB)]; assumption.
Qed.
Lemma advance_none : forall n m AB aHB bHA pa pb s, cx_advance n m AB aHB bHA pa pb s = None ->
  AB = oriented_collinear /\ aHB = oriented_right /\ bHA = oriented_right.
Proof.
  intros n m AB aHB bHA pa pb s E. unfold cx_advance in E. destruct AB, aHB, bHA; cbn in E; try discriminate; auto.
Qed.
Lemma record_inv : forall aHB bHA x s, cx_inv s -> common_point P Q x -> cx_inv (record_crossing aHB bHA x s).
Proof.
  intros aHB bHA x s (Ia & Ib & In_ & Iu & Io) H. unfold cx_inv, record_crossing; cbn.
  split; [exact Ia|]. split; [exact Ib|]. split; [lia|]. split; [discriminate|]. apply out_push_common; assumption.
Qed.

(** What is claimed of a result. *)
Definition result_ok (r : cx_result) : Prop :=
  match r with
  | CxNoFuel => False
  | CxUndefined => (length P < length Q)%nat /\ in_hull Q (pnth P 0)
  | CxDone t l =>
    Forall visited_ok l /\
    match t with
    | px_none => l = []
    | px_face => exists k X Y, l = k ++ [X; Y] /\ forall Z, common_point P Q Z <-> on_segment X Y Z
    | px_overlapping => exists X k, l = X :: k /\ common_point P Q X
    end
  end.

Lemma turn : forall s, cx_inv s ->
  match cx_step direct P Q s with inl s' => cx_inv s' | inr r => result_ok r end.
Proof.
  intros s I. assert (I0 := I). destruct I0 as (Ia & Ib & In_ & Iu & Io). unfold cx_step. cbv zeta.
  fold (prev (length P) (cx_a s)) (prev (length Q) (cx_b s)).
  assert (Ha1 := prev_lt _ _ Ia). assert (Hb1 := prev_lt _ _ Ib).
  rewrite (pnth_error P _ Ha1), (pnth_error P _ Ia), (pnth_error Q _ Hb1), (pnth_error Q _ Ib).
  pose proof (convex_nonzero P _ CP Ia) as NA. pose proof (convex_nonzero Q _ CQ Ib) as NB.
  set (pa1 := pnth P (prev (length P) (cx_a s))) in *. set (pa := pnth P (cx_a s)) in *.
  set (pb1 := pnth Q (prev (length Q) (cx_b s))) in *. set (pb := pnth Q (cx_b s)) in *.
  set (AB := get_orientation_v direct (vsub pa pa1) (vsub pb pb1)). set (aHB := get_orientation direct pb1 pb pa). set (bHA := get_orientation direct pa1 pa pb).
  assert (EP : forall X, on_segment pa1 pa X -> in_hull P X) by (intro X; apply edge_in_hull; assumption).
  assert (EQ : forall X, on_segment pb1 pb X -> in_hull Q X) by (intro X; apply edge_in_hull; assumption).
  assert (G : forall s0, cx_inv s0 -> match match cx_advance (length P) (length Q) AB aHB bHA pa pb s0 with None => inr (CxDone px_none (rev (cx_out s0))) | Some s => inl s end with inl s' => cx_inv s' | inr r => result_ok r end).
  { intros s0 I'. destruct (cx_advance _ _ _ _ _ _ _ s0) as [s1|] eqn:E.
    - eapply advance_inv; [exact I'| | |exact E]; apply pnth_In; assumption.
    - apply advance_none in E as (E1 & E2 & E3). destruct I' as (_ & _ & _ & _ & F & H).
      assert (Z : rev (cx_out s0) = []); [|rewrite Z; split; [constructor|reflexivity]].
      destruct (rev (cx_out s0)) as [|X l]; [reflexivity|exfalso]. destruct H as [H1 H2].
      apply (separated pa1 pa pb1 pb X).
      + apply (proj2 (proj2 (orientation_direct_v (vsub pa pa1) (vsub pb pb1)))). exact E1.
      + apply (proj1 (proj2 (orientation_direct pb1 pb pa))). exact E2.
      + apply (proj1 (proj2 (orientation_direct pa1 pa pb))). exact E3.
      + apply hull_prev; assumption.
      + apply hull_prev; assumption. }
  destruct (segseg_ok pa1 pa pb1 pb NA NB) as (ty & pts & -> & H). cbv zeta in H. destruct ty.
  - contradiction.
  - destruct H as [-> _]. apply G. exact I.
  - destruct H as (X & -> & S1 & _). apply G. apply record_inv; [exact I|]. destruct (proj2 (S1 X) (pteq_refl X)) as [K1 K2]. split; auto.
  - destruct H as (X & Y & -> & S1 & PL). destruct (Qltb_spec (dot (vsub pa pa1) (vsub pb pb1)) 0) as [D|D]; [|apply G; exact I].
    assert (C0 : cross (vsub pa pa1) (vsub pb pb1) == 0) by (apply parallel_cross; assumption).
    assert (S2 : forall Z, on_segment X Y Z -> common_point P Q Z) by (intros Z HZ; apply S1 in HZ as [K1 K2]; split; auto).
    assert (SX : on_segment X Y X) by (exists 0; split; [lra|]; split; unfold lerp; cbn [px py vadd vscale vsub]; ring).
    assert (SY : on_segment X Y Y) by (exists 1; split; [lra|]; split; unfold lerp; cbn [px py vadd vscale vsub]; ring).
    cbn [rev]. rewrite <- app_assoc. cbn [app]. split.
    + apply Forall_app. split; [apply Forall_rev; exact (proj1 Io)|]. constructor; [left; apply S2; exact SX|]. constructor; [left; apply S2; exact SY|constructor].
    + exists (rev (cx_out s)), X, Y. split; [reflexivity|]. intro Z. split; [|apply S2]. intros [Z1 Z2].
      destruct (proj2 (S1 X) SX) as [X1 X2].
      assert (T0 : forall u v W, on_segment u v W -> tri2 u v W == 0).
      { intros u v W HW. apply (tri2_on_segment u v) in HW as (t & _ & ->). rewrite tri2_AA, tri2_AB. ring. }
      destruct (antiparallel pa1 pa pb1 pb Z X C0 D (T0 _ _ _ X1) (T0 _ _ _ X2)) as [K1 K2]; [apply hull_prev; assumption|apply hull_prev; assumption|].
      apply S1. split; apply hull_on_edge; assumption.
  - destruct H as (X & -> & S1 & _). apply G. apply record_inv; [exact I|]. destruct (proj2 (S1 X) (pteq_refl X)) as [K1 K2]. split; auto.
Qed.

Lemma pip_hull : forall ps p, convex_polygon ps -> point_in_polygon p ps = true -> in_hull ps p.
Proof.
  intros ps p [C L] H. destruct (convex_polygon_exact p ps C L) as (b & _ & E). destruct b; [apply E; reflexivity|].
  rewrite (pip_convex_outside ps p C L) in H; [discriminate|]. intro K. apply E in K. discriminate.
Qed.
Lemma firstn_head : forall m (l : list pt) p, (0 < m)%nat -> firstn m (p :: l) = p :: firstn (m - 1) l.
Proof. intros [|m] l p H; [lia|]. cbn. rewrite Nat.sub_0_r. reflexivity. Qed.

Lemma finish : forall s, cx_inv s -> result_ok (cx_finish P Q s).
Proof.
  intros s (Ia & Ib & In_ & Iu & Io). unfold cx_finish. cbv zeta.
  assert (LQ := proj2 CQ). assert (LP := proj2 CP).
  assert (La : result_ok (CxDone (if Nat.eqb (cx_n s) 0 then px_none else px_overlapping) (rev (cx_out s)))).
  { split; [apply Forall_rev; exact (proj1 Io)|]. destruct Io as [_ H]. assert (LE := rev_length (cx_out s)).
    destruct (Nat.eqb_spec (cx_n s) 0) as [Z|Z]; destruct (rev (cx_out s)) as [|X l]; cbn [length] in LE; [reflexivity|lia|lia|]. exists X, l. auto. }
  destruct (is_in_unknown (cx_in s)); [|exact La].
  assert (EP : P = pnth P 0 :: tl P) by (destruct P; [cbn in LP; lia|reflexivity]).
  assert (EQ : Q = pnth Q 0 :: tl Q) by (destruct Q; [cbn in LQ; lia|reflexivity]).
  assert (K : forall ps V l, visited_ok V -> common_point P Q V -> (forall X, In X ps -> visited_ok X) -> ps = V :: l ->
     result_ok (CxDone px_overlapping (rev (cx_out s) ++ firstn (length Q) ps))).
  { intros ps V l HV HC Hall Eps. split.
    - apply Forall_app. split; [apply Forall_rev; exact (proj1 Io)|]. apply Forall_forall. intros X HX. apply Hall.
      rewrite <- (firstn_skipn (length Q) ps). apply in_or_app. left. exact HX.
    - destruct Io as [_ H]. destruct (rev (cx_out s)) as [|X k].
      + rewrite Eps, firstn_head by lia. exists V, (firstn (length Q - 1) l). auto.
      + exists X, (k ++ firstn (length Q) ps). auto. }
  assert (P0 : In (pnth P 0) P) by (apply pnth_In; lia). assert (Q0 : In (pnth Q 0) Q) by (apply pnth_In; lia).
  destruct P as [|p0 P'] eqn:EP'; [cbn in LP; lia|]. destruct Q as [|q0 Q'] eqn:EQ'; [cbn in LQ; lia|]. rewrite <- EP', <- EQ' in *.
  assert (Hp : p0 = pnth P 0) by (rewrite EP'; reflexivity). assert (Hq : q0 = pnth Q 0) by (rewrite EQ'; reflexivity). rewrite Hp, Hq.
  destruct (point_in_polygon (pnth P 0) Q) eqn:E1.
  - apply pip_hull in E1; [|exact CQ]. unfold first_points. destruct (Nat.leb_spec (length Q) (length P)); [|split; assumption].
    apply (K P (pnth P 0) (tl P)); [right; left; exact P0|split; [apply vertex_in_hull; exact P0|exact E1]|intros X HX; right; left; exact HX|exact EP].
  - destruct (point_in_polygon (pnth Q 0) P) eqn:E2; [|exact La]. apply pip_hull in E2; [|exact CP].
    unfold first_points. rewrite Nat.leb_refl.
    apply (K Q (pnth Q 0) (tl Q)); [right; right; exact Q0|split; [exact E2|apply vertex_in_hull; exact Q0]|intros X HX; right; right; exact HX|exact EQ].
Qed.

Lemma convex_intersection_ok : forall fuel, (4 * (length P + length Q) < fuel)%nat ->
  result_ok (convex_polygon_polygon_intersection direct fuel P Q).
Proof.
  intros fuel F. assert (LQ := proj2 CQ). assert (LP := proj2 CP).
  assert (E : convex_polygon_polygon_intersection direct fuel P Q = cx_loop direct P Q fuel (mkcx 0 0 0 0 in_unknown 0 [])).
  { unfold convex_polygon_polygon_intersection. destruct P; [cbn in LP; lia|]. destruct Q; [cbn in LQ; lia|]. reflexivity. }
  rewrite E. apply (loop_ind direct P Q cx_inv result_ok).
  - intros s s' I R. pose proof (turn s I) as T. rewrite R in T. exact T.
  - intros s r I R. pose proof (turn s I) as T. rewrite R in T. exact T.
  - exact finish.
  - unfold cx_inv; cbn. repeat split; try lia. constructor.
  - cbn. lia.
  - cbn. lia.
  - unfold cx_measure; cbn. lia.
Qed.
End Run.
