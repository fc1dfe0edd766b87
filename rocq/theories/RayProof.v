From Verif Require Import Base CmpModel CmpProof OrientModel OrientSpec OrientProof DistModel DistSpec LinIntModel LinIntSpec LinIntProof.

(** ** Lines *)

Lemma par_line_common : forall A B C D, nonzero (vsub B A) -> nonzero (vsub D C) -> cross (vsub B A) (vsub D C) == 0 ->
  (cross (vsub B A) (vsub C A) == 0 -> forall X, on_line A B X <-> on_line C D X) /\
  (~ cross (vsub B A) (vsub C A) == 0 -> forall X, ~ (on_line A B X /\ on_line C D X)).
Proof.
  intros A B C D N1 N2 EP.
  assert (CR : forall A B X, nonzero (vsub B A) -> (on_line A B X <-> cross (vsub B A) (vsub X A) == 0)).
  { intros A0 B0 X N; split; [intros (t & E); eapply lerp_cross; exact E|apply collinear_param; exact N]. }
  split.
  - intros EC X. rewrite !CR by assumption.
    pose proof (nz_dot _ N1) as P1. pose proof (nz_dot _ N2) as P2.
    assert (ED : cross (vsub D C) (vsub C A) == 0).
    { pose proof (frame_cross (vsub B A) (vsub D C) (vsub C A)) as F. rewrite EP, EC in F. nra. }
    split; intro E.
    + assert (F1 : cross (vsub D C) (vsub X A) == 0).
      { pose proof (frame_cross (vsub B A) (vsub D C) (vsub X A)) as F. rewrite EP, E in F. nra. }
      assert (F2 : cross (vsub D C) (vsub X C) == cross (vsub D C) (vsub X A) - cross (vsub D C) (vsub C A))
        by (unfold cross, vsub; simpl; ring). rewrite F2, F1, ED; ring.
    + assert (EP' : cross (vsub D C) (vsub B A) == 0) by (rewrite cross_anti, EP; ring).
      assert (F1 : cross (vsub B A) (vsub X C) == 0).
      { pose proof (frame_cross (vsub D C) (vsub B A) (vsub X C)) as F. rewrite EP', E in F. nra. }
      assert (F2 : cross (vsub B A) (vsub X A) == cross (vsub B A) (vsub X C) + cross (vsub B A) (vsub C A))
        by (unfold cross, vsub; simpl; ring). rewrite F2, F1, EC; ring.
  - intros NC X [H1 H2]. apply NC. rewrite CR in H1, H2 by assumption.
    assert (EP' : cross (vsub D C) (vsub B A) == 0) by (rewrite cross_anti, EP; ring).
    pose proof (nz_dot _ N2) as P2.
    assert (F1 : cross (vsub B A) (vsub X C) == 0).
    { pose proof (frame_cross (vsub D C) (vsub B A) (vsub X C)) as F. rewrite EP', H2 in F. nra. }
    assert (F2 : cross (vsub B A) (vsub X A) == cross (vsub B A) (vsub X C) + cross (vsub B A) (vsub C A))
        by (unfold cross, vsub; simpl; ring). rewrite H1, F1 in F2. lra.
Qed.

Lemma line_line_params_ok : forall A B C D, nonzero (vsub B A) -> nonzero (vsub D C) ->
  (exists X s t, line_line_intersect_params direct A B C D = Some (e_crossing, Some (X, s, t)) /\
     X =p= lerp A B s /\ X =p= lerp C D t /\ is_single_point (both (on_line A B) (on_line C D)) X) \/
  (line_line_intersect_params direct A B C D = Some (e_overlapping, None) /\ forall X, on_line A B X <-> on_line C D X) \/
  (line_line_intersect_params direct A B C D = Some (e_non_crossing, None) /\ is_empty_set (both (on_line A B) (on_line C D))).
Proof.
  intros A B C D N1 N2. unfold line_line_intersect_params; simpl equals; simpl less_than; simpl greater_than.
  destruct (Qeqb_spec (xdenom A B C D) 0) as [E|E].
  - assert (EP : cross (vsub B A) (vsub D C) == 0) by (rewrite xdenom_cross in E; lra).
    destruct (par_line_common A B C D N1 N2 EP) as [H1 H2].
    destruct (is_collinear direct A B C) eqn:EC.
    + right; left. split; [reflexivity|]. apply H1. apply collinear_direct; exact EC.
    + right; right. split; [reflexivity|]. intros Z HZ. refine (H2 _ Z HZ). intro G. apply collinear_direct in G. congruence.
  - left. rewrite !qdiv_opt_some by exact E. destruct (cross_solve A B C D E) as [EQ U]. cbv zeta in *.
    eexists; eexists; eexists. split; [reflexivity|]. split; [apply pteq_refl|]. split; [exact EQ|].
    intro Z; split.
    + intros [(s & E1) (t & E2)]. destruct (U s t) as [U1 _]; [eapply pteq_trans; [apply pteq_sym; exact E1|exact E2]|].
      eapply pteq_trans; [exact E1|]. apply lerp_compat; exact U1.
    + intro EZ; split; [eexists; exact EZ|]. eexists; eapply pteq_trans; [exact EZ|exact EQ].
Qed.

Lemma line_line_ok : forall A B C D, nonzero (vsub B A) -> nonzero (vsub D C) ->
  (exists X, line_line_intersect direct A B C D = Some (e_crossing, Some X) /\
     is_single_point (both (on_line A B) (on_line C D)) X) \/
  (line_line_intersect direct A B C D = Some (e_overlapping, None) /\ forall X, on_line A B X <-> on_line C D X) \/
  (line_line_intersect direct A B C D = Some (e_non_crossing, None) /\ is_empty_set (both (on_line A B) (on_line C D))).
Proof.
  intros A B C D N1 N2. unfold line_line_intersect; simpl equals; simpl less_than; simpl greater_than.
  destruct (Qeqb_spec (xdenom A B C D) 0) as [E|E].
  - assert (EP : cross (vsub B A) (vsub D C) == 0) by (rewrite xdenom_cross in E; lra).
    destruct (par_line_common A B C D N1 N2 EP) as [H1 H2].
    destruct (is_collinear direct A B C) eqn:EC.
    + right; left. split; [reflexivity|]. apply H1. apply collinear_direct; exact EC.
    + right; right. split; [reflexivity|]. intros Z HZ. refine (H2 _ Z HZ). intro G. apply collinear_direct in G. congruence.
  - left. rewrite !qdiv_opt_some by exact E. destruct (cross_solve A B C D E) as [EQ U]. cbv zeta in *.
    eexists. split; [reflexivity|]. 
    intro Z; split.
    + intros [(s & E1) (t & E2)]. destruct (U s t) as [_ U2]; [eapply pteq_trans; [apply pteq_sym; exact E1|exact E2]|].
      eapply pteq_trans; [exact E2|]. apply lerp_compat; exact U2.
    + intro EZ; split; [eexists; eapply pteq_trans; [exact EZ|apply pteq_sym; exact EQ]|]. eexists; exact EZ.
Qed.

Lemma line_segment_ok : forall A B C D, nonzero (vsub B A) -> nonzero (vsub D C) -> exists ty o,
  line_segment_intersect direct A B C D = Some (ty, o) /\
  let common := both (on_line A B) (on_segment C D) in
  match ty with
  | e_invalid_intersection => False
  | e_non_crossing => o = None /\ is_empty_set common
  | e_crossing => exists X, o = Some X /\ is_single_point common X /\ inside_segment C D X
  | e_endpoint => exists X, o = Some X /\ is_single_point common X /\ (X =p= C \/ X =p= D)
  | e_overlapping => o = None /\ forall X, on_segment C D X -> on_line A B X
  end.
Proof.
  intros A B C D N1 N2. unfold line_segment_intersect; simpl equals; simpl less_than; simpl greater_than.
  destruct (Qeqb_spec (xdenom A B C D) 0) as [E|E].
  - assert (EP : cross (vsub B A) (vsub D C) == 0) by (rewrite xdenom_cross in E; lra).
    destruct (par_line_common A B C D N1 N2 EP) as [H1 H2].
    destruct (is_collinear direct A B C) eqn:EC.
    + exists e_overlapping, None. split; [reflexivity|]. split; [reflexivity|]. intros X (t & _ & EX). apply H1; [apply collinear_direct; exact EC|].
      exists t; exact EX.
    + exists e_non_crossing, None. split; [reflexivity|]. split; [reflexivity|]. intros X [G1 (t & _ & EX)].
      apply (H2 ltac:(intro G; apply collinear_direct in G; congruence) X). split; [exact G1|exists t; exact EX].
  - rewrite qdiv_opt_some by exact E. destruct (cross_solve A B C D E) as [EQ U]. cbv zeta in *.
    pose proof (div_zero_iff (xnum_t A B C D) _ E) as T0. pose proof (div_one_iff (xnum_t A B C D) _ E) as T1.
    set (t := xnum_t A B C D / xdenom A B C D) in *. set (s := xnum_s A B C D / xdenom A B C D) in *.
    assert (SG : 0 <= t <= 1 -> is_single_point (both (on_line A B) (on_segment C D)) (lerp C D t)).
    { intros Ht Z; split.
      - intros [(s' & E1) (t' & _ & E2)]. destruct (U s' t') as [_ U2]; [eapply pteq_trans; [apply pteq_sym; exact E1|exact E2]|].
        eapply pteq_trans; [exact E2|]. apply lerp_compat; exact U2.
      - intro EZ; split; [exists s; eapply pteq_trans; [exact EZ|apply pteq_sym; exact EQ]|]. exists t; split; [exact Ht|exact EZ]. }
    assert (EM : ~ 0 <= t <= 1 -> is_empty_set (both (on_line A B) (on_segment C D))).
    { intros Ht Z [(s' & E1) (t' & G & E2)]. destruct (U s' t') as [_ U2]; [eapply pteq_trans; [apply pteq_sym; exact E1|exact E2]|]. apply Ht; lra. }
    change (vadd C (vscale t (vsub D C))) with (lerp C D t). clearbody t s.
    destruct (Qltb_spec t 0); cbn [orb]; [exists e_non_crossing, None; split; [reflexivity|]; split; [reflexivity|apply EM; lra]|].
    destruct (Qgtb_spec t 1); cbn [orb]; [exists e_non_crossing, None; split; [reflexivity|]; split; [reflexivity|apply EM; lra]|].
    destruct (Qgtb_spec t 0); [destruct (Qltb_spec t 1)|]; cbn [andb].
    + exists e_crossing, (Some (lerp C D t)). split; [reflexivity|]. eexists; split; [reflexivity|]. split; [apply SG; lra|].
      exists t; split; [lra|apply pteq_refl].
    + assert (G : xnum_t A B C D == xdenom A B C D) by (apply T1; lra). apply Qeqb_eq in G. rewrite G, orb_true_r.
      exists e_endpoint, (Some (lerp C D t)). split; [reflexivity|]. eexists; split; [reflexivity|]. split; [apply SG; lra|].
      right. apply pteq_sym. eapply pteq_trans; [apply lerp_1|]. apply lerp_compat; lra.
    + assert (G : xnum_t A B C D == 0) by (apply T0; lra). apply Qeqb_eq in G. rewrite G.
      exists e_endpoint, (Some (lerp C D t)). split; [reflexivity|]. eexists; split; [reflexivity|]. split; [apply SG; lra|].
      left. apply pteq_sym. eapply pteq_trans; [apply lerp_0|]. apply lerp_compat; lra.
Qed.

(** ** Rays *)

Lemma ray_denom : forall v w, dot w (left_normal v) == cross v w.
Proof. intros; unfold dot, left_normal, cross; simpl; ring. Qed.

(** O + t v = A + r w in terms of cross products. *)
Lemma ray_solve : forall O v A w, ~ cross v w == 0 ->
  let t := cross w (vsub O A) / dot w (left_normal v) in
  let r := dot (vsub O A) (left_normal v) / dot w (left_normal v) in
  vadd O (vscale t v) =p= vadd A (vscale r w) /\
  forall t' r', vadd O (vscale t' v) =p= vadd A (vscale r' w) -> t' == t /\ r' == r.
Proof.
  intros O v A w N t r. assert (N' : ~ dot w (left_normal v) == 0) by (rewrite ray_denom; exact N).
  unfold t, r; clear t r. destruct O as [ox oy], v as [vx vy], A as [ax ay], w as [wx wy].
  unfold dot, left_normal, cross, vsub, vadd, vscale, pteq in *; simpl in *. split.
  - split; field; exact N'.
  - intros t' r' [E1 E2].
    assert (P1 : t' * (wx * - vy + wy * vx) == wx * (oy - ay) - wy * (ox - ax)).
    { assert (P : t' * (wx * - vy + wy * vx) == wy * (ox + t' * vx - ox) - wx * (oy + t' * vy - oy)) by ring.
      rewrite P, E1, E2; ring. }
    assert (P2 : r' * (wx * - vy + wy * vx) == (ox - ax) * - vy + (oy - ay) * vx).
    { assert (P : r' * (wx * - vy + wy * vx) == (ax + r' * wx - ax) * - vy + (ay + r' * wy - ay) * vx) by ring.
      rewrite P, <- E1, <- E2; ring. }
    split; [rewrite <- P1|rewrite <- P2]; field; exact N'.
Qed.

Lemma ray_compat : forall O v t t', t == t' -> vadd O (vscale t v) =p= vadd O (vscale t' v).
Proof. intros O v t t' E; split; unfold vadd, vscale; simpl; rewrite E; ring. Qed.

(** On a unit-direction line through O: parameters are dot products. *)
Lemma unit_param : forall O v X, dot v v == 1 -> cross v (vsub X O) == 0 -> X =p= vadd O (vscale (dot (vsub X O) v) v).
Proof.
  intros [ox oy] [vx vy] [x y] U C; unfold dot, cross, vsub, vadd, vscale, pteq in *; simpl in *.
  set (a := x - ox) in *. set (b := y - oy) in *.
  assert (X1 : x == ox + a) by (unfold a; ring). assert (Y1 : y == oy + b) by (unfold b; ring). clearbody a b.
  split.
  - transitivity (ox + (a * (vx * vx + vy * vy) - vy * (vy * a - vx * b) + vy * (vy * a - vx * b))); [rewrite U, X1; ring|]. 
    transitivity (ox + (a * vx + b * vy) * vx + vy * - (vx * b - vy * a)); [ring|]. rewrite C; ring.
  - transitivity (oy + b * (vx * vx + vy * vy)); [rewrite U, Y1; ring|].
    transitivity (oy + (a * vx + b * vy) * vy + vx * (vx * b - vy * a)); [ring|]. rewrite C; ring.
Qed.

Lemma ray_inj : forall O v x y, dot v v == 1 -> vadd O (vscale x v) =p= vadd O (vscale y v) -> x == y.
Proof.
  intros [ox oy] [vx vy] x y U [E1 E2]; unfold dot, vadd, vscale in *; simpl in *.
  assert (F1 : x * vx == y * vx) by lra. assert (F2 : y * vy == x * vy) by lra.
  transitivity (x * vx * vx + x * vy * vy).
  - transitivity (x * (vx * vx + vy * vy)); [rewrite U; ring|ring].
  - rewrite F1, <- F2. transitivity (y * (vx * vx + vy * vy)); [ring|rewrite U; ring].
Qed.

Lemma ray_line_lerp : forall O v t, vadd O (vscale t v) =p= lerp O (vadd O v) t.
Proof. intros; split; unfold lerp, vadd, vscale, vsub; simpl; ring. Qed.

Definition ray_least (O v A B : pt) (t : Q) : Prop :=
  0 <= t /\ on_segment A B (vadd O (vscale t v)) /\
  forall t', 0 <= t' -> on_segment A B (vadd O (vscale t' v)) -> t <= t'.

Lemma ray_segment_ok : forall O v A B, dot v v == 1 -> nonzero (vsub B A) -> exists ty ot pts,
  ray_segment_intersection direct O v A B = Some (ty, ot, pts) /\
  let common := both (on_ray O v) (on_segment A B) in
  match ty with
  | e_invalid_intersection => False
  | e_non_crossing => ot = None /\ pts = [] /\ is_empty_set common
  | e_crossing => exists t X, ot = Some t /\ pts = [X] /\ X =p= vadd O (vscale t v) /\ ray_least O v A B t /\
      is_single_point common X /\ inside_segment A B X
  | e_endpoint => exists t X, ot = Some t /\ pts = [X] /\ X =p= vadd O (vscale t v) /\ ray_least O v A B t /\
      is_single_point common X /\ (X =p= A \/ X =p= B)
  | e_overlapping => exists t X Y, ot = Some t /\ pts = [X; Y] /\ X =p= vadd O (vscale t v) /\ ray_least O v A B t /\
      is_segment_set common X Y /\ parallel v (vsub B A)
  end.
Proof.
  intros O v A B U N.
  assert (NV : nonzero v). { intros [G1 G2]. unfold dot in U. rewrite G1, G2 in U. lra. }
  unfold ray_segment_intersection; simpl equals; simpl less_than; simpl greater_than.
  destruct (Qeqb_spec (dot (vsub B A) (left_normal v)) 0) as [E|E].
  - rewrite ray_denom in E. pose proof (nz_dot _ N) as PN.
    destruct (get_orientation direct A B O) eqn:EO.
    + exists e_non_crossing, None, []. split; [reflexivity|]. split; [reflexivity|]. split; [reflexivity|].
      apply orientation_direct in EO. intros Z [(t & _ & E1) (s & _ & E2)].
      assert (F : cross (vsub B A) (vsub O A) == cross (vsub B A) (vsub Z A) + t * cross v (vsub B A)).
      { destruct E1 as [G1 G2]. unfold cross, vsub, vadd, vscale in *; simpl in *. rewrite G1, G2; ring. }
      rewrite (lerp_cross _ _ _ _ E2), E in F. lra.
    + apply orientation_direct in EO.
      assert (CV : forall X, cross (vsub B A) (vsub X A) == 0 -> cross v (vsub X O) == 0).
      { intros X HX. pose proof (frame_cross (vsub B A) v (vsub X O)) as F.
        assert (G : cross (vsub B A) (vsub X O) == 0).
        { assert (G : cross (vsub B A) (vsub X O) == cross (vsub B A) (vsub X A) - cross (vsub B A) (vsub O A)) by (unfold cross, vsub; simpl; ring).
          rewrite G, HX, EO; ring. }
        rewrite G, (cross_anti (vsub B A) v), E in F. nra. }
      assert (EA : A =p= vadd O (vscale (dot (vsub A O) v) v)) by (apply unit_param; [exact U|apply CV; unfold cross, vsub; simpl; ring]).
      assert (EB : B =p= vadd O (vscale (dot (vsub B O) v) v)) by (apply unit_param; [exact U|apply CV; unfold cross, vsub; simpl; ring]).
      assert (OA' : dot (vneg (vsub O A)) v == dot (vsub A O) v) by (unfold dot, vneg, vsub; simpl; ring).
      set (OA := dot (vneg (vsub O A)) v) in *. set (OB := dot (vsub B O) v) in *.
      assert (EA' : A =p= lerp O (vadd O v) OA).
      { eapply pteq_trans; [exact EA|]. eapply pteq_trans; [apply ray_compat; symmetry; exact OA'|]. apply ray_line_lerp. }
      assert (EB' : B =p= lerp O (vadd O v) OB) by (eapply pteq_trans; [exact EB|apply ray_line_lerp]).
      assert (NV' : nonzero (vsub (vadd O v) O)).
      { intros [G1 G2]; apply NV. unfold vsub, vadd in *; simpl in *. split; lra. }
      assert (PAR : parallel v (vsub B A)) by (apply parallel_cross; assumption).
      assert (ONS : forall x, on_segment A B (vadd O (vscale x v)) <-> btw OA OB x).
      { intro x. apply (on_segment_line_pt O (vadd O v) A B OA OB x NV' EA' EB'). apply ray_line_lerp. }
      assert (CM : forall Z, both (on_ray O v) (on_segment A B) Z <-> exists x, 0 <= x /\ btw OA OB x /\ Z =p= lerp O (vadd O v) x).
      { intro Z; unfold both. rewrite (on_segment_line O (vadd O v) A B OA OB Z EA' EB'). split.
        - intros [(x & Hx & E1) (y & Hy & E2)]. exists y. split; [|auto].
          assert (x == y); [|lra]. apply (lerp_inj O (vadd O v)); [exact NV'|].
          eapply pteq_trans; [apply pteq_sym, ray_line_lerp|]. eapply pteq_trans; [apply pteq_sym; exact E1|exact E2].
        - intros (x & Hx & Hb & E1). split; [exists x; split; [exact Hx|]; eapply pteq_trans; [exact E1|apply pteq_sym, ray_line_lerp]|exists x; auto]. }
      assert (SEG : forall X Y uu ww, X =p= lerp O (vadd O v) uu -> Y =p= lerp O (vadd O v) ww ->
        (forall x, 0 <= x /\ btw OA OB x <-> btw uu ww x) -> is_segment_set (both (on_ray O v) (on_segment A B)) X Y).
      { intros X Y uu ww EX EY H Z. rewrite CM, (on_segment_line O (vadd O v) X Y uu ww Z EX EY).
        split; [intros (x & J1 & J2 & J3)|intros (x & J1 & J2)]; exists x.
        - split; [apply H; auto|exact J3].
        - apply H in J1 as [J1 J3]. auto. }
      assert (NAB : ~ OA == OB).
      { intro G. apply N. destruct EA' as [A1 A2], EB' as [B1 B2]. unfold vsub; simpl. rewrite A1, A2, B1, B2.
        unfold lerp, vadd, vscale; simpl. rewrite G. split; ring. }
      assert (E0 : O =p= lerp O (vadd O v) 0) by apply lerp_0.
      assert (R0 : O =p= vadd O (vscale 0 v)) by (split; unfold vadd, vscale; simpl; ring).
      clearbody OA OB.
      destruct (Qltb_spec OA 0); [destruct (Qltb_spec OB 0)|destruct (Qltb_spec OB 0); [|destruct (Qltb_spec OA OB)]].
      * exists e_non_crossing, None, []. split; [reflexivity|]. split; [reflexivity|]. split; [reflexivity|].
        intros Z HZ. apply CM in HZ as (x & J1 & J2 & _). destruct J2; lra.
      * exists e_overlapping, (Some 0), [O; B]. split; [reflexivity|]. exists 0, O, B. split; [reflexivity|]. split; [reflexivity|].
        split; [exact R0|]. split; [|split; [|exact PAR]].
        -- split; [lra|]. split; [apply ONS; left; lra|]. intros; assumption.
        -- apply (SEG O B 0 OB E0 EB'). intro x; unfold btw; split; [intros [J [J'|J']]; left; lra|intros [J|J]; (split; [lra|]); left; lra].
      * exists e_overlapping, (Some 0), [O; A]. split; [reflexivity|]. exists 0, O, A. split; [reflexivity|]. split; [reflexivity|].
        split; [exact R0|]. split; [|split; [|exact PAR]].
        -- split; [lra|]. split; [apply ONS; right; lra|]. intros; assumption.
        -- apply (SEG O A 0 OA E0 EA'). intro x; unfold btw; split; [intros [J [J'|J']]; left; lra|intros [J|J]; (split; [lra|]); right; lra].
      * exists e_overlapping, (Some OA), [A; B]. split; [reflexivity|]. exists OA, A, B. split; [reflexivity|]. split; [reflexivity|].
        split; [eapply pteq_trans; [exact EA'|apply pteq_sym, ray_line_lerp]|]. split; [|split; [|exact PAR]].
        -- split; [lra|]. split; [apply ONS; left; lra|]. intros x J1 J2. apply ONS in J2. destruct J2; lra.
        -- apply (SEG A B OA OB EA' EB'). intro x; unfold btw; split; [intros [_ J]; exact J|intros [J|J]; (split; [lra|]); [left|right]; lra].
      * exists e_overlapping, (Some OB), [B; A]. split; [reflexivity|]. exists OB, B, A. split; [reflexivity|]. split; [reflexivity|].
        split; [eapply pteq_trans; [exact EB'|apply pteq_sym, ray_line_lerp]|]. split; [|split; [|exact PAR]].
        -- split; [lra|]. split; [apply ONS; right; lra|]. intros x J1 J2. apply ONS in J2. destruct J2; lra.
        -- apply (SEG B A OB OA EB' EA'). intro x; unfold btw; split; [intros [_ J]; destruct J; auto|intros [J|J]; (split; [lra|]); [right|left]; lra].
    + exists e_non_crossing, None, []. split; [reflexivity|]. split; [reflexivity|]. split; [reflexivity|].
      apply orientation_direct in EO. intros Z [(t & _ & E1) (s & _ & E2)].
      assert (F : cross (vsub B A) (vsub O A) == cross (vsub B A) (vsub Z A) + t * cross v (vsub B A)).
      { destruct E1 as [G1 G2]. unfold cross, vsub, vadd, vscale in *; simpl in *. rewrite G1, G2; ring. }
      rewrite (lerp_cross _ _ _ _ E2), E in F. lra.
  - assert (E' : ~ cross v (vsub B A) == 0) by (rewrite <- ray_denom; exact E).
    destruct (ray_solve O v A (vsub B A) E') as [EQ UQ]. cbv zeta in *. rewrite !qdiv_opt_some by exact E.
    set (t1 := cross (vsub B A) (vsub O A) / dot (vsub B A) (left_normal v)) in *.
    set (t2 := dot (vsub O A) (left_normal v) / dot (vsub B A) (left_normal v)) in *.
    change (vadd A (vscale t2 (vsub B A))) with (lerp A B t2) in EQ.
    assert (EM : ~ (0 <= t1 /\ 0 <= t2 <= 1) -> is_empty_set (both (on_ray O v) (on_segment A B))).
    { intros H Z [(x & Hx & E1) (y & Hy & E2)]. destruct (UQ x y) as [U1 U2].
      - eapply pteq_trans; [apply pteq_sym; exact E1|exact E2].
      - apply H; lra. }
    assert (SG : 0 <= t1 -> 0 <= t2 <= 1 -> is_single_point (both (on_ray O v) (on_segment A B)) (vadd O (vscale t1 v))).
    { intros H1 H2 Z; split.
      - intros [(x & Hx & E1) (y & Hy & E2)]. destruct (UQ x y) as [U1 U2]; [eapply pteq_trans; [apply pteq_sym; exact E1|exact E2]|].
        eapply pteq_trans; [exact E1|]. apply ray_compat; exact U1.
      - intro EZ. split; [exists t1; auto|]. exists t2; split; [exact H2|]. eapply pteq_trans; [exact EZ|exact EQ]. }
    assert (LE : 0 <= t1 -> 0 <= t2 <= 1 -> ray_least O v A B t1).
    { intros H1 H2. split; [exact H1|]. split; [exists t2; auto|]. intros x _ (y & _ & Ey). destruct (UQ x y Ey) as [U1 _]. lra. }
    clearbody t1 t2.
    destruct (Qltb_spec t1 0); [exists e_non_crossing, None, []; split; [reflexivity|]; split; [reflexivity|]; split; [reflexivity|apply EM; lra]|].
    destruct (Qltb_spec t2 0); cbn [orb]; [exists e_non_crossing, None, []; split; [reflexivity|]; split; [reflexivity|]; split; [reflexivity|apply EM; lra]|].
    destruct (Qgtb_spec t2 1); cbn [orb]; [exists e_non_crossing, None, []; split; [reflexivity|]; split; [reflexivity|]; split; [reflexivity|apply EM; lra]|].
    destruct (Qeqb_spec t2 0); [|destruct (Qeqb_spec t2 1)]; cbn [orb].
    + eexists; eexists; eexists; split; [reflexivity|]. eexists; eexists. split; [reflexivity|]. split; [reflexivity|].
      split; [apply pteq_refl|]. split; [apply LE; lra|]. split; [apply SG; lra|]. left.
      eapply pteq_trans; [exact EQ|]. apply pteq_sym. eapply pteq_trans; [apply lerp_0|]. apply lerp_compat; lra.
    + eexists; eexists; eexists; split; [reflexivity|]. eexists; eexists. split; [reflexivity|]. split; [reflexivity|].
      split; [apply pteq_refl|]. split; [apply LE; lra|]. split; [apply SG; lra|]. right.
      eapply pteq_trans; [exact EQ|]. apply pteq_sym. eapply pteq_trans; [apply lerp_1|]. apply lerp_compat; lra.
    + eexists; eexists; eexists; split; [reflexivity|]. eexists; eexists. split; [reflexivity|]. split; [reflexivity|].
      split; [apply pteq_refl|]. split; [apply LE; lra|]. split; [apply SG; lra|]. exists t2; split; [lra|exact EQ].
Qed.

(** The overload without outputs agrees except for parallel segments off the ray's line. *)
Lemma ray_segment_type_agrees : forall O v A B, dot v v == 1 -> nonzero (vsub B A) ->
  cross v (vsub B A) == 0 /\ ~ on_line A B O \/
  exists ty ot pts, ray_segment_intersection direct O v A B = Some (ty, ot, pts) /\
    ray_segment_intersection_type direct O v A B = Some ty.
Proof.
  intros O v A B U N. destruct (ray_segment_ok O v A B U N) as (ty & ot & pts & R & _).
  assert (D : cross v (vsub B A) == 0 /\ ~ on_line A B O \/ ~ cross v (vsub B A) == 0 \/ on_line A B O).
  { destruct (Qeq_dec (cross v (vsub B A)) 0) as [E|E]; [|auto].
    destruct (orientation_sides A B O N) as (_ & _ & S3). destruct (get_orientation direct A B O); [left|right; right; apply S3; reflexivity|left];
    (split; [exact E|intro G; apply S3 in G; discriminate]). }
  destruct D as [D|D]; [left; exact D|right]. exists ty, ot, pts. split; [exact R|]. revert R.
  unfold ray_segment_intersection, ray_segment_intersection_type; simpl equals; simpl less_than; simpl greater_than.
  destruct (Qeqb_spec (dot (vsub B A) (left_normal v)) 0) as [E|E].
  - rewrite ray_denom in E. destruct D as [D|D]; [contradiction|].
    assert (G1 : get_orientation direct A B O = oriented_collinear) by (apply orientation_sides; assumption).
    assert (G2 : get_orientation_v direct v (vsub B A) = oriented_collinear) by (apply orientation_direct_v; exact E).
    rewrite G1, G2. destruct (Qltb (dot (vneg (vsub O A)) v) 0); destruct (Qltb (dot (vsub B O) v) 0); simpl; try congruence;
      destruct (Qltb (dot (vneg (vsub O A)) v) (dot (vsub B O) v)); congruence.
  - rewrite !qdiv_opt_some by exact E.
    repeat match goal with |- context [if ?b then _ else _] => destruct b end; congruence.
Qed.

(** ray against a line given by reference point and direction. *)
Lemma ray_line_ok : forall O v l, ~ cross v (l_dir l) == 0 ->
  exists t r, vadd O (vscale t v) =p= vadd (l_ref l) (vscale r (l_dir l)) /\
    (forall t' r', vadd O (vscale t' v) =p= vadd (l_ref l) (vscale r' (l_dir l)) -> t' == t /\ r' == r) /\
    (exists x : bool, ray_line_intersection direct O v l = Some (x, false, Some t, if x then Some (vadd O (vscale t v)) else None) /\
     (x = true <-> 0 <= t /\ 0 <= r)).
Proof.
  intros O v l E. assert (E' : ~ dot (l_dir l) (left_normal v) == 0) by (rewrite ray_denom; exact E).
  destruct (ray_solve O v (l_ref l) (l_dir l) E) as [EQ UQ]. cbv zeta in *.
  eexists; eexists; split; [exact EQ|]. split; [exact UQ|]. unfold ray_line_intersection; simpl equals; simpl less_than; simpl greater_than.
  destruct (Qeqb_spec (dot (l_dir l) (left_normal v)) 0); [contradiction|]. rewrite !qdiv_opt_some by exact E'.
  set (t := cross (l_dir l) (vsub O (l_ref l)) / dot (l_dir l) (left_normal v)) in *.
  set (r := dot (vsub O (l_ref l)) (left_normal v) / dot (l_dir l) (left_normal v)) in *. clearbody t r.
  destruct (Qltb_spec t 0); [|destruct (Qltb_spec r 0)].
  - exists false; split; [reflexivity|]. split; [discriminate|lra].
  - exists false; split; [reflexivity|]. split; [discriminate|lra].
  - exists true; split; [reflexivity|]. split; [intros _; lra|reflexivity].
Qed.
