(** Proofs about the range between two rays: the points written. *)
From Verif Require Import Base CmpModel OrientModel OrientSpec OrientProof DistModel DistSpec LinIntModel LinIntSpec LinIntProof RayProof RangeModel RangeSpec RangeProof.
From Coq Require Import Lia.

(** A line through [O] with direction [d] against the segment, in terms of the parameter on the segment. *)
Lemma line_param : forall O d A B, let f0 := cross d (vsub A O) in let f1 := cross d (vsub B O) in
  match line_segment_intersect direct O (vadd O d) A B with
  | None => False
  | Some (e_overlapping, _) => f0 == 0 /\ f1 == 0
  | Some (e_non_crossing, o) => o = None /\ forall u, 0 <= u <= 1 -> ~ (1 - u) * f0 + u * f1 == 0
  | Some (e_crossing, Some x) => exists u, 0 < u < 1 /\ x =p= lerp A B u /\ (1 - u) * f0 + u * f1 == 0
  | Some (e_endpoint, Some x) => exists u, (u == 0 \/ u == 1) /\ x =p= lerp A B u /\ (1 - u) * f0 + u * f1 == 0
  | _ => False
  end.
Proof.
  intros O d A B f0 f1. unfold line_segment_intersect; cbv zeta; simpl equals; simpl less_than; simpl greater_than.
  assert (D : xdenom O (vadd O d) A B == f0 - f1) by (unfold f0, f1, xdenom, cross, vadd, vsub; simpl; ring).
  assert (T : xnum_t O (vadd O d) A B == f0) by (unfold f0, xnum_t, cross, vadd, vsub; simpl; ring).
  destruct (Qeqb_spec (xdenom O (vadd O d) A B) 0) as [E|E].
  - assert (CF : cross (vsub (vadd O d) O) (vsub A O) == f0) by (unfold f0, cross, vsub, vadd; simpl; ring).
    destruct (is_collinear direct O (vadd O d) A) eqn:C.
    + apply collinear_direct in C. assert (C' : f0 == 0) by (rewrite <- CF; exact C). split; [exact C'|]. lra.
    + split; [reflexivity|]. intros u Hu Z. assert (C' : f0 == 0). { assert (X : f1 == f0) by lra. rewrite X in Z. lra. }
      rewrite <- CF in C'. apply collinear_direct in C'. congruence.
  - rewrite qdiv_opt_some by exact E.
    pose proof (div_zero_iff (xnum_t O (vadd O d) A B) _ E) as T0. pose proof (div_one_iff (xnum_t O (vadd O d) A B) _ E) as T1.
    assert (K : (xnum_t O (vadd O d) A B / xdenom O (vadd O d) A B) * xdenom O (vadd O d) A B == xnum_t O (vadd O d) A B) by (field; exact E).
    set (t := xnum_t O (vadd O d) A B / xdenom O (vadd O d) A B) in *. clearbody t.
    assert (Z : (1 - t) * f0 + t * f1 == 0). { rewrite T, D in K. lra. }
    assert (Un : forall u, (1 - u) * f0 + u * f1 == 0 -> u == t).
    { intros u Zu. assert (X : (u - t) * (f0 - f1) == 0) by lra. apply Qmult_integral in X. destruct X as [X|X]; [lra|]. exfalso. apply E. rewrite D. exact X. }
    destruct (Qltb_spec t 0); cbn [orb]; [split; [reflexivity|]; intros u Hu Zu; apply Un in Zu; lra|].
    destruct (Qgtb_spec t 1); cbn [orb]; [split; [reflexivity|]; intros u Hu Zu; apply Un in Zu; lra|].
    destruct (Qgtb_spec t 0); [destruct (Qltb_spec t 1)|]; cbn [andb].
    + exists t. split; [lra|]. split; [apply pteq_refl|exact Z].
    + assert (G : xnum_t O (vadd O d) A B == xdenom O (vadd O d) A B) by (apply T1; lra). apply Qeqb_eq in G. rewrite G, orb_true_r.
      exists t. split; [right; lra|]. split; [apply pteq_refl|exact Z].
    + assert (G : xnum_t O (vadd O d) A B == 0) by (apply T0; lra). apply Qeqb_eq in G. rewrite G. exists t. split; [left; lra|]. split; [apply pteq_refl|exact Z].
Qed.

(** A ray that touches the segment: the first point written. *)
Lemma ray_first : forall O v A B ty ot x pts, ray_segment_intersection direct O v A B = Some (ty, ot, x :: pts) -> is_touching ty = true ->
  exists u, 0 <= u <= 1 /\ x =p= lerp A B u /\ on_ray O v x.
Proof.
  intros O v A B ty ot x pts R T. unfold ray_segment_intersection in R; simpl equals in R; simpl less_than in R; simpl greater_than in R.
  destruct (Qeqb_spec (dot (vsub B A) (left_normal v)) 0) as [E|E].
  - exfalso. destruct (get_orientation direct A B O); try discriminate. destruct (Qltb (dot (vneg (vsub O A)) v) 0), (Qltb (dot (vsub B O) v) 0); try discriminate; try (injection R as <- _ _ _; discriminate).
    destruct (Qltb (dot (vneg (vsub O A)) v) (dot (vsub B O) v)); injection R as <- _ _ _; discriminate.
  - assert (E' : ~ cross v (vsub B A) == 0) by (rewrite <- ray_denom; exact E). destruct (ray_solve O v A (vsub B A) E') as [EQ _]. cbv zeta in EQ. rewrite !qdiv_opt_some in R by exact E.
    set (t := cross (vsub B A) (vsub O A) / dot (vsub B A) (left_normal v)) in *. set (r := dot (vsub O A) (left_normal v) / dot (vsub B A) (left_normal v)) in *. clearbody t r.
    destruct (Qltb_spec t 0); [discriminate|]. destruct (Qltb_spec r 0); [discriminate|]. destruct (Qgtb_spec r 1); [discriminate|]. cbn [orb] in R.
    injection R as _ _ <- _. exists r. split; [lra|]. split; [exact EQ|]. exists t. split; [lra|apply pteq_refl].
Qed.

Lemma ray_overlap : forall O v A B ty ot pts, ray_segment_intersection direct O v A B = Some (ty, ot, pts) -> is_overlap ty = true -> cross v (vsub B A) == 0.
Proof.
  intros O v A B ty ot pts R T. unfold ray_segment_intersection in R; simpl equals in R; simpl less_than in R; simpl greater_than in R.
  destruct (Qeqb_spec (dot (vsub B A) (left_normal v)) 0) as [E|E]; [rewrite ray_denom in E; exact E|exfalso].
  rewrite !qdiv_opt_some in R by exact E. destruct (Qltb _ 0); [injection R as <- _ _; discriminate|]. destruct (Qltb _ 0 || Qgtb _ 1); [injection R as <- _ _; discriminate|].
  injection R as <- _ _. destruct (Qeqb _ 0 || Qeqb _ 1); discriminate.
Qed.

(** Part of a segment between two parameters. *)
Lemma lerp_part : forall A B u v x0 x1 Z, x0 =p= lerp A B u -> x1 =p= lerp A B v ->
  (on_segment x0 x1 Z <-> exists t, (u <= t <= v \/ v <= t <= u) /\ Z =p= lerp A B t).
Proof.
  intros A B u v x0 x1 Z E0 E1.
  assert (K : forall s, lerp x0 x1 s =p= lerp A B (u + s * (v - u))).
  { intro s. destruct E0 as [a1 a2], E1 as [b1 b2]. unfold lerp, vadd, vscale, vsub in *; split; simpl in *; [rewrite a1, b1|rewrite a2, b2]; ring. }
  split.
  - intros (s & Hs & E). exists (u + s * (v - u)). split; [|eapply pteq_trans; [exact E|apply K]].
    destruct (Qlt_le_dec u v) as [L|L]; [left|right].
    + assert (0 <= s * (v - u)) by (apply Qmult_le_0_compat; lra). assert (0 <= (1 - s) * (v - u)) by (apply Qmult_le_0_compat; lra). lra.
    + assert (0 <= s * (u - v)) by (apply Qmult_le_0_compat; lra). assert (0 <= (1 - s) * (u - v)) by (apply Qmult_le_0_compat; lra). lra.
  - intros (t & Ht & E). destruct (Qeq_dec u v) as [Q|N].
    + exists 0. split; [lra|]. eapply pteq_trans; [exact E|]. apply pteq_sym. eapply pteq_trans; [apply K|]. apply lerp_compat. lra.
    + exists ((t - u) / (v - u)). assert (ND : ~ v - u == 0) by lra. assert (Q : (t - u) / (v - u) * (v - u) == t - u) by (field; exact ND). split.
      * revert Q. generalize ((t - u) / (v - u)). intros s Q. destruct (Qlt_le_dec u v) as [L|L].
        -- split; [destruct (Qlt_le_dec s 0) as [M|M]; [|exact M]|destruct (Qlt_le_dec 1 s) as [M|M]; [|exact M]]; exfalso.
           ++ assert (0 < - s * (v - u)) by (apply Qmult_lt_0_compat; lra). lra.
           ++ assert (0 < (s - 1) * (v - u)) by (apply Qmult_lt_0_compat; lra). lra.
        -- split; [destruct (Qlt_le_dec s 0) as [M|M]; [|exact M]|destruct (Qlt_le_dec 1 s) as [M|M]; [|exact M]]; exfalso.
           ++ assert (0 < - s * (u - v)) by (apply Qmult_lt_0_compat; lra). lra.
           ++ assert (0 < (s - 1) * (u - v)) by (apply Qmult_lt_0_compat; lra). lra.
      * eapply pteq_trans; [exact E|]. apply pteq_sym. eapply pteq_trans; [apply K|]. apply lerp_compat. lra.
Qed.

(** Signs of an affine function. *)
Lemma aff_down : forall f0 f1 u t, (1 - u) * f0 + u * f1 == 0 -> f1 < f0 -> (0 <= (1 - t) * f0 + t * f1 <-> t <= u).
Proof.
  intros f0 f1 u t Z L. assert (E : (1 - t) * f0 + t * f1 == (u - t) * (f0 - f1)) by (setoid_replace ((1 - t) * f0 + t * f1) with ((1 - u) * f0 + u * f1 + (u - t) * (f0 - f1)) by ring; rewrite Z; ring). rewrite E. split; intro H.
  - destruct (Qlt_le_dec u t) as [M|M]; [|exact M]. exfalso. assert (0 < (t - u) * (f0 - f1)) by (apply Qmult_lt_0_compat; lra). lra.
  - apply Qmult_le_0_compat; lra.
Qed.
Lemma aff_up : forall f0 f1 u t, (1 - u) * f0 + u * f1 == 0 -> f0 < f1 -> (0 <= (1 - t) * f0 + t * f1 <-> u <= t).
Proof.
  intros f0 f1 u t Z L. assert (E : (1 - t) * f0 + t * f1 == (t - u) * (f1 - f0)) by (setoid_replace ((1 - t) * f0 + t * f1) with ((1 - u) * f0 + u * f1 + (t - u) * (f1 - f0)) by ring; rewrite Z; ring). rewrite E. split; intro H.
  - destruct (Qlt_le_dec t u) as [M|M]; [|exact M]. exfalso. assert (0 < (u - t) * (f1 - f0)) by (apply Qmult_lt_0_compat; lra). lra.
  - apply Qmult_le_0_compat; lra.
Qed.
Lemma aff_neg : forall g0 g1 t, 0 <= t <= 1 -> g0 <= 0 -> g1 <= 0 -> (1 - t) * g0 + t * g1 <= 0.
Proof. intros g0 g1 t Ht H0 H1. assert (0 <= (1 - t) * - g0) by (apply Qmult_le_0_compat; lra). assert (0 <= t * - g1) by (apply Qmult_le_0_compat; lra). lra. Qed.
Lemma aff_root : forall f0 f1 u, (1 - u) * f0 + u * f1 == 0 -> 0 <= u <= 1 -> 0 <= f0 -> 0 < f1 -> u == 0 /\ f0 == 0.
Proof.
  intros f0 f1 u Z Hu H0 H1. assert (0 <= (1 - u) * f0) by (apply Qmult_le_0_compat; lra). assert (0 <= u * f1) by (apply Qmult_le_0_compat; lra).
  assert (K : u * f1 == 0) by lra. apply Qmult_integral in K. destruct K as [K|K]; [|lra]. split; [exact K|]. rewrite K in Z. lra.
Qed.

Section Points.
Variables lo hi O A B : pt.
Hypothesis Turn : 0 < cross lo hi.
Let f0 := cross lo (vsub A O).
Let f1 := cross lo (vsub B O).
Let g0 := cross hi (vsub A O).
Let g1 := cross hi (vsub B O).
Definition part_is (x0 x1 : pt) : Prop :=
  exists u v, (0 <= u <= 1 /\ 0 <= v <= 1) /\ x0 =p= lerp A B u /\ x1 =p= lerp A B v /\
    forall t, 0 <= t <= 1 -> ((0 <= (1 - t) * f0 + t * f1 /\ (1 - t) * g0 + t * g1 <= 0) <-> (u <= t <= v \/ v <= t <= u)).

Lemma part_ok : forall x0 x1, part_is x0 x1 -> is_segment_set (both (on_segment A B) (in_range O lo hi)) x0 x1.
Proof.
  intros x0 x1 (u & v & [Hu Hv] & E0 & E1 & H) Z. rewrite (lerp_part A B u v x0 x1 Z E0 E1). unfold both. split.
  - intros [(t & Ht & E) R]. apply in_range_iff in R; [|exact Turn]. rewrite !(cross_pteq _ _ _ _ E), !cross_lerp in R. exists t. split; [|exact E]. apply H; assumption.
  - intros (t & Ht & E). assert (Ht' : 0 <= t <= 1) by lra. split; [exists t; split; assumption|]. apply in_range_iff; [exact Turn|]. rewrite !(cross_pteq _ _ _ _ E), !cross_lerp. apply H; assumption.
Qed.

Lemma part_from : forall k u0 x0 x1 a b, 0 <= k <= 1 -> 0 <= u0 <= 1 -> x0 =p= lerp A B a -> x1 =p= lerp A B b -> (a == u0 /\ b == k \/ a == k /\ b == u0) ->
  (forall t, 0 <= t <= 1 -> ((0 <= (1 - t) * f0 + t * f1 /\ (1 - t) * g0 + t * g1 <= 0) <-> (k <= t <= u0 \/ u0 <= t <= k))) -> part_is x0 x1.
Proof.
  intros k u0 x0 x1 a b Hk Hu E0 E1 Hab H. exists a, b. split; [split; lra|]. split; [exact E0|]. split; [exact E1|]. intros t Ht. rewrite (H t Ht). split; intros [X|X]; destruct Hab as [[Y1 Y2]|[Y1 Y2]]; try (left; lra); right; lra.
Qed.

Lemma one_in_ok : forall (st : bool) x0 x1, (if st then 0 <= f0 /\ g0 <= 0 else 0 <= f1 /\ g1 <= 0) ->
  (if st then (f1 < 0 /\ g1 < 0 \/ 0 < f1 /\ 0 < g1) else (f0 < 0 /\ g0 < 0 \/ 0 < f0 /\ 0 < g0)) ->
  range_one_in direct A B lo hi O st = Some (Some (x0, x1)) -> part_is x0 x1.
Proof.
  intros st x0 x1 HI HO R. unfold range_one_in in R. pose proof (line_param O lo A B) as L. pose proof (line_param O hi A B) as H. cbv zeta in L, H. fold f0 f1 in L. fold g0 g1 in H.
  assert (EA : A =p= lerp A B 0) by (apply lerp_0 || apply pteq_sym, lerp_0). assert (EB : B =p= lerp A B 1) by (apply lerp_1 || apply pteq_sym, lerp_1).
  set (k := if st then 0 else 1). set (inner := if st then A else B) in *. assert (EI : inner =p= lerp A B k) by (destruct st; assumption). assert (Hk : 0 <= k <= 1) by (destruct st; unfold k; lra).
  assert (Flip : forall a b u, (1 - u) * a + u * b == 0 -> (1 - (1 - u)) * b + (1 - u) * a == 0) by (intros; lra).
  set (rng := fun t => 0 <= (1 - t) * f0 + t * f1 /\ (1 - t) * g0 + t * g1 <= 0).
  destruct (line_segment_intersect direct O (vadd O lo) A B) as [[lt xl]|]; [|contradiction].
  assert (Which : (if st then f1 < 0 /\ g1 < 0 else f0 < 0 /\ g0 < 0) \/ (if st then 0 < f1 /\ 0 < g1 else 0 < f0 /\ 0 < g0)) by (destruct st; exact HO). clear HO.
  destruct Which as [HO|HO].
  - (* beyond the lower ray *)
    assert (Pt : forall u, 0 <= u <= 1 -> (1 - u) * f0 + u * f1 == 0 -> forall t, 0 <= t <= 1 -> (rng t <-> (k <= t <= u \/ u <= t <= k))).
    { intros u Hu Z t Ht. assert (G : (1 - t) * g0 + t * g1 <= 0) by (apply aff_neg; destruct st; lra). unfold rng, k. destruct st.
      - rewrite (aff_down f0 f1 u t Z) by lra. lra.
      - rewrite (aff_up f0 f1 u t Z) by lra. lra. }
    assert (Gk : forall v, 0 <= v <= 1 -> (1 - v) * g0 + v * g1 == 0 -> v == k).
    { intros v Hv Z. unfold k. destruct st.
      - destruct (aff_root (- g0) (- g1) v); lra.
      - apply Flip in Z. destruct (aff_root (- g1) (- g0) (1 - v)); lra. }
    assert (Ex : exists u, 0 <= u <= 1 /\ (1 - u) * f0 + u * f1 == 0).
    { assert (N : ~ f0 - f1 == 0) by (destruct st; lra). assert (Q : f0 / (f0 - f1) * (f0 - f1) == f0) by (field; exact N). exists (f0 / (f0 - f1)). revert Q. generalize (f0 / (f0 - f1)). intros u Q. split; [|lra].
      destruct st.
      - split; [apply (proj1 (aff_down f0 f1 u 0 ltac:(lra) ltac:(lra))); lra|]. destruct (Qlt_le_dec 1 u) as [M|M]; [|exact M]. assert (0 <= (1 - 1) * f0 + 1 * f1) by (apply (proj2 (aff_down f0 f1 u 1 ltac:(lra) ltac:(lra))); lra). lra.
      - split; [|apply (proj1 (aff_up f0 f1 u 1 ltac:(lra) ltac:(lra))); lra]. destruct (Qlt_le_dec u 0) as [M|M]; [|exact M]. assert (0 <= (1 - 0) * f0 + 0 * f1) by (apply (proj2 (aff_up f0 f1 u 0 ltac:(lra) ltac:(lra))); lra). lra. }
    destruct lt; try contradiction.
    + exfalso. destruct L as [_ L]. destruct Ex as (u & Hu & Z). exact (L u Hu Z).
    + destruct xl as [xl|]; [|contradiction]. destruct L as (u & Hu & Eu & Z). injection R as <- <-. apply (part_from k u xl inner u k); try assumption; try lra. apply Pt; [lra|exact Z].
    + exfalso. destruct st; lra.
    + destruct xl as [xl|]; [|contradiction]. destruct L as (u & Hu & Eu & Z). assert (Uk : u == k). { unfold k. destruct Hu as [Hu|Hu]; rewrite Hu in Z; destruct st; lra. }
      destruct (line_segment_intersect direct O (vadd O hi) A B) as [[ht xh]|]; [|contradiction].
      destruct ht; cbn in R; try discriminate; try contradiction.
      * destruct xh as [xh|]; [|contradiction]. destruct H as (v & Hv & Ev & Zv). apply Gk in Zv; [|lra]. exfalso. unfold k in Zv; destruct st; lra.
      * exfalso. destruct st; lra.
      * destruct xh as [xh|]; [|contradiction]. destruct H as (v & Hv & Ev & Zv). apply Gk in Zv; [|lra]. injection R as <- <-. apply (part_from k u xl xh u v); try assumption; try lra. apply Pt; [lra|exact Z].
  - (* beyond the upper ray *)
    assert (Pt : forall v, 0 <= v <= 1 -> (1 - v) * g0 + v * g1 == 0 -> forall t, 0 <= t <= 1 -> (rng t <-> (k <= t <= v \/ v <= t <= k))).
    { intros v Hv Z t Ht. assert (G : (1 - t) * - f0 + t * - f1 <= 0) by (apply aff_neg; destruct st; lra).
      assert (Z' : (1 - v) * - g0 + v * - g1 == 0) by lra. assert (W : (1 - t) * g0 + t * g1 <= 0 <-> 0 <= (1 - t) * - g0 + t * - g1) by (split; intro; lra).
      unfold rng, k. rewrite W. destruct st.
      - rewrite (aff_down (- g0) (- g1) v t Z') by lra. lra.
      - rewrite (aff_up (- g0) (- g1) v t Z') by lra. lra. }
    assert (Fk : forall u, 0 <= u <= 1 -> (1 - u) * f0 + u * f1 == 0 -> u == k).
    { intros u Hu Z. unfold k. destruct st.
      - destruct (aff_root f0 f1 u); lra.
      - apply Flip in Z. destruct (aff_root f1 f0 (1 - u)); lra. }
    destruct lt; try contradiction.
    + destruct L as [-> _]. destruct (line_segment_intersect direct O (vadd O hi) A B) as [[ht xh]|]; [|contradiction].
      destruct ht; cbn in R; try discriminate; try contradiction.
      * destruct xh as [xh|]; [|contradiction]. destruct H as (v & Hv & Ev & Zv). injection R as <- <-. apply (part_from k v inner xh k v); try assumption; try lra. apply Pt; [lra|exact Zv].
      * exfalso. destruct st; lra.
      * destruct xh as [xh|]; [|contradiction]. destruct H as (v & Hv & Ev & Zv). injection R as <- <-. apply (part_from k v inner xh k v); try assumption; try lra. apply Pt; [lra|exact Zv].
    + destruct xl as [xl|]; [|contradiction]. exfalso. destruct L as (u & Hu & Eu & Z). apply Fk in Z; [|lra]. unfold k in Z; destruct st; lra.
    + exfalso. destruct st; lra.
    + destruct xl as [xl|]; [|contradiction]. destruct L as (u & Hu & Eu & Z). apply Fk in Z; [|lra].
      destruct (line_segment_intersect direct O (vadd O hi) A B) as [[ht xh]|]; [|contradiction].
      destruct ht; cbn in R; try discriminate; try contradiction.
      * destruct xh as [xh|]; [|contradiction]. destruct H as (v & Hv & Ev & Zv). injection R as <- <-. apply (part_from k v xl xh u v); try assumption; try lra. apply Pt; [lra|exact Zv].
      * exfalso. destruct st; lra.
      * destruct xh as [xh|]; [|contradiction]. destruct H as (v & Hv & Ev & Zv). injection R as <- <-. apply (part_from k v xl xh u v); try assumption; try lra. apply Pt; [lra|exact Zv].
Qed.

Lemma opposite_iff : forall X, in_range O (vneg lo) (vneg hi) X <-> cross lo (vsub X O) <= 0 /\ 0 <= cross hi (vsub X O).
Proof.
  intro X. assert (T : 0 < cross (vneg lo) (vneg hi)) by (assert (E : cross (vneg lo) (vneg hi) == cross lo hi) by (unfold cross, vneg; simpl; ring); lra).
  rewrite (in_range_iff (vneg lo) (vneg hi) O T X).
  assert (E1 : cross (vneg lo) (vsub X O) == - cross lo (vsub X O)) by (unfold cross, vneg; simpl; ring). assert (E2 : cross (vneg hi) (vsub X O) == - cross hi (vsub X O)) by (unfold cross, vneg; simpl; ring). rewrite E1, E2. lra.
Qed.

(** Both ends outside, both rays touched. *)
Lemma both_out_ok : forall n1 n2 ty1 ot1 xl l1 ty2 ot2 xh l2, 0 < n1 -> 0 < n2 ->
  ~ (0 <= f0 /\ g0 <= 0) -> ~ (0 <= f1 /\ g1 <= 0) -> (0 <= g0 /\ f1 < 0 \/ 0 <= g1 /\ f0 < 0) ->
  ray_segment_intersection direct O (vscale (1 / n1) lo) A B = Some (ty1, ot1, xl :: l1) -> is_touching ty1 = true ->
  ray_segment_intersection direct O (vscale (1 / n2) hi) A B = Some (ty2, ot2, xh :: l2) -> is_touching ty2 = true -> part_is xl xh.
Proof.
  intros n1 n2 ty1 ot1 xl l1 ty2 ot2 xh l2 H1 H2 OA OB Gd R1 T1 R2 T2.
  destruct (ray_first _ _ _ _ _ _ _ _ R1 T1) as (u & Hu & Eu & Ou). destruct (ray_first _ _ _ _ _ _ _ _ R2 T2) as (v & Hv & Ev & Ov).
  apply (ray_lo lo hi O Turn n1 xl H1) in Ou. apply (ray_hi lo hi O Turn n2 xh H2) in Ov. rewrite !(cross_pteq _ _ _ _ Eu), !cross_lerp in Ou. rewrite !(cross_pteq _ _ _ _ Ev), !cross_lerp in Ov. fold f0 f1 g0 g1 in Ou, Ov.
  destruct Ou as [Zu Gu], Ov as [Zv Fv].
  assert (W : forall t, (1 - t) * g0 + t * g1 <= 0 <-> 0 <= (1 - t) * - g0 + t * - g1) by (intro; split; intro; lra). assert (Zv' : (1 - v) * - g0 + v * - g1 == 0) by lra.
  exists u, v. split; [split; assumption|]. split; [exact Eu|]. split; [exact Ev|]. intros t Ht. rewrite W.
  destruct Gd as [[Gd1 Gd2]|[Gd1 Gd2]].
  - (* from above to below *)
    assert (F0 : 0 <= f0). { destruct (Qlt_le_dec f0 0) as [M|M]; [exfalso|exact M]. assert (0 <= (1 - u) * - f0) by (apply Qmult_le_0_compat; lra). assert (0 <= u * - f1) by (apply Qmult_le_0_compat; lra).
      destruct (Qlt_le_dec u 1) as [N|N]; [assert (0 < (1 - u) * - f0) by (apply Qmult_lt_0_compat; lra); lra|]. assert (X : u == 1) by lra. rewrite X in Zu. lra. }
    assert (G0 : 0 < g0) by (destruct (Qlt_le_dec 0 g0); [assumption|exfalso; apply OA; lra]).
    assert (G1 : g1 < g0). { destruct (Qlt_le_dec g1 g0) as [M|M]; [exact M|exfalso]. assert (0 <= v * (g1 - g0)) by (apply Qmult_le_0_compat; lra). lra. }
    rewrite (aff_down f0 f1 u t Zu) by lra. rewrite (aff_up (- g0) (- g1) v t Zv') by lra.
    apply (proj1 (aff_down f0 f1 u v Zu ltac:(lra))) in Fv. lra.
  - assert (F1 : 0 <= f1). { destruct (Qlt_le_dec f1 0) as [M|M]; [exfalso|exact M]. assert (0 <= (1 - u) * - f0) by (apply Qmult_le_0_compat; lra). assert (0 <= u * - f1) by (apply Qmult_le_0_compat; lra).
      destruct (Qlt_le_dec u 1) as [N|N]; [assert (0 < (1 - u) * - f0) by (apply Qmult_lt_0_compat; lra); lra|]. assert (X : u == 1) by lra. rewrite X in Zu. lra. }
    assert (G1 : 0 < g1) by (destruct (Qlt_le_dec 0 g1); [assumption|exfalso; apply OB; lra]).
    assert (G0 : g0 < g1). { destruct (Qlt_le_dec g0 g1) as [M|M]; [exact M|exfalso]. assert (0 <= (1 - v) * (g0 - g1)) by (apply Qmult_le_0_compat; lra). lra. }
    rewrite (aff_up f0 f1 u t Zu) by lra. rewrite (aff_down (- g0) (- g1) v t Zv') by lra.
    apply (proj1 (aff_up f0 f1 u v Zu ltac:(lra))) in Fv. lra.
Qed.

Lemma points_exact : forall n1 n2 x0 x1, 0 < n1 -> 0 < n2 -> nonzero (vsub B A) -> ~ (behind O hi A /\ behind O lo B) -> ~ (behind O lo A /\ behind O hi B) ->
  (in_range O lo hi A -> in_range O (vneg lo) (vneg hi) B -> B =p= O) -> (in_range O lo hi B -> in_range O (vneg lo) (vneg hi) A -> A =p= O) ->
  is_segment_in_range_2d_points direct n1 n2 A B lo hi O = Some (Some (x0, x1)) -> is_segment_set (both (on_segment A B) (in_range O lo hi)) x0 x1.
Proof.
  intros n1 n2 x0 x1 H1 H2 N NB1 NB2 PB PA R. apply part_ok.
  assert (Op : forall X, X =p= O -> cross lo (vsub X O) == 0 /\ cross hi (vsub X O) == 0) by (intros X [e1 e2]; unfold cross, vsub; simpl; rewrite e1, e2; split; ring).
  assert (PB' : 0 <= f0 -> g0 <= 0 -> ~ (0 <= f1 /\ g1 <= 0) -> (f1 < 0 /\ g1 < 0 \/ 0 < f1 /\ 0 < g1)).
  { intros a1 a2 OB. destruct (Qlt_le_dec 0 f1) as [X|X]; [right; split; [exact X|destruct (Qlt_le_dec 0 g1); [assumption|exfalso; apply OB; lra]]|]. destruct (Qlt_le_dec g1 0) as [Y|Y].
    - left. split; [|exact Y]. destruct (Qlt_le_dec f1 0); [assumption|exfalso; apply OB; lra].
    - exfalso. destruct (Op B) as [e1 e2]; [apply PB; [apply in_range_iff; [exact Turn|split; assumption]|apply opposite_iff; split; assumption]|]. apply OB. unfold f1, g1. lra. }
  assert (PA' : 0 <= f1 -> g1 <= 0 -> ~ (0 <= f0 /\ g0 <= 0) -> (f0 < 0 /\ g0 < 0 \/ 0 < f0 /\ 0 < g0)).
  { intros a1 a2 OB. destruct (Qlt_le_dec 0 f0) as [X|X]; [right; split; [exact X|destruct (Qlt_le_dec 0 g0); [assumption|exfalso; apply OB; lra]]|]. destruct (Qlt_le_dec g0 0) as [Y|Y].
    - left. split; [|exact Y]. destruct (Qlt_le_dec f0 0); [assumption|exfalso; apply OB; lra].
    - exfalso. destruct (Op A) as [e1 e2]; [apply PA; [apply in_range_iff; [exact Turn|split; assumption]|apply opposite_iff; split; assumption]|]. apply OB. unfold f0, g0. lra. }
  assert (NL : nonzero (vscale (1 / n1) lo)).
  { assert (0 < 1 / n1) by (apply Qlt_shift_div_l; lra). unfold nonzero, vscale; simpl. intros [Z1 Z2]. apply Qmult_integral in Z1, Z2. destruct Z1 as [Z1|Z1]; [lra|]. destruct Z2 as [Z2|Z2]; [lra|]. unfold cross in Turn. rewrite Z1, Z2 in Turn. lra. }
  assert (NH : nonzero (vscale (1 / n2) hi)).
  { assert (0 < 1 / n2) by (apply Qlt_shift_div_l; lra). unfold nonzero, vscale; simpl. intros [Z1 Z2]. apply Qmult_integral in Z1, Z2. destruct Z1 as [Z1|Z1]; [lra|]. destruct Z2 as [Z2|Z2]; [lra|]. unfold cross in Turn. rewrite Z1, Z2 in Turn. lra. }
  unfold is_segment_in_range_2d_points in R. cbv zeta in R. rewrite (behind_hi lo hi O Turn), (behind_lo lo hi O Turn) in NB1. rewrite (behind_hi lo hi O Turn), (behind_lo lo hi O Turn) in NB2. fold f0 f1 g0 g1 in R, NB1, NB2.
  assert (EA : A =p= lerp A B 0) by (apply lerp_0 || apply pteq_sym, lerp_0). assert (EB : B =p= lerp A B 1) by (apply lerp_1 || apply pteq_sym, lerp_1).
  assert (SA : (Qgeb f0 0 && Qleb g0 0 = true) <-> 0 <= f0 /\ g0 <= 0). { destruct (Qgeb_spec f0 0), (Qleb_spec g0 0); cbn; split; intro; try discriminate; try tauto; lra. }
  assert (SB : (Qgeb f1 0 && Qleb g1 0 = true) <-> 0 <= f1 /\ g1 <= 0). { destruct (Qgeb_spec f1 0), (Qleb_spec g1 0); cbn; split; intro; try discriminate; try tauto; lra. }
  destruct (Qgeb f0 0 && Qleb g0 0) eqn:XA, (Qgeb f1 0 && Qleb g1 0) eqn:XB; cbn [andb negb Bool.eqb] in R.
  - injection R as <- <-. pose proof (proj1 SA eq_refl) as [a1 a2]. pose proof (proj1 SB eq_refl) as [b1 b2]. exists 0, 1. split; [split; lra|]. split; [exact EA|]. split; [exact EB|]. intros t Ht. split; [intros _; left; exact Ht|]. intros _.
    assert (X : (1 - t) * - f0 + t * - f1 <= 0) by (apply aff_neg; lra). split; [lra|apply aff_neg; lra].
  - pose proof (proj1 SA eq_refl) as [a1 a2]. apply (one_in_ok true); [split; assumption| |exact R]. apply PB'; try assumption. intro X. apply SB in X. discriminate.
  - pose proof (proj1 SB eq_refl) as [b1 b2]. apply (one_in_ok false); [split; assumption| |exact R]. apply PA'; try assumption. intro X. apply SA in X. discriminate.
  - assert (OA : ~ (0 <= f0 /\ g0 <= 0)) by (intro X; apply SA in X; discriminate). assert (OB : ~ (0 <= f1 /\ g1 <= 0)) by (intro X; apply SB in X; discriminate).
    match type of R with (if ?c then _ else _) = _ => destruct c eqn:Gd end.
    + assert (Gd' : 0 <= g0 /\ f1 < 0 \/ 0 <= g1 /\ f0 < 0).
      { apply orb_true_iff in Gd. destruct Gd as [Gd|Gd]; repeat (apply andb_true_iff in Gd; destruct Gd as [Gd ?]); [left|right].
        - destruct (Qgeb_spec g0 0); [|discriminate]. destruct (Qltb_spec f1 0); [|discriminate]. lra.
        - destruct (Qgeb_spec g1 0); [|discriminate]. destruct (Qltb_spec f0 0); [|discriminate]. lra. }
      destruct (ray_segment_intersection direct O (vscale (1 / n1) lo) A B) as [[[t1 o1] p1]|] eqn:R1; [|discriminate].
      destruct (ray_segment_intersection direct O (vscale (1 / n2) hi) A B) as [[[t2 o2] p2]|] eqn:R2; [|discriminate].
      destruct (is_touching t1 && is_touching t2) eqn:Tt.
      * apply andb_true_iff in Tt as [Tt1 Tt2]. destruct p1 as [|xl l1]; [discriminate|]. destruct p2 as [|xh l2]; [discriminate|]. injection R as <- <-.
        exact (both_out_ok n1 n2 t1 o1 xl l1 t2 o2 xh l2 H1 H2 OA OB Gd' R1 Tt1 R2 Tt2).
      * exfalso. destruct (is_overlap t1 || is_overlap t2) eqn:Ov; [|discriminate]. apply orb_true_iff in Ov.
        assert (Lt : forall a b t, 0 <= t <= 1 -> a < 0 -> b < 0 -> (1 - t) * a + t * b < 0).
        { intros a b t Ht La Lb. destruct (Qlt_le_dec 0 t) as [M|M].
          - assert (0 <= (1 - t) * - a) by (apply Qmult_le_0_compat; lra). assert (0 < t * - b) by (apply Qmult_lt_0_compat; lra). lra.
          - assert (X : t == 0) by lra. rewrite X. lra. }
        destruct Ov as [Ov|Ov].
        -- assert (NC : t1 <> e_non_crossing) by (intro X; rewrite X in Ov; discriminate). destruct (ray_points_ok _ _ _ _ _ _ _ NL N R1 NC) as (s & Hs & (t & Ht & Et)).
           pose proof (ray_overlap _ _ _ _ _ _ _ R1 Ov) as Z. assert (E : cross (vscale (1 / n1) lo) (vsub B A) == (1 / n1) * (f1 - f0)) by (unfold f0, f1, cross, vscale, vsub; simpl; ring).
           rewrite E in Z. assert (P1 : 0 < 1 / n1) by (apply Qlt_shift_div_l; lra). apply Qmult_integral in Z. destruct Z as [Z|Z]; [lra|].
           assert (OR : on_ray O (vscale (1 / n1) lo) (vadd O (vscale s (vscale (1 / n1) lo)))) by (exists s; split; [exact Hs|apply pteq_refl]).
           apply (ray_lo lo hi O Turn n1 _ H1) in OR. rewrite !(cross_pteq _ _ _ _ Et), !cross_lerp in OR. fold f0 f1 g0 g1 in OR. destruct OR as [OR _].
           pose proof (Lt f0 f1 t Ht ltac:(lra) ltac:(lra)). lra.
        -- assert (NC : t2 <> e_non_crossing) by (intro X; rewrite X in Ov; discriminate). destruct (ray_points_ok _ _ _ _ _ _ _ NH N R2 NC) as (s & Hs & (t & Ht & Et)).
           pose proof (ray_overlap _ _ _ _ _ _ _ R2 Ov) as Z. assert (E : cross (vscale (1 / n2) hi) (vsub B A) == (1 / n2) * (g1 - g0)) by (unfold g0, g1, cross, vscale, vsub; simpl; ring).
           rewrite E in Z. assert (P1 : 0 < 1 / n2) by (apply Qlt_shift_div_l; lra). apply Qmult_integral in Z. destruct Z as [Z|Z]; [lra|].
           assert (OR : on_ray O (vscale (1 / n2) hi) (vadd O (vscale s (vscale (1 / n2) hi)))) by (exists s; split; [exact Hs|apply pteq_refl]).
           apply (ray_hi lo hi O Turn n2 _ H2) in OR. rewrite !(cross_pteq _ _ _ _ Et), !cross_lerp in OR. fold f0 f1 g0 g1 in OR. destruct OR as [OR1 OR2].
           assert (G1 : g1 == g0) by lra. rewrite G1 in OR1. assert (G0 : g0 == 0) by lra.
           assert (L0 : f0 < 0) by (destruct (Qlt_le_dec f0 0); [assumption|exfalso; apply OA; lra]). assert (L1 : f1 < 0) by (destruct (Qlt_le_dec f1 0); [assumption|exfalso; apply OB; lra]).
           pose proof (Lt f0 f1 t Ht L0 L1). lra.
    + exfalso. clear Gd. revert R. destruct (Qeqb_spec g0 0) as [c1|c1]; destruct (Qeqb_spec f1 0) as [c2|c2]; cbn [andb orb].
      1: { destruct (Qlt_le_dec f0 0) as [u1|u1]; [|exfalso; apply OA; lra]. destruct (Qlt_le_dec 0 g1) as [u2|u2]; [|exfalso; apply OB; lra]. exfalso. apply NB1. repeat split; lra. }
      all: destruct (Qeqb_spec g1 0) as [c3|c3]; destruct (Qeqb_spec f0 0) as [c4|c4]; cbn [andb orb]; try discriminate.
      all: destruct (Qlt_le_dec f1 0) as [u1|u1]; [|exfalso; apply OB; lra]; destruct (Qlt_le_dec 0 g0) as [u2|u2]; [|exfalso; apply OA; lra]; exfalso; apply NB2; repeat split; lra.
Qed.
End Points.

Lemma ray_defined : forall O v A B, exists ty ot pts, ray_segment_intersection direct O v A B = Some (ty, ot, pts) /\ (is_touching ty = true -> pts <> []).
Proof.
  intros O v A B. unfold ray_segment_intersection; simpl equals; simpl less_than; simpl greater_than.
  destruct (Qeqb_spec (dot (vsub B A) (left_normal v)) 0) as [E|E].
  - destruct (get_orientation direct A B O); [do 3 eexists; split; [reflexivity|discriminate]| |do 3 eexists; split; [reflexivity|discriminate]].
    destruct (Qltb (dot (vneg (vsub O A)) v) 0), (Qltb (dot (vsub B O) v) 0); try (do 3 eexists; split; [reflexivity|discriminate]).
    destruct (Qltb (dot (vneg (vsub O A)) v) (dot (vsub B O) v)); do 3 eexists; (split; [reflexivity|discriminate]).
  - rewrite !qdiv_opt_some by exact E. destruct (Qltb _ 0); [do 3 eexists; split; [reflexivity|discriminate]|]. destruct (Qltb _ 0 || Qgtb _ 1); do 3 eexists; (split; [reflexivity|discriminate]).
Qed.
Lemma points_defined : forall n1 n2 A B lo hi O, is_segment_in_range_2d_points direct n1 n2 A B lo hi O <> None.
Proof.
  intros n1 n2 A B lo hi O. unfold is_segment_in_range_2d_points. cbv zeta.
  match goal with |- (if ?c then _ else _) <> _ => destruct c; [discriminate|] end.
  match goal with |- (if ?c then _ else _) <> _ => destruct c end.
  - match goal with |- range_one_in _ _ _ _ _ _ ?st <> _ => generalize st; intro s0 end. unfold range_one_in. pose proof (line_param O lo A B) as L. pose proof (line_param O hi A B) as H. cbv zeta in L, H.
    destruct (line_segment_intersect direct O (vadd O lo) A B) as [[lt xl]|]; [|contradiction].
    destruct (line_segment_intersect direct O (vadd O hi) A B) as [[ht xh]|]; [|contradiction].
    destruct lt, xl as [xl|]; try contradiction; try discriminate; destruct ht, xh as [xh|]; try contradiction; cbn; discriminate.
  - match goal with |- (if ?c then _ else _) <> _ => destruct c end.
    + destruct (ray_defined O (vscale (1 / n1) lo) A B) as (t1 & o1 & p1 & -> & P1). destruct (ray_defined O (vscale (1 / n2) hi) A B) as (t2 & o2 & p2 & -> & P2).
      destruct (is_touching t1) eqn:T1, (is_touching t2) eqn:T2; cbn [andb].
      1: { destruct p1; [exfalso; apply P1; reflexivity|]. destruct p2; [exfalso; apply P2; reflexivity|]. discriminate. }
      all: destruct (is_overlap t1 || is_overlap t2); discriminate.
    + match goal with |- (if ?c then _ else _) <> _ => destruct c; discriminate end.
Qed.
