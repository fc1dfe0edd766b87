From Coq Require Import Setoid.
From Verif Require Import Base CmpModel DistSpec PlanarModel PlanarProof CongrModel CongrSpec.

Lemma sides_match_true : forall cmp a b idx, sides_match cmp a b idx = Some true <-> forall i j, In (i, j) idx -> side_matches cmp a b i j = Some true.
Proof.
  intros cmp a b. induction idx as [|(i & j) idx IH]; cbn [sides_match].
  - split; [intros _ ? ? []|reflexivity].
  - destruct (side_matches cmp a b i j) as [[|]|] eqn:E.
    + rewrite IH. split; [intros H i' j' [EQ|I]; [injection EQ as <- <-; exact E|apply H, I]|intros H i' j' I; apply H; right; exact I].
    + split; [discriminate|]. intro H. rewrite (H i j (or_introl eq_refl)) in E. discriminate.
    + split; [discriminate|]. intro H. rewrite (H i j (or_introl eq_refl)) in E. discriminate.
Qed.
Lemma sides_match_def : forall cmp a b idx, length a = length b -> (forall i j, In (i, j) idx -> (i < length a)%nat /\ (j < length a)%nat) ->
  exists r, sides_match cmp a b idx = Some r.
Proof.
  intros cmp a b idx L. induction idx as [|(i & j) idx IH]; intro H; cbn [sides_match]; [eauto|].
  destruct (H i j (or_introl eq_refl)) as [Hi Hj]. assert (exists r, side_matches cmp a b i j = Some r) as [r ->].
  { unfold side_matches. assert (N : forall l k, (k < length l)%nat -> exists x : pt, nth_error l k = Some x).
    { intros l k K. destruct (nth_error l k) eqn:E; [eauto|]. apply nth_error_None in E. lia. }
    destruct (N a i Hi) as [? ->]. destruct (N a j Hj) as [? ->]. destruct (N b i ltac:(lia)) as [? ->]. destruct (N b j ltac:(lia)) as [? ->].
    destruct (negb _); [eauto|]. destruct i as [|h]; [eauto|]. destruct (N a h ltac:(lia)) as [? ->]. destruct (N b h ltac:(lia)) as [? ->]. eauto. }
  destruct r; [apply IH; intros; apply H; right; assumption|eauto].
Qed.

Lemma move_sub : forall m p q p' q', is_rigid m -> p' =p= move m p -> q' =p= move m q ->
  px (vsub q' p') == m_cos m * px (vsub q p) - m_sin m * py (vsub q p) /\ py (vsub q' p') == m_sin m * px (vsub q p) + m_cos m * py (vsub q p).
Proof. intros [c s [tx ty]] [? ?] [? ?] [? ?] [? ?] _ [P1 P2] [Q1 Q2]. cbn in *. rewrite P1, P2, Q1, Q2. split; ring. Qed.
Lemma rot_dot : forall c s u v u' v', c * c + s * s == 1 ->
  px u' == c * px u - s * py u -> py u' == s * px u + c * py u -> px v' == c * px v - s * py v -> py v' == s * px v + c * py v ->
  dot u' v' == dot u v /\ cross u' v' == cross u v.
Proof.
  intros c s [u1 u2] [v1 v2] [u1' u2'] [v1' v2'] R U1 U2 V1 V2. unfold dot, cross. cbn in *. rewrite U1, U2, V1, V2. split.
  - transitivity ((c * c + s * s) * (u1 * v1 + u2 * v2)); [ring|rewrite R; ring].
  - transitivity ((c * c + s * s) * (u1 * v2 - u2 * v1)); [ring|rewrite R; ring].
Qed.
Lemma rigid_side : forall ps qs m i j, is_rigid m -> Forall2 (fun p q => q =p= move m p) ps qs -> (i < length ps)%nat -> (j < length ps)%nat ->
  side_matches direct ps qs i j = Some true.
Proof.
  intros ps qs m i j R F Hi Hj.
  assert (N : forall k, (k < length ps)%nat -> exists p q, nth_error ps k = Some p /\ nth_error qs k = Some q /\ q =p= move m p).
  { clear Hi Hj i j. induction F as [|p q ps qs E F IH]; intros k K; cbn in K; [lia|]. destruct k; [exists p, q; auto|]. apply (IH k). lia. }
  unfold side_matches. destruct (N i Hi) as (pi & qi & -> & -> & Ei). destruct (N j Hj) as (pj & qj & -> & -> & Ej).
  destruct (move_sub m pi pj qi qj R Ei Ej) as [S1 S2]. 
  destruct (rot_dot _ _ _ _ _ _ R S1 S2 S1 S2) as [D _]. cbn [equals direct]. unfold dist2_of. destruct (Qeqb_spec (dot (vsub pj pi) (vsub pj pi)) (dot (vsub qj qi) (vsub qj qi))) as [|NE]; [|exfalso; apply NE; symmetry; exact D]. cbn [negb].
  destruct i as [|h]; [reflexivity|]. destruct (N h ltac:(lia)) as (ph & qh & -> & -> & Eh).
  destruct (move_sub m pi ph qi qh R Ei Eh) as [T1 T2]. destruct (rot_dot _ _ _ _ _ _ R T1 T2 S1 S2) as [D1 D2].
  destruct (Qeqb_spec (dot (vsub ph pi) (vsub pj pi)) (dot (vsub qh qi) (vsub qj qi))) as [|NE]; [|exfalso; apply NE; symmetry; exact D1].
  destruct (Qeqb_spec (cross (vsub ph pi) (vsub pj pi)) (cross (vsub qh qi) (vsub qj qi))) as [|NE]; [|exfalso; apply NE; symmetry; exact D2]. reflexivity.
Qed.

(** From equal lengths and equal products at the corners to one rotation. *)
Lemma side_true : forall ps qs i pi pj qi qj, side_matches direct ps qs i (S i) = Some true ->
  nth_error ps i = Some pi -> nth_error ps (S i) = Some pj -> nth_error qs i = Some qi -> nth_error qs (S i) = Some qj ->
  dot (vsub pj pi) (vsub pj pi) == dot (vsub qj qi) (vsub qj qi) /\
  (forall h ph qh, i = S h -> nth_error ps h = Some ph -> nth_error qs h = Some qh ->
     dot (vsub ph pi) (vsub pj pi) == dot (vsub qh qi) (vsub qj qi) /\ cross (vsub ph pi) (vsub pj pi) == cross (vsub qh qi) (vsub qj qi)).
Proof.
  intros ps qs i pi pj qi qj H A B C D. unfold side_matches in H. rewrite A, B, C, D in H. cbn [equals direct] in H. unfold dist2_of in H.
  destruct (Qeqb_spec (dot (vsub pj pi) (vsub pj pi)) (dot (vsub qj qi) (vsub qj qi))); [|discriminate]. split; [assumption|]. cbn [negb] in H.
  intros h ph qh -> PH QH. rewrite PH, QH in H.
  destruct (Qeqb_spec (dot (vsub ph pi) (vsub pj pi)) (dot (vsub qh qi) (vsub qj qi))); [|discriminate].
  destruct (Qeqb_spec (cross (vsub ph pi) (vsub pj pi)) (cross (vsub qh qi) (vsub qj qi))); [|discriminate]. auto.
Qed.
Lemma nonzero_norm : forall A B, ~ A =p= B -> ~ dot (vsub B A) (vsub B A) == 0.
Proof. intros [x y] [x' y'] N Z. apply N. unfold dot, vsub in Z. cbn in *.
  pose proof (sq_nonneg (x' - x)). pose proof (sq_nonneg (y' - y)). assert (X : x' - x == 0) by (apply sq_zero; lra). assert (Y : y' - y == 0) by (apply sq_zero; lra). split; cbn; lra. Qed.
Lemma solve_rot : forall u1 u2 v1 v2 w1 w2 c s, ~ u1 * u1 + u2 * u2 == 0 -> c * c + s * s == 1 ->
  (* u' = R u; dot and cross of u', w' equal those of u, w *)
  (c * u1 - s * u2) * w1 + (s * u1 + c * u2) * w2 == u1 * v1 + u2 * v2 ->
  (c * u1 - s * u2) * w2 - (s * u1 + c * u2) * w1 == u1 * v2 - u2 * v1 ->
  w1 == c * v1 - s * v2 /\ w2 == s * v1 + c * v2.
Proof.
  intros u1 u2 v1 v2 w1 w2 c s NZ R D X.
  assert (K : forall x, (u1 * u1 + u2 * u2) * x == 0 -> x == 0). { intros x E. apply Qmult_integral in E as [E|E]; [contradiction|exact E]. }
  set (a := c * u1 - s * u2) in *. set (b := s * u1 + c * u2) in *.
  assert (N : a * a + b * b == u1 * u1 + u2 * u2). { unfold a, b. transitivity ((c * c + s * s) * (u1 * u1 + u2 * u2)); [ring|rewrite R; ring]. }
  assert (W1 : (u1 * u1 + u2 * u2) * w1 == a * (u1 * v1 + u2 * v2) - b * (u1 * v2 - u2 * v1)). { rewrite <- N, <- D, <- X. ring. }
  assert (W2 : (u1 * u1 + u2 * u2) * w2 == b * (u1 * v1 + u2 * v2) + a * (u1 * v2 - u2 * v1)). { rewrite <- N, <- D, <- X. ring. }
  split.
  - assert (E : (u1 * u1 + u2 * u2) * (w1 - (c * v1 - s * v2)) == 0). { transitivity ((u1 * u1 + u2 * u2) * w1 - (u1 * u1 + u2 * u2) * (c * v1 - s * v2)); [ring|]. rewrite W1. unfold a, b. ring. }
    apply K in E. lra.
  - assert (E : (u1 * u1 + u2 * u2) * (w2 - (s * v1 + c * v2)) == 0). { transitivity ((u1 * u1 + u2 * u2) * w2 - (u1 * u1 + u2 * u2) * (s * v1 + c * v2)); [ring|]. rewrite W2. unfold a, b. ring. }
    apply K in E. lra.
Qed.
Lemma first_rot : forall v w, ~ dot v v == 0 -> dot v v == dot w w ->
  exists c s, c * c + s * s == 1 /\ px w == c * px v - s * py v /\ py w == s * px v + c * py v.
Proof.
  intros [v1 v2] [w1 w2] NZ E. unfold dot in *. cbn in *.
  exists ((v1 * w1 + v2 * w2) / (v1 * v1 + v2 * v2)), ((v1 * w2 - v2 * w1) / (v1 * v1 + v2 * v2)). repeat split; cbn.
  - transitivity ((w1 * w1 + w2 * w2) / (v1 * v1 + v2 * v2)); [field; exact NZ|]. rewrite <- E. field. exact NZ.
  - field. exact NZ.
  - field. exact NZ.
Qed.
Lemma sides_rigid : forall ps qs, length ps = length qs -> no_repeats ps ->
  (forall i, (S i < length ps)%nat -> side_matches direct ps qs i (S i) = Some true) -> superposable ps qs.
Proof.
  intros ps qs L NR H.
  assert (N : forall (l : list pt) k, (k < length l)%nat -> exists x : pt, nth_error l k = Some x).
  { intros l k K. destruct (nth_error l k) eqn:E; [eauto|]. apply nth_error_None in E. lia. }
  assert (G : forall m, is_rigid m -> (forall k p q, nth_error ps k = Some p -> nth_error qs k = Some q -> q =p= move m p) -> superposable ps qs).
  { intros m R A. exists m. split; [exact R|]. clear H NR N. revert qs L A. induction ps as [|p ps IH]; intros [|q qs] L A; try discriminate; constructor.
    - apply (A O); reflexivity.
    - apply IH; [cbn in L; lia|]. intros k. apply (A (S k)). }
  destruct ps as [|p0 ps']; destruct qs as [|q0 qs']; try discriminate.
  { apply (G (mkmotion 1 0 (mkpt 0 0))); [unfold is_rigid; cbn; ring|]. intros [|k] p q; discriminate. }
  destruct ps' as [|p1 ps']; destruct qs' as [|q1 qs']; try discriminate.
  { apply (G (mkmotion 1 0 (vsub q0 p0))); [unfold is_rigid; cbn; ring|]. intros [|[|k]] p q A B; try discriminate. injection A as <-. injection B as <-. split; cbn; ring. }
  set (ps := p0 :: p1 :: ps') in *. set (qs := q0 :: q1 :: qs') in *.
  assert (D0 : ~ dot (vsub p1 p0) (vsub p1 p0) == 0). { apply nonzero_norm, (NR O). split; reflexivity. }
  destruct (side_true ps qs 0 p0 p1 q0 q1 (H O ltac:(cbn; lia)) eq_refl eq_refl eq_refl eq_refl) as [E0 _].
  destruct (first_rot _ _ D0 E0) as (c & s & R & X1 & X2).
  set (m := mkmotion c s (mkpt (px q0 - (c * px p0 - s * py p0)) (py q0 - (s * px p0 + c * py p0)))).
  apply (G m R).
  assert (ST : forall k, (S k < length ps)%nat -> exists pi pj qi qj, nth_error ps k = Some pi /\ nth_error ps (S k) = Some pj /\ nth_error qs k = Some qi /\ nth_error qs (S k) = Some qj /\
     px (vsub qj qi) == c * px (vsub pj pi) - s * py (vsub pj pi) /\ py (vsub qj qi) == s * px (vsub pj pi) + c * py (vsub pj pi)).
  { induction k as [|k IH]; intro K.
    - exists p0, p1, q0, q1. auto 10.
    - destruct (IH ltac:(lia)) as (ph & pi & qh & qi & PH & PI & QH & QI & Y1 & Y2).
      destruct (N ps (S (S k)) K) as [pj PJ]. destruct (N qs (S (S k)) ltac:(lia)) as [qj QJ].
      exists pi, pj, qi, qj. do 4 (split; [assumption|]).
      destruct (side_true ps qs (S k) pi pj qi qj (H (S k) K) PI PJ QI QJ) as [_ T]. destruct (T k ph qh eq_refl PH QH) as [T1 T2].
      assert (NZ : ~ dot (vsub pi ph) (vsub pi ph) == 0) by (apply nonzero_norm, (NR k); split; assumption).
      destruct ph as [h1 h2], pi as [i1 i2], pj as [j1 j2], qh as [h1' h2'], qi as [i1' i2'], qj as [j1' j2']. unfold dot, cross, vsub in *. cbn in *.
      apply (solve_rot (i1 - h1) (i2 - h2)); [exact NZ|exact R|..].
      + rewrite <- Y1, <- Y2. lra.
      + rewrite <- Y1, <- Y2. lra. }
  induction k as [|k IH]; intros p q P Q.
  - injection P as <-. injection Q as <-. split; cbn; ring.
  - assert (K : (S k < length ps)%nat) by (apply nth_error_Some; congruence). destruct (ST k K) as (pi & pj & qi & qj & PI & PJ & QI & QJ & Y1 & Y2).
    rewrite P in PJ. injection PJ as <-. rewrite Q in QJ. injection QJ as <-. destruct (IH pi qi PI QI) as [Z1 Z2].
    destruct p as [p' p''], q as [q' q''], pi as [i1 i2], qi as [i1' i2']. unfold vsub in *. cbn in *. split; cbn; lra.
Qed.

Lemma forall2_length : forall (A B : Type) (R : A -> B -> Prop) l1 l2, Forall2 R l1 l2 -> length l1 = length l2.
Proof. intros A B R l1 l2 F. induction F; cbn; auto. Qed.
Theorem polylines_ok : forall ps qs, no_repeats ps ->
  exists r, are_polylines_congruent direct ps qs = Some r /\ (r = true <-> superposable ps qs).
Proof.
  intros ps qs NR. unfold are_polylines_congruent. destruct (length ps =? length qs)%nat eqn:L; cbn [negb].
  - apply Nat.eqb_eq in L. destruct (sides_match_def direct ps qs (polyline_indices (length ps)) L) as [r E].
    { intros i j I. apply in_polyline_indices in I as [-> I]. lia. }
    exists r. split; [exact E|]. split.
    + intros ->. apply sides_rigid; [exact L|exact NR|]. intros i Hi. rewrite sides_match_true in E. apply E, in_polyline_indices. auto.
    + intros (m & R & F). destruct r; [reflexivity|]. assert (T : sides_match direct ps qs (polyline_indices (length ps)) = Some true).
      { apply sides_match_true. intros i j I. apply in_polyline_indices in I as [-> I]. apply (rigid_side ps qs m); try assumption; lia. }
      congruence.
  - exists false. split; [reflexivity|]. split; [discriminate|]. intros (m & R & F). apply forall2_length in F. apply Nat.eqb_neq in L. contradiction.
Qed.
Theorem polygons_ok : forall ps qs, no_repeats ps -> (length ps <> 1)%nat ->
  exists r, are_polygons_congruent direct ps qs = Some r /\ (r = true <-> superposable ps qs).
Proof.
  intros ps qs NR N1. unfold are_polygons_congruent. destruct (length ps =? length qs)%nat eqn:L; cbn [negb].
  - apply Nat.eqb_eq in L. destruct (Nat.eq_dec (length ps) 0) as [Z|NZ].
    { destruct ps; [|discriminate]. destruct qs; [|discriminate]. exists true. split; [reflexivity|]. split; [|reflexivity]. intros _. exists (mkmotion 1 0 (mkpt 0 0)). split; [unfold is_rigid; cbn; ring|constructor]. }
    assert (EQ : border_indices (length ps) 0 1 (length ps) = map (fun i => (i, (S i mod length ps)%nat)) (seq 0 (length ps))).
    { rewrite <- (border_indices_ok (length ps) (length ps) 0) by lia. f_equal. rewrite Nat.mod_small; lia. }
    rewrite EQ. set (idx := map _ _). assert (IN : forall i j, In (i, j) idx <-> (i < length ps)%nat /\ j = (S i mod length ps)%nat).
    { intros i j. unfold idx. rewrite in_map_iff. split; [intros (k & K & I); injection K as <- <-; apply in_seq in I; split; [lia|reflexivity]|intros [I ->]; exists i; split; [reflexivity|apply in_seq; lia]]. }
    assert (MB : forall i, (S i mod length ps < length ps)%nat) by (intro; apply Nat.mod_upper_bound; lia).
    destruct (sides_match_def direct ps qs idx L) as [r E]. { intros i j I. apply IN in I as [I ->]. split; [exact I|apply MB]. }
    exists r. split; [exact E|]. split.
    + intros ->. apply sides_rigid; [exact L|exact NR|]. intros i Hi. rewrite sides_match_true in E. apply E, IN. split; [lia|]. rewrite Nat.mod_small; lia.
    + intros (m & R & F). destruct r; [reflexivity|]. assert (T : sides_match direct ps qs idx = Some true).
      { apply sides_match_true. intros i j I. apply IN in I as [I ->]. apply (rigid_side ps qs m); try assumption. apply MB. }
      congruence.
  - exists false. split; [reflexivity|]. split; [discriminate|]. intros (m & R & F). apply forall2_length in F. apply Nat.eqb_neq in L. contradiction.
Qed.
