From Verif Require Import Base CmpModel OrientModel OrientSpec OrientProof DistModel DistSpec LinIntModel LinIntSpec LinIntProof PolygonModel PolygonSpec PolygonProof PlanarModel PlanarSpec PlanarProof.
From Coq Require Import Lia Sorting.Sorted.

Lemma search_ok {X : Type} : forall (f : X -> option bool) l, (forall x, In x l -> exists b, f x = Some b) ->
  exists r, search f l = Some r /\ (r = true <-> exists x, In x l /\ f x = Some true).
Proof.
  intros f. induction l as [|x l IH]; intro H.
  - exists false. split; [reflexivity|]. split; [discriminate|intros (x & [] & _)].
  - destruct (H x (or_introl eq_refl)) as (b & E). cbn [search]. rewrite E. destruct b.
    + exists true. split; [reflexivity|]. split; [|reflexivity]. intros _. exists x. split; [left; reflexivity|exact E].
    + destruct IH as (r & ER & I); [intros y Y; apply H; right; exact Y|]. exists r. split; [exact ER|]. rewrite I. split.
      * intros (y & Y1 & Y2). exists y. split; [right; exact Y1|exact Y2].
      * intros (y & [<-|Y1] & Y2); [congruence|]. exists y. split; assumption.
Qed.

(** * Neighbouring sides *)
Lemma end_on : forall A B, on_segment A B B.
Proof. intros. exists 1. split; [lra|]. apply pteq_sym, lerp_1. Qed.
Lemma start_on : forall A B, on_segment A B A.
Proof. intros. exists 0. split; [lra|]. apply pteq_sym, lerp_0. Qed.
Lemma not_inside_end : forall A B X, nonzero (vsub B A) -> X =p= B -> ~ inside_segment A B X.
Proof.
  intros A B X N E (t & T & EX). apply N. destruct E as [E1 E2], EX as [X1 X2]. rewrite E1 in X1. rewrite E2 in X2.
  unfold lerp, vadd, vscale, vsub in X1, X2. cbn [px py] in X1, X2. unfold vsub. cbn [px py].
  assert ((1 - t) * (px B - px A) == 0) by lra. assert ((1 - t) * (py B - py A) == 0) by lra.
  apply Qmult_integral in H as [H|H]; [lra|]. apply Qmult_integral in H0 as [H0|H0]; [lra|]. split; assumption.
Qed.
Lemma not_inside_start : forall A B X, nonzero (vsub B A) -> X =p= A -> ~ inside_segment A B X.
Proof.
  intros A B X N E (t & T & EX). apply N. destruct E as [E1 E2], EX as [X1 X2]. rewrite E1 in X1. rewrite E2 in X2.
  unfold lerp, vadd, vscale, vsub in X1, X2. cbn [px py] in X1, X2. unfold vsub. cbn [px py].
  assert (t * (px B - px A) == 0) by lra. assert (t * (py B - py A) == 0) by lra.
  apply Qmult_integral in H as [H|H]; [lra|]. apply Qmult_integral in H0 as [H0|H0]; [lra|]. split; assumption.
Qed.
Lemma neighbour_type : forall A B D ty pts, nonzero (vsub B A) -> nonzero (vsub D B) ->
  segment_segment_intersection direct A B B D = Some (ty, pts) -> (is_overlapping ty = true <-> parallel (vsub B A) (vsub D B)) /\ is_non_crossing ty = false.
Proof.
  intros A B D ty pts N1 N2 E. destruct (segseg_ok A B B D N1 N2) as (ty' & pts' & E' & H). assert (ty' = ty) by congruence. subst ty'. cbv zeta in H.
  assert (CB : both (on_segment A B) (on_segment B D) B) by (split; [apply end_on|apply start_on]).
  destruct ty; cbn [is_overlapping is_non_crossing].
  - contradiction.
  - destruct H as [_ H]. exfalso. exact (H B CB).
  - exfalso. destruct H as (X & _ & S & I1 & _). apply S in CB. exact (not_inside_end _ _ _ N1 (pteq_sym _ _ CB) I1).
  - destruct H as (X & Y & _ & _ & P). tauto.
  - destruct H as (X & _ & _ & _ & P). split; [|reflexivity]. split; [discriminate|]. intro; contradiction.
Qed.

(** ** Self-intersection of polylines *)
Definition good_pair (ps : list pt) (s : nat * nat) : Prop := exists A B C D, polyline_edge ps (fst s) A B /\ polyline_edge ps (snd s) C D.
Lemma self_loop_ok : forall ps idx, proper_polyline ps -> Forall (good_pair ps) idx -> exists l, self_loop direct ps idx = Some l /\
  (forall i j t xs, In (i, j, t, xs) l -> In (i, j) idx /\ exists A B C D, polyline_edge ps i A B /\ polyline_edge ps j C D /\ describes A B C D t xs) /\
  (forall i j A B C D, In (i, j) idx -> polyline_edge ps i A B -> polyline_edge ps j C D ->
    ((exists t xs, In (i, j, t, xs) l) <->
     meet A B C D /\ (~ (S i = j \/ S j = i) \/ exists xs, segment_segment_intersection direct A B C D = Some (e_overlapping, xs)))).
Proof.
  intros ps idx P. induction idx as [|[i j] idx IH]; intro G.
  - exists []. split; [reflexivity|]. split; [intros ? ? ? ? []|intros ? ? ? ? ? ? []].
  - inversion G as [|? ? G1 G2]; subst. destruct (IH G2) as (l & EL & H1 & H2). destruct G1 as (A & B & C & D & [EA EB] & [EC ED]). cbn [fst snd] in *.
    assert (N1 : nonzero (vsub B A)) by (apply (P i); split; assumption). assert (N2 : nonzero (vsub D C)) by (apply (P j); split; assumption).
    destruct (segseg_cases A B C D N1 N2) as (ty & pts & E & CASES).
    cbn [self_loop]. unfold sides_meet. rewrite EA, EB, EC, ED, E, EL. cbv zeta. eexists. split; [reflexivity|].
    set (test := negb (is_non_crossing ty) && (negb (Nat.eqb (S i) j || Nat.eqb (S j) i) || is_overlapping ty)).
    assert (T : test = true <-> meet A B C D /\ (~ (S i = j \/ S j = i) \/ exists xs, segment_segment_intersection direct A B C D = Some (e_overlapping, xs))).
    { unfold test. rewrite andb_true_iff, orb_true_iff, !negb_true_iff, orb_false_iff, !Nat.eqb_neq.
      assert (OV : is_overlapping ty = true <-> exists xs, segment_segment_intersection direct A B C D = Some (e_overlapping, xs)).
      { rewrite E. split; [intro OT; exists pts; destruct ty; try discriminate OT; reflexivity|intros (xs & EX); injection EX as -> _; reflexivity]. }
      rewrite OV. destruct CASES as [[T NM]|(T & M & _)]; rewrite T; split.
      - intros [X _]. discriminate.
      - intros [X _]. contradiction.
      - intros [_ X]. split; [exact M|]. destruct X as [X|X]; [left; lia|right; exact X].
      - intros [_ X]. split; [reflexivity|]. destruct X as [X|X]; [left; lia|right; exact X]. }
    split.
    + intros i' j' t xs I. assert (I' : (i', j', t, xs) = (i, j, ty, pts) /\ test = true \/ In (i', j', t, xs) l).
      { destruct test; [destruct I as [I|I]; [left; split; [symmetry; exact I|reflexivity]|right; exact I]|right; exact I]. }
      destruct I' as [[I' TT]|I'].
      * injection I' as -> -> -> ->. split; [left; reflexivity|]. exists A, B, C, D. split; [split; assumption|]. split; [split; assumption|].
        destruct CASES as [[T' NM]|(_ & _ & DS)]; [|exact DS]. apply T in TT. destruct TT. contradiction.
      * destruct (H1 _ _ _ _ I') as [I1 I2]. split; [right; exact I1|exact I2].
    + intros i' j' A' B' C' D' I E1 E2.
      assert (SAME : (i', j') = (i, j) -> A' = A /\ B' = B /\ C' = C /\ D' = D).
      { intro X. injection X as -> ->. destruct E1, E2. repeat split; congruence. }
      split.
      * intros (t & xs & I'). assert (I2 : (i', j', t, xs) = (i, j, ty, pts) /\ test = true \/ In (i', j', t, xs) l).
        { destruct test; [destruct I' as [I'|I']; [left; split; [symmetry; exact I'|reflexivity]|right; exact I']|right; exact I']. }
        destruct I2 as [[I2 TT]|I2].
        -- injection I2 as Hi Hj _ _. destruct SAME as (-> & -> & -> & ->); [congruence|]. subst. apply T, TT.
        -- apply H2; try assumption; [|exists t, xs; exact I2]. destruct (H1 _ _ _ _ I2) as [I3 _]. exact I3.
      * intro M. destruct I as [I|I].
        -- destruct SAME as (-> & -> & -> & ->); [congruence|]. injection I as <- <-. apply T in M. rewrite M. exists ty, pts. left. reflexivity.
        -- destruct (H2 i' j' A' B' C' D' I E1 E2) as [_ H3]. destruct (H3 M) as (t & xs & I3). exists t, xs. destruct test; [right|]; exact I3.
Qed.
Lemma in_self_indices : forall n i j, In (i, j) (self_indices n) <-> (i < j /\ S j < n)%nat.
Proof.
  intros n i j. unfold self_indices. rewrite in_flat_map. split.
  - intros (x & I & J). apply in_map_iff in J as (y & E & J). injection E as -> ->. apply in_seq in I, J. lia.
  - intro H. exists i. split; [apply in_seq; lia|]. apply in_map. apply in_seq. lia.
Qed.
Lemma polyline_edge_bound : forall ps i A B, polyline_edge ps i A B -> (S i < length ps)%nat.
Proof. intros ps i A B [_ H]. apply nth_error_Some. congruence. Qed.
Lemma polyline_edge_at : forall ps i, (S i < length ps)%nat -> exists A B, polyline_edge ps i A B.
Proof.
  intros ps i H. destruct (nth_error ps i) as [C|] eqn:EC; [|apply nth_error_None in EC; lia]. destruct (nth_error ps (S i)) as [D|] eqn:ED; [|apply nth_error_None in ED; lia].
  exists C, D. split; assumption.
Qed.
Lemma self_ok : forall ps, proper_polyline ps -> exists l, polyline_self_intersection direct ps = Some (match l with [] => false | _ => true end, l) /\
  (forall i j t xs, In (i, j, t, xs) l -> (i < j)%nat /\ exists A B C D, polyline_edge ps i A B /\ polyline_edge ps j C D /\ describes A B C D t xs) /\
  (forall i j A B C D, (i < j)%nat -> polyline_edge ps i A B -> polyline_edge ps j C D ->
    ((exists t xs, In (i, j, t, xs) l) <-> (S i < j)%nat /\ meet A B C D \/ S i = j /\ parallel (vsub B A) (vsub D C))).
Proof.
  intros ps P. unfold polyline_self_intersection. destruct (Nat.ltb_spec (length ps) 3) as [S3|S3].
  - exists []. split; [reflexivity|]. split; [intros ? ? ? ? []|]. intros i j A B C D L E1 E2. apply polyline_edge_bound in E2. lia.
  - destruct (self_loop_ok ps (self_indices (length ps)) P) as (l & E & H1 & H2).
    { rewrite Forall_forall. intros [i j] I. apply in_self_indices in I. destruct (polyline_edge_at ps i) as (A & B & E1); [lia|]. destruct (polyline_edge_at ps j) as (C & D & E2); [lia|].
      exists A, B, C, D. split; assumption. }
    exists l. rewrite E. split; [reflexivity|]. split.
    + intros i j t xs I. destruct (H1 _ _ _ _ I) as [I1 I2]. apply in_self_indices in I1. split; [lia|exact I2].
    + intros i j A B C D L E1 E2. pose proof (polyline_edge_bound _ _ _ _ E2) as BD. rewrite (H2 i j A B C D); [|apply in_self_indices; lia|exact E1|exact E2].
      destruct (Nat.eq_dec (S i) j) as [EJ|NJ].
      * subst j. assert (C = B) by (destruct E1, E2; congruence). subst C.
        assert (N1 : nonzero (vsub B A)) by (apply (P i); exact E1). assert (N2 : nonzero (vsub D B)) by (apply (P (S i)); exact E2).
        destruct (segseg_ok A B B D N1 N2) as (ty & pts & ES & _). destruct (neighbour_type A B D ty pts N1 N2 ES) as [T _]. rewrite ES. split.
        -- intros [_ [X|(xs & X)]]; [lia|]. right. split; [reflexivity|]. apply T. injection X as -> _. reflexivity.
        -- intros [[X _]|[_ X]]; [lia|]. split; [exists B; split; [apply end_on|apply start_on]|]. right. exists pts. apply T in X. destruct ty; try discriminate X. reflexivity.
      * split.
        -- intros [M _]. left. split; [lia|exact M].
        -- intros [[_ M]|[X _]]; [|lia]. split; [exact M|]. left. lia.
Qed.

(** A vertex where the path does not double back on itself: the two sides there have only that
    vertex in common. *)
Lemma unfolded : forall A B D X, nonzero (vsub D B) -> ~ (tri2 A B D == 0 /\ dot (vsub B A) (vsub D B) < 0) -> nonzero (vsub B A) ->
  on_segment A B X -> on_segment B D X -> X =p= B.
Proof.
  intros [ax ay] [bx by0] [dx dy] [x y] N NF N1 (s & Hs & E1 & E2) (t & Ht & E3 & E4).
  pose proof (nz_dot _ N) as W. pose proof (nz_dot _ N1) as W1.
  unfold tri2, cross, dot, vsub, lerp, vadd, vscale in *. cbn [px py] in *.
  set (ux := bx - ax) in *. set (uy := by0 - ay) in *. set (wx := dx - bx) in *. set (wy := dy - by0) in *.
  assert (Q1 : (s - 1) * ux == t * wx) by (assert (EE : x == ax + s * ux) by exact E1; assert (EF : x == bx + t * wx) by exact E3; assert (EU : ux == bx - ax) by reflexivity; lra).
  assert (Q2 : (s - 1) * uy == t * wy) by (assert (EE : y == ay + s * uy) by exact E2; assert (EF : y == by0 + t * wy) by exact E4; assert (EU : uy == by0 - ay) by reflexivity; lra).
  assert (T0 : t == 0 \/ ~ t == 0) by (destruct (Qeq_dec t 0); auto). destruct T0 as [T0|T0].
  - split; cbn [px py]; [rewrite E3|rewrite E4]; rewrite T0; lra.
  - exfalso. apply NF. assert (CR : t * (ux * wy - uy * wx) == 0).
    { transitivity (ux * (t * wy) - uy * (t * wx)); [ring|]. rewrite <- Q1, <- Q2. ring. }
    apply Qmult_integral in CR as [CR|CR]; [contradiction|].
    split.
    + transitivity (ux * wy - uy * wx); [unfold ux, uy, wx, wy; ring|exact CR].
    + assert (DD : (s - 1) * (ux * wx + uy * wy) == t * (wx * wx + wy * wy)).
      { transitivity ((s - 1) * ux * wx + (s - 1) * uy * wy); [ring|]. rewrite Q1, Q2. ring. }
      assert (P : 0 < t * (wx * wx + wy * wy)) by (apply Qmult_lt_0_compat; lra).
      destruct (Qlt_le_dec (ux * wx + uy * wy) 0) as [L|L]; [exact L|]. exfalso. assert (0 <= (1 - s) * (ux * wx + uy * wy)) by (apply Qmult_le_0_compat; lra). lra.
Qed.

(** ** Simple polygons *)
Lemma intersecting_ok : forall ps i i' j j' A B C D, nth_error ps i = Some A -> nth_error ps i' = Some B -> nth_error ps j = Some C -> nth_error ps j' = Some D ->
  nonzero (vsub B A) -> nonzero (vsub D C) -> exists b, intersecting direct ps i i' j j' = Some b /\ (b = true <-> meet A B C D).
Proof.
  intros ps i i' j j' A B C D EA EB EC ED N1 N2. unfold intersecting, sides_meet. rewrite EA, EB, EC, ED.
  destruct (segseg_cases A B C D N1 N2) as (ty & pts & E & [[T NM]|(T & M & _)]); rewrite E, T; cbn [negb]; eexists; (split; [reflexivity|]); split; intro; try discriminate; try contradiction; try assumption; reflexivity.
Qed.
Lemma in_simple_indices : forall n i j, In (i, j) (simple_indices n) <-> (S i < j /\ j < n)%nat.
Proof.
  intros n i j. unfold simple_indices. rewrite in_flat_map. split.
  - intros (x & I & J). apply in_map_iff in J as (y & E & J). injection E as -> ->. apply in_seq in I, J. lia.
  - intro H. exists i. split; [apply in_seq; lia|]. apply in_map. apply in_seq. lia.
Qed.
Lemma adjacent_ok : forall n i j, adjacent n i j = true <-> neighbours n i j.
Proof. intros. unfold adjacent, neighbours, next. rewrite orb_true_iff, !Nat.eqb_eq. tauto. Qed.
Lemma neighbours_sym : forall n i j, neighbours n i j <-> neighbours n j i.
Proof. intros. unfold neighbours. tauto. Qed.
Lemma simple_ok : forall ps, (3 <= length ps)%nat -> proper_polygon ps -> exists b, is_polygon_simple direct ps = Some b /\ (b = true <-> far_sides_disjoint ps).
Proof.
  intros ps L P. unfold is_polygon_simple. cbv zeta. destruct (Nat.ltb_spec (length ps) 2); [lia|]. set (n := length ps) in *.
  match goal with |- context [search ?g _] => set (f := g) end.
  assert (F : forall i j, (i < n)%nat -> (j < n)%nat -> exists b, f (i, j) = Some b /\ (b = true <-> meet (pnth ps i) (pnth ps (S i mod n)) (pnth ps j) (pnth ps (S j mod n)) /\ ~ neighbours n i j)).
  { intros i j Hi Hj. pose proof (edge_at ps i Hi) as E1. pose proof (edge_at ps j Hj) as E2.
    destruct (intersecting_ok ps i (S i mod n) j (S j mod n) _ _ _ _ (proj1 E1) (proj2 E1) (proj1 E2) (proj2 E2) (P _ _ _ E1) (P _ _ _ E2)) as (b & EB & IB).
    unfold f, next. rewrite EB. eexists. split; [reflexivity|]. rewrite andb_true_iff, IB, negb_true_iff. rewrite <- adjacent_ok. destruct (adjacent n i j); split; intros [X Y]; split; try assumption; try discriminate; try reflexivity; exfalso; apply Y; reflexivity. }
  destruct (search_ok f (simple_indices n)) as (r & ER & IR).
  { intros [i j] I. apply in_simple_indices in I. destruct (F i j) as (b & E & _); [lia|lia|]. exists b; exact E. }
  exists (negb r). rewrite ER. split; [reflexivity|]. rewrite negb_true_iff. split.
  - intros R i j A B C D NE NN E1 E2 M. assert (TR : r = true); [|congruence]. apply IR.
    apply edge_pnth in E1 as (Hi & -> & ->). apply edge_pnth in E2 as (Hj & -> & ->). fold n in Hi, Hj, M, NN.
    assert (G : forall i j, (i < j)%nat -> (j < n)%nat -> ~ neighbours n i j -> meet (pnth ps i) (pnth ps (S i mod n)) (pnth ps j) (pnth ps (S j mod n)) -> exists x, In x (simple_indices n) /\ f x = Some true).
    { intros a b LT LB NAB MAB. exists (a, b). split.
      - apply in_simple_indices. split; [|lia]. destruct (Nat.eq_dec (S a) b) as [Eab|]; [|lia]. exfalso. apply NAB. left. rewrite Eab. apply Nat.mod_small. lia.
      - destruct (F a b) as (v & EV & IV); [lia|lia|]. rewrite EV. f_equal. apply IV. split; assumption. }
    destruct (Nat.lt_total i j) as [LT|[EQ|LT]]; [exact (G i j LT Hj NN M)|contradiction|]. apply (G j i LT Hi).
    + rewrite neighbours_sym. exact NN.
    + apply meet_sym, M.
  - intro D. destruct r; [|reflexivity]. exfalso. destruct IR as [IR _]. destruct (IR eq_refl) as ([i j] & I & FX). apply in_simple_indices in I.
    destruct (F i j) as (b & E & IB); [lia|lia|]. assert (b = true) by congruence. apply IB in H0 as [M NN].
    refine (D i j _ _ _ _ _ NN (edge_at ps i _) (edge_at ps j _) M); fold n; lia.
Qed.
Lemma mod_succ_inj : forall n i j, (i < n)%nat -> (j < n)%nat -> (S i mod n = S j mod n)%nat -> i = j.
Proof.
  intros n i j Hi Hj E. destruct (Nat.eq_dec (S i) n) as [W|W]; destruct (Nat.eq_dec (S j) n) as [W2|W2].
  - lia.
  - rewrite W, Nat.mod_same, Nat.mod_small in E; lia.
  - rewrite W2, Nat.mod_same, (Nat.mod_small (S i)) in E; lia.
  - rewrite !Nat.mod_small in E; lia.
Qed.
Lemma simple_spec : forall ps, (3 <= length ps)%nat -> proper_polygon ps -> no_spikes ps -> (far_sides_disjoint ps <-> simple_polygon ps).
Proof.
  intros ps L P NS. split.
  - intro F. split; [exact L|]. split; [exact P|]. intros i j A B C D X NE E1 E2 X1 X2.
    destruct (Nat.eq_dec (S i mod length ps) j) as [N1|N1].
    + left. split; [exact N1|]. subst j. assert (C = B) by (destruct E1, E2; congruence). subst C.
      apply (unfolded A B D X); [exact (P _ _ _ E2)|exact (NS _ _ _ _ E1 E2)|exact (P _ _ _ E1)|exact X1|exact X2].
    + destruct (Nat.eq_dec (S j mod length ps) i) as [N2|N2].
      * right. split; [exact N2|]. subst i. assert (A = D) by (destruct E1, E2; congruence). subst A.
        apply (unfolded C D B X); [exact (P _ _ _ E1)|exact (NS _ _ _ _ E2 E1)|exact (P _ _ _ E2)|exact X2|exact X1].
      * exfalso. apply (F i j A B C D NE); [intros [?|?]; contradiction|exact E1|exact E2|]. exists X. split; assumption.
  - intros (_ & _ & S) i j A B C D NE NN E1 E2 (X & X1 & X2). apply NN. destruct (S i j A B C D X NE E1 E2 X1 X2) as [[H _]|[H _]]; [left|right]; exact H.
Qed.
