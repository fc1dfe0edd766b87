From Verif Require Import Base CmpModel CmpProof OrientModel OrientSpec OrientProof DistModel DistSpec LinIntModel LinIntSpec LinIntProof PolygonModel PolygonSpec PolygonProof PolygonBorderProof PlanarModel PlanarSpec PlanarProof PlanarProof2 TrimModel TrimSpec TrimProof.
From Coq Require Import Lia Lqa Sorting.Sorted.

Lemma push_range_all : forall ps k a pi, proper_polyline ps -> pi <> [] -> (a + k <= length ps)%nat -> ((0 < k)%nat -> ~ last pi (mkpt 0 0) =p= pnth ps a) ->
  push_range direct ps k a pi = Some (pi ++ map (pnth ps) (seq a k)).
Proof.
  intros ps k. induction k as [|k IH]; intros a pi P NE L H; cbn [push_range seq map].
  - rewrite app_nil_r. reflexivity.
  - rewrite (nth_error_nth' ps (mkpt 0 0)) by lia. fold (pnth ps a). unfold push_new at 1. destruct (point_equals direct (pnth ps a) (last pi (mkpt 0 0))) eqn:E.
    + exfalso. apply (H ltac:(lia)). apply pteq_sym, point_equals_direct, E.
    + rewrite IH; [rewrite <- app_assoc; reflexivity|exact P|destruct pi; discriminate|lia|]. intro K. rewrite last_last. intros [E1 E2].
      apply (P a (pnth ps a) (pnth ps (S a))); [apply edge_pnth2; split; [lia|auto]|]. unfold vsub. cbn [px py]. split; lra.
Qed.

Lemma advance_far : forall ps li P u ci, proper_polyline ps -> on_side ps li u P -> (li < ci)%nat -> (ci < length ps)%nat ->
  exists a, push_range direct ps (ci - li) (S li) [P] = Some (P :: map (pnth ps) (seq a (S ci - a))) /\ (a <= S ci)%nat /\ (forall i, u < qn i <-> (a <= i)%nat) /\
    (a = S ci -> P =p= pnth ps ci /\ u == qn ci).
Proof.
  intros ps li P u ci PR (A & B & t & EI & T & EU & EP) LC LN. pose proof (proj1 (edge_pnth2 _ _ _ _) EI) as (LI & EA & EB).
  destruct (Qlt_le_dec t 1) as [H|H].
  - exists (S li). split; [|split; [lia|split; [|lia]]].
    + rewrite push_range_all; [cbn [app]; repeat f_equal; lia|exact PR|discriminate|lia|]. intros _. cbn [last]. rewrite <- EB. intro E.
      assert (F : t == 1). { apply (lerp_inj A B); [apply (PR li); exact EI|]. eapply pteq_trans; [apply pteq_sym; exact EP|]. eapply pteq_trans; [exact E|]. apply pteq_sym, lerp_1. reflexivity. }
      lra.
    + intro i. split.
      * intro U. assert (Q : qn li < qn i) by lra. apply (proj1 (qn_lt _ _)) in Q. lia.
      * intro U. assert (Q : qn (S li) <= qn i) by (apply (proj2 (qn_le _ _)); lia). rewrite qn_S in Q. lra.
  - assert (T1 : t == 1) by lra. assert (EPB : P =p= pnth ps (S li)) by (rewrite <- EB; eapply pteq_trans; [exact EP|apply lerp_1; exact T1]).
    exists (S (S li)). split; [|split; [lia|split]].
    + replace (ci - li)%nat with (S (ci - S li)) by lia. cbn [push_range]. rewrite (nth_error_nth' ps (mkpt 0 0)) by lia. fold (pnth ps (S li)). unfold push_new at 1. cbn [last].
      replace (point_equals direct (pnth ps (S li)) P) with true by (symmetry; apply point_equals_direct, pteq_sym, EPB).
      rewrite push_range_all; [cbn [app]; repeat f_equal; lia|exact PR|discriminate|lia|]. intros K. cbn [last]. intro E.
      apply (PR (S li) (pnth ps (S li)) (pnth ps (S (S li)))); [apply edge_pnth2; split; [lia|auto]|]. destruct EPB as [P1 P2], E as [E1 E2]. unfold vsub. cbn [px py]. split; lra.
    + intro i. split.
      * intro U. assert (Q : qn (S li) < qn i) by (rewrite qn_S; lra). apply (proj1 (qn_lt _ _)) in Q. lia.
      * intro U. assert (Q : qn (S (S li)) <= qn i) by (apply (proj2 (qn_le _ _)); lia). rewrite !qn_S in Q. lra.
    + intro E. assert (ci = S li) by lia. subst ci. split; [exact EPB|rewrite qn_S; lra].
Qed.

Lemma forall2_pteq_refl : forall l, Forall2 pteq l l.
Proof. induction l; constructor; [apply pteq_refl|assumption]. Qed.

Lemma advance : forall ps li P u ci X v, proper_polyline ps -> on_side ps li u P -> on_side ps ci v X -> (li <= ci)%nat -> u <= v ->
  exists pi, push_range direct ps (ci - li) (S li) [P] = Some pi /\
    (u < v -> runs ps u v (push_new direct pi X) /\ (2 <= length (push_new direct pi X))%nat) /\ (u == v -> length (push_new direct pi X) = 1%nat).
Proof.
  intros ps li P u ci X v PR HP HX LC UV.
  assert (AP : at_place ps u P) by (exists li; exact HP). assert (AX : at_place ps v X) by (exists ci; exact HX).
  destruct (Nat.eq_dec li ci) as [E|NE].
  - subst ci. rewrite Nat.sub_diag. cbn [push_range]. exists [P]. split; [reflexivity|]. unfold push_new. cbn [last].
    destruct HP as (A & B & t & EI & T & EU & EP), HX as (A' & B' & s & EI' & S' & EV & EX). destruct (edge_fun _ _ _ _ _ _ EI EI') as [<- <-].
    split; intro H.
    + destruct (point_equals direct X P) eqn:E.
      * exfalso. apply (stretch_ne ps u v P X li PR AP AX); try lra. apply pteq_sym, point_equals_direct, E.
      * split; [|cbn; lia]. split; [exact H|]. exists P, X, 0%nat, 0%nat. split; [exact AP|]. split; [exact AX|]. split; [apply forall2_pteq_refl|].
        intro i. split; [|lia]. intros [U1 U2]. exfalso. assert (Q1 : qn li < qn i) by lra. assert (Q2 : qn i < qn (S li)) by (rewrite qn_S; lra).
        apply (proj1 (qn_lt _ _)) in Q1. apply (proj1 (qn_lt _ _)) in Q2. lia.
    + replace (point_equals direct X P) with true; [reflexivity|]. symmetry. apply point_equals_direct. apply (at_place_fun ps v u); [lra|assumption|assumption].
  - destruct HX as (A & B & s & EI & S' & EV & EX). pose proof (proj1 (edge_pnth2 _ _ _ _) EI) as (LI & EA & EB).
    destruct (advance_far ps li P u ci PR HP ltac:(lia) ltac:(lia)) as (a & EQ & LA & IN & CLOSE). exists (P :: map (pnth ps) (seq a (S ci - a))). split; [exact EQ|].
    assert (LAST : last (P :: map (pnth ps) (seq a (S ci - a))) (mkpt 0 0) =p= A).
    { rewrite EA. destruct (Nat.eq_dec a (S ci)) as [E|E].
      - subst a. rewrite Nat.sub_diag. cbn. apply CLOSE. reflexivity.
      - replace (S ci - a)%nat with ((ci - a) + 1)%nat by lia. rewrite seq_app, map_app. cbn [seq map]. change (P :: map (pnth ps) (seq a (ci - a)) ++ [pnth ps (a + (ci - a))]) with ((P :: map (pnth ps) (seq a (ci - a))) ++ [pnth ps (a + (ci - a))]).
        rewrite last_last. replace (a + (ci - a))%nat with ci by lia. apply pteq_refl. }
    unfold push_new. destruct (Qlt_le_dec 0 s) as [H|H].
    + destruct (point_equals direct X (last (P :: map (pnth ps) (seq a (S ci - a))) (mkpt 0 0))) eqn:E.
      { exfalso. apply (proj1 (point_equals_direct _ _)) in E. assert (F : s == 0); [|lra]. apply (lerp_inj A B); [apply (PR ci); exact EI|].
        eapply pteq_trans; [apply pteq_sym; exact EX|]. eapply pteq_trans; [exact E|]. eapply pteq_trans; [exact LAST|]. apply pteq_sym, lerp_0. reflexivity. }
      assert (ULE : u <= qn ci). { destruct (Qlt_le_dec (qn ci) u) as [C|C]; [|exact C]. destruct (Nat.eq_dec a (S ci)) as [E2|E2]; [destruct (CLOSE E2); lra|]. assert (W : u < qn ci) by (apply IN; lia). lra. }
      split; intro U; [|lra]. split; [|cbn [length app]; rewrite app_length; cbn; lia]. split; [exact U|]. exists P, X, a, (S ci - a)%nat. split; [exact AP|]. split; [exact AX|].
      split; [apply forall2_pteq_refl|]. intro i. rewrite IN. split.
      * intros [U1 U2]. assert (Q : qn i < qn (S ci)) by (rewrite qn_S; lra). apply (proj1 (qn_lt _ _)) in Q. lia.
      * intro R. split; [lia|]. assert (Q : qn i <= qn ci) by (apply (proj2 (qn_le _ _)); lia). lra.
    + assert (s0 : s == 0) by lra. assert (EXA : X =p= A) by (eapply pteq_trans; [exact EX|apply lerp_0; exact s0]).
      replace (point_equals direct X (last (P :: map (pnth ps) (seq a (S ci - a))) (mkpt 0 0))) with true by (symmetry; apply point_equals_direct; eapply pteq_trans; [exact EXA|apply pteq_sym; exact LAST]).
      assert (EV2 : v == qn ci) by lra. destruct (Nat.eq_dec a (S ci)) as [E|E].
      * subst a. rewrite Nat.sub_diag. split; intro U; [destruct (CLOSE eq_refl); lra|reflexivity].
      * assert (UC : u < qn ci) by (apply IN; lia). split; intro U; [|lra]. replace (S ci - a)%nat with ((ci - a) + 1)%nat by lia. split; [|cbn [length]; rewrite map_length, seq_length; lia].
        split; [exact U|]. exists P, (pnth ps ci), a, (ci - a)%nat. split; [exact AP|]. split.
        { apply (at_place_eq ps v v X); [reflexivity|rewrite <- EA; exact EXA|exact AX]. }
        split; [rewrite seq_app, map_app; cbn [seq map]; replace (a + (ci - a))%nat with ci by lia; apply forall2_pteq_refl|].
        intro i. rewrite IN. split.
        -- intros [U1 U2]. assert (Q : qn i < qn ci) by lra. apply (proj1 (qn_lt _ _)) in Q. lia.
        -- intro R. split; [lia|]. assert (Q : qn i < qn ci) by (apply (proj2 (qn_lt _ _)); lia). lra.
Qed.

(** *** The loop *)
(** The cuts are places that go up. *)
Fixpoint upward (ps : list pt) (u : Q) (li : nat) (cuts : list cut) : Prop :=
  match cuts with
  | [] => True
  | (ci, X) :: cuts' => exists v, on_side ps ci v X /\ u <= v /\ (li <= ci)%nat /\ upward ps v ci cuts'
  end.
Lemma upward_eq : forall ps cuts u u' li, u == u' -> upward ps u li cuts -> upward ps u' li cuts.
Proof. intros ps [|[ci X] cuts] u u' li E H; [exact H|]. destruct H as (v & H1 & H2 & H3 & H4). exists v. split; [exact H1|]. split; [lra|]. auto. Qed.
Lemma on_side_eq : forall ps i u v X, u == v -> on_side ps i u X -> on_side ps i v X.
Proof. intros ps i u v X E (A & B & t & H1 & H2 & H3 & H4). exists A, B, t. split; [exact H1|]. split; [exact H2|]. split; [lra|exact H4]. Qed.
(** The places of the cuts. *)
Definition cut_at (ps : list pt) (cuts : list cut) (w : Q) : Prop := exists i X, In (i, X) cuts /\ on_side ps i w X.

Lemma runs_through_cons : forall ps u v vs p pieces, runs ps u v p -> runs_through ps (v :: vs) pieces -> runs_through ps (u :: v :: vs) (p :: pieces).
Proof. intros. split; assumption. Qed.
Lemma keep_long : forall pi res, (2 <= length pi)%nat -> keep_piece pi res = res ++ [pi].
Proof. intros pi res L. unfold keep_piece. replace (Nat.ltb 1 (length pi)) with true by (symmetry; apply Nat.ltb_lt; lia). reflexivity. Qed.
Lemma keep_short : forall pi res, length pi = 1%nat -> keep_piece pi res = res.
Proof. intros pi res L. unfold keep_piece. rewrite L. reflexivity. Qed.
Lemma on_side_place : forall ps i u v X, proper_polyline ps -> on_side ps i u X -> on_side ps i v X -> u == v.
Proof.
  intros ps i u v X P (A & B & t & EI & T & EU & EX) (A' & B' & s & EI' & S' & EV & EX'). destruct (edge_fun _ _ _ _ _ _ EI EI') as [<- <-].
  assert (t == s); [|lra]. apply (lerp_inj A B); [apply (P i); exact EI|]. eapply pteq_trans; [apply pteq_sym; exact EX|exact EX'].
Qed.

(** One step: the piece is kept exactly if it is more than a point. *)
Lemma step_ok : forall ps li P u ci X v pi res, proper_polyline ps -> on_side ps li u P -> on_side ps ci v X -> (li <= ci)%nat -> u <= v ->
  push_range direct ps (ci - li) (S li) [P] = Some pi ->
  (u < v /\ exists p, keep_piece (push_new direct pi X) res = res ++ [p] /\ runs ps u v p) \/ (u == v /\ keep_piece (push_new direct pi X) res = res).
Proof.
  intros ps li P u ci X v pi res PR HP HX LC UV E. destruct (advance ps li P u ci X v PR HP HX LC UV) as (pi' & E' & H1 & H2). rewrite E in E'. injection E' as <-.
  destruct (Qlt_le_dec u v) as [H|H].
  - left. split; [exact H|]. destruct (H1 H) as [R L]. exists (push_new direct pi X). split; [apply keep_long; exact L|exact R].
  - right. assert (UVE : u == v) by lra. split; [exact UVE|]. apply keep_short, H2, UVE.
Qed.

Lemma split_loop_ok : forall ps cuts li P u res, proper_polyline ps -> on_side ps li u P -> upward ps u li cuts ->
  exists li' P' u' vs pieces, split_loop direct ps cuts li P res = Some (li', P', res ++ pieces) /\ on_side ps li' u' P' /\
    runs_through ps (u :: vs) pieces /\ StronglySorted Qlt (u :: vs) /\ last (u :: vs) 0 == u' /\
    (forall w, listed w (u :: vs) <-> w == u \/ cut_at ps cuts w).
Proof.
  intros ps cuts. induction cuts as [|[ci X] cuts IH]; intros li P u res PR HP UP.
  - exists li, P, u, [], []. cbn [split_loop]. rewrite app_nil_r. split; [reflexivity|]. split; [exact HP|]. split; [exact I|]. split; [repeat constructor|]. split; [reflexivity|].
    intro w. split.
    + intros (x & [<-|[]] & E). left. lra.
    + intros [E|(i & Y & [] & _)]. exists u. split; [left; reflexivity|lra].
  - destruct UP as (v & HX & UV & LC & UP). cbn [split_loop]. destruct (advance ps li P u ci X v PR HP HX LC UV) as (pi & E & _). rewrite E.
    destruct (step_ok ps li P u ci X v pi res PR HP HX LC UV E) as [(LT & p & K & R)|[EQ K]]; rewrite K.
    + destruct (IH ci X v (res ++ [p]) PR HX UP) as (li' & P' & u' & vs & pieces & E' & HP' & RT & SS & LA & MEM).
      exists li', P', u', (v :: vs), (p :: pieces). rewrite E'. split; [rewrite <- app_assoc; reflexivity|]. split; [exact HP'|]. split; [apply runs_through_cons; assumption|]. split.
      { constructor; [exact SS|]. inversion SS as [|? ? S1 S2]; subst. constructor; [exact LT|]. eapply Forall_impl; [|exact S2]. cbn. intros x Hx. lra. }
      split; [exact LA|]. intro w. split.
      * intros (x & [<-|IX] & EX).
        -- left. lra.
        -- assert (LW : listed w (v :: vs)) by (exists x; auto). apply MEM in LW as [EW|(i & Y & IY & OY)].
           ++ right. exists ci, X. split; [left; reflexivity|]. apply (on_side_eq ps ci v w); [lra|exact HX].
           ++ right. exists i, Y. split; [right; exact IY|exact OY].
      * intros [EW|(i & Y & [EY|IY] & OY)].
        -- exists u. split; [left; reflexivity|lra].
        -- injection EY as <- <-. exists v. split; [right; left; reflexivity|]. apply (on_side_place ps ci v w X PR HX OY).
        -- assert (LW : listed w (v :: vs)) by (apply MEM; right; exists i, Y; auto). destruct LW as (x & IX & EX). exists x. split; [right; exact IX|exact EX].
    + assert (HX' : on_side ps ci u X) by (apply (on_side_eq ps ci v u); [lra|exact HX]).
      destruct (IH ci X u res PR HX' (upward_eq _ _ _ _ _ (Qeq_sym _ _ EQ) UP)) as (li' & P' & u' & vs & pieces & E' & HP' & RT & SS & LA & MEM).
      exists li', P', u', vs, pieces. split; [exact E'|]. split; [exact HP'|]. split; [exact RT|]. split; [exact SS|]. split; [exact LA|]. intro w. rewrite MEM. split.
      * intros [EW|(i & Y & IY & OY)]; [left; exact EW|]. right. exists i, Y. split; [right; exact IY|exact OY].
      * intros [EW|(i & Y & [EY|IY] & OY)]; [left; exact EW| |].
        -- injection EY as <- <-. left. pose proof (on_side_place ps ci v w X PR HX OY). lra.
        -- right. exists i, Y. auto.
Qed.

Lemma push_range_snoc : forall cmp ps k a pi, push_range cmp ps (S k) a pi = match push_range cmp ps k a pi with None => None | Some q => match nth_error ps (a + k) with None => None | Some p => Some (push_new cmp q p) end end.
Proof.
  intros cmp ps k. induction k as [|k IH]; intros a pi.
  - cbn [push_range]. rewrite Nat.add_0_r. reflexivity.
  - change (push_range cmp ps (S (S k)) a pi) with (match nth_error ps a with None => None | Some p => push_range cmp ps (S k) (S a) (push_new cmp pi p) end).
    cbn [push_range] in IH |- *. destruct (nth_error ps a) as [p|]; [|reflexivity]. specialize (IH (S a) (push_new cmp pi p)). cbn [push_range] in IH. rewrite IH. replace (S a + k)%nat with (a + S k)%nat by lia. reflexivity.
Qed.
Lemma sorted_app_one : forall us v x, StronglySorted Qlt us -> us <> [] -> last us x < v -> StronglySorted Qlt (us ++ [v]).
Proof.
  induction us as [|u us IH]; intros v x SS NE L; [congruence|]. inversion SS as [|? ? S1 S2]; subst. destruct us as [|u2 us].
  - cbn in *. repeat constructor. exact L.
  - assert (L2 : last (u2 :: us) x < v) by exact L. specialize (IH v x S1 ltac:(discriminate) L2). change ((u :: u2 :: us) ++ [v]) with (u :: (u2 :: us) ++ [v]).
    constructor; [exact IH|]. apply Forall_app. split; [exact S2|]. constructor; [|constructor].
    assert (H : u < last (u2 :: us) x). { rewrite Forall_forall in S2. apply S2. clear. revert u2. induction us as [|a us IH]; intro u2; [left; reflexivity|right; apply IH]. }
    lra.
Qed.
Lemma runs_through_app : forall ps us pieces v p, us <> [] -> runs_through ps us pieces -> runs ps (last us 0) v p -> runs_through ps (us ++ [v]) (pieces ++ [p]).
Proof.
  intros ps us. induction us as [|u us IH]; intros pieces v p NE R RL; [congruence|]. destruct us as [|u2 us].
  - destruct pieces as [|q pieces]; [|contradiction]. cbn in *. auto.
  - destruct pieces as [|q pieces]; [contradiction|]. destruct R as [R1 R2]. change ((u :: u2 :: us) ++ [v]) with (u :: u2 :: us ++ [v]). change ((q :: pieces) ++ [p]) with (q :: pieces ++ [p]). split; [exact R1|]. apply (IH pieces v p); [discriminate|exact R2|exact RL].
Qed.
Lemma runs_eq : forall ps u u' v p, u == u' -> runs ps u v p -> runs ps u' v p.
Proof.
  intros ps u u' v p E (UV & X & Y & a & k & HX & HY & F & IN). split; [lra|]. exists X, Y, a, k. split; [apply (at_place_eq ps u u' X X E (pteq_refl X) HX)|]. split; [exact HY|]. split; [exact F|].
  intro i. rewrite <- IN. split; lra.
Qed.

Theorem split_ok : forall ps cuts, (2 <= length ps)%nat -> proper_polyline ps -> cuts <> [] -> upward ps 0 0 cuts ->
  exists places pieces, split_pieces direct cuts ps = Some pieces /\ all_along ps places /\ runs_through ps places pieces /\
    (forall w, listed w places <-> w == 0 \/ w == qn (length ps - 1) \/ cut_at ps cuts w).
Proof.
  intros ps cuts L PR NE UP. unfold cut in *. destruct cuts as [|[ci X] cuts]; [congruence|].
  assert (HP0 : on_side ps 0 0 (pnth ps 0)). { exists (pnth ps 0), (pnth ps 1), 0. split; [apply edge_pnth2; split; [lia|auto]|]. split; [lra|]. split; [rewrite qn_0; lra|]. apply pteq_sym, lerp_0. reflexivity. }
  assert (LOOP : split_pieces direct ((ci, X) :: cuts) ps = match split_loop direct ps ((ci, X) :: cuts) 0 (pnth ps 0) [] with None => None | Some (lastIndex, lastPoint, results) =>
          match push_range direct ps (length ps - S lastIndex) (S lastIndex) [lastPoint] with None => None | Some pi => Some (keep_piece pi results) end end).
  { unfold split_pieces. rewrite (nth_error_nth' ps (mkpt 0 0)) by lia. fold (pnth ps 0). cbn [split_loop]. rewrite Nat.sub_0_r. destruct (push_range direct ps ci 1 [pnth ps 0]); reflexivity. }
  rewrite LOOP. destruct (split_loop_ok ps ((ci, X) :: cuts) 0 (pnth ps 0) 0 [] PR HP0 UP) as (li & P & u & vs & pieces & E & HP & RT & SS & LA & MEM). rewrite E. cbn [app].
  set (n := length ps) in *. assert (LI : (S li < n)%nat). { destruct HP as (A & B & t & EI & _). apply (polyline_edge_bound _ _ _ _ EI). }
  assert (HE : on_side ps (n - 2) (qn (n - 1)) (pnth ps (n - 1))).
  { exists (pnth ps (n - 2)), (pnth ps (n - 1)), 1. split; [apply edge_pnth2; split; [unfold n; lia|split; [reflexivity|f_equal; lia]]|]. split; [lra|]. split; [replace (n - 1)%nat with (S (n - 2)) by lia; apply qn_S|]. apply pteq_sym, lerp_1. reflexivity. }
  assert (UE : u <= qn (n - 1)). { pose proof (at_place_range ps u P ltac:(exists li; exact HP)). unfold n. lra. }
  destruct (advance ps li P u (n - 2) (pnth ps (n - 1)) (qn (n - 1)) PR HP HE ltac:(lia) UE) as (pi & EPI & _).
  assert (LAST : push_range direct ps (n - S li) (S li) [P] = Some (push_new direct pi (pnth ps (n - 1)))).
  { replace (n - S li)%nat with (S (n - 2 - li)) by lia. rewrite push_range_snoc, EPI. replace (S li + (n - 2 - li))%nat with (n - 1)%nat by lia. rewrite (nth_error_nth' ps (mkpt 0 0)) by (unfold n; lia). reflexivity. }
  rewrite LAST.
  assert (HD : hd 0 (0 :: vs) == 0) by reflexivity.
  destruct (step_ok ps li P u (n - 2) (pnth ps (n - 1)) (qn (n - 1)) pi pieces PR HP HE ltac:(lia) UE EPI) as [(LT & p & K & R)|[EQ K]]; rewrite K.
  - exists ((0 :: vs) ++ [qn (n - 1)]), (pieces ++ [p]). split; [reflexivity|]. split.
    { split; [apply (sorted_app_one (0 :: vs) (qn (n - 1)) 0 SS); [discriminate|lra]|]. split; [reflexivity|]. rewrite last_last. reflexivity. }
    split; [apply runs_through_app; [discriminate|exact RT|apply (runs_eq ps u); [lra|exact R]]|].
    intro w. split.
    + intros (x & IX & EX). apply in_app_iff in IX as [IX|[<-|[]]].
      * assert (LW : listed w (0 :: vs)) by (exists x; auto). apply MEM in LW as [EW|CW]; auto.
      * right. left. lra.
    + intros [EW|[EW|CW]].
      * exists 0. split; [left; reflexivity|lra].
      * exists (qn (n - 1)). split; [apply in_app_iff; right; left; reflexivity|lra].
      * assert (LW : listed w (0 :: vs)) by (apply MEM; right; exact CW). destruct LW as (x & IX & EX). exists x. split; [apply in_app_iff; left; exact IX|exact EX].
  - exists (0 :: vs), pieces. split; [reflexivity|]. split; [split; [exact SS|split; [reflexivity|fold n; lra]]|]. split; [exact RT|]. intro w. rewrite MEM. split.
    + intros [EW|CW]; auto.
    + intros [EW|[EW|CW]]; auto. apply MEM. exists (last (0 :: vs) 0). split; [|lra]. clear. generalize 0 at 1 3. revert vs. intro vs. induction vs as [|a vs IH]; intro q; [left; reflexivity|right; apply IH].
Qed.
