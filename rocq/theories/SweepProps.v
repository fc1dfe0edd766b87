(** C107: the segment sweep finds every intersection. *)
From Verif Require Import Base CmpModel CmpProof OrientModel OrientSpec OrientProof DistModel DistSpec DistProof LinIntModel LinIntSpec LinIntProof SweepModel SweepSpec SweepProof1 SweepProof2 SweepProof3 SweepProof4 SweepProof5.
From Coq Require Import Arith Sorting.Sorted.

(** ** From the given segments to the segments taken from left to right *)
Lemma from_left_seg : forall s, ~ fst s =p= snd s -> hpos (dir (from_left direct s)).
Proof.
  intros s N. unfold from_left. apply hpos_lexlt. destruct (lex_less_dec (fst s) (snd s)) as [L|L]; [exact L|]. cbn. destruct (lex_total (fst s) (snd s)) as [T|[T|T]]; [contradiction|contradiction|exact T].
Qed.
Lemma on_segment_swap : forall a b z, on_segment a b z -> on_segment b a z.
Proof. intros a b z (t & Ht & E). exists (1 - t). split; [lra|]. eapply pteq_trans; [exact E|]. split; unfold lerp, vadd, vscale, vsub; cbn; ring. Qed.
Lemma from_left_on : forall s z, on_segment (fst (from_left direct s)) (snd (from_left direct s)) z <-> on_segment (fst s) (snd s) z.
Proof. intros s z. unfold from_left. destruct (lex_less direct (fst s) (snd s)); [tauto|]. cbn. split; apply on_segment_swap. Qed.
Lemma seg_at_map : forall segs i a b, nth_error segs i = Some (a, b) -> seg_at (map (from_left direct) segs) i = from_left direct (a, b).
Proof. intros segs i a b H. unfold seg_at. apply nth_error_nth. rewrite nth_error_map, H. reflexivity. Qed.
Lemma passes_through : forall segs z i, passes (map (from_left direct) segs) z i <-> through segs z i.
Proof.
  intros segs z i. unfold passes, through. rewrite map_length. split.
  - intros [N O]. destruct (nth_error segs i) as [[a b]|] eqn:E; [|apply nth_error_None in E; lia]. exists a, b. split; [reflexivity|].
    rewrite (seg_at_map _ _ _ _ E) in O. exact (proj1 (from_left_on (a, b) z) O).
  - intros (a & b & E & O). split; [apply nth_error_Some; congruence|]. rewrite (seg_at_map _ _ _ _ E). exact (proj2 (from_left_on (a, b) z) O).
Qed.
Lemma end_of_left : forall segs z i, end_of segs z i <-> (i < length segs)%nat /\ (z =p= fst (seg_at (map (from_left direct) segs) i) \/ z =p= snd (seg_at (map (from_left direct) segs) i)).
Proof.
  intros segs z i. unfold end_of. split.
  - intros (a & b & E & O). split; [apply nth_error_Some; congruence|]. rewrite (seg_at_map _ _ _ _ E). unfold from_left. destruct (lex_less direct _ _); cbn; tauto.
  - intros [N O]. destruct (nth_error segs i) as [[a b]|] eqn:E; [|apply nth_error_None in E; lia]. exists a, b. split; [reflexivity|].
    rewrite (seg_at_map _ _ _ _ E) in O. unfold from_left in O. destruct (lex_less direct _ _); cbn in O; tauto.
Qed.

(** Two parallel segments with a common point: the later of the two starts is common. *)
Lemma later_start : forall s1 s2 z, hpos (dir s1) -> hpos (dir s2) -> cross (dir s1) (dir s2) == 0 -> on_segment (fst s1) (snd s1) z -> on_segment (fst s2) (snd s2) z ->
  lexlt (fst s1) (fst s2) -> on_segment (fst s1) (snd s1) (fst s2).
Proof.
  intros s1 s2 z D1 D2 C O1 O2 L. destruct (on_range _ _ D1 O1) as [A1 B1]. destruct (on_range _ _ D2 O2) as [A2 B2]. apply in_range_on; [exact D1| |intro G; exact (lexlt_irrefl _ (lexlt_trans _ _ _ L G))|].
  - apply on_height in O1. apply on_height in O2. apply sg_zero. rewrite (sg_compat _ _ (height_from s1 (fst s2) z O1)), (parallel_sg _ _ _ D1 D2 C).
    apply sg_zero. rewrite <- (height_from s2 (fst s2) z O2). apply height_base.
  - intro G. apply A2. apply lexlt_trans' with (snd s1); [exact B1|exact G].
Qed.
Lemma common_start : forall s1 s2 z, hpos (dir s1) -> hpos (dir s2) -> cross (dir s1) (dir s2) == 0 -> on_segment (fst s1) (snd s1) z -> on_segment (fst s2) (snd s2) z ->
  exists w, (w = fst s1 \/ w = fst s2) /\ on_segment (fst s1) (snd s1) w /\ on_segment (fst s2) (snd s2) w.
Proof.
  intros s1 s2 z D1 D2 C O1 O2. assert (C' : cross (dir s2) (dir s1) == 0) by (rewrite cross_anti, C; ring).
  destruct (lex_total (fst s1) (fst s2)) as [T|[T|T]].
  - exists (fst s2). split; [right; reflexivity|]. split; [eapply later_start; eassumption|apply (on_segment_ends _ _)].
  - exists (fst s1). split; [left; reflexivity|]. split; [apply (on_segment_ends _ _)|]. eapply on_segment_compat; [apply pteq_refl|apply pteq_refl|apply pteq_sym, T|apply (on_segment_ends _ _)].
  - exists (fst s1). split; [left; reflexivity|]. split; [apply (on_segment_ends _ _)|]. apply (later_start s2 s1 z); assumption.
Qed.

(** A first common point that is stopped at is an end or the only common point. *)
Lemma pair_point_kind : forall A B C D X, nonzero (vsub B A) -> nonzero (vsub D C) -> In X (pair_points (A, B) (C, D)) ->
  (X = A \/ X = B \/ X = C \/ X = D) \/ is_single_point (both (on_segment A B) (on_segment C D)) X.
Proof.
  intros A B C D X N1 N2 H. unfold pair_points in H; cbn [fst snd] in H. destruct (segseg_ok A B C D N1 N2) as (ty & pts & R & Sp). cbv zeta in Sp. rewrite R in H.
  destruct pts as [|Y pts]; [destruct H|]. destruct H as [->|[]].
  destruct (equals direct (xdenom A B C D) 0) eqn:De.
  - left. unfold segment_segment_intersection in R. rewrite De in R. injection R as R. unfold parallel_intersection in R.
    repeat match type of R with context [if ?b then _ else _] => destruct b end; first [discriminate R|injection R as _ <- _; tauto].
  - right. assert (NP : ~ parallel (vsub B A) (vsub D C)).
    { intro P. apply parallel_cross in P; [|exact N1|exact N2]. cbn [equals direct] in De. destruct (Qeqb_spec (xdenom A B C D) 0) as [Z|Z]; [discriminate|].
      apply Z. rewrite xdenom_cross, P. reflexivity. }
    destruct ty.
    all: try (destruct Sp as (X' & E & S1 & _); injection E as -> _; exact S1).
    all: exfalso; try contradiction.
    + destruct Sp; discriminate.
    + destruct Sp as (X' & Y' & _ & _ & P). contradiction.
Qed.

(** ** The property *)

(** For segments that are not single points: the sweep ends within n * n + 2 n events whatever the shapes of its
    search trees.  The points are reported from left to right, each once, together with exactly the
    segments through them, at least two.  Every reported point is an end of a segment or the only common
    point of two.  Every end on two or more segments, and every only common point of two segments, is reported. *)
Theorem C107_sweep : forall tree segs t, search_tree tree -> (forall a b, In (a, b) segs -> ~ a =p= b) ->
  (length segs * length segs + 2 * length segs <= t)%nat ->
  exists reports, sweep direct tree t segs = Some (Some reports) /\
  StronglySorted lex_before (map fst reports) /\
  (forall p ids, In (p, ids) reports -> StronglySorted lt ids /\ (2 <= length ids)%nat /\ (forall i, In i ids <-> through segs p i)) /\
  (forall p ids, In (p, ids) reports -> (exists i, end_of segs p i) \/ (exists i j, i <> j /\ only_common segs p i j)) /\
  (forall p i j, i <> j -> through segs p i -> through segs p j -> (exists k, end_of segs p k) \/ only_common segs p i j ->
     exists p' ids, In (p', ids) reports /\ p' =p= p).
Proof.
  intros tree segs t HT HN Ht. set (ss := map (from_left direct) segs).
  assert (HD : forall i, (i < length ss)%nat -> hpos (dir (seg_at ss i))).
  { intros i Hi. unfold ss in Hi. rewrite map_length in Hi. destruct (nth_error segs i) as [[a b]|] eqn:E; [|apply nth_error_None in E; lia].
    unfold ss. rewrite (seg_at_map _ _ _ _ E). apply from_left_seg. apply (HN a b), (nth_error_In _ _ E). }
  destruct (sweep_ok ss HD tree HT t) as (r & E & R1 & R2 & R3); [unfold ss; rewrite map_length; lia|].
  exists r. split; [exact E|]. split; [exact R1|]. split; [|split].
  - intros p ids H. destruct (R2 p ids H) as (_ & H1 & H2 & H3). split; [exact H1|]. split; [exact H2|]. intro i. rewrite H3. apply passes_through.
  - intros p ids H. destruct (R2 p ids H) as (K & _). unfold stops in K. rewrite !in_app_iff in K.
    assert (Idx : forall s, In s ss -> exists i, (i < length segs)%nat /\ seg_at ss i = s).
    { intros s Hs. destruct (In_nth ss s (mkpt 0 0, mkpt 0 0) Hs) as (i & Hi & Ei). exists i. unfold ss in Hi. rewrite map_length in Hi. split; [exact Hi|exact Ei]. }
    assert (EndOf : forall s, In s ss -> p = fst s \/ p = snd s -> exists i, end_of segs p i).
    { intros s Hs Hp. destruct (Idx s Hs) as (i & Hi & Ei). exists i. apply end_of_left. split; [exact Hi|]. fold ss. rewrite Ei. destruct Hp as [->| ->]; [left|right]; apply pteq_refl. }
    destruct K as [K|[K|K]].
    + left. apply in_map_iff in K. destruct K as (s & Es & Hs). apply (EndOf s Hs). left. symmetry. exact Es.
    + left. apply in_map_iff in K. destruct K as (s & Es & Hs). apply (EndOf s Hs). right. symmetry. exact Es.
    + apply in_flat_map in K. destruct K as (s1 & Hs1 & K). apply in_flat_map in K. destruct K as (s2 & Hs2 & K).
      destruct (Idx s1 Hs1) as (i & Hi & Ei). destruct (Idx s2 Hs2) as (j & Hj & Ej).
      assert (D1 := HD i ltac:(unfold ss; rewrite map_length; exact Hi)). assert (D2 := HD j ltac:(unfold ss; rewrite map_length; exact Hj)). rewrite Ei in D1. rewrite Ej in D2.
      destruct s1 as [A B], s2 as [C D]. destruct (pair_point_kind A B C D p (hpos_nonzero _ D1) (hpos_nonzero _ D2) K) as [G|G].
      * left. destruct G as [G|[G|[G|G]]]; [apply (EndOf _ Hs1); left; exact G|apply (EndOf _ Hs1); right; exact G|apply (EndOf _ Hs2); left; exact G|apply (EndOf _ Hs2); right; exact G].
      * destruct (Nat.eq_dec i j) as [Eij|Nij].
        -- exfalso. subst j. rewrite Ei in Ej. injection Ej as -> ->. apply (lexlt_neq C D); [apply hpos_lexlt, D1|].
           assert (X1 : C =p= p) by (apply G; split; apply on_segment_ends). assert (X2 : D =p= p) by (apply G; split; apply on_segment_ends).
           eapply pteq_trans; [exact X1|apply pteq_sym, X2].
        -- right. exists i, j. split; [exact Nij|]. intro z. rewrite <- !passes_through. fold ss. unfold passes. rewrite Ei, Ej. unfold ss. rewrite map_length. cbn [fst snd].
           assert (Gz := G z). unfold both in Gz. tauto.
  - intros p i j Nij Pi Pj K.
    assert (Pi' : passes ss p i) by (apply passes_through, Pi). assert (Pj' : passes ss p j) by (apply passes_through, Pj).
    apply (R3 p i j); [|exact Nij|exact Pi'|exact Pj'].
    destruct K as [(k & K)|K].
    + left. exists k. apply end_of_left in K. unfold ss. rewrite map_length. exact K.
    + destruct (Qeq_dec (cross (dir (seg_at ss i)) (dir (seg_at ss j))) 0) as [C|C]; [|right; exists i, j; tauto].
      left. destruct Pi' as [Ni Oi]. destruct Pj' as [Nj Oj]. destruct (common_start _ _ p (HD i Ni) (HD j Nj) C Oi Oj) as (w & Ew & W1 & W2).
      assert (G : w =p= p) by (apply K; split; apply passes_through; split; assumption).
      destruct Ew as [->| ->]; [exists i|exists j]; (split; [assumption|left; apply pteq_sym, G]).
Qed.
Print Assumptions C107_sweep.

(** Two segments with a common point are reported together. *)
Theorem C107_every_pair : forall tree segs t, search_tree tree -> (forall a b, In (a, b) segs -> ~ a =p= b) ->
  (length segs * length segs + 2 * length segs <= t)%nat ->
  exists reports, sweep direct tree t segs = Some (Some reports) /\
  forall i j, i <> j -> ((exists z, through segs z i /\ through segs z j) <-> exists p ids, In (p, ids) reports /\ In i ids /\ In j ids).
Proof.
  intros tree segs t HT HN Ht. destruct (C107_sweep tree segs t HT HN Ht) as (r & E & _ & R2 & _ & R4). exists r. split; [exact E|]. intros i j Nij. split.
  - intros (z & Zi & Zj).
    assert (W : exists w, through segs w i /\ through segs w j /\ ((exists k, end_of segs w k) \/ only_common segs w i j)).
    { set (ss := map (from_left direct) segs). assert (Pi : passes ss z i) by (apply passes_through, Zi). assert (Pj : passes ss z j) by (apply passes_through, Zj). destruct Pi as [Ni Oi]. destruct Pj as [Nj Oj].
      assert (HD : forall i, (i < length ss)%nat -> hpos (dir (seg_at ss i))).
      { intros k Hk. unfold ss in Hk. rewrite map_length in Hk. destruct (nth_error segs k) as [[a b]|] eqn:Ek; [|apply nth_error_None in Ek; lia].
        unfold ss. rewrite (seg_at_map _ _ _ _ Ek). apply from_left_seg. apply (HN a b), (nth_error_In _ _ Ek). }
      destruct (Qeq_dec (cross (dir (seg_at ss i)) (dir (seg_at ss j))) 0) as [C|C].
      - destruct (common_start _ _ z (HD i Ni) (HD j Nj) C Oi Oj) as (w & Ew & W1 & W2). exists w. split; [apply passes_through; split; assumption|]. split; [apply passes_through; split; assumption|]. left.
        unfold ss in Ni, Nj. rewrite map_length in Ni, Nj. destruct Ew as [->| ->]; [exists i|exists j]; apply end_of_left; (split; [assumption|left; apply pteq_refl]).
      - exists z. split; [exact Zi|]. split; [exact Zj|]. right. intro y. rewrite <- !passes_through. fold ss. split.
        + intros [[_ Y1] [_ Y2]]. eapply pteq_trans; [apply (meet_unique (seg_at ss i) (seg_at ss j)); [exact C|apply on_height, Y1|apply on_height, Y2]|].
          apply pteq_sym. apply meet_unique; [exact C|apply on_height, Oi|apply on_height, Oj].
        + intro Ey. split; (split; [assumption|]); (eapply on_segment_compat; [apply pteq_refl|apply pteq_refl|apply pteq_sym, Ey|assumption]). }
    destruct W as (w & W1 & W2 & W3). destruct (R4 w i j Nij W1 W2 W3) as (p & ids & Hin & Ep). exists p, ids. split; [exact Hin|].
    destruct (R2 p ids Hin) as (_ & _ & Mem).
    assert (Tr : forall k, through segs w k -> through segs p k).
    { intros k (a & b & Ek & O). exists a, b. split; [exact Ek|]. eapply on_segment_compat; [apply pteq_refl|apply pteq_refl|apply pteq_sym, Ep|exact O]. }
    split; apply Mem, Tr; assumption.
  - intros (p & ids & Hin & Hi & Hj). destruct (R2 p ids Hin) as (_ & _ & Mem). exists p. split; apply Mem; assumption.
Qed.
Print Assumptions C107_every_pair.

(** ** Examples *)
(** The search that always tries the elements in order. *)
Fixpoint first_less (answers : list bool) : nat :=
  match answers with
  | [] => 0
  | true :: _ => 0
  | false :: answers' => S (first_less answers')
  end.
Definition in_order : place := fun _ _ answers => first_less answers.
Lemma in_order_tree : search_tree in_order.
Proof.
  intros t i answers. unfold in_order. induction answers as [|a answers (IH1 & IH2 & IH3)]; [cbn; repeat split; [lia|discriminate|lia]|].
  destruct a; cbn [first_less length].
  - split; [lia|]. split; [discriminate|reflexivity].
  - split; [lia|]. split; [|intro H; apply IH3; lia]. intros k E. injection E as E. destruct k as [|k]; [reflexivity|]. apply (IH2 k). exact E.
Qed.

(** Three segments through one point, one of them upright, and two overlapping ones. *)
Definition star : list seg :=
  [(mkpt 0 0, mkpt 4 4); (mkpt 4 0, mkpt 0 4); (mkpt 2 5, mkpt 2 (-1)); (mkpt 3 (-1), mkpt 9 (-1)); (mkpt 2 (-1), mkpt 5 (-1))].
Example C107_witness : search_tree in_order /\ (forall a b, In (a, b) star -> ~ a =p= b) /\
  sweep direct in_order 35 star = Some (Some [(mkpt 2 (-1), [2; 4]); (mkpt (64 # 32) (64 # 32), [0; 1; 2]); (mkpt 3 (-1), [3; 4]); (mkpt 5 (-1), [3; 4])])%nat.
Proof.
  split; [exact in_order_tree|]. split.
  - intros a b H. cbn in H. repeat (destruct H as [H|H]; [injection H as <- <-; intros [E1 E2]; cbn in E1, E2; lra|]). destruct H.
  - vm_compute. reflexivity.
Qed.

(** A single point among the segments is never removed from the sweep line; it can stand between two segments, and their
    crossing is missed. *)
Definition blocked : list seg :=
  [(mkpt 0 0, mkpt 10 0); (mkpt 0 2, mkpt 10 (-2)); (mkpt 0 1, mkpt 2 1); (mkpt 1 (3 # 2), mkpt 1 (3 # 2))].
Theorem C107_single_point_refuted : exists tree segs, search_tree tree /\ only_common segs (mkpt 5 0) 0 1 /\
  forall t, (8 <= t)%nat -> sweep direct tree t segs = Some (Some []).
Proof.
  exists in_order, blocked. split; [exact in_order_tree|]. split.
  - intro z. unfold through. cbn [nth_error blocked]. split.
    + intros [(a & b & E1 & (s & Hs & X1 & X2)) (c & d & E2 & (r & Hr & Y1 & Y2))]. injection E1 as <- <-. injection E2 as <- <-.
      unfold lerp, vadd, vscale, vsub in *; cbn in *. split; cbn; lra.
    + intros [E1 E2]. cbn in E1, E2. split; eexists _, _; (split; [reflexivity|]); exists (1 # 2); (split; [lra|]); split; unfold lerp, vadd, vscale, vsub; cbn; lra.
  - intros t Ht. replace t with (8 + (t - 8))%nat by lia. vm_compute. reflexivity.
Qed.
Print Assumptions C107_single_point_refuted.
