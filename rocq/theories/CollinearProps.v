(** Properties of sets of collinear segments (C103). *)
From Verif Require Import Base CmpModel OrientModel OrientSpec OrientProof CollinearModel CollinearSpec CollinearProof.

(** The direction of a line, pointing up the dictionary order. *)
Lemma upward : forall A B, nonzero (vsub B A) ->
  exists V, (0 < px V \/ (px V == 0 /\ 0 < py V)) /\
    (forall X, on_line A B X <-> exists t, X =p= vadd A (vscale t V)).
Proof.
  intros A B N.
  destruct (Qlt_le_dec 0 (px (vsub B A))) as [H|H].
  { exists (vsub B A). split; [left; exact H|]. intro X. unfold on_line, lerp. tauto. }
  assert (F : forall X, on_line A B X <-> exists t, X =p= vadd A (vscale t (vneg (vsub B A)))).
  { intro X. split; intros (t & Hx & Hy); exists (- t); split; unfold lerp, vadd, vscale, vneg, vsub in *; simpl in *; lra. }
  destruct (Qlt_le_dec (px (vsub B A)) 0) as [H'|H'].
  { exists (vneg (vsub B A)). split; [left; unfold vneg; simpl; simpl in H'; lra|exact F]. }
  assert (Z : px (vsub B A) == 0) by lra.
  destruct (Qlt_le_dec 0 (py (vsub B A))) as [G|G].
  { exists (vsub B A). split; [right; split; [exact Z|exact G]|]. intro X. unfold on_line, lerp. tauto. }
  exists (vneg (vsub B A)). split; [right|exact F].
  assert (~ py (vsub B A) == 0) by (intro E; apply N; split; assumption).
  unfold vneg; cbn [px py]. split; [lra|]. destruct (Qlt_le_dec 0 (- py (vsub B A))); auto. exfalso; apply H0; lra.
Qed.

Section Run.
Variables A B : pt.
Hypothesis AB : nonzero (vsub B A).
Variable V : pt.
Hypothesis VP : 0 < px V \/ (px V == 0 /\ 0 < py V).
Hypothesis LV : forall X, on_line A B X <-> exists t, X =p= vadd A (vscale t V).

Lemma line_onl : forall X, on_line A B X -> onl A V X.
Proof. intros X H. apply LV in H. destruct H as [t H]. exact (onl_at A V VP X t H). Qed.

Lemma real_good : forall s, real_segment s -> lies_on A B s -> good A V s.
Proof.
  intros s R [L1 L2]. apply line_onl in L1. apply line_onl in L2. split; [exact L1|]. split; [exact L2|].
  intro E. apply (pos_eq A V VP _ _ L1 L2) in E. apply R. destruct E as [E1 E2]. unfold vsub; simpl. split; lra.
Qed.

Lemma good_real : forall s, good A V s -> real_segment s /\ lies_on A B s.
Proof.
  intros s (L1 & L2 & N). split.
  - intros [E1 E2]. unfold vsub in E1, E2; simpl in E1, E2. apply N. apply (pos_eq A V VP _ _ L1 L2). split; lra.
  - split; apply LV; eexists; [exact L1|exact L2].
Qed.

Lemma covered_lcov : forall l X, allgood A V l -> (covered l X <-> onl A V X /\ lcov A V l (pos A V X)).
Proof.
  intros l X G. split.
  - intros (s & Hs & Hc). apply (seg_cov A V VP s X (G s Hs)) in Hc. destruct Hc as [H1 H2]. split; [exact H1|]. exists s; auto.
  - intros [H1 (s & Hs & Hc)]. exists s; split; [exact Hs|]. apply (seg_cov A V VP s X (G s Hs)). auto.
Qed.

Lemma sep_nth : forall l i j s t, sep A V l -> (i < j)%nat -> nth_error l i = Some s -> nth_error l j = Some t ->
  before A V s t.
Proof.
  induction l as [|x l IH]; intros [|i] [|j] s t S L Hi Hj; try lia; try discriminate; simpl in *.
  - injection Hi as <-. apply S. eapply nth_error_In; exact Hj.
  - apply (IH i j); try assumption; [apply S|lia].
Qed.

Lemma pos_precedes : forall P Q, onl A V P -> onl A V Q -> pos A V P < pos A V Q -> precedes P Q.
Proof.
  intros P Q HP HQ L. unfold precedes.
  pose proof (onl_x A V P HP) as A1. pose proof (onl_y A V P HP) as A2.
  pose proof (onl_x A V Q HQ) as B1. pose proof (onl_y A V Q HQ) as B2.
  destruct VP as [H|[H1 H2]]; [left; nra|right; split; [|nra]]. rewrite A1, B1, H1. ring.
Qed.

Lemma sep_order : forall l, allgood A V l -> sep A V l -> in_order l.
Proof.
  intros l G S i j s t P Q L Hi Hj HP HQ.
  pose proof (sep_nth l i j s t S L Hi Hj) as F.
  apply (seg_cov A V VP) in HP; [|apply G; eapply nth_error_In; exact Hi].
  apply (seg_cov A V VP) in HQ; [|apply G; eapply nth_error_In; exact Hj].
  destruct HP as [P1 P2], HQ as [Q1 Q2]. apply pos_precedes; auto. unfold before, cov in *. lra.
Qed.

Lemma run_ok : forall es l D (Ex : pt -> Prop),
  allgood A V l -> sep A V l -> (forall X, ~ Ex X -> (covered l X <-> D X)) ->
  (forall s, In (Add s) es -> real_segment s /\ lies_on A B s) ->
  (forall s, In (Remove s) es -> real_segment s -> lies_on A B s) ->
  exists l', run_edits direct l es = Some l' /\ allgood A V l' /\ sep A V l' /\
    (forall X, ~ Ex X -> no_cut_end es X -> (covered l' X <-> fold_left drawn_after es D X)).
Proof.
  induction es as [|e es IH]; intros l D Ex G S C HA HR.
  - exists l. simpl. split; [reflexivity|]. split; [exact G|]. split; [exact S|]. intros X NX _. apply C; exact NX.
  - assert (HA' : forall s, In (Add s) es -> real_segment s /\ lies_on A B s) by (intros s H; apply HA; right; exact H).
    assert (HR' : forall s, In (Remove s) es -> real_segment s -> lies_on A B s) by (intros s H; apply HR; right; exact H).
    destruct e as [s|s]; cbn [run_edits apply_edit].
    + destruct (HA s (or_introl eq_refl)) as [R L].
      pose proof (real_good s R L) as Gs.
      destruct (union_ok A V VP l s Gs G S) as (l1 & E & G1 & S1 & C1). rewrite E.
      destruct (IH l1 (drawn_after D (Add s)) Ex G1 S1) as (l2 & E2 & G2 & S2 & C2); auto.
      { intros X NX. rewrite covered_lcov, C1 by assumption. simpl. rewrite <- C by assumption.
        rewrite (covered_lcov l X G), (seg_cov A V VP s X Gs). tauto. }
      exists l2. split; [exact E2|]. split; [exact G2|]. split; [exact S2|]. intros X NX HC.
      apply C2; [exact NX|intros q Hq; apply HC; right; exact Hq].
    + destruct (same_point direct (fst s) (snd s)) eqn:SP.
      * assert (E : collinear_segment_difference direct l s = Some l) by (unfold collinear_segment_difference; rewrite SP; reflexivity).
        rewrite E.
        destruct (IH l (drawn_after D (Remove s)) (fun X => Ex X \/ X =p= fst s) G S) as (l2 & E2 & G2 & S2 & C2); auto.
        { intros X NX. rewrite C by tauto. simpl. split; [|tauto]. intro HD; split; [exact HD|].
          intros (t & _ & Hx & Hy). apply NX. right.
          unfold same_point, cpt in SP; simpl in SP. rewrite !andb_true_iff, !Qeqb_eq in SP.
          destruct SP as [Sy Sx]. unfold lerp, vadd, vscale, vsub in Hx, Hy; simpl in Hx, Hy.
          rewrite Sx in Hx; rewrite Sy in Hy. split; rewrite ?Sx, ?Sy; lra. }
        exists l2. split; [exact E2|]. split; [exact G2|]. split; [exact S2|]. intros X NX HC.
        apply C2; [intros [?|?]; [auto|]|intros q Hq; apply HC; right; exact Hq].
        destruct (HC s (or_introl eq_refl)); auto.
      * assert (R : real_segment s).
        { intros [E1 E2]. unfold vsub in E1, E2; simpl in E1, E2.
          unfold same_point, cpt in SP; simpl in SP.
          destruct (Qeqb_spec (py (fst s)) (py (snd s))) as [|N]; [|apply N; lra].
          destruct (Qeqb_spec (px (fst s)) (px (snd s))) as [|N]; [discriminate|apply N; lra]. }
        pose proof (real_good s R (HR s (or_introl eq_refl) R)) as Gs.
        destruct (difference_ok A V VP l s Gs G S) as (l1 & E & G1 & S1 & C1). rewrite E.
        destruct (IH l1 (drawn_after D (Remove s)) (fun X => Ex X \/ X =p= fst s \/ X =p= snd s) G1 S1) as (l2 & E2 & G2 & S2 & C2); auto.
        { intros X NX. cbn [drawn_after]. rewrite <- C by tauto.
          rewrite (covered_lcov l X G), (seg_cov A V VP s X Gs), (covered_lcov l1 X G1).
          assert (onl A V X -> (lcov A V l1 (pos A V X) <-> lcov A V l (pos A V X) /\ ~ cov A V s (pos A V X))); [|tauto].
          intro HX. destruct Gs as (K1 & K2 & K3). apply C1; intro Q; apply (pos_eq A V VP) in Q; tauto. }
        exists l2. split; [exact E2|]. split; [exact G2|]. split; [exact S2|]. intros X NX HC.
        apply C2; [intros [?|?]; [auto|]|intros q Hq; apply HC; right; exact Hq].
        destruct (HC s (or_introl eq_refl)); tauto.
Qed.
End Run.

(** C103: after any history of additions of real segments of one line and
    removals of segments of that line, starting from the empty set: no assertion
    fired; the members are real segments of the line, stored in order, no two
    sharing even an end point; and, except possibly at the end points of removed
    segments, exactly the points that should be drawn are covered. *)
Theorem C103_history : forall A B es, nonzero (vsub B A) ->
  (forall s, In (Add s) es -> real_segment s /\ lies_on A B s) ->
  (forall s, In (Remove s) es -> real_segment s -> lies_on A B s) ->
  exists l, run_edits direct [] es = Some l /\
    (forall s, In s l -> real_segment s /\ lies_on A B s) /\
    in_order l /\ apart_set l /\
    (forall X, no_cut_end es X -> (covered l X <-> drawn es X)).
Proof.
  intros A B es AB HA HR. destruct (upward A B AB) as (V & VP & LV).
  destruct (run_ok A B V VP LV es [] (fun _ => False) (fun _ => False)) as (l & E & G & S & C); auto.
  { intros s []. }
  { exact I. }
  { intros X _. split; [intros (s & [] & _)|contradiction]. }
  exists l. split; [exact E|]. split.
  { intros s Hs. apply (good_real A B V VP LV). apply G; exact Hs. }
  pose proof (sep_order A V VP l G S) as O. split; [exact O|]. split.
  { intros i j s t X L Hi Hj [H1 H2]. specialize (O i j s t X X L Hi Hj H1 H2). unfold precedes in O. lra. }
  intros X HX. apply C; auto.
Qed.

(** C103: without removals the covered points are exactly those of the added
    segments, end points included. *)
Theorem C103_additions : forall A B ss, nonzero (vsub B A) ->
  (forall s, In s ss -> real_segment s /\ lies_on A B s) ->
  exists l, run_edits direct [] (map Add ss) = Some l /\ in_order l /\
    (forall X, covered l X <-> covered ss X).
Proof.
  intros A B ss AB HS.
  destruct (C103_history A B (map Add ss) AB) as (l & E & _ & O & _ & C).
  { intros s Hs. apply in_map_iff in Hs. destruct Hs as (t & Et & Ht). injection Et as ->. auto. }
  { intros s Hs. apply in_map_iff in Hs. destruct Hs as (t & Et & Ht). discriminate. }
  exists l. split; [exact E|]. split; [exact O|]. intro X. rewrite C.
  - unfold drawn. assert (K : forall D, fold_left drawn_after (map Add ss) D X <-> D X \/ covered ss X).
    { clear. induction ss as [|s ss IH]; intro D; simpl.
      - split; [tauto|]. intros [H|(s & [] & _)]; exact H.
      - rewrite IH. simpl. split.
        + intros [[H|H]|(t & Ht & Hc)]; [left; exact H|right; exists s; simpl; auto|right; exists t; simpl; auto].
        + intros [H|(t & [<-|Ht] & Hc)]; [tauto|tauto|right; exists t; auto]. }
    rewrite K. tauto.
  - intros s Hs. apply in_map_iff in Hs. destruct Hs as (t & Et & Ht). discriminate.
Qed.

(** C103: adding a segment of zero length inside a member on a horizontal line
    erases that member. *)
Theorem C103_zero_length_refuted :
  exists A B P, nonzero (vsub B A) /\ on_segment A B P /\
    run_edits direct [] [Add (A, B); Add (P, P)] = Some [(P, P)] /\ ~ covered [(P, P)] A.
Proof.
  exists (mkpt 0 0), (mkpt 4 0), (mkpt 1 0). split; [intros [H _]; vm_compute in H; discriminate|].
  split; [exists (1 # 4); split; [split; vm_compute; discriminate|split; vm_compute; reflexivity]|].
  split; [vm_compute; reflexivity|].
  intros (s & [<-|[]] & t & _ & Hx & _). unfold lerp, vadd, vscale, vsub in Hx; simpl in Hx. lra.
Qed.

(** A history on a slanted line, in both directions of travel: two additions
    merge, a removal cuts the middle out, another addition bridges. *)
Definition sample_edits : list interval_edit :=
  [Add (mkpt 0 0, mkpt 4 2); Add (mkpt 6 3, mkpt 3 (3 # 2)); Add (mkpt 10 5, mkpt 12 6);
   Remove (mkpt 2 1, mkpt 1 (1 # 2)); Remove (mkpt 11 (11 # 2), mkpt 14 7); Remove (mkpt 3 3, mkpt 3 3)].
Definition on_half (s : iseg) : bool :=
  Qeqb (2 * py (fst s)) (px (fst s)) && Qeqb (2 * py (snd s)) (px (snd s)) && negb (Qeqb (px (fst s)) (px (snd s))).
Lemma on_half_ok : forall s, on_half s = true -> real_segment s /\ lies_on (mkpt 0 0) (mkpt 2 1) s.
Proof.
  intros s H. unfold on_half in H. rewrite !andb_true_iff, negb_true_iff, !Qeqb_eq in H. destruct H as [[H1 H2] H3].
  split.
  - intros [E _]. unfold vsub in E; simpl in E. destruct (Qeqb_spec (px (fst s)) (px (snd s))) as [|N]; [discriminate|apply N; lra].
  - split; [exists (py (fst s))|exists (py (snd s))]; split; unfold lerp, vadd, vscale, vsub; simpl; lra.
Qed.
Example C103_witness :
  (forall s, In (Add s) sample_edits -> real_segment s /\ lies_on (mkpt 0 0) (mkpt 2 1) s) /\
  (forall s, In (Remove s) sample_edits -> real_segment s -> lies_on (mkpt 0 0) (mkpt 2 1) s) /\
  run_edits direct [] sample_edits =
    Some [(mkpt 0 0, mkpt 1 (1 # 2)); (mkpt 2 1, mkpt 6 3); (mkpt 10 5, mkpt 11 (11 # 2))].
Proof.
  split; [|split].
  - intros s H. apply on_half_ok. simpl in H.
    repeat (destruct H as [H|H]; [try discriminate; injection H as <-; reflexivity|]). destruct H.
  - intros s H R. simpl in H.
    repeat (destruct H as [H|H]; [try discriminate; injection H as <-; first [apply on_half_ok; reflexivity | exfalso; apply R; split; vm_compute; reflexivity]|]). destruct H.
  - vm_compute. reflexivity.
Qed.

Print Assumptions C103_history.
Print Assumptions C103_additions.
Print Assumptions C103_zero_length_refuted.
