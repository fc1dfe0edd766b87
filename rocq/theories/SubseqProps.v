(** C101: the side of a polygon that a point is on or closest to. *)
From Verif Require Import Base CmpModel BoxSpec OrientModel OrientSpec OrientProof DistModel DistSpec DistProof PlanarModel PlanarSpec PlanarProof SubseqModel SubseqProof.

(** [d] is the squared distance of [p] to side [i]. *)
Definition side_distance (ps : list pt) (p : pt) (i : nat) (d : Q) : Prop :=
  exists A B, polygon_edge ps i A B /\ least_dist2 p (on_segment A B) d.

(** The answer is the first side with the point on it; none only if the point is on no side. *)
Theorem C101_containing : forall ps p, (2 <= length ps)%nat -> proper_polygon ps ->
  exists r, find_containing_polygon_border_segment direct ps p = Some r /\
    match r with
    | Some i => (exists A B, polygon_edge ps i A B /\ on_segment A B p) /\
                (forall k A B, (k < i)%nat -> polygon_edge ps k A B -> ~ on_segment A B p)
    | None => ~ on_polygon ps p
    end.
Proof.
  intros ps p L PP. unfold find_containing_polygon_border_segment. rewrite (border_sides _ L).
  destruct (containing_ok ps p (length ps) 0 PP ltac:(lia)) as (r & R & H). exists r. split; [exact R|]. destruct r as [i|].
  - destruct H as (_ & EX & NO). split; [exact EX|]. intros k A B K. apply (NO k A B). lia.
  - intros (k & A & B & E & O). apply (H k A B ltac:(lia) E O).
Qed.

Lemma best_spec : forall ps p b, (1 <= length ps)%nat -> best_ok ps p (length ps) b ->
  exists i d, option_map snd b = Some i /\ side_distance ps p i d /\
    (forall k d', (k < i)%nat -> side_distance ps p k d' -> d < d') /\ (forall k d', side_distance ps p k d' -> d <= d').
Proof.
  intros ps p b L BB. destruct b as [(d & i)|]; [|cbn in BB; lia]. destruct BB as (LT & (A & B & E & ->) & BEF & ALL).
  assert (UQ : forall A B d', least_dist2 p (on_segment A B) d' -> d' == point_segment_distance_sqrd p A B).
  { intros A' B' d' [(q & O & D) M]. destruct (point_segment_least p A' B') as [(q' & O' & D') M']. specialize (M q' O'). specialize (M' q O). lra. }
  exists i, (point_segment_distance_sqrd p A B). split; [reflexivity|]. split; [exists A, B; split; [exact E|apply point_segment_least]|]. split.
  - intros k d' K (A' & B' & E' & D'). rewrite (UQ _ _ _ D'). apply (BEF k A' B' K E').
  - intros k d' (A' & B' & E' & D'). rewrite (UQ _ _ _ D'). apply (ALL k A' B'); [|exact E']. destruct E' as [E' _]. apply nth_error_Some. congruence.
Qed.
(** The answer is the first of the sides with the least distance. *)
Theorem C101_closest : forall ps p, (2 <= length ps)%nat ->
  exists i d, find_closest_polygon_border_segment ps p = Some (Some i) /\ side_distance ps p i d /\
    (forall k d', (k < i)%nat -> side_distance ps p k d' -> d < d') /\ (forall k d', side_distance ps p k d' -> d <= d').
Proof.
  intros ps p L. unfold find_closest_polygon_border_segment. rewrite (border_sides _ L).
  destruct (closest_ok ps p (length ps) 0 None ltac:(lia) eq_refl) as (b & R & BB). unfold sides. rewrite R.
  destruct (best_spec ps p b ltac:(lia) BB) as (i & d & -> & H). exists i, d. split; [reflexivity|exact H].
Qed.
(** With exact comparison the combined search gives the answer of the search for the closest side; for
    a point on the border that is the answer of the search for the side with the point on it. *)
Theorem C101_combined : forall ps p, (2 <= length ps)%nat -> proper_polygon ps ->
  find_containing_or_closest_polygon_border_segment direct ps p = find_closest_polygon_border_segment ps p /\
  (on_polygon ps p -> find_containing_polygon_border_segment direct ps p = find_closest_polygon_border_segment ps p).
Proof.
  intros ps p L PP. split.
  - unfold find_closest_polygon_border_segment, find_containing_or_closest_polygon_border_segment. rewrite (border_sides _ L). unfold sides.
    destruct (closest_ok ps p (length ps) 0 None ltac:(lia) eq_refl) as (b & R & BB). rewrite R.
    apply loops_agree; try assumption; [lia|reflexivity|exact I].
  - intros (k & A & B & E & O). destruct (C101_containing ps p L PP) as (r & R & H). destruct (C101_closest ps p L) as (i & d & R' & SD & BEF & ALL). rewrite R, R'.
    assert (Z : forall k A B, polygon_edge ps k A B -> on_segment A B p -> side_distance ps p k 0).
    { intros k' A' B' E' O'. exists A', B'. split; [exact E'|]. pose proof (point_segment_least p A' B') as PL. pose proof (proj2 (dist_zero p A' B') O') as Z. destruct PL as [(q & Oq & D) M]. split; [exists q; split; [exact Oq|rewrite D; exact Z]|]. intros q' Oq'. rewrite <- Z. apply M, Oq'. }
    destruct r as [j|]; [|exfalso; apply H; exists k, A, B; auto]. destruct H as ((A' & B' & E' & O') & NO). f_equal. f_equal.
    assert (D0 : d <= 0) by (apply (ALL j), (Z j A' B' E' O')).
    destruct (lt_eq_lt_dec i j) as [[LT| ->]|LT]; [exfalso|reflexivity|exfalso].
    + destruct SD as (A2 & B2 & E2 & D2). apply (NO i A2 B2 LT E2). destruct D2 as [(q & Oq & D) M]. 
      apply dist_zero. destruct (point_segment_least p A2 B2) as [_ M2]. specialize (M2 q Oq). pose proof (dist_nonneg p A2 B2). lra.
    + specialize (BEF j 0 LT (Z j A' B' E' O')). destruct SD as (A2 & B2 & _ & (q & _ & D) & _). unfold dist2, dot in D. pose proof (sq_nonneg (px (vsub q p))). pose proof (sq_nonneg (py (vsub q p))). lra.
Qed.
(** A polygon of one point is read out of range. *)
Theorem C101_one_point_refuted : forall a p,
  find_containing_polygon_border_segment direct [a] p = None /\ find_closest_polygon_border_segment [a] p = None /\
  find_containing_or_closest_polygon_border_segment direct [a] p = None.
Proof. intros a p. repeat split. Qed.

Definition box4 := [mkpt 0 0; mkpt 4 0; mkpt 4 4; mkpt 0 4].
Example C101_witness : proper_polygon box4 /\ find_containing_polygon_border_segment direct box4 (mkpt 4 3) = Some (Some 1%nat) /\
  find_containing_polygon_border_segment direct box4 (mkpt 5 3) = Some None /\ find_closest_polygon_border_segment box4 (mkpt 1 5) = Some (Some 2%nat) /\
  find_containing_or_closest_polygon_border_segment direct box4 (mkpt 0 0) = Some (Some 0%nat).
Proof.
  split; [|vm_compute; auto]. intros [|[|[|[|i]]]] A B [HA HB]; cbn in HA, HB; try (injection HA as <-; injection HB as <-; intros [X Y]; cbn in X, Y; lra). destruct i; discriminate.
Qed.

Print Assumptions C101_containing.
Print Assumptions C101_closest.
Print Assumptions C101_combined.
