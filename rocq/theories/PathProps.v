(** Properties of polylines measured by arc length and of splitting segments. *)
From Verif Require Import RBase PathModel PathSpec PathProof PathProof2.

(** ** C36: splitting a polyline at a distance from its start *)
Theorem C36_split : forall n ps pos, same_dim n ps -> 0 <= pos < path_length ps ->
  exists pre p q post t, ps = pre ++ p :: q :: post /\ 0 <= t < 1 /\ pos = path_length (pre ++ [p]) + t * euclid p q /\
    (t = 0 -> polyline_split ps pos = Value (pre ++ [p], p :: q :: post)) /\
    (0 < t -> polyline_split ps pos = Value (pre ++ [p; on_the_way p q t], on_the_way p q t :: q :: post)).
Proof.
  intros n ps pos D H. destruct (split_ok n ps pos D H) as (pre & p & q & post & t & E & T & _ & P & A & B).
  exists pre, p, q, post, t. repeat (split; [assumption|]). split; intro Z; [apply (A Z)|apply (B Z)].
Qed.
Print Assumptions C36_split.
Theorem C36_lengths : forall n ps pos a b d, same_dim n ps -> 0 <= pos < path_length ps -> polyline_split ps pos = Value (a, b) ->
  path_length a = pos /\ path_length b = path_length ps - pos /\ last a d = hd d b /\ hd d a = hd d ps /\ last b d = last ps d /\
  point_at ps pos (hd d b).
Proof. exact split_lengths. Qed.
Print Assumptions C36_lengths.
Theorem C36_position : forall n ps pos, same_dim n ps -> 0 <= pos < path_length ps ->
  exists pre p q post t, ps = pre ++ p :: q :: post /\ 0 <= t < 1 /\ pos = path_length (pre ++ [p]) + t * euclid p q /\
    (t = 0 -> polyline_point_at_position ps pos = Value (length pre, None)) /\
    (0 < t -> polyline_point_at_position ps pos = Value (length pre, Some (on_the_way p q t))).
Proof.
  intros n ps pos D H. destruct (split_ok n ps pos D H) as (pre & p & q & post & t & E & T & _ & P & A & B).
  exists pre, p, q, post, t. repeat (split; [assumption|]). split; intro Z; [apply (A Z)|apply (B Z)].
Qed.
Print Assumptions C36_position.
Theorem C36_before : forall p q ps pos, pos < 0 -> same_dim (length p) (p :: q :: ps) ->
  polyline_split (p :: q :: ps) pos = Value ([p], p :: q :: ps).
Proof. exact split_before. Qed.
Print Assumptions C36_before.
(** Asked for the length of the polyline or more, the split drops the last edge altogether: the two
    results together do not cover the polyline. *)
Theorem C36_beyond_refuted : forall pre p q pos, path_length (pre ++ [p; q]) <= pos ->
  polyline_split (pre ++ [p; q]) pos = Value (pre ++ [p], [p]).
Proof. exact split_beyond. Qed.
Print Assumptions C36_beyond_refuted.

Definition bent : list rvec := [[0; 0]; [3; 4]; [3; 10]].
Lemma bent_dim : same_dim 2 bent.
Proof. repeat constructor. Qed.
Lemma bent_length : path_length bent = 11 /\ path_length [[0; 0]; [3; 4]] = 5.
Proof.
  unfold bent. cbn [path_length]. unfold euclid. cbn.
  replace ((3 - 0) * (3 - 0) + ((4 - 0) * (4 - 0) + 0)) with (5 * 5) by ring.
  replace ((3 - 3) * (3 - 3) + ((10 - 4) * (10 - 4) + 0)) with (6 * 6) by ring.
  rewrite !sqrt_square by lra. lra.
Qed.
Example C36_witness : same_dim 2 bent /\ 0 <= 8 < path_length bent /\
  exists a b, polyline_split bent 8 = Value (a, b) /\ path_length a = 8 /\ path_length b = 3.
Proof.
  destruct bent_length as [L _]. split; [exact bent_dim|]. split; [rewrite L; lra|].
  destruct (C36_split 2 bent 8 bent_dim ltac:(rewrite L; lra)) as (pre & p & q & post & t & _ & T & _ & A & B).
  destruct (Req_dec t 0) as [Z|Z].
  - exists (pre ++ [p]), (p :: q :: post). split; [apply A, Z|].
    destruct (C36_lengths 2 bent 8 _ _ [] bent_dim ltac:(rewrite L; lra) (A Z)) as (X & Y & _). rewrite L in Y. split; [exact X|lra].
  - specialize (B ltac:(lra)). exists (pre ++ [p; on_the_way p q t]), (on_the_way p q t :: q :: post). split; [exact B|].
    destruct (C36_lengths 2 bent 8 _ _ [] bent_dim ltac:(rewrite L; lra) B) as (X & Y & _). rewrite L in Y. split; [exact X|lra].
Qed.

(** ** C37: cutting a segment into pieces no longer than a given size *)
Theorem C37_split_segment : forall s e m, length s = length e -> m <> 0 ->
  exists k, (euclid s e <= 2 ^ k * Rabs m /\ (k = 0%nat \/ 2 ^ (k - 1) * Rabs m < euclid s e)) /\
    forall f, (k < f)%nat -> split_segment f s e m = Some (equal_parts s e (2 ^ k)).
Proof. exact split_segment_ok. Qed.
Print Assumptions C37_split_segment.
Theorem C37_pieces_small : forall s e m, length s = length e -> m <> 0 ->
  exists F, forall f, (F < f)%nat -> exists r, split_segment f s e m = Some r /\
    forall a b, In (a, b) r -> euclid a b <= Rabs m /\ euclid a b = euclid s e / INR (length r).
Proof. exact split_segment_small. Qed.
Print Assumptions C37_pieces_small.
(** Size zero: the recursion never ends. *)
Theorem C37_zero_size_refuted : forall f s e, length s = length e -> 0 < euclid s e -> split_segment f s e 0 = None.
Proof. exact split_segment_zero. Qed.
Print Assumptions C37_zero_size_refuted.
Example C37_witness : exists r, split_segment 5 [0] [10] 3 = Some r /\ length r = 4%nat.
Proof.
  destruct (C37_split_segment [0] [10] 3 eq_refl ltac:(lra)) as (k & [K1 K2] & F).
  assert (E : euclid [0] [10] = 10) by (unfold euclid; cbn; replace ((10 - 0) * (10 - 0) + 0) with (10 * 10) by ring; apply sqrt_square; lra).
  rewrite E, (Rabs_right 3) in * by lra. assert (K : k = 2%nat).
  { destruct k as [|[|[|k]]]; cbn [pow] in K1; [lra|lra|reflexivity|]. destruct K2 as [K2|K2]; [discriminate|].
    replace (S (S (S k)) - 1)%nat with (S (S k)) in K2 by lia. cbn [pow] in K2.
    assert (1 <= 2 ^ k) by (clear; induction k as [|k IH]; cbn [pow]; lra). lra. }
  subst k. rewrite F by lia. eexists. split; [reflexivity|]. reflexivity.
Qed.

(** ** C81: clipping the ends of a polyline *)
Theorem C81_front : forall n ps l, same_dim n ps -> 0 <= l < path_length ps ->
  exists r, clip_polyline_front rdirect ps l = Value r /\ path_length r = path_length ps - l /\
  (forall d, last r d = last ps d) /\ (forall d, point_at ps l (hd d r)) /\ (forall s x, point_at r s x -> point_at ps (l + s) x).
Proof. intros n ps l D H. destruct (front_result n ps l D H) as (r & A & B & _ & C). exists r. repeat (split; [assumption|]). exact C. Qed.
Print Assumptions C81_front.
Theorem C81_front_vertices : forall n ps l, same_dim n ps -> 0 <= l < path_length ps ->
  exists pre p q post t, ps = pre ++ p :: q :: post /\ 0 <= t <= 1 /\ l = path_length (pre ++ [p]) + t * euclid p q /\
    (t < 1 -> clip_polyline_front rdirect ps l = Value (on_the_way p q t :: q :: post)) /\
    (t = 1 -> clip_polyline_front rdirect ps l = Value (q :: post)).
Proof.
  intros n ps l D H. destruct (clip_front_ok n ps l D H) as (pre & p & q & post & t & A & B & C & E & _).
  exists pre, p, q, post, t. repeat (split; [assumption|]). rewrite E. destruct (Rltb_spec t 1); split; intro; try reflexivity; exfalso; lra.
Qed.
Print Assumptions C81_front_vertices.
Theorem C81_back : forall n ps l, same_dim n ps -> 0 <= l < path_length ps ->
  exists r, clip_polyline_back rdirect ps l = Value r /\ path_length r = path_length ps - l /\
  (forall d, hd d r = hd d ps) /\ (forall d, point_at ps (path_length ps - l) (last r d)) /\ (forall s x, point_at r s x -> point_at ps s x).
Proof. intros n ps l D H. destruct (back_result n ps l D H) as (r & A & B & _ & C). exists r. repeat (split; [assumption|]). exact C. Qed.
Print Assumptions C81_back.
Theorem C81_ends : forall n ps l, same_dim n ps -> 0 <= l -> 2 * l < path_length ps ->
  exists r, clip_polyline_ends rdirect ps l = Value r /\ path_length r = path_length ps - 2 * l /\
  (forall d, point_at ps l (hd d r)) /\ (forall d, point_at ps (path_length ps - l) (last r d)) /\ (forall s x, point_at r s x -> point_at ps (l + s) x).
Proof. exact ends_result. Qed.
Print Assumptions C81_ends.
(** Nothing but points remains when at least everything is clipped. *)
Theorem C81_nothing_left : forall n ps l, same_dim n ps -> 0 <= l ->
  (path_length ps <= l -> exists r, clip_polyline_front rdirect ps l = Value r /\ path_length r = 0) /\
  (path_length ps <= l -> exists r, clip_polyline_back rdirect ps l = Value r /\ path_length r = 0) /\
  (path_length ps <= 2 * l -> exists r, clip_polyline_ends rdirect ps l = Value r /\ path_length r = 0).
Proof.
  intros n ps l D H. split; [intro K; apply clip_front_beyond; assumption|]. split; [intro K; apply back_beyond; assumption|].
  intro K. apply (ends_empty n); assumption.
Qed.
Print Assumptions C81_nothing_left.
(** A negative length does not leave the polyline alone: it grows beyond its first point. *)
Theorem C81_negative_refuted : forall n p q ps l, same_dim n (p :: q :: ps) -> 0 < euclid p q -> l < 0 ->
  exists t, t < 0 /\ clip_polyline_front rdirect (p :: q :: ps) l = Value (on_the_way p q t :: q :: ps) /\ euclid (on_the_way p q t) p = - l.
Proof. exact front_negative. Qed.
Print Assumptions C81_negative_refuted.
Example C81_witness : same_dim 2 bent /\ 0 <= 4 /\ 2 * 4 < path_length bent /\ 0 < euclid [0; 0] [3; 4] /\
  exists r, clip_polyline_ends rdirect bent 4 = Value r /\ path_length r = 3.
Proof.
  destruct bent_length as [L L2]. split; [exact bent_dim|]. split; [lra|]. split; [rewrite L; lra|]. split; [cbn [path_length] in L2; lra|].
  destruct (C81_ends 2 bent 4 bent_dim ltac:(lra) ltac:(rewrite L; lra)) as (r & E & P & _). exists r. split; [exact E|lra].
Qed.

(** ** C82: lengths and the middle *)
Theorem C82_length : forall ps, polyline_length ps = path_length ps.
Proof. exact length_ok. Qed.
Print Assumptions C82_length.
Theorem C82_perimeter : forall p q ps, polygon_length (p :: q :: ps) = Some (path_length (p :: q :: ps ++ [p])).
Proof. exact polygon_length_ok. Qed.
Print Assumptions C82_perimeter.
(** A polygon of one point is indexed out of range. *)
Theorem C82_single_point_refuted : forall p, polygon_length [p] = None.
Proof. reflexivity. Qed.
Theorem C82_middle : forall n ps, same_dim n ps -> 0 < path_length ps ->
  exists m, polyline_mid_point ps = Value m /\ point_at ps (path_length ps / 2) m.
Proof. exact mid_ok. Qed.
Print Assumptions C82_middle.
(** Without length there is no middle: the code divides by zero or reads out of range. *)
Theorem C82_middle_undefined_refuted : forall ps, path_length ps = 0 -> polyline_mid_point ps = Undefined.
Proof. exact mid_undefined. Qed.
Print Assumptions C82_middle_undefined_refuted.
Example C82_witness : same_dim 2 bent /\ 0 < path_length bent /\ polyline_length bent = 11.
Proof. destruct bent_length as [L _]. rewrite C82_length, L. split; [exact bent_dim|]. split; lra. Qed.
