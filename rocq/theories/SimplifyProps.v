(** Properties of the removal of collinear and repeated vertices. *)
From Verif Require Import Base CmpModel OrientModel OrientSpec DistSpec PolygonModel PolygonSpec SimplifyModel SimplifySpec SimplifyProof SimplifyProof2.

(** C38: a polyline that never folds back keeps its points, its ends, and no vertex on a straight
    line. *)
Theorem C38_polyline : forall ps, goes_on ps -> let r := remove_collinear_points_polyline direct ps in
  no_straight_vertex r /\ forall X, on_polyline r X <-> on_polyline ps X.
Proof. exact remove_polyline_ok. Qed.
Theorem C38_polyline_vertices : forall cmp ps d, let r := remove_collinear_points_polyline cmp ps in
  subsequence r ps /\ hd d r = hd d ps /\ last r d = last ps d /\ (2 <= length ps -> 2 <= length r)%nat.
Proof. exact remove_polyline_any. Qed.
Definition q2 (x y : Z) : pt := mkpt (inject_Z x) (inject_Z y).
(** Where it folds back, points are lost. *)
Theorem C38_fold_refuted : exists ps X, on_polyline ps X /\ ~ on_polyline (remove_collinear_points_polyline direct ps) X.
Proof.
  exists [q2 0 0; q2 2 0; q2 1 0], (q2 2 0). split.
  - exists 0%nat, (q2 0 0), (q2 2 0). split; [split; reflexivity|]. exists 1. split; [lra|]. split; vm_compute; reflexivity.
  - change (remove_collinear_points_polyline direct [q2 0 0; q2 2 0; q2 1 0]) with [q2 0 0; q2 1 0].
    intros (i & A & B & [H1 H2] & (t & T & Hx & _)). destruct i as [|i]; [|destruct i; discriminate].
    cbn in H1, H2. assert (A = q2 0 0) by congruence. assert (B = q2 1 0) by congruence. subst.
    unfold q2, lerp, vadd, vscale, vsub in Hx; cbn [px py] in Hx.
    change (inject_Z 2) with 2 in Hx. change (inject_Z 0) with 0 in Hx. change (inject_Z 1) with 1 in Hx. lra.
Qed.
Example C38_witness : let ps := [q2 0 0; q2 1 0; q2 3 0; q2 3 1; q2 3 2; q2 5 4] in
  goes_on ps /\ remove_collinear_points_polyline direct ps = [q2 0 0; q2 3 0; q2 3 2; q2 5 4].
Proof.
  cbv zeta. split; [|reflexivity]. intros A B C (i & H1 & H2 & H3) Z.
  destruct i as [|[|[|[|i]]]]; cbn in H1, H2, H3;
    try (assert (NN : nth_error (@nil pt) i = Some C) by congruence; destruct i; discriminate);
    injection H1 as <-; injection H2 as <-; injection H3 as <-; try (vm_compute in Z; discriminate).
  - split; [exists (1 # 3); split; [lra|]; split; vm_compute; reflexivity|intros [E _]; vm_compute in E; discriminate].
  - split; [exists (1 # 2); split; [lra|]; split; vm_compute; reflexivity|intros [_ E]; vm_compute in E; discriminate].
Qed.

(** C79: polygons. *)
Theorem C79_polygon : forall ps, (4 <= length ps)%nat -> goes_on (around ps) -> let r := remove_collinear_points_polygon direct ps in
  no_straight_vertex r /\ forall X, on_polygon r X <-> on_polygon ps X.
Proof. exact remove_polygon_ok. Qed.
Theorem C79_polygon_vertices : forall cmp ps d, let r := remove_collinear_points_polygon cmp ps in
  subsequence r ps /\ hd d r = hd d ps /\ (2 <= length ps -> 2 <= length r)%nat.
Proof. exact remove_polygon_any. Qed.
(** The area never changes, folds or not. *)
Theorem C79_polygon_area : forall ps s, get_signed_area ps = Some s ->
  exists t u, get_signed_area (remove_collinear_points_polygon direct ps) = Some t /\ t == s /\
    get_signed_area (clean_polygon direct ps) = Some u /\ u == s.
Proof.
  intros ps s H. assert (NE : ps <> []) by (intro E; subst; discriminate).
  assert (NE1 : remove_collinear_points_polygon direct ps <> []).
  { unfold remove_collinear_points_polygon. destruct ps as [|p0 [|p1 [|p2 [|p3 rest]]]]; try discriminate; try contradiction.
    destruct (polygon_loop_any direct p0 (p2 :: p3 :: rest) p1 p0 []) as (b & a & l & E & _). rewrite E. cbn [rev]. destruct (rev l); discriminate. }
  assert (NE2 : clean_polygon direct ps <> []).
  { unfold clean_polygon. set (r := remove_collinear_points_polygon direct ps) in *. unfold coalesce_adjacent_points_polygon.
    destruct r as [|p0 [|p1 [|p2 [|p3 rest]]]]; try discriminate; try contradiction.
    destruct (coalesce_polygon_loop_any direct p0 (p1 :: p2 :: p3 :: rest) p0 []) as (a & l & E & _). rewrite E. cbn [rev]. destruct (rev l); discriminate. }
  destruct (PolygonProof.signed_area_some _ NE1) as [t Ht]. destruct (PolygonProof.signed_area_some _ NE2) as [u Hu]. exists t, u.
  split; [exact Ht|]. split; [apply (area2_signed _ _ (remove_polygon_area2 ps) _ _ Ht H)|]. split; [exact Hu|].
  apply (area2_signed (clean_polygon direct ps) ps); [|exact Hu|exact H].
  unfold clean_polygon. rewrite coalesce_polygon_area2. apply remove_polygon_area2.
Qed.
(** Straight vertices at the first vertex, or at the last after another removal, stay. *)
Theorem C79_first_vertex_refuted : exists ps, (4 <= length ps)%nat /\ goes_on (around ps) /\
  ~ no_straight_vertex (around (remove_collinear_points_polygon direct ps)).
Proof.
  exists [q2 1 0; q2 2 0; q2 2 2; q2 0 2; q2 0 0]. split; [cbn; lia|]. split.
  - intros A B C (i & H1 & H2 & H3) Z.
    destruct i as [|[|[|[|[|i]]]]]; cbn in H1, H2, H3;
      try (assert (NN : nth_error (@nil pt) i = Some C) by congruence; destruct i; discriminate);
      injection H1 as <-; injection H2 as <-; injection H3 as <-; try (vm_compute in Z; discriminate).
    split; [exists (1 # 2); split; [lra|]; split; vm_compute; reflexivity|intros [E _]; vm_compute in E; discriminate].
  - intro N. apply (N (q2 0 0) (q2 1 0) (q2 2 0)); [exists 4%nat; split; [reflexivity|split; reflexivity]|vm_compute; reflexivity].
Qed.
Theorem C79_last_vertex_refuted : exists ps A B C, (4 <= length ps)%nat /\ goes_on (around ps) /\
  let r := remove_collinear_points_polygon direct ps in
  nth_error r (length r - 2) = Some A /\ nth_error r (length r - 1) = Some B /\ nth_error r 0 = Some C /\ tri2 A B C == 0.
Proof.
  exists [q2 0 0; q2 4 0; q2 4 4; q2 0 4; q2 0 2; q2 0 1], (q2 0 4), (q2 0 1), (q2 0 0). split; [cbn; lia|]. split.
  - intros A B C (i & H1 & H2 & H3) Z.
    destruct i as [|[|[|[|[|[|i]]]]]]; cbn in H1, H2, H3;
      try (assert (NN : nth_error (@nil pt) i = Some C) by congruence; destruct i; discriminate);
      injection H1 as <-; injection H2 as <-; injection H3 as <-; try (vm_compute in Z; discriminate).
    + split; [exists (2 # 3); split; [lra|]; split; vm_compute; reflexivity|intros [_ E]; vm_compute in E; discriminate].
    + split; [exists (1 # 2); split; [lra|]; split; vm_compute; reflexivity|intros [_ E]; vm_compute in E; discriminate].
  - cbv zeta. split; [reflexivity|]. split; [reflexivity|]. split; [reflexivity|]. vm_compute; reflexivity.
Qed.
(** The number of identified indices is right, but they are not the indices of the removed points. *)
Theorem C79_identified_count : forall cmp ps,
  (length (remove_collinear_points_polygon cmp ps) + length (identify_collinear_points_polygon cmp ps) = length ps)%nat.
Proof. exact identify_collinear_count. Qed.
Theorem C79_identified_refuted : exists ps, goes_on (around ps) /\
  without_indices (identify_collinear_points_polygon direct ps) ps <> remove_collinear_points_polygon direct ps.
Proof.
  exists [q2 0 0; q2 1 0; q2 2 0; q2 2 2; q2 0 2]. split; [|vm_compute; discriminate].
  intros A B C (i & H1 & H2 & H3) Z.
  destruct i as [|[|[|[|[|i]]]]]; cbn in H1, H2, H3;
    try (assert (NN : nth_error (@nil pt) i = Some C) by congruence; destruct i; discriminate);
    injection H1 as <-; injection H2 as <-; injection H3 as <-; try (vm_compute in Z; discriminate).
  split; [exists (1 # 2); split; [lra|]; split; vm_compute; reflexivity|intros [E _]; vm_compute in E; discriminate].
Qed.
Example C79_witness : let ps := [q2 0 0; q2 4 0; q2 4 2; q2 4 4; q2 0 4; q2 0 2] in
  goes_on (around ps) /\ remove_collinear_points_polygon direct ps = [q2 0 0; q2 4 0; q2 4 4; q2 0 4].
Proof.
  cbv zeta. split; [|reflexivity]. intros A B C (i & H1 & H2 & H3) Z.
  destruct i as [|[|[|[|[|[|i]]]]]]; cbn in H1, H2, H3;
    try (assert (NN : nth_error (@nil pt) i = Some C) by congruence; destruct i; discriminate);
    injection H1 as <-; injection H2 as <-; injection H3 as <-; try (vm_compute in Z; discriminate).
  - split; [exists (1 # 2); split; [lra|]; split; vm_compute; reflexivity|intros [_ E]; vm_compute in E; discriminate].
  - split; [exists (1 # 2); split; [lra|]; split; vm_compute; reflexivity|intros [_ E]; vm_compute in E; discriminate].
Qed.

(** C80: repeated vertices. *)
Theorem C80_polyline : forall ps d, (3 <= length ps)%nat -> let r := coalesce_adjacent_points_polyline direct ps in
  no_repeated_vertex r /\ last r d =p= last ps d /\ forall X, touches r X <-> touches ps X.
Proof. exact coalesce_polyline_ok. Qed.
Theorem C80_vertices : forall cmp ps d,
  (let r := coalesce_adjacent_points_polyline cmp ps in subsequence r ps /\ hd d r = hd d ps) /\
  (let r := coalesce_adjacent_points_polygon cmp ps in subsequence r ps /\ hd d r = hd d ps).
Proof. intros. split; [apply coalesce_polyline_any|apply coalesce_polygon_any]. Qed.
Theorem C80_polygon : forall ps s, (4 <= length ps)%nat -> get_signed_area ps = Some s ->
  let r := coalesce_adjacent_points_polygon direct ps in
  no_repeated_vertex r /\ exists t, get_signed_area r = Some t /\ t == s.
Proof.
  intros ps s L H r. destruct (coalesce_polygon_ok ps L) as [N A]. split; [exact N|].
  assert (NE : r <> []).
  { unfold r, coalesce_adjacent_points_polygon. destruct ps as [|p0 [|p1 [|p2 [|p3 rest]]]]; try discriminate.
    destruct (coalesce_polygon_loop_any direct p0 (p1 :: p2 :: p3 :: rest) p0 []) as (a & l & E & _). rewrite E. cbn [rev]. destruct (rev l); discriminate. }
  destruct (PolygonProof.signed_area_some r NE) as [t Ht]. exists t. split; [exact Ht|]. apply (area2_signed r ps A t s Ht H).
Qed.
Theorem C80_identified : forall cmp ps,
  without_indices (identify_adjacent_points_polygon cmp ps) ps = coalesce_adjacent_points_polygon cmp ps.
Proof. exact identify_adjacent_ok. Qed.
(** Cleaning a polyline, under any comparison policy: successive vertices of the result are apart
    for that policy. *)
Lemma coalesce_apart : forall cmp bs acc, (forall i A B, nth_error acc i = Some A -> nth_error acc (S i) = Some B -> apart cmp B A = true) ->
  forall i A B, nth_error (fold_left (coalesce_step cmp) bs acc) i = Some A -> nth_error (fold_left (coalesce_step cmp) bs acc) (S i) = Some B -> apart cmp B A = true.
Proof.
  intros cmp. induction bs as [|b bs IH]; intros acc H; [exact H|]. cbn [fold_left]. apply IH. unfold coalesce_step. destruct acc as [|a acc]; [exact H|].
  destruct (apart cmp a b) eqn:E; [|exact H]. intros [|i] A B E1 E2; [cbn in E1, E2; congruence|exact (H i A B E1 E2)].
Qed.
Theorem C80_clean_polyline : forall cmp ps, let m := remove_collinear_points_polyline cmp ps in let r := clean_polyline cmp ps in
  subsequence r ps /\ ((3 <= length m)%nat -> forall i A B, nth_error r i = Some A -> nth_error r (S i) = Some B -> greater_than cmp (dist2 A B) 0 = true) /\ ((length m <= 2)%nat -> r = m).
Proof.
  intros cmp ps m r. split; [|split].
  - assert (TR : forall (a b c : list pt), subsequence a b -> subsequence b c -> subsequence a c).
    { intros a b c H1 H2. revert a H1. induction H2; intros a H1; [exact H1| |apply sub_skip, IHsubsequence, H1].
      inversion H1; subst; [apply sub_keep, IHsubsequence; assumption|apply sub_skip, IHsubsequence; assumption]. }
    apply (TR _ m); [apply (proj1 (coalesce_polyline_any cmp m (mkpt 0 0)))|apply (proj1 (remove_polyline_any cmp ps (mkpt 0 0)))].
  - intros L i A B E1 E2. unfold r, clean_polyline in E1, E2. fold m in E1, E2. destruct m as [|p0 [|p1 [|p2 rest]]]; try (cbn in L; lia). unfold coalesce_adjacent_points_polyline in E1, E2.
    set (acc := fold_left (coalesce_step cmp) (p1 :: p2 :: rest) [p0]) in *.
    assert (N : (S i < length acc)%nat) by (rewrite <- rev_length; apply nth_error_Some; congruence).
    assert (R : forall n X, (n < length acc)%nat -> nth_error (rev acc) n = Some X -> nth_error acc (length acc - S n) = Some X).
    { intros n X M E. apply (nth_error_nth _ _ (mkpt 0 0)) in E. rewrite rev_nth in E by exact M. rewrite <- E. apply nth_error_nth'. lia. }
    apply R in E1; [|lia]. apply R in E2; [|lia]. replace (length acc - S i)%nat with (S (length acc - S (S i)))%nat in E1 by lia.
    apply (coalesce_apart cmp (p1 :: p2 :: rest) [p0] ltac:(intros [|[|j]] X Y Z1 Z2; discriminate) _ _ _ E2 E1).
  - intro L. unfold r, clean_polyline. fold m. destruct m as [|p0 [|p1 [|p2 rest]]]; try reflexivity. cbn in L. lia.
Qed.
(** The closing pair may remain equal. *)
Theorem C80_closing_refuted : exists ps, (4 <= length ps)%nat /\ let r := coalesce_adjacent_points_polygon direct ps in
  (1 < length r)%nat /\ last r (q2 0 0) =p= hd (q2 0 0) r.
Proof.
  exists [q2 0 0; q2 1 0; q2 0 0; q2 0 0]. split; [cbn; lia|]. cbv zeta.
  change (coalesce_adjacent_points_polygon direct [q2 0 0; q2 1 0; q2 0 0; q2 0 0]) with [q2 0 0; q2 1 0; q2 0 0].
  split; [cbn; lia|]. split; reflexivity.
Qed.
Example C80_witness : coalesce_adjacent_points_polygon direct [q2 0 0; q2 0 0; q2 1 0; q2 1 1; q2 1 1; q2 0 0] = [q2 0 0; q2 1 0; q2 1 1]
  /\ coalesce_adjacent_points_polyline direct [q2 0 0; q2 0 0; q2 1 0; q2 1 0] = [q2 0 0; q2 1 0].
Proof. split; reflexivity. Qed.

Print Assumptions C38_polyline.
Print Assumptions C79_polygon.
Print Assumptions C79_polygon_area.
Print Assumptions C80_polyline.
Print Assumptions C80_polygon.
Print Assumptions C80_identified.
Print Assumptions C80_clean_polyline.
