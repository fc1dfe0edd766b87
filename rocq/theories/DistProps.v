(** Property theorems: distances and closest points (C10, C11, C12, C53, C54, C55). *)
From Verif Require Import Base CmpModel BoxSpec BoxProof OrientSpec OrientProof DistModel DistSpec DistProof.

(** C10: the squared point-segment distance is the least squared distance to the points
    of the closed segment, degenerate segments included. *)
Theorem C10_point_segment_distance_is_minimum : forall p A B,
  least_dist2 p (on_segment A B) (point_segment_distance_sqrd p A B).
Proof. exact point_segment_least. Qed.
Print Assumptions C10_point_segment_distance_is_minimum.

(** In every dimension. *)
Theorem C10_point_segment_distance_is_minimum_n : forall p A B, length A = length p -> length B = length p ->
  (exists X, on_segment_n A B X /\ point_segment_distance_sqrd_n p A B == cdist2 p X) /\
  forall X, on_segment_n A B X -> point_segment_distance_sqrd_n p A B <= cdist2 p X.
Proof.
  intros p A B LA LB. destruct (closest_n_ok p A B LA LB) as (H1 & H2 & H3). cbv zeta in *.
  split; [eexists; split; [exact H1|exact H2]|exact H3].
Qed.
Print Assumptions C10_point_segment_distance_is_minimum_n.

Example C10_witness : point_segment_distance_sqrd (mkpt 1 2) (mkpt 0 0) (mkpt 4 0) == 4 /\
  point_segment_distance_sqrd (mkpt 7 4) (mkpt 0 0) (mkpt 4 0) == 25 /\ point_segment_distance_sqrd (mkpt 3 4) (mkpt 0 0) (mkpt 0 0) == 25 /\
  point_segment_distance_sqrd_n [1; 2; 2] [0; 0; 0] [4; 0; 0] == 8.
Proof. repeat split; reflexivity. Qed.

(** C11: the segment overload returns a closest point of the segment. *)
Theorem C11_closest_point_of_segment : forall p A B,
  on_segment A B (point_segment_closest_point_seg p A B) /\
  forall X, on_segment A B X -> dist2 p (point_segment_closest_point_seg p A B) <= dist2 p X.
Proof.
  intros p A B. destruct (closest_seg_ok p A B) as (H1 & H2 & H3). cbv zeta in *. split; [exact H1|].
  intros X HX. rewrite <- H2. exact (H3 X HX).
Qed.
Print Assumptions C11_closest_point_of_segment.

Theorem C11_closest_point_of_segment_n : forall p A B, length A = length p -> length B = length p ->
  on_segment_n A B (point_segment_closest_point_n p A B) /\
  forall X, on_segment_n A B X -> cdist2 p (point_segment_closest_point_n p A B) <= cdist2 p X.
Proof.
  intros p A B LA LB. destruct (closest_n_ok p A B LA LB) as (H1 & H2 & H3). cbv zeta in *. split; [exact H1|].
  intros X HX. rewrite <- H2. exact (H3 X HX).
Qed.
Print Assumptions C11_closest_point_of_segment_n.

(** The overloads taking two points return the same point, with the parameter of the
    orthogonal projection on the line; they are undefined exactly when the end points
    coincide. *)
Theorem C11_two_point_overload_closest : forall p A B c, point_segment_closest_point p A B = Some c ->
  on_segment A B c /\ forall X, on_segment A B X -> dist2 p c <= dist2 p X.
Proof.
  intros p A B c; unfold point_segment_closest_point.
  destruct (point_segment_closest_point_and_param p A B) as [[c' t]|] eqn:E; [|discriminate].
  intro H; assert (c' = c) by congruence; subst c'.
  destruct (closest_param_ok p A B c t E) as (C1 & _).
  destruct (C11_closest_point_of_segment p A B) as [(u & Hu & S1) S2].
  split.
  - exists u; split; [exact Hu|]. eapply pteq_trans; [exact C1|exact S1].
  - intros X HX. rewrite (dist2_compat p c p _ (pteq_refl p) C1). exact (S2 X HX).
Qed.
Print Assumptions C11_two_point_overload_closest.

Theorem C11_parameter_of_projection : forall p A B c t, point_segment_closest_point_and_param p A B = Some (c, t) ->
  dot (vsub p (lerp A B t)) (vsub B A) == 0 /\
  (0 <= t <= 1 -> c =p= lerp A B t) /\ (t <= 0 -> c = A) /\ (1 <= t -> c = B).
Proof. intros p A B c t E. destruct (closest_param_ok p A B c t E) as (_ & H1 & H2 & H3 & H4). auto. Qed.
Print Assumptions C11_parameter_of_projection.

Theorem C11_two_point_overload_undefined_iff_degenerate : forall p A B,
  point_segment_closest_point p A B = None <-> A =p= B.
Proof.
  intros p A B. pose proof (seg_point_unique p A B) as U. unfold point_segment_closest_point.
  destruct (point_segment_closest_point_and_param p A B) as [[c t]|].
  - split; [discriminate|]. intro E; exfalso. apply (proj1 U); [exists c, t; reflexivity|exact E].
  - split; [intros _|reflexivity]. destruct (Qeq_dec (px A) (px B)) as [E1|E1]; destruct (Qeq_dec (py A) (py B)) as [E2|E2];
      try (split; assumption); exfalso;
      (destruct (proj2 U) as (c & t & H); [intros [F1 F2]; auto|discriminate]).
Qed.
Print Assumptions C11_two_point_overload_undefined_iff_degenerate.

Example C11_witness : point_segment_closest_point (mkpt 1 2) (mkpt 0 0) (mkpt 4 0) <> None /\
  ~ (mkpt 0 0) =p= (mkpt 4 0) /\ point_segment_closest_point (mkpt 1 2) (mkpt 3 3) (mkpt 3 3) = None /\
  point_segment_closest_point_seg (mkpt 1 2) (mkpt 3 3) (mkpt 3 3) =p= mkpt 3 3.
Proof. repeat split; try discriminate; intros [H _]; discriminate H. Qed.

(** C12: closest points of two segments. *)
Theorem C12_closest_points_of_two_segments : forall p1 q1 p2 q2, exists r,
  segment_segment_closest_point direct p1 q1 p2 q2 = Some r /\
  0 <= ss_s r <= 1 /\ 0 <= ss_t r <= 1 /\ ss_c1 r =p= lerp p1 q1 (ss_s r) /\ ss_c2 r =p= lerp p2 q2 (ss_t r) /\
  ss_d2 r == dist2 (ss_c1 r) (ss_c2 r) /\
  forall X Y, on_segment p1 q1 X -> on_segment p2 q2 Y -> ss_d2 r <= dist2 X Y.
Proof. exact closest_ok. Qed.
Print Assumptions C12_closest_points_of_two_segments.

Theorem C12_segment_segment_distance_is_minimum : forall p1 q1 p2 q2, exists d,
  segment_segment_distance_sqrd direct p1 q1 p2 q2 = Some d /\
  least_dist2_sets (on_segment p1 q1) (on_segment p2 q2) d.
Proof. exact segseg_least. Qed.
Print Assumptions C12_segment_segment_distance_is_minimum.

(** With an absolute tolerance the routine still never divides by zero and returns two
    points of the segments with their distance, but the minimality can fail when a
    segment's squared length is below the tolerance. *)
Theorem C12_tolerant_closest_points_on_segments : forall tol p1 q1 p2 q2, 0 <= tol -> exists r,
  segment_segment_closest_point (absolute tol) p1 q1 p2 q2 = Some r /\
  0 <= ss_s r <= 1 /\ 0 <= ss_t r <= 1 /\ ss_c1 r =p= lerp p1 q1 (ss_s r) /\ ss_c2 r =p= lerp p2 q2 (ss_t r) /\
  ss_d2 r == dist2 (ss_c1 r) (ss_c2 r).
Proof. exact closest_tol_ok. Qed.
Print Assumptions C12_tolerant_closest_points_on_segments.

Theorem C12_tolerant_minimality_refuted : exists tol p1 q1 p2 q2 r X Y, 0 < tol /\ tol < 1 /\
  segment_segment_closest_point (absolute tol) p1 q1 p2 q2 = Some r /\
  on_segment p1 q1 X /\ on_segment p2 q2 Y /\ dist2 X Y == 0 /\ tol < ss_d2 r.
Proof.
  exists (1 # 5), (mkpt 0 0), (mkpt (1 # 4) 0), (mkpt (13 # 20) 0), (mkpt (1 # 4) 0). eexists. exists (mkpt (1 # 4) 0), (mkpt (1 # 4) 0).
  split; [reflexivity|]. split; [reflexivity|]. split; [vm_compute; reflexivity|].
  split; [apply on_segment_ends|]. split; [apply on_segment_ends|]. split; vm_compute; reflexivity.
Qed.
Print Assumptions C12_tolerant_minimality_refuted.

Example C12_witness : exists r,
  segment_segment_closest_point direct (mkpt 0 0) (mkpt 4 0) (mkpt 2 1) (mkpt 2 5) = Some r /\ ss_d2 r == 1 /\ ss_s r == 1 # 2 /\ ss_t r == 0.
Proof. eexists; split; [vm_compute; reflexivity|]. repeat split; reflexivity. Qed.

(** C53: distance and closest point from a point to a polyline or polygon. *)
Theorem C53_point_polyline_distance : forall p ps, (2 <= length ps)%nat ->
  exists d, point_polyline_distance_sqrd p ps = Some d /\ least_dist2 p (on_polyline ps) d.
Proof.
  intros p ps L. pose proof (dist_edges_least p _ (polyline_edge ps) (polyline_edges_iff ps)) as H.
  unfold point_polyline_distance_sqrd. destruct (fold_left _ (polyline_edges ps) None) as [d|]; [exists d; split; [reflexivity|exact H]|].
  exfalso. destruct ps as [|a [|b ps]]; simpl in L; try lia. apply (H 0%nat a b). split; reflexivity.
Qed.
Print Assumptions C53_point_polyline_distance.

Theorem C53_point_polygon_distance : forall p ps, (1 <= length ps)%nat ->
  exists d, point_polygon_distance_sqrd p ps = Some d /\ least_dist2 p (on_polygon ps) d.
Proof.
  intros p ps L. pose proof (dist_edges_least p _ (polygon_edge ps) (polygon_edges_iff ps)) as H.
  unfold point_polygon_distance_sqrd. destruct (fold_left _ (polygon_edges ps) None) as [d|]; [exists d; split; [reflexivity|exact H]|].
  exfalso. destruct ps as [|a ps]; simpl in L; try lia. apply (H (length ps) (last (a :: ps) a) a).
  split; [rewrite <- (last_nth_error (a :: ps) a) by discriminate; simpl; rewrite Nat.sub_0_r; reflexivity|].
  simpl length. rewrite Nat.mod_same by lia. reflexivity.
Qed.
Print Assumptions C53_point_polygon_distance.

(** The closest point, when no edge is degenerate. *)
Theorem C53_point_polyline_closest_point : forall p ps, (2 <= length ps)%nat ->
  (forall i A B, polyline_edge ps i A B -> ~ A =p= B) ->
  exists c, point_polyline_closest_point p ps = Some c /\ on_polyline ps c /\
    forall X, on_polyline ps X -> dist2 p c <= dist2 p X.
Proof.
  intros p ps L ND. apply (closest_edges_ok p _ (polyline_edge ps) (polyline_edges_iff ps)); [|exact ND].
  destruct ps as [|a [|b ps]]; simpl in L; try lia. discriminate.
Qed.
Print Assumptions C53_point_polyline_closest_point.

Theorem C53_point_polygon_closest_point : forall p ps, ps <> [] ->
  (forall i A B, polygon_edge ps i A B -> ~ A =p= B) ->
  exists c, point_polygon_closest_point p ps = Some c /\ on_polygon ps c /\
    forall X, on_polygon ps X -> dist2 p c <= dist2 p X.
Proof.
  intros p ps L ND. apply (closest_edges_ok p _ (polygon_edge ps) (polygon_edges_iff ps)); [|exact ND].
  destruct ps as [|a ps]; [congruence|discriminate].
Qed.
Print Assumptions C53_point_polygon_closest_point.

Theorem C53_point_polygon_collection_closest_point : forall p polys, (exists ps, In ps polys /\ ps <> []) ->
  (forall ps i A B, In ps polys -> polygon_edge ps i A B -> ~ A =p= B) ->
  exists c, point_polygon_collection_closest_point p polys = Some c /\
    (exists ps, In ps polys /\ on_polygon ps c) /\
    forall X ps, In ps polys -> on_polygon ps X -> dist2 p c <= dist2 p X.
Proof.
  intros p polys (ps & HP & NE) ND.
  assert (HE : forall k A B, In (k, (A, B)) (flat_map polygon_edges polys) <-> exists ps, In ps polys /\ polygon_edge ps k A B).
  { intros k A B. rewrite in_flat_map. split; intros (x & H1 & H2); exists x; (split; [exact H1|]); apply polygon_edges_iff; exact H2. }
  destruct (closest_edges_ok p _ _ HE) as (c & E & (k & A & B & (qs & HQ & HE') & HS) & L).
  - destruct ps as [|a ps]; [congruence|]. intro Z. assert (HI : In (length ps - 0, (last (a :: ps) a, a))%nat (flat_map polygon_edges polys)).
    { apply in_flat_map. exists (a :: ps). split; [exact HP|]. left. reflexivity. }
    rewrite Z in HI; exact HI.
  - intros k A B (qs & H1 & H2). exact (ND qs k A B H1 H2).
  - exists c; split; [exact E|]. split.
    + exists qs; split; [exact HQ|]. exists k, A, B; auto.
    + intros X rs HR (k' & A' & B' & HE'' & HS'). apply L. exists k', A', B'; split; [exists rs; auto|exact HS'].
Qed.
Print Assumptions C53_point_polygon_collection_closest_point.

(** A repeated vertex that is the nearest edge makes the closest-point routine divide
    zero by zero, although the distance routine answers. *)
Theorem C53_repeated_vertex_closest_point_refuted : exists p ps d, (2 <= length ps)%nat /\
  point_polyline_distance_sqrd p ps = Some d /\ point_polyline_closest_point p ps = None.
Proof. exists (mkpt 0 0), [(mkpt 1 1); (mkpt 1 1); (mkpt 5 1)]. eexists. split; [simpl; lia|]. split; vm_compute; reflexivity. Qed.
Print Assumptions C53_repeated_vertex_closest_point_refuted.

Example C53_witness : point_polyline_distance_sqrd (mkpt 1 3) [(mkpt 0 0); (mkpt 4 0); (mkpt 4 4)] <> None /\
  point_polygon_distance_sqrd (mkpt 1 3) [(mkpt 0 0); (mkpt 4 0); (mkpt 4 4)] <> None /\
  exists c, point_polygon_closest_point (mkpt 1 3) [(mkpt 0 0); (mkpt 4 0); (mkpt 4 4)] = Some c /\ c =p= (mkpt 2 2).
Proof. split; [discriminate|]. split; [discriminate|]. eexists; split; [vm_compute; reflexivity|]. split; reflexivity. Qed.

(** C54: segment to polyline / polygon. *)
Theorem C54_segment_polyline_distance : forall p1 p2 ps, (2 <= length ps)%nat ->
  exists d, segment_polyline_distance_sqrd direct p1 p2 ps = Some (Some d) /\
    least_dist2_sets (on_segment p1 p2) (on_polyline ps) d.
Proof.
  intros p1 p2 ps L. apply (segment_edges_least p1 p2 _ (polyline_edge ps) (polyline_edges_iff ps)).
  destruct ps as [|a [|b ps]]; simpl in L; try lia. discriminate.
Qed.
Print Assumptions C54_segment_polyline_distance.

Theorem C54_segment_polygon_distance : forall p1 p2 ps, ps <> [] ->
  exists d, segment_polygon_distance_sqrd direct p1 p2 ps = Some (Some d) /\
    least_dist2_sets (on_segment p1 p2) (on_polygon ps) d.
Proof.
  intros p1 p2 ps L. apply (segment_edges_least p1 p2 _ (polygon_edge ps) (polygon_edges_iff ps)).
  destruct ps; [congruence|discriminate].
Qed.
Print Assumptions C54_segment_polygon_distance.

Theorem C54_segment_polyline_closest_point : forall p1 p2 ps, (2 <= length ps)%nat ->
  exists k r A B, segment_polyline_closest_point direct p1 p2 ps = Some (Some (k, r)) /\
    polyline_edge ps k A B /\ 0 <= ss_s r <= 1 /\ 0 <= ss_t r <= 1 /\
    ss_c1 r =p= lerp p1 p2 (ss_s r) /\ ss_c2 r =p= lerp A B (ss_t r) /\ ss_d2 r == dist2 (ss_c1 r) (ss_c2 r) /\
    forall X Y, on_segment p1 p2 X -> on_polyline ps Y -> ss_d2 r <= dist2 X Y.
Proof.
  intros p1 p2 ps L. apply (segment_edges_closest_least p1 p2 _ (polyline_edge ps) (polyline_edges_iff ps)).
  destruct ps as [|a [|b ps]]; simpl in L; try lia. discriminate.
Qed.
Print Assumptions C54_segment_polyline_closest_point.

Theorem C54_segment_polygon_closest_point : forall p1 p2 ps, ps <> [] ->
  exists k r A B, segment_polygon_closest_point direct p1 p2 ps = Some (Some (k, r)) /\
    polygon_edge ps k A B /\ 0 <= ss_s r <= 1 /\ 0 <= ss_t r <= 1 /\
    ss_c1 r =p= lerp p1 p2 (ss_s r) /\ ss_c2 r =p= lerp A B (ss_t r) /\ ss_d2 r == dist2 (ss_c1 r) (ss_c2 r) /\
    forall X Y, on_segment p1 p2 X -> on_polygon ps Y -> ss_d2 r <= dist2 X Y.
Proof.
  intros p1 p2 ps L. apply (segment_edges_closest_least p1 p2 _ (polygon_edge ps) (polygon_edges_iff ps)).
  destruct ps; [congruence|discriminate].
Qed.
Print Assumptions C54_segment_polygon_closest_point.

Example C54_witness : exists r,
  segment_polygon_closest_point direct (mkpt (-2) 1) (mkpt (-1) 1) [(mkpt 0 0); (mkpt 4 0); (mkpt 4 4); (mkpt 0 4)] = Some (Some (3%nat, r)) /\ ss_d2 r == 1.
Proof. eexists; split; [vm_compute; reflexivity|reflexivity]. Qed.

(** C55: point to line, point and segment to oriented box. *)
Theorem C55_point_line_distance : forall p l, dot (l_dir l) (l_dir l) == 1 ->
  least_dist2 p (on_line2 l) (point_line_distance p l * point_line_distance p l) /\
  0 <= point_line_distance p l /\
  (0 < signed_point_line_distance p l <-> left_of (l_ref l) (vadd (l_ref l) (l_dir l)) p).
Proof. exact point_line_ok. Qed.
Print Assumptions C55_point_line_distance.

Theorem C55_point_obb_distance : forall p b, ok_obb b -> least_dist2 p (in_obb b) (point_obb_distance_sqrd p b).
Proof. intros p b OK; apply (point_obb_ok p b OK). Qed.
Print Assumptions C55_point_obb_distance.

Theorem C55_point_obb_closest_point : forall p b, ok_obb b ->
  in_obb b (point_obb_closest_point p b) /\
  forall X, in_obb b X -> dist2 p (point_obb_closest_point p b) <= dist2 p X.
Proof.
  intros p b OK. destruct (point_obb_ok p b OK) as ([_ L] & IN & E). split; [exact IN|]. intros X HX. rewrite E; exact (L X HX).
Qed.
Print Assumptions C55_point_obb_closest_point.

(** The segment-to-oriented-box distance measures three sides and a diagonal. *)
Theorem C55_segment_obb_distance_measured : forall p q b, ok_obb b ->
  exists d o0 o1 o2 o3, segment_obb_distance_sqrd direct p q b = Some d /\
    obb_point b 0 = Some o0 /\ obb_point b 1 = Some o1 /\ obb_point b 2 = Some o2 /\ obb_point b 3 = Some o3 /\
    least_dist2_sets (on_segment p q)
      (fun X => on_segment o0 o1 X \/ on_segment o1 o2 X \/ on_segment o2 o3 X \/ on_segment o3 o1 X) d.
Proof.
  intros p q b _. unfold segment_obb_distance_sqrd.
  destruct (obb_point b 0) as [o0|] eqn:E0; [|discriminate]. destruct (obb_point b 1) as [o1|] eqn:E1; [|discriminate].
  destruct (obb_point b 2) as [o2|] eqn:E2; [|discriminate]. destruct (obb_point b 3) as [o3|] eqn:E3; [|discriminate].
  destruct (segseg_least p q o0 o1) as (d0 & D0 & (x0 & y0 & X0 & Y0 & V0) & L0).
  destruct (segseg_least p q o1 o2) as (d1 & D1 & (x1 & y1 & X1 & Y1 & V1) & L1).
  destruct (segseg_least p q o2 o3) as (d2 & D2 & (x2 & y2 & X2 & Y2 & V2) & L2).
  destruct (segseg_least p q o3 o1) as (d3 & D3 & (x3 & y3 & X3 & Y3 & V3) & L3).
  rewrite D0, D1, D2, D3. eexists; exists o0, o1, o2, o3. split; [reflexivity|]. do 4 (split; [reflexivity|]).
  set (m := qmin (qmin (qmin d0 d1) d2) d3).
  assert (M : (m == d0 \/ m == d1 \/ m == d2 \/ m == d3) /\ m <= d0 /\ m <= d1 /\ m <= d2 /\ m <= d3).
  { unfold m, qmin. 
    destruct (Qltb d1 d0) eqn:?; destruct (Qltb d2 _) eqn:?; destruct (Qltb d3 _) eqn:?;
    repeat match goal with H : Qltb ?a ?b = _ |- _ => destruct (Qltb_spec a b); try discriminate; clear H end;
    (split; [auto 10 with qarith|]); repeat split; lra. }
  destruct M as (MC & M0 & M1 & M2 & M3). split.
  - destruct MC as [E|[E|[E|E]]]; [exists x0, y0|exists x1, y1|exists x2, y2|exists x3, y3]; rewrite E; auto 10.
  - intros x y HX [H|[H|[H|H]]]; [specialize (L0 x y HX H)|specialize (L1 x y HX H)|specialize (L2 x y HX H)|specialize (L3 x y HX H)]; lra.
Qed.
Print Assumptions C55_segment_obb_distance_measured.

Theorem C55_segment_obb_distance_refuted : exists p q b d, ok_obb b /\
  segment_obb_distance_sqrd direct p q b = Some d /\
  exists X Y, on_segment p q X /\ on_obb_border b Y /\ dist2 X Y < d.
Proof.
  exists (mkpt (-5) (-(1 # 2))), (mkpt (-5) (1 # 2)), (mkobb (mkpt 0 0) (mkpt 1 0) (mkpt 0 1) 1 1). eexists.
  split; [repeat split; vm_compute; congruence|]. split; [vm_compute; reflexivity|].
  exists (lerp (mkpt (-5) (-(1 # 2))) (mkpt (-5) (1 # 2)) (1 # 2)), (mkpt (-1) 0).
  split; [exists (1 # 2); split; [lra|apply pteq_refl]|].
  split; [exists (-1), 0; simpl; split; [left; split; [right; reflexivity|lra]|split; reflexivity]|]. vm_compute; reflexivity.
Qed.
Print Assumptions C55_segment_obb_distance_refuted.

Example C55_witness : ok_obb (mkobb (mkpt 1 1) (mkpt (3 # 5) (4 # 5)) (mkpt (-4 # 5) (3 # 5)) 2 1) /\
  point_obb_distance_sqrd (mkpt (1 + 3) (1 + 4)) (mkobb (mkpt 1 1) (mkpt (3 # 5) (4 # 5)) (mkpt (-4 # 5) (3 # 5)) 2 1) == 9 /\
  dot (mkpt (3 # 5) (4 # 5)) (mkpt (3 # 5) (4 # 5)) == 1.
Proof. repeat split; vm_compute; congruence. Qed.
