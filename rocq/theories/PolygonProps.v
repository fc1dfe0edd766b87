(** Properties of polygons: area, centroid, containment. *)
From Verif Require Import Base CmpModel OrientModel OrientSpec DistSpec PolygonModel PolygonSpec PolygonProof PolygonConvexProof PolygonBorderProof.

(** ** C25 Signed area *)

(** Whatever the reference point o, twice the signed area is the sum over the edges a-b of
    twice the signed area of the triangle o a b. *)
Theorem C25_area_is_sum_of_fan_triangles : forall ps s o, get_signed_area ps = Some s ->
  2 * s == edge_sum (fun a b => tri2 o a b) ps.
Proof. exact signed_area_fan. Qed.
Print Assumptions C25_area_is_sum_of_fan_triangles.
Theorem C25_defined_iff_nonempty : forall ps, (exists s, get_signed_area ps = Some s) <-> ps <> [].
Proof. intro ps. split; [intros [s H] E; subst; discriminate|apply signed_area_some]. Qed.
Print Assumptions C25_defined_iff_nonempty.
Theorem C25_rotation : forall l1 l2 s t, get_signed_area (l1 ++ l2) = Some s -> get_signed_area (l2 ++ l1) = Some t -> s == t.
Proof. exact signed_area_rotate. Qed.
Print Assumptions C25_rotation.
Theorem C25_reversal : forall l s t, get_signed_area l = Some s -> get_signed_area (rev l) = Some t -> t == - s.
Proof. exact signed_area_reverse. Qed.
Print Assumptions C25_reversal.
(** Cutting along the diagonal between two vertices. *)
Theorem C25_cut : forall a l1 b l2 s s1 s2,
  get_signed_area (a :: l1 ++ b :: l2) = Some s ->
  get_signed_area (a :: l1 ++ [b]) = Some s1 -> get_signed_area (b :: l2 ++ [a]) = Some s2 -> s == s1 + s2.
Proof. exact signed_area_split. Qed.
Print Assumptions C25_cut.
(** Under p |-> M p + t the area is multiplied by det M; translations keep it. *)
Theorem C25_affine : forall a b c d t ps s s', get_signed_area ps = Some s ->
  get_signed_area (map (fun p => mkpt (a * px p + b * py p + px t) (c * px p + d * py p + py t)) ps) = Some s' ->
  s' == (a * d - b * c) * s.
Proof. exact signed_area_affine. Qed.
Print Assumptions C25_affine.
Theorem C25_area_is_absolute : forall ps a, get_area ps = Some a <-> exists s, get_signed_area ps = Some s /\ a = qabs s.
Proof.
  intros ps a. unfold get_area. destruct (get_signed_area ps) as [s|].
  - split; [intro H; exists s; split; congruence|intros (s' & E & ->); congruence].
  - split; [discriminate|intros (s & E & _); discriminate].
Qed.
Print Assumptions C25_area_is_absolute.
Example C25_witness : exists s, get_signed_area [mkpt 0 0; mkpt 4 0; mkpt 4 3; mkpt 1 1; mkpt 0 3] = Some s /\ s == 8.
Proof. eexists. split; [reflexivity|]. reflexivity. Qed.
Example C25_cut_witness : exists s s1 s2, get_signed_area (mkpt 0 0 :: [mkpt 4 0] ++ mkpt 4 3 :: [mkpt 0 3]) = Some s /\
  get_signed_area (mkpt 0 0 :: [mkpt 4 0] ++ [mkpt 4 3]) = Some s1 /\ get_signed_area (mkpt 4 3 :: [mkpt 0 3] ++ [mkpt 0 0]) = Some s2 /\ s == 12 /\ s1 == 6 /\ s2 == 6.
Proof. do 3 eexists. repeat split; reflexivity. Qed.

(** ** C67 Centroid *)

(** For every reference point, the area-weighted mean of the centroids of the fan triangles. *)
Theorem C67_centroid_is_weighted_mean : forall ps c, get_centroid ps = Some c -> forall o,
  ~ edge_sum (fun a b => tri2 o a b) ps == 0 /\
  edge_sum (fun a b => tri2 o a b) ps * px c == edge_sum (fun a b => tri2 o a b * ((px o + px a + px b) * (1 # 3))) ps /\
  edge_sum (fun a b => tri2 o a b) ps * py c == edge_sum (fun a b => tri2 o a b * ((py o + py a + py b) * (1 # 3))) ps.
Proof. exact centroid_fan. Qed.
Print Assumptions C67_centroid_is_weighted_mean.
Theorem C67_undefined_iff_zero_area : forall ps, get_centroid ps = None <-> ps = [] \/ (exists s, get_signed_area ps = Some s /\ s == 0).
Proof. exact centroid_none. Qed.
Print Assumptions C67_undefined_iff_zero_area.
(** A triangle's centroid is the mean of its corners. *)
Theorem C67_triangle : forall A B C, ~ tri2 A B C == 0 -> exists c, get_centroid [A; B; C] = Some c /\
  3 * px c == px A + px B + px C /\ 3 * py c == py A + py B + py C.
Proof.
  intros A B C N. destruct (get_centroid [A; B; C]) as [c|] eqn:E.
  - exists c. split; [reflexivity|]. destruct (centroid_fan _ _ E A) as (_ & EX & EY).
    unfold edge_sum, pnth in EX, EY. cbn [length qsum nth Nat.modulo Nat.divmod fst snd Nat.sub] in EX, EY. cbn in EX, EY.
    assert (Z1 : tri2 A A B == 0) by (unfold tri2, cross, vsub; cbn [px py]; ring).
    assert (Z2 : tri2 A C A == 0) by (unfold tri2, cross, vsub; cbn [px py]; ring).
    rewrite Z1, Z2 in EX, EY. set (k := tri2 A B C) in *. clearbody k.
    split; apply (Qmult_inj_l _ _ k N); lra.
  - exfalso. apply centroid_none in E. destruct E as [E|(s & E & Z)]; [discriminate|].
    pose proof (signed_area_fan _ _ A E) as F. unfold edge_sum, pnth in F. cbn in F.
    assert (Z1 : tri2 A A B == 0) by (unfold tri2, cross, vsub; cbn [px py]; ring).
    assert (Z2 : tri2 A C A == 0) by (unfold tri2, cross, vsub; cbn [px py]; ring). lra.
Qed.
Print Assumptions C67_triangle.
Example C67_witness : exists c, get_centroid [mkpt 1 1; mkpt 5 1; mkpt 5 3; mkpt 1 3] = Some c /\ c =p= mkpt 3 2.
Proof. eexists. split; [reflexivity|]. split; reflexivity. Qed.

(** ** C26 Even-odd containment *)

(** The answer is the parity of the number of edges, taken half-open, met by the horizontal
    ray to the right. *)
Theorem C26_parity_of_ray_crossings : forall A ps (cr : nat -> bool), (3 <= length ps)%nat ->
  (forall i u v, polygon_edge ps i u v -> (cr i = true <->
    (py A < py u /\ py v <= py A \/ py A < py v /\ py u <= py A) /\ (exists X, on_segment u v X /\ py X == py A /\ px A < px X))) ->
  point_in_polygon A ps = Nat.odd (count_below cr (length ps)).
Proof. exact pip_ray_parity. Qed.
Print Assumptions C26_parity_of_ray_crossings.
(** Two points joined by a segment that misses the polygon's edges get the same answer. *)
Theorem C26_constant_off_the_boundary : forall A B ps, (forall i u v, polygon_edge ps i u v -> misses A B u v) ->
  point_in_polygon A ps = point_in_polygon B ps.
Proof. exact pip_same_component. Qed.
Print Assumptions C26_constant_off_the_boundary.
(** A segment crossing some edges properly and missing the others changes the answer by the
    parity of the number of crossed edges. *)
Theorem C26_crossing_parity : forall A B ps (cr : nat -> bool), (3 <= length ps)%nat ->
  (forall i u v, polygon_edge ps i u v -> if cr i then crosses A B u v else misses A B u v) ->
  xorb (point_in_polygon A ps) (point_in_polygon B ps) = Nat.odd (count_below cr (length ps)).
Proof. exact crossing_parity_index. Qed.
Print Assumptions C26_crossing_parity.
Theorem C26_outside_bounding_box : forall A ps, outside_box ps A -> point_in_polygon A ps = false.
Proof. exact pip_outside_box. Qed.
Print Assumptions C26_outside_bounding_box.
(** A point that can leave the bounding box along a path avoiding the edges is outside. *)
Theorem C26_unbounded_component : forall ps path A, avoiding_path ps A path -> outside_box ps (last path A) ->
  point_in_polygon A ps = false.
Proof. intros ps path A H O. rewrite (pip_path ps path A H). apply pip_outside_box, O. Qed.
Print Assumptions C26_unbounded_component.
Theorem C26_rotation : forall A l1 l2, point_in_polygon A (l1 ++ l2) = point_in_polygon A (l2 ++ l1).
Proof. exact pip_rotate. Qed.
Print Assumptions C26_rotation.
Theorem C26_reversal : forall A l, point_in_polygon A (rev l) = point_in_polygon A l.
Proof. exact pip_reverse. Qed.
Print Assumptions C26_reversal.
(** On strictly convex polygons: true strictly inside, false outside the hull. *)
Theorem C26_convex : forall ps p, convex_ccw ps -> (3 <= length ps)%nat ->
  (strictly_inside ps p -> point_in_polygon p ps = true) /\ (~ in_hull ps p -> point_in_polygon p ps = false).
Proof. intros ps p C L. split; [apply pip_convex_inside|apply pip_convex_outside]; assumption. Qed.
Print Assumptions C26_convex.
Theorem C26_fewer_than_three_points : forall A ps, (length ps < 3)%nat -> point_in_polygon A ps = false.
Proof. intros A ps H. rewrite pip_xsum. destruct (Nat.ltb_spec (length ps) 3); [reflexivity|Lia.lia]. Qed.
Print Assumptions C26_fewer_than_three_points.

Definition ell : list pt := [mkpt 0 0; mkpt 4 0; mkpt 4 1; mkpt 1 1; mkpt 1 4; mkpt 0 4].
Example C26_witness : point_in_polygon (mkpt (1 # 2) 3) ell = true /\ point_in_polygon (mkpt 3 3) ell = false /\
  (forall i u v, polygon_edge ell i u v -> misses (mkpt (1 # 2) 3) (mkpt (1 # 2) (1 # 2)) u v).
Proof.
  split; [reflexivity|]. split; [reflexivity|]. intros i u v E X H1 H2.
  assert (P : 0 < px X < 1 /\ 0 < py X < 4).
  { destruct H1 as (t & Ht & E1 & E2). unfold lerp, vadd, vscale, vsub in E1, E2; cbn [px py] in E1, E2. rewrite E1, E2. repeat split; lra. }
  clear H1. apply edge_pnth in E as (Hi & -> & ->). destruct H2 as (t & Ht & E1 & E2).
  unfold lerp, vadd, vscale, vsub in E1, E2; cbn [px py] in E1, E2.
  destruct i as [|[|[|[|[|[|i]]]]]]; cbn in E1, E2; try lra. cbn in Hi. Lia.lia.
Qed.
Definition tri : list pt := [mkpt 0 0; mkpt 4 0; mkpt 0 4].
Example C26_convex_witness : convex_ccw tri /\ (3 <= length tri)%nat /\ strictly_inside tri (mkpt 1 1) /\ ~ in_hull tri (mkpt 3 3).
Proof.
  assert (CV : convex_ccw tri).
  { intros i j k A B C O HA HB HC. assert (K : (k < 3)%nat) by (change 3%nat with (length tri); apply nth_error_Some; congruence).
    assert (k = 2%nat /\ j = 1%nat /\ i = 0%nat) as (-> & -> & ->) by Lia.lia. cbn in HA, HB, HC.
    assert (A = mkpt 0 0) by congruence. assert (B = mkpt 4 0) by congruence. assert (C = mkpt 0 4) by congruence. subst. reflexivity. }
  split; [exact CV|]. split; [cbn; Lia.lia|]. split.
  - intros i A B E. apply edge_pnth in E as (Hi & -> & ->). destruct i as [|[|[|i]]]; [reflexivity|reflexivity|reflexivity|cbn in Hi; Lia.lia].
  - intro H. pose proof (hull_left tri (mkpt 3 3) 1 CV ltac:(cbn; Lia.lia) H ltac:(cbn; Lia.lia)) as X. cbn in X. vm_compute in X. apply X. reflexivity.
Qed.

(** ** C68 Containment with borders *)

Theorem C68_vertex : forall eps p ps,
  point_polygon_containment_or_on_border direct eps p ps = vertex <-> exists v, In v ps /\ p =p= v.
Proof. intros. apply containment_char. Qed.
Print Assumptions C68_vertex.
(** Off the vertices, the answer is border exactly when an odd number of edges pass through p,
    and otherwise the even-odd answer. *)
Theorem C68_border_parity : forall eps p ps (on : nat -> bool), (forall v, In v ps -> ~ p =p= v) ->
  (forall i u v, polygon_edge ps i u v -> (on i = true <-> on_segment u v p)) ->
  point_polygon_containment_or_on_border direct eps p ps =
    if Nat.odd (count_below on (length ps)) then border else if point_in_polygon p ps then interior else exterior.
Proof.
  intros eps p ps on NV H. destruct (containment_char eps p ps) as [_ E]. rewrite (E NV). rewrite (border_parity_count p ps on H).
  destruct (Nat.odd (count_below on (length ps))); [reflexivity|]. rewrite pip_xsum.
  destruct (xsum (pip_flip p) (closed_chain ps)) eqn:X.
  - apply interior_needs_three in X. destruct (Nat.ltb_spec (length ps) 3); [Lia.lia|reflexivity].
  - rewrite andb_false_r. reflexivity.
Qed.
Print Assumptions C68_border_parity.
(** When at most one edge passes through p (simple polygons): border exactly on the boundary. *)
Theorem C68_border_of_simple_polygons : forall eps p ps, (forall v, In v ps -> ~ p =p= v) ->
  (forall i j A B C D, polygon_edge ps i A B -> polygon_edge ps j C D -> on_segment A B p -> on_segment C D p -> i = j) ->
  (point_polygon_containment_or_on_border direct eps p ps = border <-> on_polygon ps p) /\
  (point_polygon_containment_or_on_border direct eps p ps = interior <-> ~ on_polygon ps p /\ point_in_polygon p ps = true) /\
  (point_polygon_containment_or_on_border direct eps p ps = exterior <-> ~ on_polygon ps p /\ point_in_polygon p ps = false).
Proof.
  intros eps p ps NV U. destruct (containment_char eps p ps) as [_ E]. rewrite (E NV).
  pose proof (border_parity_single p ps U) as B.
  assert (P : point_in_polygon p ps = xsum (pip_flip p) (closed_chain ps)).
  { rewrite pip_xsum. destruct (xsum (pip_flip p) (closed_chain ps)) eqn:X; [|apply andb_false_r].
    apply interior_needs_three in X. destruct (Nat.ltb_spec (length ps) 3); [Lia.lia|reflexivity]. }
  rewrite P. destruct (border_parity p ps).
  - assert (O : on_polygon ps p) by (apply B; reflexivity). repeat split; try discriminate; try reflexivity; try tauto.
  - assert (O : ~ on_polygon ps p) by (intro K; apply B in K; discriminate).
    destruct (xsum (pip_flip p) (closed_chain ps)); repeat split; try discriminate; try reflexivity; try tauto; intros [_ K]; discriminate.
Qed.
Print Assumptions C68_border_of_simple_polygons.
(** Points on two overlapping edges are not reported as border. *)
Theorem C68_doubled_edge_refuted : exists p ps, on_polygon ps p /\ (forall v, In v ps -> ~ p =p= v) /\
  point_polygon_containment_or_on_border direct 0 p ps = exterior.
Proof.
  exists (mkpt 1 0), [mkpt 0 0; mkpt 2 0; mkpt 0 0; mkpt (-1) 0]. split; [|split].
  - exists 0%nat, (mkpt 0 0), (mkpt 2 0). split; [split; reflexivity|]. exists (1 # 2). split; [lra|]. split; reflexivity.
  - intros v [<-|[<-|[<-|[<-|[]]]]] [X Y]; cbn in X; lra.
  - reflexivity.
Qed.
Print Assumptions C68_doubled_edge_refuted.
Example C68_witness : point_polygon_containment_or_on_border direct 0 (mkpt 2 1) ell = border /\
  point_polygon_containment_or_on_border direct 0 (mkpt 1 1) ell = vertex /\
  point_polygon_containment_or_on_border direct 0 (mkpt (1 # 2) 1) ell = interior /\
  point_polygon_containment_or_on_border direct 0 (mkpt 5 1) ell = exterior.
Proof. repeat split; reflexivity. Qed.

(** ** C27 Triangles *)

Theorem C27_counter_clockwise : forall p A B C, 0 < tri2 A B C -> (point_in_triangle direct p A B C = true <-> in_triangle A B C p).
Proof. exact pit_ccw. Qed.
Print Assumptions C27_counter_clockwise.
(** Clockwise triangles contain nothing, according to the query. *)
Theorem C27_clockwise_rejects_everything : forall p A B C, tri2 A B C < 0 -> point_in_triangle direct p A B C = false.
Proof. exact pit_cw. Qed.
Print Assumptions C27_clockwise_rejects_everything.
Theorem C27_clockwise_refuted : exists p A B C, ~ tri2 A B C == 0 /\ in_triangle A B C p /\ point_in_triangle direct p A B C = false.
Proof.
  exists (mkpt 1 1), (mkpt 0 0), (mkpt 0 3), (mkpt 3 0). split; [discriminate|]. split; [|reflexivity].
  exists (1 # 3), (1 # 3), (1 # 3). repeat split; try discriminate; reflexivity.
Qed.
Print Assumptions C27_clockwise_refuted.
(** A degenerate triangle accepts its whole line. *)
Theorem C27_degenerate_accepts_the_line : forall p A B C, tri2 A B C == 0 ->
  (point_in_triangle direct p A B C = true <-> tri2 A B p == 0 /\ tri2 B C p == 0 /\ tri2 C A p == 0).
Proof. exact pit_degenerate. Qed.
Print Assumptions C27_degenerate_accepts_the_line.
Theorem C27_tolerant_keeps_the_triangle : forall t p A B C, 0 <= t -> 0 < tri2 A B C -> in_triangle A B C p ->
  point_in_triangle (absolute t) p A B C = true.
Proof. intros t p A B C Ht T H. apply pit_tolerant; [exact Ht|]. apply pit_ccw; assumption. Qed.
Print Assumptions C27_tolerant_keeps_the_triangle.
(** In space, for points of the plane of a proper triangle: the triangle and, wrongly, the
    whole line through B and C. *)
Theorem C27_in_space : forall p A B C,
  ~ dot3 (cross3 (vsub3 B A) (vsub3 C A)) (cross3 (vsub3 B A) (vsub3 C A)) == 0 -> coplanar3 A B C p ->
  (point_in_triangle3 direct p A B C = true <-> in_triangle3 A B C p \/ (exists t, pt3eq p (vadd3 B (vscale3 t (vsub3 C B))))).
Proof. exact pit3_char. Qed.
Print Assumptions C27_in_space.
Theorem C27_in_space_refuted : exists p A B C, coplanar3 A B C p /\ ~ in_triangle3 A B C p /\ point_in_triangle3 direct p A B C = true.
Proof.
  exists (mkpt3 5 0 0), (mkpt3 0 1 0), (mkpt3 0 0 0), (mkpt3 1 0 0). split; [|split; [|reflexivity]].
  - exists 0, (-(4)), 5. repeat split; reflexivity.
  - intros (a & b & c & Ha & Hb & Hc & S & E1 & E2 & E3). unfold vadd3, vscale3 in E1; cbn [x3 y3 z3] in E1. lra.
Qed.
Print Assumptions C27_in_space_refuted.
Example C27_witness : 0 < tri2 (mkpt 0 0) (mkpt 3 0) (mkpt 0 3) /\ point_in_triangle direct (mkpt 1 1) (mkpt 0 0) (mkpt 3 0) (mkpt 0 3) = true /\
  point_in_triangle direct (mkpt 2 2) (mkpt 0 0) (mkpt 3 0) (mkpt 0 3) = false.
Proof. repeat split; reflexivity. Qed.
Example C27_space_witness : coplanar3 (mkpt3 0 0 1) (mkpt3 3 0 1) (mkpt3 0 3 1) (mkpt3 1 1 1) /\
  point_in_triangle3 direct (mkpt3 1 1 1) (mkpt3 0 0 1) (mkpt3 3 0 1) (mkpt3 0 3 1) = true /\
  point_in_triangle3 direct (mkpt3 2 2 1) (mkpt3 0 0 1) (mkpt3 3 0 1) (mkpt3 0 3 1) = false.
Proof. split; [exists (1 # 3), (1 # 3), (1 # 3); repeat split; reflexivity|]. split; reflexivity. Qed.

(** ** C69 Logarithmic containment in convex polygons *)

(** The recursion ends, stays within the polygon's indices, and answers exactly membership in
    the convex hull. *)
Theorem C69_point_in_convex_polygon : forall p ps, convex_ccw ps -> (3 <= length ps)%nat ->
  exists b, point_in_convex_polygon direct p ps = Some b /\ (b = true <-> in_hull ps p).
Proof. exact convex_polygon_exact. Qed.
Print Assumptions C69_point_in_convex_polygon.
(** The convex hull is the intersection of the left half-planes of the edges. *)
Theorem C69_hull_is_half_plane_intersection : forall ps p, convex_ccw ps -> (3 <= length ps)%nat ->
  (in_hull ps p <-> forall i A B, polygon_edge ps i A B -> 0 <= tri2 A B p).
Proof.
  intros ps p C L. rewrite (left_of_all_hull ps p C L). split.
  - intros H i A B E. apply edge_pnth in E as (Hi & -> & ->). apply H, Hi.
  - intros H i Hi. apply (H i _ _ (edge_at ps i Hi)).
Qed.
Print Assumptions C69_hull_is_half_plane_intersection.
Theorem C69_point_in_convex_quadrilateral : forall p v0 v1 v2 v3, convex_ccw [v0; v1; v2; v3] ->
  (point_in_convex_quadrilateral direct p v0 v1 v2 v3 = true <-> in_hull [v0; v1; v2; v3] p).
Proof. exact quadrilateral_exact. Qed.
Print Assumptions C69_point_in_convex_quadrilateral.
Definition hexagon : list pt := [mkpt 2 0; mkpt 1 2; mkpt (-1) 2; mkpt (-2) 0; mkpt (-1) (-2); mkpt 1 (-2)].
Example C69_witness : convex_ccw hexagon /\ point_in_convex_polygon direct (mkpt 1 1) hexagon = Some true /\
  point_in_convex_polygon direct (mkpt 2 1) hexagon = Some false.
Proof.
  split; [|split; reflexivity]. intros i j k A B C O HA HB HC.
  assert (K : (k < 6)%nat) by (change 6%nat with (length hexagon); apply nth_error_Some; congruence).
  destruct k as [|[|[|[|[|[|k]]]]]]; try Lia.lia; destruct j as [|[|[|[|[|j]]]]]; try Lia.lia; destruct i as [|[|[|[|i]]]]; try Lia.lia;
  injection HA as <-; injection HB as <-; injection HC as <-; reflexivity.
Qed.

(** ** C70 Index and segment helpers *)

Theorem C70_next_prev_inverse : forall n i, (i < n)%nat ->
  prev_index n (next_index n i) = i /\ next_index n (prev_index n i) = i /\ next_index n i = (S i mod n)%nat.
Proof. intros n i H. destruct (next_prev n i H). repeat split; auto. apply next_is_mod, H. Qed.
Print Assumptions C70_next_prev_inverse.
(** The segments of a polygon are its edges in order; one point is read out of range. *)
Theorem C70_polygon_segments : forall ps,
  (length ps <> 1%nat -> exists l, polygon_as_segment_range ps = Some l /\ length l = length ps /\
    forall i A B, nth_error l i = Some (A, B) <-> polygon_edge ps i A B) /\
  (length ps = 1%nat -> polygon_as_segment_range ps = None).
Proof.
  intro ps. split.
  - intro N. destruct ps as [|a [|b ps]]; [|cbn in N; contradiction|].
    + exists []. split; [reflexivity|]. split; [reflexivity|]. intros i A B. unfold polygon_edge. destruct i; split; try discriminate; intros [K _]; discriminate.
    + assert (L : (2 <= length (a :: b :: ps))%nat) by (cbn; Lia.lia). set (q := a :: b :: ps) in *. clearbody q.
      eexists. split; [apply segment_range_ok, L|]. split; [rewrite map_length, seq_length; reflexivity|].
      intros i A B. rewrite (segment_range_edges q _ (segment_range_ok q L) i). unfold polygon_edge.
      destruct (nth_error q i) as [x|]; [|split; [discriminate|intros [K _]; discriminate]].
      destruct (nth_error q (S i mod length q)) as [y|]; [|split; [discriminate|intros [_ K]; discriminate]].
      split; [intro K; injection K as <- <-; auto|intros [K1 K2]; congruence].
  - destruct ps as [|a [|b ps]]; cbn; try discriminate. reflexivity.
Qed.
Print Assumptions C70_polygon_segments.
Theorem C70_polyline_segments : forall ps i A B, nth_error (polyline_as_segment_range ps) i = Some (A, B) <-> polyline_edge ps i A B.
Proof. exact polyline_range_edges. Qed.
Print Assumptions C70_polyline_segments.
Theorem C70_point_sequences_equal : forall p1 p2, point_sequences_equal direct p1 p2 = true <-> Forall2 pteq p1 p2.
Proof. exact sequences_equal_ok. Qed.
Print Assumptions C70_point_sequences_equal.
Theorem C70_polygons_equal : forall p1 p2 off, exists b, polygons_equal direct p1 p2 off = Some b /\
  (b = true <-> length p1 = length p2 /\ forall j, (j < length p1)%nat -> pnth p1 j =p= pnth p2 ((j + off) mod length p2)).
Proof. exact polygons_equal_ok. Qed.
Print Assumptions C70_polygons_equal.
(** The offset of a rotated copy is found when the points are distinct. *)
Theorem C70_polygon_offset : forall p1 p2 off, p1 <> [] -> length p1 = length p2 -> (off < length p1)%nat ->
  (forall j, (j < length p1)%nat -> pnth p1 j =p= pnth p2 ((j + off) mod length p2)) ->
  (forall i j, (i < j < length p2)%nat -> ~ pnth p2 i =p= pnth p2 j) ->
  polygon_polygon_offset direct p1 p2 = Some off.
Proof. exact offset_ok. Qed.
Print Assumptions C70_polygon_offset.
(** With a repeated point the offset found need not be one that works. *)
Theorem C70_polygon_offset_refuted : exists p1 p2 off k, polygons_equal direct p1 p2 off = Some true /\
  polygon_polygon_offset direct p1 p2 = Some k /\ polygons_equal direct p1 p2 k = Some false.
Proof.
  exists [mkpt 0 0; mkpt 1 0; mkpt 0 0; mkpt 0 1], [mkpt 0 0; mkpt 0 1; mkpt 0 0; mkpt 1 0], 2%nat, 0%nat. repeat split; reflexivity.
Qed.
Print Assumptions C70_polygon_offset_refuted.
Theorem C70_concave : forall ps i A B C, (i < length ps)%nat ->
  nth_error ps ((i + length ps - 1) mod length ps) = Some A -> nth_error ps i = Some B -> nth_error ps (S i mod length ps) = Some C ->
  exists b, is_point_concave ps i = Some b /\ (b = true <-> tri2 A B C <= 0).
Proof.
  intros ps i A B C Hi HA HB HC. rewrite (concave_ok ps i A B C Hi HA HB HC). eexists. split; [reflexivity|].
  destruct (Qltb_spec 0 (tri2 A B C)); cbn [negb]; split; try discriminate; try reflexivity; intros; lra.
Qed.
Print Assumptions C70_concave.
Example C70_witness : polygon_as_segment_range tri = Some [(mkpt 0 0, mkpt 4 0); (mkpt 4 0, mkpt 0 4); (mkpt 0 4, mkpt 0 0)] /\
  is_point_concave ell 3 = Some true /\ is_point_concave ell 1 = Some false /\
  polygon_polygon_offset direct tri [mkpt 0 4; mkpt 0 0; mkpt 4 0] = Some 1%nat.
Proof. repeat split; reflexivity. Qed.
