(** Properties of the distance between polylines and between polygons (C13, C14, C61). *)
From Verif Require Import Base CmpModel BoxModel BoxSpec BoxProof OrientSpec DistModel DistSpec DistProof PolyDistModel PolyDistSpec PolyDistProof.
From Coq Require Import Permutation.

(** C13: the branch and bound search returns the exact least squared distance between
    two polylines, whatever way the priority queue breaks ties.  [HI], [LO] are the
    extreme values of the coordinate type; the loop runs fewer than 2 n m times. *)
Theorem C13_polyline_distance_exact : forall pop HI LO fuel p1 p2,
  heap_pop pop -> in_type_range HI LO p1 -> in_type_range HI LO p2 ->
  (2 <= length p1)%nat -> (2 <= length p2)%nat -> (2 * length p1 * length p2 <= fuel)%nat ->
  exists d, polyline_polyline_distance_sqrd pop direct HI LO fuel p1 p2 = Done (Some d) /\
    least_dist2_sets (on_polyline p1) (on_polyline p2) d.
Proof. exact polyline_distance_ok. Qed.

(** The pruned search and the exhaustive double loop give the same number. *)
Theorem C13_same_as_brute_force : forall pop HI LO fuel p1 p2,
  heap_pop pop -> in_type_range HI LO p1 -> in_type_range HI LO p2 ->
  (2 <= length p1)%nat -> (2 <= length p2)%nat -> (2 * length p1 * length p2 <= fuel)%nat ->
  exists d d', polyline_polyline_distance_sqrd pop direct HI LO fuel p1 p2 = Done (Some d) /\
    edges_edges_distance direct None (polyline_edges p1) (polyline_edges p2) = Some (Some d') /\ d == d'.
Proof.
  intros pop HI LO fuel p1 p2 Hp R1 R2 L1 L2 F.
  destruct (polyline_distance_ok pop HI LO fuel p1 p2 Hp R1 R2 L1 L2 F) as (d & E & (X & Y & HX & HY & Ed) & L).
  destruct (edges_edges_distance_least (polyline_edges p1) (polyline_edges p2) _ _ (polyline_edges_iff p1) (polyline_edges_iff p2)
      (polyline_edges_nonempty p1 L1) (polyline_edges_nonempty p2 L2)) as (d' & E' & (X' & Y' & HX' & HY' & Ed') & L').
  exists d, d'. split; [exact E|]. split; [exact E'|].
  specialize (L X' Y' HX' HY'). specialize (L' X Y HX HY). lra.
Qed.

(** A sequence with fewer than two points has no edge: the result is infinity. *)
Theorem C13_no_edge_is_infinitely_far : forall pop cmp HI LO fuel p1 p2,
  (length p1 < 2 \/ length p2 < 2)%nat ->
  polyline_polyline_distance_sqrd pop cmp HI LO fuel p1 p2 = Done None.
Proof.
  intros pop cmp HI LO fuel p1 p2 H. unfold polyline_polyline_distance_sqrd.
  assert (S : small p1 p2 = true).
  { unfold small. apply orb_true_iff. destruct H; [left|right]; apply Nat.ltb_lt; lia. }
  rewrite S.
  assert (N : forall l, (length l < 2)%nat -> polyline_edges l = []) by (intros [|a [|b l]] Hl; simpl in Hl; try lia; reflexivity).
  destruct H as [H|H].
  - rewrite (N p1 H). reflexivity.
  - rewrite (N p2 H). clear. induction (polyline_edges p1) as [|[i [A B]] es IH]; [reflexivity|exact IH].
Qed.

Definition zig (x : Q) : list pt := [mkpt x 0; mkpt (x + 1) 1; mkpt x 2; mkpt (x + 1) 3; mkpt x 4; mkpt (x + 1) 5; mkpt x 6].
Example C13_witness : heap_pop scan_pop /\ in_type_range 1000 (-1000) (zig 0) /\ in_type_range 1000 (-1000) (zig 5) /\
  (2 <= length (zig 0))%nat /\
  match polyline_polyline_distance_sqrd scan_pop direct 1000 (-1000) 98 (zig 0) (zig 5) with Done (Some d) => d == 17 | _ => False end.
Proof.
  split; [exact scan_pop_heap|]. split; [|split; [|split; [simpl; lia|vm_compute; reflexivity]]];
  intros p Hp; simpl in Hp; repeat destruct Hp as [<-|Hp]; try destruct Hp; simpl; lra.
Qed.

(** C14: distance between the borders of two polygons.  Exact when one of them has fewer
    than six points. *)
Theorem C14_small_polygons_exact : forall pop HI LO fuel p1 p2,
  p1 <> [] -> p2 <> [] -> (length p1 < 6 \/ length p2 < 6)%nat ->
  exists d, polygon_polygon_distance_sqrd pop direct HI LO fuel p1 p2 = Done (Some d) /\
    least_dist2_sets (on_polygon p1) (on_polygon p2) d.
Proof.
  intros pop HI LO fuel p1 p2 N1 N2 H. unfold polygon_polygon_distance_sqrd.
  assert (S : small p1 p2 = true).
  { unfold small. apply orb_true_iff. destruct H; [left|right]; apply Nat.ltb_lt; lia. }
  rewrite S.
  destruct (edges_edges_distance_least (polygon_edges p1) (polygon_edges p2) _ _ (polygon_edges_iff p1) (polygon_edges_iff p2)
      (polygon_edges_nonempty p1 N1) (polygon_edges_nonempty p2 N2)) as (d & -> & L). exists d; split; [reflexivity|exact L].
Qed.

(** With six points or more in both, the closing edges (from the last point back to the
    first) are not considered: the result is the distance of the open polylines... *)
Theorem C14_large_polygons_ignore_closing_edges : forall pop HI LO fuel p1 p2,
  heap_pop pop -> in_type_range HI LO p1 -> in_type_range HI LO p2 ->
  (6 <= length p1)%nat -> (6 <= length p2)%nat -> (2 * length p1 * length p2 <= fuel)%nat ->
  exists d, polygon_polygon_distance_sqrd pop direct HI LO fuel p1 p2 = Done (Some d) /\
    least_dist2_sets (on_polyline p1) (on_polyline p2) d.
Proof.
  intros pop HI LO fuel p1 p2 Hp R1 R2 L1 L2 F. unfold polygon_polygon_distance_sqrd.
  assert (S : small p1 p2 = false).
  { unfold small. apply orb_false_iff. split; apply Nat.ltb_ge; lia. }
  rewrite S. destruct (open_distance_ok pop HI LO fuel p1 p2 Hp R1 R2) as (d & o & -> & L); [lia|lia|exact F|].
  exists d; split; [reflexivity|exact L].
Qed.
(** ... which is exact precisely when no closing edge is nearer. *)
Theorem C14_large_polygons_upper_bound : forall pop HI LO fuel p1 p2,
  heap_pop pop -> in_type_range HI LO p1 -> in_type_range HI LO p2 ->
  (6 <= length p1)%nat -> (6 <= length p2)%nat -> (2 * length p1 * length p2 <= fuel)%nat ->
  exists d X Y, polygon_polygon_distance_sqrd pop direct HI LO fuel p1 p2 = Done (Some d) /\
    on_polygon p1 X /\ on_polygon p2 Y /\ dist2 X Y == d.
Proof.
  intros pop HI LO fuel p1 p2 Hp R1 R2 L1 L2 F.
  destruct (C14_large_polygons_ignore_closing_edges pop HI LO fuel p1 p2 Hp R1 R2 L1 L2 F) as (d & E & (X & Y & HX & HY & Ed) & _).
  assert (Up : forall ps Z, on_polyline ps Z -> on_polygon ps Z).
  { intros ps Z (i & A & B & [H1 H2] & HZ). exists i, A, B. split; [|exact HZ]. split; [exact H1|].
    assert (S i < length ps)%nat by (apply nth_error_Some; congruence). rewrite Nat.mod_small by lia. exact H2. }
  exists d, X, Y. split; [exact E|]. split; [apply Up; exact HX|]. split; [apply Up; exact HY|exact Ed].
Qed.

Definition slab : list pt := [mkpt 0 0; mkpt (-5) 0; mkpt (-10) 0; mkpt (-10) 10; mkpt (-5) 10; mkpt 0 10].
Definition wedge : list pt := [mkpt 10 0; mkpt 5 2; mkpt 1 5; mkpt 5 8; mkpt 10 10; mkpt 12 5].
Lemma slab_range : in_type_range 1000 (-1000) slab.
Proof. intros p Hp; simpl in Hp; repeat destruct Hp as [<-|Hp]; try destruct Hp; simpl; lra. Qed.
Lemma wedge_range : in_type_range 1000 (-1000) wedge.
Proof. intros p Hp; simpl in Hp; repeat destruct Hp as [<-|Hp]; try destruct Hp; simpl; lra. Qed.
Theorem C14_polygon_distance_refuted : exists p1 p2 X Y,
  on_polygon p1 X /\ on_polygon p2 Y /\ in_type_range 1000 (-1000) p1 /\ in_type_range 1000 (-1000) p2 /\
  forall pop fuel, heap_pop pop -> (2 * length p1 * length p2 <= fuel)%nat ->
    exists d, polygon_polygon_distance_sqrd pop direct 1000 (-1000) fuel p1 p2 = Done (Some d) /\ dist2 X Y + 20 < d.
Proof.
  exists slab, wedge, (mkpt 0 5), (mkpt 1 5). split; [|split; [|split; [exact slab_range|split; [exact wedge_range|]]]].
  - exists 5%nat, (mkpt 0 10), (mkpt 0 0). split; [split; reflexivity|]. exists (1 # 2). split; [lra|]. split; reflexivity.
  - exists 2%nat, (mkpt 1 5), (mkpt 5 8). split; [split; reflexivity|]. apply on_segment_ends.
  - intros pop fuel Hp F.
    destruct (C14_large_polygons_ignore_closing_edges pop 1000 (-1000) fuel slab wedge Hp slab_range wedge_range) as (d & E & (X & Y & HX & HY & Ed) & L);
      [simpl; lia|simpl; lia|exact F|].
    destruct (C14_large_polygons_ignore_closing_edges scan_pop 1000 (-1000) 72 slab wedge scan_pop_heap slab_range wedge_range) as (d' & E' & (X' & Y' & HX' & HY' & Ed') & L');
      [simpl; lia|simpl; lia|simpl; lia|].
    exists d. split; [exact E|].
    specialize (L X' Y' HX' HY'). specialize (L' X Y HX HY). assert (EE : d == d') by lra.
    assert (V : match polygon_polygon_distance_sqrd scan_pop direct 1000 (-1000) 72 slab wedge with Done (Some z) => z == 529 # 25 | _ => False end)
      by (vm_compute; reflexivity).
    rewrite E' in V. rewrite EE, V. vm_compute; reflexivity.
Qed.

(** C61: the closest-point variants.  The returned distance is exact; when the outputs
    are assigned they describe a pair of points of the two polylines at that distance;
    when they are not, the first points of the two polylines are nearest. *)
Theorem C61_polyline_closest_points : forall pop HI LO fuel p1 p2,
  heap_pop pop -> in_type_range HI LO p1 -> in_type_range HI LO p2 ->
  (2 <= length p1)%nat -> (2 <= length p2)%nat -> (2 * length p1 * length p2 <= fuel)%nat ->
  exists d o, polyline_polyline_closest_point pop direct HI LO fuel p1 p2 = Done (Some d, o) /\
    least_dist2_sets (on_polyline p1) (on_polyline p2) d /\
    match o with
    | Some h => pair_on (polyline_edge p1) (polyline_edge p2) h /\ dist2 (ss_c1 (snd h)) (ss_c2 (snd h)) == d
    | None => exists a b, nth_error p1 0 = Some a /\ nth_error p2 0 = Some b /\ dist2 a b == d
    end.
Proof.
  intros pop HI LO fuel p1 p2 Hp R1 R2 L1 L2 F.
  destruct (polyline_closest_ok pop HI LO fuel p1 p2 Hp R1 R2 L1 L2 F) as (d & o & E & L & H).
  exists d, o. split; [exact E|]. split; [exact L|]. destruct o as [h|]; simpl in H.
  - destruct H as (P & _ & D). split; [exact P|symmetry; exact D].
  - destruct H as (a & b & H1 & H2 & H3). exists a, b. split; [exact H1|]. split; [exact H2|symmetry; exact H3].
Qed.
Theorem C61_small_polylines_always_assign : forall pop HI LO fuel p1 p2,
  (2 <= length p1)%nat -> (2 <= length p2)%nat -> (length p1 < 6 \/ length p2 < 6)%nat ->
  exists d h, polyline_polyline_closest_point pop direct HI LO fuel p1 p2 = Done (Some d, Some h) /\
    least_dist2_sets (on_polyline p1) (on_polyline p2) d /\
    pair_on (polyline_edge p1) (polyline_edge p2) h /\ dist2 (ss_c1 (snd h)) (ss_c2 (snd h)) == d.
Proof.
  intros pop HI LO fuel p1 p2 L1 L2 H. unfold polyline_polyline_closest_point.
  assert (S : small p1 p2 = true).
  { unfold small. apply orb_true_iff. destruct H; [left|right]; apply Nat.ltb_lt; lia. }
  rewrite S.
  destruct (edges_edges_closest_least (polyline_edges p1) (polyline_edges p2) _ _ (polyline_edges_iff p1) (polyline_edges_iff p2)
      (polyline_edges_nonempty p1 L1) (polyline_edges_nonempty p2 L2)) as (h & -> & CI).
  exists (hit_d2 h), h. split; [reflexivity|]. split; [exact (closest_inv_least _ _ _ CI)|].
  destruct CI as (P & D & _). split; [exact P|symmetry; exact D].
Qed.
Theorem C61_small_polygons : forall pop HI LO fuel p1 p2,
  p1 <> [] -> p2 <> [] -> (length p1 < 6 \/ length p2 < 6)%nat ->
  exists d h, polygon_polygon_closest_point pop direct HI LO fuel p1 p2 = Done (Some d, Some h) /\
    least_dist2_sets (on_polygon p1) (on_polygon p2) d /\
    pair_on (polygon_edge p1) (polygon_edge p2) h /\ dist2 (ss_c1 (snd h)) (ss_c2 (snd h)) == d.
Proof.
  intros pop HI LO fuel p1 p2 N1 N2 H. unfold polygon_polygon_closest_point.
  assert (S : small p1 p2 = true).
  { unfold small. apply orb_true_iff. destruct H; [left|right]; apply Nat.ltb_lt; lia. }
  rewrite S.
  destruct (edges_edges_closest_least (polygon_edges p1) (polygon_edges p2) _ _ (polygon_edges_iff p1) (polygon_edges_iff p2)
      (polygon_edges_nonempty p1 N1) (polygon_edges_nonempty p2 N2)) as (h & -> & CI).
  exists (hit_d2 h), h. split; [reflexivity|]. split; [exact (closest_inv_least _ _ _ CI)|].
  destruct CI as (P & D & _). split; [exact P|symmetry; exact D].
Qed.
(** The distance functions and the closest-point functions agree for polygons of six
    points and more: both read them as open polylines. *)
Theorem C61_large_polygons_ignore_closing_edges : forall pop HI LO fuel p1 p2,
  heap_pop pop -> in_type_range HI LO p1 -> in_type_range HI LO p2 ->
  (6 <= length p1)%nat -> (6 <= length p2)%nat -> (2 * length p1 * length p2 <= fuel)%nat ->
  exists d o, polygon_polygon_closest_point pop direct HI LO fuel p1 p2 = Done (Some d, o) /\
    polyline_polyline_closest_point pop direct HI LO fuel p1 p2 = Done (Some d, o) /\
    least_dist2_sets (on_polyline p1) (on_polyline p2) d.
Proof.
  intros pop HI LO fuel p1 p2 Hp R1 R2 L1 L2 F. unfold polygon_polygon_closest_point, polyline_polyline_closest_point.
  assert (S : small p1 p2 = false).
  { unfold small. apply orb_false_iff. split; apply Nat.ltb_ge; lia. }
  rewrite S. destruct (open_closest_ok pop HI LO fuel p1 p2 Hp R1 R2) as (d & o & -> & L & _); [lia|lia|exact F|].
  exists d, o. split; [reflexivity|]. split; [reflexivity|exact L].
Qed.
(** Outputs are not always assigned: two polylines of six or more points that start at
    the same point leave every output parameter as it was. *)
Theorem C61_common_start_leaves_outputs_unset : forall pop HI LO fuel p1 p2 a b,
  heap_pop pop -> in_type_range HI LO p1 -> in_type_range HI LO p2 ->
  (6 <= length p1)%nat -> (6 <= length p2)%nat -> nth_error p1 0 = Some a -> nth_error p2 0 = Some b -> a =p= b ->
  exists d, polyline_polyline_closest_point pop direct HI LO (S fuel) p1 p2 = Done (Some d, None) /\ d == 0.
Proof.
  intros pop HI LO fuel p1 p2 a b [_ Hp] R1 R2 L1 L2 Ha Hb Hab. unfold polyline_polyline_closest_point, search_all.
  assert (S : small p1 p2 = false).
  { unfold small. apply orb_false_iff. split; apply Nat.ltb_ge; lia. }
  rewrite S, Ha, Hb.
  destruct (whole_box_ok HI LO p1 R1) as (x1 & -> & O1 & _); [intros ->; discriminate Ha|].
  destruct (whole_box_ok HI LO p2 R2) as (x2 & -> & O2 & _); [intros ->; discriminate Hb|].
  set (it := mkitem _ _ _). cbn [search].
  destruct (Hp [it] ltac:(discriminate)) as (x & r & -> & P & _).
  apply Permutation_length_1_inv in P. injection P as -> ->. unfold it.
  assert (D0 : dist2 a b == 0).
  { destruct Hab as [H1 H2]. unfold dist2, dot, vsub; simpl. rewrite H1, H2. ring. }
  assert (D1 : 0 <= aabb_aabb_distance_sqrd x1 x2).
  { destruct (aabb_aabb_least x1 x2 O1 O2) as [(p & q & _ & _ & <-) _]. apply dot_self_nonneg. }
  destruct (Qgeb_spec (aabb_aabb_distance_sqrd x1 x2) (dist2 a b)) as [G|G]; [|exfalso; lra].
  exists (dist2 a b). split; [reflexivity|exact D0].
Qed.
Example C61_witness :
  match polyline_polyline_closest_point scan_pop direct 1000 (-1000) 98 (zig 0) (zig 5) with
  | Done (Some d, Some (i, j, r)) => d == 17 /\ ss_c1 r =p= mkpt 1 3 /\ ss_c2 r =p= mkpt 5 4 | _ => False end.
Proof. vm_compute. repeat split; reflexivity. Qed.
Example C61_unset_witness : (6 <= length (zig 0))%nat /\ nth_error (zig 0) 0 = Some (mkpt 0 0) /\
  match polyline_polyline_closest_point scan_pop direct 1000 (-1000) 98 (zig 0) (zig 0) with Done (_, None) => True | _ => False end.
Proof. vm_compute. repeat split; auto. Qed.

Print Assumptions C13_polyline_distance_exact.
Print Assumptions C14_polygon_distance_refuted.
Print Assumptions C61_common_start_leaves_outputs_unset.
