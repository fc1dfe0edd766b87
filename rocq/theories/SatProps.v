(** C45, C86, C87: the separating axis tests. *)
From Verif Require Import Base CmpModel DistModel DistSpec BoxIntSpec PolygonModel PolygonSpec SatModel SatSpec SatProof SatProof2 SatProof3 SatProof4.

(** ** C45: convex polygons at rest *)
(** An answer "they intersect" for clockwise convex polygons is right, however large they are. *)
Theorem C45_true_means_overlap : forall p q fuel, convex_cw p -> convex_cw q -> (3 <= length p)%nat -> (3 <= length q)%nat ->
  convex_polygons_intersection direct fuel p q = Some true -> overlap p q.
Proof. exact sat_sound. Qed.
(** For three points the search for the farthest one ends within four passes with the right one. *)
Theorem C45_extreme_index_of_triangle : forall a b c d k, exists i, get_extreme_index direct (4 + k) [a; b; c] d = Some i /\ extreme [a; b; c] d i.
Proof. exact extreme_triangle. Qed.
(** For clockwise triangles the answer is exact. *)
Theorem C45_triangles : forall a b c a' b' c' k, tri2 a b c < 0 -> tri2 a' b' c' < 0 ->
  exists r, convex_polygons_intersection direct (4 + k) [a; b; c] [a'; b'; c'] = Some r /\ (r = true <-> overlap [a; b; c] [a'; b'; c']).
Proof.
  intros a b c a' b' c' k T T'.
  assert (CW : forall x y z, tri2 x y z < 0 -> convex_cw [x; y; z]).
  { intros x y z H i j l A B C O E1 E2 E3. destruct l as [|[|[|l]]]; [lia|lia| |destruct l; discriminate]. assert (i = 0%nat /\ j = 1%nat) as [-> ->] by lia. cbn in *. congruence. }
  apply sat_exact; [apply CW, T|apply CW, T'|cbn; lia|cbn; lia|apply triangle_extremes|apply triangle_extremes].
Qed.
Definition t1 := [mkpt 0 0; mkpt 0 4; mkpt 4 0].
Definition t2 := [mkpt 1 1; mkpt 1 2; mkpt 2 1].
Definition t3 := [mkpt 5 5; mkpt 5 6; mkpt 6 5].
Example C45_witness : convex_polygons_intersection direct 4 t1 t2 = Some true /\ convex_polygons_intersection direct 4 t1 t3 = Some false /\
  tri2 (mkpt 0 0) (mkpt 0 4) (mkpt 4 0) < 0 /\ tri2 (mkpt 1 1) (mkpt 1 2) (mkpt 2 1) < 0.
Proof. vm_compute. repeat split. Qed.
(** The library's polygons are counterclockwise: a triangle inside another is then reported apart. *)
Theorem C45_counterclockwise_refuted : convex_ccw (rev t1) /\ convex_ccw (rev t2) /\ overlap (rev t1) (rev t2) /\
  forall k, convex_polygons_intersection direct (4 + k) (rev t1) (rev t2) = Some false.
Proof.
  assert (CCW : forall x y z, 0 < tri2 x y z -> convex_ccw [x; y; z]).
  { intros x y z H i j l A B C O E1 E2 E3. destruct l as [|[|[|l]]]; [lia|lia| |destruct l; discriminate]. assert (i = 0%nat /\ j = 1%nat) as [-> ->] by lia. cbn in *. congruence. }
  split; [apply CCW; vm_compute; reflexivity|]. split; [apply CCW; vm_compute; reflexivity|]. split.
  - exists (mkpt 1 1). split.
    + exists (mkpt 0 0), (mkpt 0 4), (mkpt 4 0). repeat split; try (cbn; tauto). exists (1 # 2), (1 # 4), (1 # 4). repeat split; vm_compute; congruence || reflexivity.
    + exists (mkpt 1 1), (mkpt 1 1), (mkpt 1 1). repeat split; try (cbn; tauto). exists 1, 0, 0. repeat split; vm_compute; congruence || reflexivity.
  - intro k. vm_compute. reflexivity.
Qed.
(** Clockwise quadrilaterals with a common point reported apart: get_extreme_index is wrong. *)
Definition q1 := [mkpt 2 (-2); mkpt (-3) 3; mkpt 1 2; mkpt 2 (-1)].
Definition q2 := [mkpt 1 (-1); mkpt 0 (-4); mkpt (-4) (-3); mkpt (-1) 2].
Lemma cw_check : forall p, forallb (fun i => forallb (fun j => forallb (fun k => implb (Nat.ltb i j && Nat.ltb j k) (Qltb (tri2 (pnth p i) (pnth p j) (pnth p k)) 0)) (seq 0 (length p))) (seq 0 (length p))) (seq 0 (length p)) = true -> convex_cw p.
Proof.
  intros p F i j k A B C O E1 E2 E3.
  assert (L : (k < length p)%nat) by (apply nth_error_Some; congruence).
  rewrite forallb_forall in F. specialize (F i ltac:(apply in_seq; lia)). rewrite forallb_forall in F. specialize (F j ltac:(apply in_seq; lia)). rewrite forallb_forall in F. specialize (F k ltac:(apply in_seq; lia)). cbv beta in F.
  destruct (Nat.ltb_spec i j); [|lia]. destruct (Nat.ltb_spec j k); [|lia]. cbn [andb implb] in F. apply Qltb_lt in F. unfold pnth in F.
  rewrite (nth_error_nth _ _ (mkpt 0 0) E1), (nth_error_nth _ _ (mkpt 0 0) E2), (nth_error_nth _ _ (mkpt 0 0) E3) in F. exact F.
Qed.
Theorem C45_quadrilaterals_refuted : convex_cw q1 /\ convex_cw q2 /\ overlap q1 q2 /\ forall k, convex_polygons_intersection direct (10 + k) q1 q2 = Some false.
Proof.
  split; [apply cw_check; vm_compute; reflexivity|]. split; [apply cw_check; vm_compute; reflexivity|]. split.
  - exists (mkpt 0 0). split.
    + exists (mkpt 2 (-2)), (mkpt (-3) 3), (mkpt 2 (-2)). repeat split; try (cbn; tauto). exists (3 # 5), (2 # 5), (0 # 1). repeat split; vm_compute; congruence || reflexivity.
    + exists (mkpt 1 (-1)), (mkpt (-1) 2), (mkpt 0 (-4)). repeat split; try (cbn; tauto). exists (4 # 9), (4 # 9), (1 # 9). repeat split; vm_compute; congruence || reflexivity.
  - intro k. vm_compute. reflexivity.
Qed.

(** For some clockwise convex polygons the search never ends. *)
Definition t4 := [mkpt 4 (-4); mkpt (-1) 1; mkpt 0 4].
Definition hexagon := [mkpt 4 (-1); mkpt 4 (-3); mkpt 3 (-3); mkpt (-3) 1; mkpt (-5) 3; mkpt 2 2].
Lemma endless : forall fuel, extreme_loop direct hexagon (vneg (left_normal (vsub (mkpt (-1) 1) (mkpt 4 (-4))))) fuel 0 0 = None.
Proof.
  intro fuel. induction fuel as [fuel IH] using lt_wf_ind. destruct fuel as [|[|[|f]]]; [vm_compute; reflexivity|vm_compute; reflexivity|vm_compute; reflexivity|].
  transitivity (extreme_loop direct hexagon (vneg (left_normal (vsub (mkpt (-1) 1) (mkpt 4 (-4))))) f 0 0); [|apply IH; lia]. vm_compute. reflexivity.
Qed.
Theorem C45_endless_refuted : convex_cw t4 /\ convex_cw hexagon /\ forall fuel, convex_polygons_intersection direct fuel t4 hexagon = None.
Proof.
  split; [apply cw_check; vm_compute; reflexivity|]. split; [apply cw_check; vm_compute; reflexivity|]. intro fuel.
  unfold convex_polygons_intersection.
  assert (E : edges_loop direct fuel (edges_into t4) hexagon = None); [|rewrite E; reflexivity].
  change (edges_into t4) with [(mkpt 0 4, mkpt 4 (-4)); (mkpt 4 (-4), mkpt (-1) 1); (mkpt (-1) 1, mkpt 0 4)].
  destruct fuel as [|[|fuel]]; [vm_compute; reflexivity|vm_compute; reflexivity|].
  assert (F : get_extreme_index direct (S (S fuel)) hexagon (vneg (left_normal (vsub (mkpt 4 (-4)) (mkpt 0 4)))) = Some 4%nat) by (vm_compute; reflexivity).
  assert (G : get_extreme_index direct (S (S fuel)) hexagon (vneg (left_normal (vsub (mkpt (-1) 1) (mkpt 4 (-4))))) = None) by apply endless.
  unfold edges_loop. rewrite F. destruct (greater_than direct _ 0) eqn:X; [vm_compute in X; discriminate|]. rewrite G. reflexivity.
Qed.

(** ** C86: moving oriented boxes *)
(** The reported interval is exactly the set of times at which the moving boxes touch; no report
    means that they do not touch before the given time. *)
Theorem C86_moving_boxes : forall o1 v1 o2 v2 tmax, ok_obb o1 -> ok_obb o2 -> 0 <= tmax ->
  match moving_obb_obb_intersection o1 v1 o2 v2 tmax with
  | Some (tfirst, tlast) => 0 <= tfirst <= tmax /\ no_later tfirst tlast /\
      forall t, 0 <= t -> (tfirst <= t /\ no_later t tlast <-> meet (in_obb (move_obb t v1 o1)) (in_obb (move_obb t v2 o2)))
  | None => forall t, 0 <= t <= tmax -> ~ meet (in_obb (move_obb t v1 o1)) (in_obb (move_obb t v2 o2))
  end.
Proof. exact moving_obb_ok. Qed.
Definition b1 := mkobb (mkpt 0 0) (mkpt 1 0) (mkpt 0 1) 1 1.
Definition b2 := mkobb (mkpt 10 0) (mkpt (3 # 5) (4 # 5)) (mkpt (-4 # 5) (3 # 5)) 1 1.
Example C86_witness : ok_obb b1 /\ ok_obb b2 /\ moving_obb_obb_intersection b1 (mkpt 1 0) b2 (mkpt (-1) 0) 10 <> None /\
  moving_obb_obb_intersection b1 (mkpt 1 0) b2 (mkpt (-1) 0) 1 = None /\ moving_obb_obb_intersection b1 (mkpt 0 0) b2 (mkpt 0 1) 100 = None.
Proof. vm_compute. repeat split; congruence. Qed.

(** ** C87: moving triangles *)
Theorem C87_moving_triangles : forall a b c v1 a' b' c' v2 tmax k, ~ tri2 a b c == 0 -> ~ tri2 a' b' c' == 0 -> 0 <= tmax ->
  match moving_convex_polygons_intersection direct (4 + k) [a; b; c] v1 [a'; b'; c'] v2 tmax with
  | Some (Some (tfirst, tlast)) => 0 <= tfirst <= tmax /\ no_later tfirst tlast /\
      forall t, 0 <= t -> (tfirst <= t /\ no_later t tlast <-> overlap (move t v1 [a; b; c]) (move t v2 [a'; b'; c']))
  | Some None => forall t, 0 <= t <= tmax -> ~ overlap (move t v1 [a; b; c]) (move t v2 [a'; b'; c'])
  | None => False
  end.
Proof. intros. apply moving_convex_ok; [apply triangle_conv|apply triangle_conv|apply triangle_extremes|apply triangle_extremes|]; assumption. Qed.
Example C87_witness : moving_convex_polygons_intersection direct 4 t1 (mkpt 1 1) t3 (mkpt 0 0) 10 = Some (Some (24 # 8, Some (44 # 8))) /\
  moving_convex_polygons_intersection direct 4 t1 (mkpt 1 1) t3 (mkpt 0 0) 2 = Some None.
Proof. vm_compute. split; reflexivity. Qed.
(** For more corners the report can be wrong: the quadrilaterals of C45 at rest touch all the time. *)
Theorem C87_quadrilaterals_refuted : convex_cw q1 /\ convex_cw q2 /\ (forall t, overlap (move t (mkpt 0 0) q1) (move t (mkpt 0 0) q2)) /\
  forall k tmax, 0 <= tmax -> moving_convex_polygons_intersection direct (10 + k) q1 (mkpt 0 0) q2 (mkpt 0 0) tmax = Some None.
Proof.
  split; [apply cw_check; vm_compute; reflexivity|]. split; [apply cw_check; vm_compute; reflexivity|]. split.
  - intro t. destruct C45_quadrilaterals_refuted as (C1 & C2 & O & _).
    assert (S : forall a b, dot (vadd a (vscale t (mkpt 0 0))) b == dot a b) by (intros; unfold dot, vadd, vscale; cbn [px py]; ring).
    destruct O as (x & X1 & X2). exists x.
    assert (MV : forall p, in_hull p x -> in_hull (move t (mkpt 0 0) p) x).
    { intros p (A & B & C & IA & IB & IC & a & b & c & Ha & Hb & Hc & SM & E1 & E2). exists (vadd A (vscale t (mkpt 0 0))), (vadd B (vscale t (mkpt 0 0))), (vadd C (vscale t (mkpt 0 0))).
      split; [exact (in_map (fun p0 => vadd p0 (vscale t (mkpt 0 0))) _ _ IA)|]. split; [exact (in_map (fun p0 => vadd p0 (vscale t (mkpt 0 0))) _ _ IB)|]. split; [exact (in_map (fun p0 => vadd p0 (vscale t (mkpt 0 0))) _ _ IC)|].
      exists a, b, c. repeat split; try assumption; unfold vadd, vscale in *; cbn [px py] in *; [rewrite E1|rewrite E2]; ring. }
    split; apply MV; assumption.
  - intros k tmax T. vm_compute. reflexivity.
Qed.

Print Assumptions C45_true_means_overlap.
Print Assumptions C45_extreme_index_of_triangle.
Print Assumptions C45_triangles.
Print Assumptions C45_counterclockwise_refuted.
Print Assumptions C45_quadrilaterals_refuted.
Print Assumptions C45_endless_refuted.
Print Assumptions C86_moving_boxes.
Print Assumptions C87_moving_triangles.
Print Assumptions C87_quadrilaterals_refuted.
