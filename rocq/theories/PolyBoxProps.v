(** C110: polygon against box. *)
From Verif Require Import Base CmpModel BoxModel BoxSpec DistModel DistSpec OrientSpec PolygonModel PolygonSpec PolygonProps BoxIntModel BoxIntSpec BoxIntProof PolygonProof PolygonConvexProof BspModel BspSpec BspProof4 PolyBoxModel PolyBoxProof.
From Coq Require Import Lia.

(** The test is true exactly when the box contains a point of the polygon: one on its border, or one that
    [point_in_polygon] accepts.  This holds for every polygon, simple or not. *)
Theorem C110_polygon_box_exact : forall ps b, (2 <= length ps)%nat -> ok2 b ->
  exists r, polygon_aabb_intersection 0 ps b = Some r /\
  (r = true <-> exists X, in2 b X /\ (point_in_polygon X ps = true \/ on_polygon ps X)).
Proof.
  intros ps b L O. destruct (polygon_box_defined 0 ps b L) as [r R]. exists r. split; [exact R|]. destruct (polygon_box_ok 0 ps b r (Qle_refl 0) L O R) as [H1 H2].
  split; [|exact H1]. intro T. destruct (H2 T) as [(X & HX & P)|(i & A & B & E & S)]; [exists X; split; [exact HX|left; exact P]|].
  apply (segment_aabb_ok A B b O) in S. destruct S as (X & HX & HB). exists X. split; [exact HB|]. right. exists i, A, B. split; assumption.
Qed.
(** With the epsilon term of the segment test nothing is missed. *)
Theorem C110_epsilon_complete : forall eps ps b, 0 <= eps -> (2 <= length ps)%nat -> ok2 b ->
  (exists X, in2 b X /\ (point_in_polygon X ps = true \/ on_polygon ps X)) -> polygon_aabb_intersection eps ps b = Some true.
Proof.
  intros eps ps b He L O H. destruct (polygon_box_defined eps ps b L) as [r R]. rewrite R. f_equal. exact (proj1 (polygon_box_ok eps ps b r He L O R) H).
Qed.
(** For a strictly convex polygon the test is true exactly when the box and the convex hull meet. *)
Theorem C110_convex : forall ps b, convex_ccw ps -> (3 <= length ps)%nat -> ok2 b ->
  exists r, polygon_aabb_intersection 0 ps b = Some r /\ (r = true <-> exists X, in2 b X /\ in_hull ps X).
Proof.
  intros ps b C L O. destruct (C110_polygon_box_exact ps b ltac:(lia) O) as (r & R & H). exists r. split; [exact R|]. rewrite H. split.
  - intros (X & HX & [P|(i & A & B & E & HS)]); exists X; (split; [exact HX|]).
    + destruct (convex_polygon_exact X ps C L) as (d & _ & Hd). apply Hd. destruct d; [reflexivity|]. exfalso.
      assert (N : ~ in_hull ps X) by (intro Y; apply Hd in Y; discriminate). rewrite (pip_convex_outside ps X C L N) in P. discriminate.
    + apply edge_pnth in E as (Hi & -> & ->). apply (left_of_all_hull ps X C L). intros j Hj.
      destruct HS as (t & Ht & Et). rewrite (tri2_pteq _ _ _ _ Et). rewrite tri2_lerp.
      assert (K1 := convex_vertex_left ps j i C L Hj Hi). assert (K2 := convex_vertex_left ps j (S i mod length ps)%nat C L Hj ltac:(apply Nat.mod_upper_bound; lia)).
      set (u := tri2 _ _ (pnth ps i)) in *. set (v := tri2 _ _ (pnth ps (S i mod length ps)%nat)) in *. clearbody u v. nra.
  - intros (X & HX & HH). exists X. split; [exact HX|].
    assert (LA : forall j, (j < length ps)%nat -> 0 <= side (pedge ps j) X) by (intros j Hj; exact (proj1 (left_of_all_hull ps X C L) HH j Hj)).
    destruct (forallb (fun j => Qltb 0 (side (pedge ps j) X)) (seq 0 (length ps))) eqn:F.
    + left. apply pip_convex_inside; [exact C|exact L|]. apply strictly_sides; [lia|]. intros i Hi. rewrite forallb_forall in F. specialize (F i ltac:(apply in_seq; lia)). destruct (Qltb_spec 0 (side (pedge ps i) X)); [assumption|discriminate].
    + right. assert (Ex : exists j, (j < length ps)%nat /\ side (pedge ps j) X == 0).
      { destruct (existsb (fun j => negb (Qltb 0 (side (pedge ps j) X))) (seq 0 (length ps))) eqn:G.
        - apply existsb_exists in G as (j & Ij & Gj). apply in_seq in Ij. exists j. split; [lia|]. destruct (Qltb_spec 0 (side (pedge ps j) X)) as [K|K]; [discriminate|]. specialize (LA j ltac:(lia)). lra.
        - exfalso. assert (forallb (fun j => Qltb 0 (side (pedge ps j) X)) (seq 0 (length ps)) = true); [|congruence]. apply forallb_forall. intros j Ij.
          destruct (Qltb 0 (side (pedge ps j) X)) eqn:Z; [reflexivity|]. assert (existsb (fun j => negb (Qltb 0 (side (pedge ps j) X))) (seq 0 (length ps)) = true); [|congruence]. apply existsb_exists. exists j. split; [exact Ij|rewrite Z; reflexivity]. }
      destruct Ex as (j & Hj & Zj). exists j, (pnth ps j), (pnth ps (S j mod length ps)%nat). split; [apply edge_at; exact Hj|]. exact (hull_edge ps j X C L Hj LA Zj).
Qed.
(** An empty polygon meets nothing; with a single vertex the loop reads a second one that is not there. *)
Theorem C110_single_point_undefined : forall eps p b, polygon_aabb_intersection eps [p] b = None /\ polygon_aabb_intersection eps [] b = Some false.
Proof. intros eps p b. split; reflexivity. Qed.

Example C110_witness :
  let ps := [mkpt 0 0; mkpt 10 0; mkpt 10 10; mkpt 5 2; mkpt 0 10] in
  polygon_aabb_intersection 0 ps (mkbox2 (mkpt 4 4) (mkpt 6 9)) = Some false /\
  polygon_aabb_intersection 0 ps (mkbox2 (mkpt (-1) (-1)) (mkpt 11 11)) = Some true /\
  polygon_aabb_intersection 0 ps (mkbox2 (mkpt 4 (1 # 2)) (mkpt 5 1)) = Some true /\
  polygon_aabb_intersection 0 ps (mkbox2 (mkpt 4 2) (mkpt 6 9)) = Some true.
Proof. repeat split; vm_compute; reflexivity. Qed.

Print Assumptions C110_polygon_box_exact.
Print Assumptions C110_convex.
Print Assumptions C110_epsilon_complete.
Print Assumptions C110_single_point_undefined.
