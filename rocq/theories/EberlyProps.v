(** C122: the second squared distance of two segments. *)
From Verif Require Import Base CmpModel BoxSpec BoxProof OrientSpec OrientProof DistModel DistSpec DistProof EberlyModel EberlyProof.

(** Full claim: the least squared distance, for all segments.  Proved: for parallel segments, the
    first not a point, that run in opposite directions or of which the first starts not ahead of the
    start of the second. *)
Theorem C122_parallel_partial : forall p1 p2 p3 p4, ~ p1 =p= p2 -> cross (vsub p2 p1) (vsub p4 p3) == 0 ->
  dot (vsub p2 p1) (vsub p4 p3) < 0 \/ dot (vsub p2 p1) (vsub p1 p3) <= 0 ->
  exists d, eberly_segment_segment_distance_sqrd p1 p2 p3 p4 = Some d /\
  least_dist2_sets (on_segment p1 p2) (on_segment p3 p4) d.
Proof. exact parallel_exact. Qed.
Print Assumptions C122_parallel_partial.

(** In all cases but the remaining parallel ones the answer is the squared distance of a point of
    the one segment and a point of the other: never less than the least. *)
Theorem C122_never_less_partial : forall p1 p2 p3 p4 m,
  ~ (cross (vsub p2 p1) (vsub p4 p3) == 0 /\ 0 <= dot (vsub p2 p1) (vsub p4 p3) /\ 0 < dot (vsub p2 p1) (vsub p1 p3)) ->
  least_dist2_sets (on_segment p1 p2) (on_segment p3 p4) m ->
  exists d, eberly_segment_segment_distance_sqrd p1 p2 p3 p4 = Some d /\ m <= d /\
  exists X Y, on_segment p1 p2 X /\ on_segment p3 p4 Y /\ d == dist2 X Y.
Proof.
  intros p1 p2 p3 p4 m H [_ M]. destruct (eberly_attained p1 p2 p3 p4 H) as (d & X & Y & E & HX & HY & ED).
  exists d. split; [exact E|]. split; [rewrite ED; apply M; assumption|]. exists X, Y. auto.
Qed.
Print Assumptions C122_never_less_partial.

(** Two segments that cross in the middle of each: 1 instead of 0.  The determinant is taken to be
    the area of the parallelogram and not its square, and the regions beside the first are mixed up. *)
Theorem C122_crossing_refuted : exists p1 p2 p3 p4 d X,
  eberly_segment_segment_distance_sqrd p1 p2 p3 p4 = Some d /\ d == 1 /\ on_segment p1 p2 X /\ on_segment p3 p4 X.
Proof.
  exists (mkpt 0 0), (mkpt 2 0), (mkpt 1 (-1)), (mkpt 1 1). eexists. exists (mkpt 1 0).
  split; [vm_compute; reflexivity|]. split; [reflexivity|].
  split; exists (1 # 2); (split; [lra|]); split; reflexivity.
Qed.
Print Assumptions C122_crossing_refuted.

(** Two segments of a line, in the same direction, 9 apart: 1 instead of 81. *)
Theorem C122_collinear_refuted : exists p1 p2 p3 p4 d,
  eberly_segment_segment_distance_sqrd p1 p2 p3 p4 = Some d /\ d == 1 /\
  least_dist2_sets (on_segment p1 p2) (on_segment p3 p4) 81.
Proof.
  exists (mkpt 10 0), (mkpt 11 0), (mkpt 0 0), (mkpt 1 0). eexists.
  split; [vm_compute; reflexivity|]. split; [reflexivity|]. split.
  - exists (mkpt 10 0), (mkpt 1 0). split; [apply on_segment_ends|]. split; [apply on_segment_ends|]. reflexivity.
  - intros X Y (s & Hs & E1 & E2) (t & Ht & F1 & F2). unfold lerp, dist2, dot, vsub, vadd, vscale in *; cbn [px py] in *.
    rewrite E1, E2, F1, F2. nra.
Qed.
Print Assumptions C122_collinear_refuted.

(** Swapping the segments changes the answer. *)
Theorem C122_symmetry_refuted : exists p1 p2 p3 p4 d e,
  eberly_segment_segment_distance_sqrd p1 p2 p3 p4 = Some d /\ eberly_segment_segment_distance_sqrd p3 p4 p1 p2 = Some e /\ ~ d == e.
Proof.
  exists (mkpt 10 0), (mkpt 11 0), (mkpt 0 0), (mkpt 1 0). do 2 eexists.
  split; [vm_compute; reflexivity|]. split; [vm_compute; reflexivity|]. intro H; discriminate H.
Qed.
Print Assumptions C122_symmetry_refuted.

(** A second segment that is a point behind the first: division by zero; a first segment that is a
    point: the distance to the start of the other. *)
Theorem C122_point_refuted :
  eberly_segment_segment_distance_sqrd (mkpt 1 0) (mkpt 2 0) (mkpt 0 0) (mkpt 0 0) = None /\
  exists d X, eberly_segment_segment_distance_sqrd (mkpt 1 1) (mkpt 1 1) (mkpt 0 0) (mkpt 2 0) = Some d /\
  on_segment (mkpt 0 0) (mkpt 2 0) X /\ dist2 (mkpt 1 1) X < d.
Proof.
  split; [vm_compute; reflexivity|]. eexists. exists (mkpt 1 0). split; [vm_compute; reflexivity|].
  split; [exists (1 # 2); split; [lra|]; split; reflexivity|]. reflexivity.
Qed.
Print Assumptions C122_point_refuted.

Example C122_witness :
  (let p1 := mkpt 0 0 in let p2 := mkpt 4 0 in let p3 := mkpt 6 2 in let p4 := mkpt 5 2 in
   ~ p1 =p= p2 /\ cross (vsub p2 p1) (vsub p4 p3) == 0 /\ dot (vsub p2 p1) (vsub p4 p3) < 0 /\
   exists d, eberly_segment_segment_distance_sqrd p1 p2 p3 p4 = Some d /\ d == 5) /\
  ~ (cross (vsub (mkpt 2 0) (mkpt 0 0)) (vsub (mkpt 1 1) (mkpt 1 (-1))) == 0).
Proof.
  cbv zeta. split; [|intro H; discriminate H].
  split; [intros [H _]; discriminate H|]. split; [reflexivity|]. split; [reflexivity|].
  eexists. split; [vm_compute; reflexivity|reflexivity].
Qed.
