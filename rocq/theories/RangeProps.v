(** C112: a segment against the range between two rays. *)
From Verif Require Import Base CmpModel OrientModel OrientSpec LinIntModel LinIntSpec RangeModel RangeSpec RangeProof RangeProof2.

(** Except in the case below, the answer is true exactly when the segment has a point in the range. *)
Theorem C112_segment_in_range_partial : forall nlo nhi A B lo hi origin, 0 < nlo -> 0 < nhi -> 0 < cross lo hi ->
  ~ (behind origin hi A /\ behind origin lo B) -> ~ (behind origin lo A /\ behind origin hi B) ->
  exists r, is_segment_in_range_2d nlo nhi A B lo hi origin = Some r /\ (r = true <-> meets_range origin lo hi A B).
Proof. intros nlo nhi A B lo hi origin H1 H2 T N1 N2. exact (segment_in_range_ok lo hi origin T A B nlo nhi H1 H2 N1 N2). Qed.
Print Assumptions C112_segment_in_range_partial.

(** A segment that joins the two rays behind the origin is always reported to be in the range, which it never meets. *)
Theorem C112_behind_refuted : forall nlo nhi A B lo hi origin, 0 < cross lo hi ->
  (behind origin hi A /\ behind origin lo B) \/ (behind origin lo A /\ behind origin hi B) ->
  is_segment_in_range_2d nlo nhi A B lo hi origin = Some true /\ ~ meets_range origin lo hi A B.
Proof. intros nlo nhi A B lo hi origin T H. exact (behind_wrong lo hi origin T A B nlo nhi H). Qed.
Print Assumptions C112_behind_refuted.

(** The overload with output points: with the same exception it never reports a segment that does not meet the
    range. *)
Theorem C112_with_points_sound_partial : forall nlo nhi A B lo hi origin x0 x1, 0 < nlo -> 0 < nhi -> 0 < cross lo hi -> nonzero (vsub B A) ->
  ~ (behind origin hi A /\ behind origin lo B) -> ~ (behind origin lo A /\ behind origin hi B) ->
  is_segment_in_range_2d_points direct nlo nhi A B lo hi origin = Some (Some (x0, x1)) -> meets_range origin lo hi A B.
Proof. intros nlo nhi A B lo hi origin x0 x1 H1 H2 T N N1 N2 R. exact (points_sound lo hi origin T A B nlo nhi x0 x1 H1 H2 N N1 N2 R). Qed.
Print Assumptions C112_with_points_sound_partial.

(** When it reports a segment, the two points written are the ends of exactly the part of the segment in the
    range, provided no end lies in the opposite range when the other end is in the range. *)
Theorem C112_points_exact_partial : forall nlo nhi A B lo hi origin x0 x1, 0 < nlo -> 0 < nhi -> 0 < cross lo hi -> nonzero (vsub B A) ->
  ~ (behind origin hi A /\ behind origin lo B) -> ~ (behind origin lo A /\ behind origin hi B) ->
  (in_range origin lo hi A -> in_range origin (vneg lo) (vneg hi) B -> B =p= origin) ->
  (in_range origin lo hi B -> in_range origin (vneg lo) (vneg hi) A -> A =p= origin) ->
  is_segment_in_range_2d_points direct nlo nhi A B lo hi origin = Some (Some (x0, x1)) ->
  is_segment_set (both (on_segment A B) (in_range origin lo hi)) x0 x1.
Proof. intros nlo nhi A B lo hi origin x0 x1 H1 H2 T N N1 N2 P1 P2 R. exact (points_exact lo hi origin A B T nlo nhi x0 x1 H1 H2 N N1 N2 P1 P2 R). Qed.
Print Assumptions C112_points_exact_partial.

(** It never divides by zero and never reads a point that was not computed. *)
Theorem C112_with_points_defined : forall nlo nhi A B lo hi origin, is_segment_in_range_2d_points direct nlo nhi A B lo hi origin <> None.
Proof. exact points_defined. Qed.
Print Assumptions C112_with_points_defined.

(** It does overlook segments: one that leaves the range at its own end on a ray, and one that crosses both
    rays of an acute range starting from behind; and the points it writes need not be in the range. *)
Theorem C112_with_points_overlooks_refuted :
  (is_segment_in_range_2d_points direct 1 1 (mkpt 1 0) (mkpt 1 (-1)) (mkpt 1 0) (mkpt 0 1) (mkpt 0 0) = Some None /\
   meets_range (mkpt 0 0) (mkpt 1 0) (mkpt 0 1) (mkpt 1 0) (mkpt 1 (-1))) /\
  (is_segment_in_range_2d_points direct 1 5 (mkpt (-9) 5) (mkpt 9 (-3)) (mkpt 1 0) (mkpt 3 4) (mkpt 0 0) = Some None /\
   is_segment_in_range_2d 1 5 (mkpt (-9) 5) (mkpt 9 (-3)) (mkpt 1 0) (mkpt 3 4) (mkpt 0 0) = Some true /\
   meets_range (mkpt 0 0) (mkpt 1 0) (mkpt 3 4) (mkpt (-9) 5) (mkpt 9 (-3))).
Proof.
  split; [split; [reflexivity|]|split; [reflexivity|split; [reflexivity|]]].
  - exists (mkpt 1 0). split; [exists 0|exists 1, 0]; (split; [lra|]); [|split; [lra|]]; split; reflexivity.
  - exists (mkpt (9 # 4) 0). split; [exists (5 # 8); split; [lra|split; reflexivity]|]. exists (9 # 4), 0. split; [lra|]. split; [lra|]. split; reflexivity.
Qed.
Print Assumptions C112_with_points_overlooks_refuted.
Theorem C112_wrong_points_refuted : exists x0 x1,
  is_segment_in_range_2d_points direct 1 1 (mkpt 1 5) (mkpt (-10) (-1)) (mkpt 1 0) (mkpt 0 1) (mkpt 0 0) = Some (Some (x0, x1)) /\
  ~ in_range (mkpt 0 0) (mkpt 1 0) (mkpt 0 1) x0.
Proof.
  eexists; eexists. split; [vm_compute; reflexivity|]. intro H. apply in_range_iff in H; [|reflexivity]. unfold cross, vsub in H; cbn in H. lra.
Qed.
Print Assumptions C112_wrong_points_refuted.

(** Segments that meet and miss the first quadrant, with both ends outside. *)
Example C112_witness : let lo := mkpt 1 0 in let hi := mkpt 0 1 in let o := mkpt 0 0 in
  is_segment_in_range_2d 1 1 (mkpt (-1) 3) (mkpt 3 (-1)) lo hi o = Some true /\ is_segment_in_range_2d 1 1 (mkpt (-3) 1) (mkpt 1 (-3)) lo hi o = Some false /\
  (~ behind o hi (mkpt (-1) 3) /\ ~ behind o lo (mkpt (-1) 3)) /\ (behind o lo (mkpt (-2) 0) /\ behind o hi (mkpt 0 (-1))) /\
  is_segment_in_range_2d_points direct 1 1 (mkpt 1 1) (mkpt 3 (-1)) lo hi o = Some (Some (mkpt (4 # 2) (0 # 2), mkpt 1 1)) /\
  ~ in_range o (vneg lo) (vneg hi) (mkpt 3 (-1)).
Proof.
  cbv zeta. split; [reflexivity|]. split; [reflexivity|]. split; [split|split; [split|split]].
  - intros (a & Ha & E1 & E2). cbn in *. lra.
  - intros (a & Ha & E1 & E2). cbn in *. lra.
  - exists 2. split; [lra|split; reflexivity].
  - exists 1. split; [lra|split; reflexivity].
  - vm_compute. reflexivity.
  - intros (a & b & Ha & Hb & E1 & E2). cbn in *. lra.
Qed.
