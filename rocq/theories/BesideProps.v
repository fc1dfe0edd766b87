(** C109: the side of a polyline a point is on. *)
From Verif Require Import Base CmpModel OrientModel OrientSpec DistModel DistSpec PolygonSpec BesideModel BesideSpec BesideProof.
From Coq Require Import Lia.

(** On a polyline of two points or more without sides of length zero there is always an answer.  It is
    "collinear" on the polyline.  Off it, the answer is the side at a point of the polyline nearest to the
    given one: inside a side the side of its line, at an inner corner the side of the corner, at the last
    point the side of the last line, and at the first point the side of the first line if the polyline is a
    single side or the point is straight above its start.  What is missing: before the start of a polyline
    with two sides or more; see [C109_before_start_refuted]. *)
Theorem C109_side_of_a_polyline_partial : forall p ps, (2 <= length ps)%nat -> (forall i A B, polyline_edge ps i A B -> ~ A =p= B) ->
  exists o, point_polyline_orientation direct p ps = Some o /\
  (on_polyline ps p -> o = oriented_collinear) /\
  (~ on_polyline ps p -> exists i A B c, polyline_edge ps i A B /\ on_segment A B c /\ nearest_on ps p c /\
    ((inside_segment A B c /\ line_side A B p o) \/
     (c = B /\ (forall C, polyline_edge ps (S i) B C -> corner_side A B C p o) /\ (length ps = S (S i) -> line_side A B p o)) \/
     (c = A /\ i = 0%nat /\ (length ps = 2%nat \/ dot (vsub p A) (vsub B A) == 0 -> line_side A B p o)))).
Proof. intros p ps L H. exact (orientation_ok p ps L H). Qed.

(** Where an inner corner is nearest, the point is on the outer side of the turn: the right side of the
    corner is then the answer for a left turn, and the left side for a right turn. *)
Theorem C109_nearest_corner_is_outer : forall p ps i A B C o, polyline_edge ps i A B -> polyline_edge ps (S i) B C -> nearest_on ps p B -> ~ p =p= B ->
  corner_side A B C p o -> (0 < tri2 A B C -> o = oriented_right) /\ (tri2 A B C < 0 -> o = oriented_left).
Proof.
  intros p ps i A B C o E1 E2 N pB (H1 & H2 & _). destruct (nearest_corner p ps i A B C E1 E2 N) as [D1 D2]. destruct (corner_outer A B C p (nonzero_apart p B pB) D1 D2) as [O1 O2].
  split; intro T; [destruct (H1 T) as [[_ K]|[K _]]; [exfalso; exact (O1 T K)|exact K]|destruct (H2 T) as [[K _]|[_ K]]; [exact K|exfalso; exact (K (O2 T))]].
Qed.

(** Asked about a given side whose first point is the nearest one and the foot of the perpendicular, the
    answer is the side of the corner there. *)
Theorem C109_given_side : forall p ps d h Z A B, (forall i A B, polyline_edge ps i A B -> ~ A =p= B) ->
  polyline_edge ps h Z A -> polyline_edge ps (S h) A B -> 0 < d -> ~ p =p= A -> nearest_on ps p A -> dot (vsub p A) (vsub B A) == 0 ->
  exists o, point_polyline_orientation_at direct p ps d (S h) = Some o /\ (~ tri2 Z A B == 0 -> corner_side Z A B p o) /\ (tri2 Z A B == 0 -> line_side A B p o).
Proof. intros p ps d h Z A B HE E1 E2 P N Nr Hz. exact (orientation_at_start p ps d h Z A B HE E1 E2 P N Nr Hz). Qed.

(** A polyline with fewer than two points has no sides: the search ends without one, and the code goes on with
    the index -1; the overload that is given a side asserts. *)
Theorem C109_too_short : forall p ps d i, (length ps <= 1)%nat -> point_polyline_orientation direct p ps = None /\ point_polyline_orientation_at direct p ps d i = None.
Proof.
  intros p ps d i H. split; [destruct ps as [|a [|b ps]]; [reflexivity|reflexivity|cbn in H; lia]|].
  unfold point_polyline_orientation_at. destruct (Nat.leb_spec (length ps) 1); [reflexivity|lia].
Qed.

(** Before the start of a polyline with two sides the second corner is looked at although the first point is
    the nearest: (-10, 1000) is to the left of the only line near it, and the answer is "right". *)
Theorem C109_before_start_refuted : exists p A B C, let ps := [A; B; C] in
  point_polyline_orientation direct p ps = Some oriented_right /\ 0 < tri2 A B p /\ nearest_on ps p A /\ dist2 p A < dist2 p B /\ dist2 p A < dist2 p C.
Proof.
  exists (mkpt (-10) 1000), (mkpt 0 0), (mkpt 100 0), (mkpt 99 1). cbv zeta. split; [vm_compute; reflexivity|]. split; [vm_compute; reflexivity|]. split; [|split; vm_compute; reflexivity].
  split; [exists 0%nat, (mkpt 0 0), (mkpt 100 0); split; [split; reflexivity|exists 0; split; [lra|vm_compute; split; reflexivity]]|].
  intros X (i & A & B & [E1 E2] & (t & Ht & [F1 F2])). unfold dist2, dot, vsub; cbn [px py].
  destruct i as [|[|[|i]]]; cbn in E1, E2; try discriminate; try (destruct i; discriminate); injection E1 as <-; injection E2 as <-;
  unfold lerp, vadd, vscale, vsub in F1, F2; cbn [px py] in F1, F2; rewrite F1, F2; nra.
Qed.

Example C109_witness :
  let ps := [mkpt 0 0; mkpt 4 0; mkpt 4 4; mkpt 8 4] in
  point_polyline_orientation direct (mkpt 2 1) ps = Some oriented_left /\ point_polyline_orientation direct (mkpt 5 (-1)) ps = Some oriented_right /\
  point_polyline_orientation direct (mkpt 3 5) ps = Some oriented_left /\ point_polyline_orientation direct (mkpt 4 2) ps = Some oriented_collinear /\
  point_polyline_orientation direct (mkpt 9 3) ps = Some oriented_right /\ point_polyline_orientation_at direct (mkpt 5 0) ps 1 1 = Some oriented_right /\
  (forall i A B, polyline_edge ps i A B -> ~ A =p= B).
Proof.
  cbv zeta. repeat (split; [vm_compute; reflexivity|]). intros i A B [E1 E2]. destruct i as [|[|[|[|i]]]]; cbn in E1, E2; try discriminate; try (destruct i; discriminate);
  injection E1 as <-; injection E2 as <-; intros [F1 F2]; cbn in F1, F2; lra.
Qed.

Print Assumptions C109_side_of_a_polyline_partial.
Print Assumptions C109_nearest_corner_is_outer.
Print Assumptions C109_given_side.
Print Assumptions C109_too_short.
Print Assumptions C109_before_start_refuted.
