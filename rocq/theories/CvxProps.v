(** Property C115: the common part of two convex polygons. *)
From Verif Require Import Base CmpModel OrientModel OrientSpec DistModel DistSpec PolygonModel PolygonSpec PolygonProof PolygonConvexProof CvxModel CvxSpec CvxProof CvxProof2 CvxProof3 CvxProof4 CvxProof5 CvxProof7 CvxProof10 CvxProof12 CvxProof13.

(** C115: with any comparison policy and any two non-empty sequences of points the loop ends within
    4 (n + m) turns. *)
Theorem C115_terminates : forall cmp P Q fuel, P <> [] -> Q <> [] -> (4 * (length P + length Q) < fuel)%nat ->
  convex_polygon_polygon_intersection cmp fuel P Q <> CxNoFuel.
Proof.
  intros cmp P Q fuel NP NQ F.
  assert (E : convex_polygon_polygon_intersection cmp fuel P Q = cx_loop cmp P Q fuel (mkcx 0 0 0 0 in_unknown 0 [])) by (destruct P, Q; try contradiction; reflexivity).
  assert (LP : (0 < length P)%nat) by (destruct P; [contradiction|cbn; lia]). assert (LQ : (0 < length Q)%nat) by (destruct Q; [contradiction|cbn; lia]).
  rewrite E. apply (loop_ind cmp P Q (fun _ => True) (fun r => r <> CxNoFuel)).
  - auto.
  - intros s r _ R. unfold cx_step in R. cbv zeta in R.
    repeat match type of R with context [match nth_error ?l ?i with _ => _ end] => destruct (nth_error l i); [|injection R as <-; discriminate] end.
    destruct (LinIntModel.segment_segment_intersection _ _ _ _ _) as [[ty pts]|]; [|injection R as <-; discriminate].
    destruct ty, pts as [|x0 [|x1 pts]]; repeat match type of R with
      | context [match cx_advance ?a ?b ?c ?d ?e ?f ?g ?h with _ => _ end] => destruct (cx_advance a b c d e f g h)
      | context [if ?c then _ else _] => destruct c end; try discriminate; injection R as <-; discriminate.
  - intros s _. unfold cx_finish. cbv zeta. destruct (is_in_unknown _); [|discriminate]. destruct P, Q; try discriminate.
    unfold first_points. repeat match goal with |- context [if ?c then _ else _] => destruct c end; discriminate.
  - exact I.
  - cbn. lia.
  - cbn. lia.
  - unfold cx_measure; cbn. lia.
Qed.

(** C115: the complete answer for two convex polygons in counter-clockwise order. Every point visited
    is a common point. [none] comes with no visit and means that there is no common point. [face] comes
    with two last visits X and Y such that the common points are exactly those of the segment X Y.
    [overlapping] means that the common points are exactly those of the convex hull of the points
    visited. The only exception is a first polygon strictly inside the second: with fewer points than
    the second the call is undefined, with more only the first points are visited
    (C115_first_inside_second_refuted). *)
Theorem C115_answer : forall P Q fuel, convex_polygon P -> convex_polygon Q -> (4 * (length P + length Q) < fuel)%nat ->
  match convex_polygon_polygon_intersection direct fuel P Q with
  | CxNoFuel => False
  | CxUndefined => (length P < length Q)%nat /\ forall V, In V P -> strictly_inside Q V
  | CxDone t l =>
    (forall X, In X l -> common_point P Q X) /\
    match t with
    | px_none => l = [] /\ forall X, ~ common_point P Q X
    | px_face => exists k X Y, l = k ++ [X; Y] /\ forall Z, common_point P Q Z <-> on_segment X Y Z
    | px_overlapping => (forall Y, common_point P Q Y <-> in_hull l Y) \/
        ((length Q < length P)%nat /\ (forall V, In V P -> strictly_inside Q V) /\ l = firstn (length Q) P)
    end
  end.
Proof. exact convex_complete. Qed.

(** C115: polygons that only touch (outlines that meet, no common point inside both) give [face], or
    [overlapping] with a single common point that is visited one or more times. *)
Theorem C115_contact : forall P Q fuel X, convex_polygon P -> convex_polygon Q -> (4 * (length P + length Q) < fuel)%nat ->
  (forall X0, strictly_inside P X0 -> strictly_inside Q X0 -> False) -> on_polygon P X -> on_polygon Q X ->
  exists t l, convex_polygon_polygon_intersection direct fuel P Q = CxDone t l /\
    (t = px_face \/ (t = px_overlapping /\ l <> [] /\ (forall Y, In Y l -> Y =p= X) /\ forall Z, common_point P Q Z -> Z =p= X)).
Proof.
  intros P Q fuel X CP CQ F NI OP OQ. destruct (contact_exact P Q fuel X CP CQ F NI OP OQ) as (t & l & E & H). exists t, l. split; [exact E|].
  assert (HX : common_point P Q X).
  { destruct (on_polygon_edge P X CP OP) as [i Hi]. destruct (on_polygon_edge Q X CQ OQ) as [j Hj]. split; [exact (around_in P CP i X Hi)|exact (around_in Q CQ j X Hj)]. }
  destruct H as [(-> & _)|(-> & NE & FA & ONE)]; [left; reflexivity|right]. split; [reflexivity|]. split; [exact NE|]. rewrite Forall_forall in FA.
  split; [intros Y HY; exact (ONE Y X (FA Y HY) HX)|intros Z HZ; exact (ONE Z X HZ HX)].
Qed.

(** C115: [overlapping] visits every corner of the common part (a common point that is not between two
    others), unless the first polygon is strictly inside the second. *)
Theorem C115_corners_visited : forall P Q fuel l V, convex_polygon P -> convex_polygon Q -> (4 * (length P + length Q) < fuel)%nat ->
  convex_polygon_polygon_intersection direct fuel P Q = CxDone px_overlapping l -> ~ (forall V, In V P -> strictly_inside Q V) ->
  common_point P Q V -> (forall X Y t, common_point P Q X -> common_point P Q Y -> 0 < t < 1 -> V =p= lerp X Y t -> X =p= V) ->
  exists W, In W l /\ W =p= V.
Proof.
  intros P Q fuel l V CP CQ F E N HV EX. pose proof (convex_complete P Q fuel CP CQ F) as H. rewrite E in H. destruct H as [_ [H|(_ & K & _)]]; [|contradiction].
  apply extreme_visited; [apply H; exact HV|]. intros X Y t HX HY. apply EX; apply H; assumption.
Qed.

(** C115: polygons without a common point give [none] and no visit. *)
Theorem C115_disjoint : forall P Q fuel, convex_polygon P -> convex_polygon Q -> (4 * (length P + length Q) < fuel)%nat ->
  (forall X, ~ common_point P Q X) -> convex_polygon_polygon_intersection direct fuel P Q = CxDone px_none [].
Proof. exact disjoint_none. Qed.

(** C115: [none] is returned exactly for polygons without a common point. *)
Theorem C115_none_iff_disjoint : forall P Q fuel, convex_polygon P -> convex_polygon Q -> (4 * (length P + length Q) < fuel)%nat ->
  ((exists l, convex_polygon_polygon_intersection direct fuel P Q = CxDone px_none l) <-> forall X, ~ common_point P Q X).
Proof.
  intros P Q fuel CP CQ F. split.
  - intros (l & E) X HX. pose proof (common_not_none P Q fuel CP CQ F (ex_intro _ X HX)) as H. rewrite E in H. exact H.
  - intro H. exists []. apply disjoint_none; assumption.
Qed.

(** C115: when the interiors of the polygons have a common point and their outlines meet, [overlapping]
    is returned and the common points are exactly those of the convex hull of the points visited. *)
Theorem C115_overlap_exact : forall P Q fuel X0 X, convex_polygon P -> convex_polygon Q -> (4 * (length P + length Q) < fuel)%nat ->
  strictly_inside P X0 -> strictly_inside Q X0 -> on_polygon P X -> on_polygon Q X ->
  exists l, convex_polygon_polygon_intersection direct fuel P Q = CxDone px_overlapping l /\ forall Y, common_point P Q Y <-> in_hull l Y.
Proof. exact overlap_exact. Qed.

(** C115: when the second polygon is strictly inside the first, exactly its points are visited, in order. *)
Theorem C115_second_inside_first : forall P Q fuel, convex_polygon P -> convex_polygon Q -> (4 * (length P + length Q) < fuel)%nat ->
  (forall V, In V Q -> strictly_inside P V) -> convex_polygon_polygon_intersection direct fuel P Q = CxDone px_overlapping Q.
Proof. exact nested_second. Qed.

(** C115: when the first polygon is strictly inside the second its points should be visited, but the
    number of points of the second is used: with fewer points than the second the points are read
    out of range, and with more a vertex is never visited. *)
Theorem C115_first_inside_second_refuted : forall P Q fuel, convex_polygon P -> convex_polygon Q -> (4 * (length P + length Q) < fuel)%nat ->
  (forall V, In V P -> strictly_inside Q V) ->
  ((length P < length Q)%nat -> convex_polygon_polygon_intersection direct fuel P Q = CxUndefined) /\
  ((length Q < length P)%nat -> exists l V, convex_polygon_polygon_intersection direct fuel P Q = CxDone px_overlapping l /\
     In V P /\ forall X, In X l -> ~ X =p= V) /\
  (length Q = length P -> convex_polygon_polygon_intersection direct fuel P Q = CxDone px_overlapping P).
Proof.
  intros P Q fuel CP CQ F N. rewrite (nested_first P Q fuel CP CQ F N). destruct CP as [C L], CQ as [_ LQ]. split; [|split].
  - intro H. destruct (Nat.leb_spec (length Q) (length P)); [lia|reflexivity].
  - intro H. destruct (Nat.leb_spec (length Q) (length P)); [|lia]. exists (firstn (length Q) P), (pnth P (length P - 1)).
    split; [reflexivity|]. split; [apply pnth_In; lia|]. intros X HX E.
    apply (In_nth _ X (mkpt 0 0)) in HX as (k & Hk & EX). rewrite firstn_length in Hk.
    assert (EX' : pnth P k = X).
    { rewrite <- EX. unfold pnth. rewrite <- (firstn_skipn (length Q) P) at 1. apply app_nth1. rewrite firstn_length. exact Hk. }
    rewrite <- EX' in E. destruct (Nat.eq_dec k 0) as [->|K].
    + pose proof (convex_pnth P 0 1 (length P - 1) C ltac:(lia) ltac:(lia)) as T. rewrite <- (tri2_pteq _ _ _ _ E), tri2_AA in T. lra.
    + pose proof (convex_pnth P 0 k (length P - 1) C ltac:(lia) ltac:(lia)) as T. rewrite <- (tri2_pteq _ _ _ _ E), tri2_AB in T. lra.
  - intro H. rewrite H, Nat.leb_refl, firstn_all. reflexivity.
Qed.

(** Integer points, and a test of convexity for the examples. *)
Definition ip (x y : Z) : pt := mkpt (inject_Z x) (inject_Z y).
Definition convexb (ps : list pt) : bool :=
  forallb (fun i => forallb (fun j => forallb (fun k => negb (Nat.ltb i j && Nat.ltb j k) || Qltb 0 (tri2 (pnth ps i) (pnth ps j) (pnth ps k)))
    (seq 0 (length ps))) (seq 0 (length ps))) (seq 0 (length ps)).
Lemma convexb_ok : forall ps, convexb ps = true -> (3 <= length ps)%nat -> convex_polygon ps.
Proof.
  intros ps H L. split; [|exact L]. intros i j k A B C O EA EB EC.
  assert (Lk : (k < length ps)%nat) by (apply nth_error_Some; rewrite EC; discriminate).
  unfold convexb in H. rewrite forallb_forall in H. specialize (H i ltac:(apply in_seq; lia)). rewrite forallb_forall in H.
  specialize (H j ltac:(apply in_seq; lia)). rewrite forallb_forall in H. specialize (H k ltac:(apply in_seq; lia)).
  destruct (Nat.ltb_spec i j); [|lia]. destruct (Nat.ltb_spec j k); [|lia]. cbn [andb negb orb] in H. apply Qltb_lt in H.
  unfold pnth in H. rewrite (nth_error_nth _ _ _ EA), (nth_error_nth _ _ _ EB), (nth_error_nth _ _ _ EC) in H. exact H.
Qed.
Definition insideb (ps : list pt) (p : pt) : bool :=
  forallb (fun i => Qltb 0 (tri2 (pnth ps i) (pnth ps (S i mod length ps)) p)) (seq 0 (length ps)).
Lemma insideb_ok : forall ps p, insideb ps p = true -> strictly_inside ps p.
Proof.
  intros ps p H i A B [EA EB]. assert (Li : (i < length ps)%nat) by (apply nth_error_Some; rewrite EA; discriminate).
  unfold insideb in H. rewrite forallb_forall in H. specialize (H i ltac:(apply in_seq; lia)). apply Qltb_lt in H.
  unfold pnth in H. rewrite (nth_error_nth _ _ _ EA), (nth_error_nth _ _ _ EB) in H. exact H.
Qed.

(** C115: two polygons that touch in a single vertex can be reported as sharing a face (the comment
    at convex_polygon_polygon_intersection.hpp:32 announces [overlapping]). *)
Theorem C115_vertex_is_overlapping_refuted : exists P Q l V, convex_polygon P /\ convex_polygon Q /\
  (forall Z, common_point P Q Z <-> Z =p= V) /\ In V P /\ In V Q /\ convex_polygon_polygon_intersection direct 100 P Q = CxDone px_face l.
Proof.
  set (P := [ip 1 3; ip 1 5; ip 0 4]). set (Q := [ip 2 4; ip 1 3; ip 1 2; ip 4 2]).
  assert (CP : convex_polygon P) by (apply convexb_ok; [vm_compute; reflexivity|cbn; lia]).
  assert (CQ : convex_polygon Q) by (apply convexb_ok; [vm_compute; reflexivity|cbn; lia]).
  pose proof (C115_answer P Q 100 CP CQ ltac:(cbn; lia)) as H.
  assert (R : convex_polygon_polygon_intersection direct 100 P Q = CxDone px_face [mkpt (2 # 2) (6 # 2); ip 1 3; ip 1 3]) by (vm_compute; reflexivity).
  rewrite R in H. destruct H as (_ & k & X & Y & E & H).
  exists P, Q, [mkpt (2 # 2) (6 # 2); ip 1 3; ip 1 3], (ip 1 3). split; [exact CP|]. split; [exact CQ|]. split; [|split; [left; reflexivity|split; [right; left; reflexivity|exact R]]].
  assert (XY : X = ip 1 3 /\ Y = ip 1 3).
  { change [mkpt (2 # 2) (6 # 2); ip 1 3; ip 1 3] with ([mkpt (2 # 2) (6 # 2)] ++ [ip 1 3; ip 1 3]) in E.
    apply (f_equal (@rev pt)) in E. rewrite !rev_app_distr in E. cbn [rev app] in E. injection E as E1 E2 _. auto. }
  destruct XY as [-> ->]. intro Z. rewrite H. split.
  - intros (t & _ & E1 & E2). split; [rewrite E1|rewrite E2]; unfold lerp, ip; cbn [px py vadd vscale vsub]; ring.
  - intros [E1 E2]. exists 0. split; [lra|]. split; [rewrite E1|rewrite E2]; unfold lerp, ip; cbn [px py vadd vscale vsub]; ring.
Qed.

(** The visits of [overlapping], as reduced fractions. *)
Definition reduced (r : cx_result) : option (list (Q * Q)) :=
  match r with CxDone px_overlapping l => Some (map (fun p => (Qred (px p), Qred (py p))) l) | _ => None end.
(** A triangle across a square; two triangles that form a star; a square and a triangle with a common side; a triangle left of a
    square; a triangle inside a square both ways, and a square inside a triangle. *)
Example C115_witness :
  let sq := [ip 0 0; ip 4 0; ip 4 4; ip 0 4] in let tr := [ip 2 2; ip 6 1; ip 6 3] in
  let small := [ip 1 1; ip 2 1; ip 1 2] in let big := [ip (-9) (-9); ip 20 (-9); ip (-9) 20] in
  convex_polygon sq /\ convex_polygon tr /\ convex_polygon small /\ convex_polygon big /\
  reduced (convex_polygon_polygon_intersection direct 100 sq tr) = Some [(4, 3 # 2); (4, 5 # 2); (2, 2)] /\
  reduced (convex_polygon_polygon_intersection direct 100 [ip 0 0; ip 6 0; ip 3 6] [ip 0 4; ip 3 (-2); ip 6 4]) =
    Some [(2, 4); (1, 2); (2, 0); (4, 0); (5, 2); (4, 4)] /\
  (exists l, convex_polygon_polygon_intersection direct 100 sq [ip 4 1; ip 7 2; ip 4 3] = CxDone px_face l) /\
  convex_polygon_polygon_intersection direct 100 sq [ip 5 1; ip 7 2; ip 5 3] = CxDone px_none [] /\
  (forall X, ~ common_point sq [ip 5 1; ip 7 2; ip 5 3] X) /\
  (forall V, In V small -> strictly_inside sq V) /\ (forall V, In V sq -> strictly_inside big V) /\
  convex_polygon_polygon_intersection direct 100 sq small = CxDone px_overlapping small /\
  convex_polygon_polygon_intersection direct 100 small sq = CxUndefined /\
  convex_polygon_polygon_intersection direct 100 sq big = CxDone px_overlapping [ip 0 0; ip 4 0; ip 4 4].
Proof.
  cbv zeta. repeat (split; [apply convexb_ok; [vm_compute; reflexivity|cbn; lia]|]).
  split; [vm_compute; reflexivity|]. split; [vm_compute; reflexivity|]. split; [eexists; vm_compute; reflexivity|]. split; [vm_compute; reflexivity|].
  split.
  { assert (CP : convex_polygon [ip 0 0; ip 4 0; ip 4 4; ip 0 4]) by (apply convexb_ok; [vm_compute; reflexivity|cbn; lia]).
    assert (CQ : convex_polygon [ip 5 1; ip 7 2; ip 5 3]) by (apply convexb_ok; [vm_compute; reflexivity|cbn; lia]).
    intros X [H1 H2]. apply (hull_prev _ 2 _ CP) in H1; [|cbn; lia]. apply (hull_prev _ 0 _ CQ) in H2; [|cbn; lia].
    change (0 <= tri2 (ip 4 0) (ip 4 4) X) in H1. change (0 <= tri2 (ip 5 3) (ip 5 1) X) in H2.
    unfold tri2, cross, vsub, ip, inject_Z in H1, H2. cbn [px py] in H1, H2. lra. }
  split; [intros V HV; apply insideb_ok; destruct HV as [<-|[<-|[<-|[]]]]; vm_compute; reflexivity|].
  split; [intros V HV; apply insideb_ok; destruct HV as [<-|[<-|[<-|[<-|[]]]]]; vm_compute; reflexivity|].
  split; [vm_compute; reflexivity|]. split; vm_compute; reflexivity.
Qed.

(** A case of the hypotheses: a triangle that enters a square. *)
Example C115_overlap_case :
  let sq := [ip 0 0; ip 4 0; ip 4 4; ip 0 4] in let tr := [ip 2 2; ip 6 1; ip 6 3] in
  convex_polygon sq /\ convex_polygon tr /\ strictly_inside sq (ip 3 2) /\ strictly_inside tr (ip 3 2) /\
  on_polygon sq (mkpt 4 (3 # 2)) /\ on_polygon tr (mkpt 4 (3 # 2)).
Proof.
  cbv zeta. repeat (split; [apply convexb_ok; [vm_compute; reflexivity|cbn; lia]|]).
  repeat (split; [apply insideb_ok; vm_compute; reflexivity|]).
  split.
  - exists 1%nat, (ip 4 0), (ip 4 4). split; [split; reflexivity|]. exists (3 # 8). split; [lra|]. split; vm_compute; reflexivity.
  - exists 0%nat, (ip 2 2), (ip 6 1). split; [split; reflexivity|]. exists (1 # 2). split; [lra|]. split; vm_compute; reflexivity.
Qed.

(** Cases of the hypotheses: two squares with a common corner, a triangle with its tip on a side of a square, and two squares with a common side. *)
Example C115_contact_cases :
  let sq := [ip 0 0; ip 4 0; ip 4 4; ip 0 4] in let up := [ip 4 4; ip 8 4; ip 8 8; ip 4 8] in let tr := [ip 4 2; ip 6 1; ip 6 3] in let ri := [ip 4 0; ip 8 0; ip 8 4; ip 4 4] in
  convex_polygon sq /\ convex_polygon up /\ convex_polygon tr /\ convex_polygon ri /\
  (forall Q, In Q [up; tr; ri] -> forall X0, strictly_inside sq X0 -> strictly_inside Q X0 -> False) /\
  on_polygon sq (ip 4 4) /\ on_polygon up (ip 4 4) /\ on_polygon ri (ip 4 4) /\ on_polygon sq (ip 4 2) /\ on_polygon tr (ip 4 2) /\
  (exists l, convex_polygon_polygon_intersection direct 100 sq up = CxDone px_face l) /\
  (exists l, convex_polygon_polygon_intersection direct 100 sq tr = CxDone px_overlapping l) /\
  (exists l, convex_polygon_polygon_intersection direct 100 sq ri = CxDone px_face l).
Proof.
  cbv zeta. repeat (split; [apply convexb_ok; [vm_compute; reflexivity|cbn; lia]|]).
  split.
  { intros Q HQ X0 H1 H2. specialize (H1 1%nat (ip 4 0) (ip 4 4) ltac:(split; reflexivity)). unfold tri2, cross, vsub, ip, inject_Z in H1; cbn [px py] in H1.
    destruct HQ as [<-|[<-|[<-|[]]]].
    - specialize (H2 3%nat (ip 4 8) (ip 4 4) ltac:(split; reflexivity)). unfold tri2, cross, vsub, ip, inject_Z in H2; cbn [px py] in H2. lra.
    - pose proof (H2 2%nat (ip 6 3) (ip 4 2) ltac:(split; reflexivity)) as H3. specialize (H2 0%nat (ip 4 2) (ip 6 1) ltac:(split; reflexivity)). unfold tri2, cross, vsub, ip, inject_Z in H2, H3; cbn [px py] in H2, H3. lra.
    - specialize (H2 3%nat (ip 4 4) (ip 4 0) ltac:(split; reflexivity)). unfold tri2, cross, vsub, ip, inject_Z in H2; cbn [px py] in H2. lra. }
  split; [exists 1%nat, (ip 4 0), (ip 4 4); split; [split; reflexivity|]; exists 1; split; [lra|]; split; vm_compute; reflexivity|].
  split; [exists 0%nat, (ip 4 4), (ip 8 4); split; [split; reflexivity|]; exists 0; split; [lra|]; split; vm_compute; reflexivity|].
  split; [exists 3%nat, (ip 4 4), (ip 4 0); split; [split; reflexivity|]; exists 0; split; [lra|]; split; vm_compute; reflexivity|].
  split; [exists 1%nat, (ip 4 0), (ip 4 4); split; [split; reflexivity|]; exists (1 # 2); split; [lra|]; split; vm_compute; reflexivity|].
  split; [exists 0%nat, (ip 4 2), (ip 6 1); split; [split; reflexivity|]; exists 0; split; [lra|]; split; vm_compute; reflexivity|].
  split; [eexists; vm_compute; reflexivity|]. split; eexists; vm_compute; reflexivity.
Qed.

Print Assumptions C115_terminates.
Print Assumptions C115_answer.
Print Assumptions C115_contact.
Print Assumptions C115_corners_visited.
Print Assumptions C115_disjoint.
Print Assumptions C115_none_iff_disjoint.
Print Assumptions C115_overlap_exact.
Print Assumptions C115_second_inside_first.
Print Assumptions C115_first_inside_second_refuted.
Print Assumptions C115_vertex_is_overlapping_refuted.
