(** Plane geometry of the sweep: sides and orders of lines. *)
From Verif Require Import Base CmpModel CmpProof OrientModel OrientSpec OrientProof DistModel LinIntModel LinIntSpec LinIntProof SweepModel SweepSpec.
From Coq Require Import Arith.

Notation lexlt := lex_before.

Lemma lex_less_ok : forall a b, lex_less direct a b = true <-> lexlt a b.
Proof.
  intros [ax ay] [bx by_]. unfold lex_less, lex_before; cbn. destruct (Qltb_spec ax bx); [split; auto|].
  destruct (Qeqb_spec ax bx); cbn.
  - destruct (Qltb_spec ay by_); [split; auto|]. destruct (Qeqb_spec ay by_); split; try discriminate; intros [G|[G1 G2]]; lra.
  - split; [discriminate|]. intros [G|[G1 G2]]; lra.
Qed.
Lemma same_pt_ok : forall a b, same_pt direct a b = true <-> a =p= b.
Proof.
  intros [ax ay] [bx by_]. unfold same_pt, pteq; cbn. destruct (Qeqb_spec ay by_), (Qeqb_spec ax bx); cbn; split; try discriminate; try tauto; intros [G1 G2]; exfalso; tauto.
Qed.
Lemma lexlt_irrefl : forall a, ~ lexlt a a.
Proof. intros a [G|[G1 G2]]; lra. Qed.
Lemma lexlt_trans : forall a b c, lexlt a b -> lexlt b c -> lexlt a c.
Proof. intros a b c [G|[G1 G2]] [F|[F1 F2]]; unfold lex_before; lra. Qed.
Lemma lexlt_trans' : forall a b c, ~ lexlt b a -> lexlt b c -> lexlt a c.
Proof.
  intros a b c N [F|[F1 F2]]; unfold lex_before in *; destruct (Qlt_le_dec (px b) (px a)) as [L|L]; [exfalso; apply N; auto| |exfalso; apply N; auto|]; [left; lra|].
  destruct (Qlt_le_dec (px a) (px b)) as [L'|L']; [left; lra|]. right. split; [lra|].
  destruct (Qlt_le_dec (py b) (py a)) as [K|K]; [exfalso; apply N; right; split; lra|lra].
Qed.
Lemma lexlt_trans'' : forall a b c, lexlt a b -> ~ lexlt c b -> lexlt a c.
Proof.
  intros a b c [F|[F1 F2]] N; unfold lex_before in *; destruct (Qlt_le_dec (px c) (px b)) as [L|L]; [exfalso; apply N; auto| |exfalso; apply N; auto|]; [left; lra|].
  destruct (Qlt_le_dec (px b) (px c)) as [L'|L']; [left; lra|]. right. split; [lra|].
  destruct (Qlt_le_dec (py c) (py b)) as [K|K]; [exfalso; apply N; right; split; lra|lra].
Qed.
Lemma lexlt_compat : forall a b a' b', a =p= a' -> b =p= b' -> lexlt a b -> lexlt a' b'.
Proof. intros a b a' b' [E1 E2] [E3 E4] [G|[G1 G2]]; unfold lex_before; lra. Qed.
Lemma lexlt_neq : forall a b, lexlt a b -> ~ a =p= b.
Proof. intros a b [G|[G1 G2]] [E1 E2]; lra. Qed.
Lemma lex_total : forall a b, lexlt a b \/ a =p= b \/ lexlt b a.
Proof.
  intros a b. unfold lex_before, pteq. destruct (Qlt_le_dec (px a) (px b)); [auto|]. destruct (Qlt_le_dec (px b) (px a)); [auto|].
  destruct (Qlt_le_dec (py a) (py b)); [left; right; lra|]. destruct (Qlt_le_dec (py b) (py a)); [right; right; right; lra|right; left; lra].
Qed.

(** Directions of segments taken from left to right. *)
Definition hpos (v : pt) : Prop := 0 < px v \/ (px v == 0 /\ 0 < py v).
Definition dir (s : seg) : pt := vsub (snd s) (fst s).
Lemma hpos_lexlt : forall a b, hpos (vsub b a) <-> lexlt a b.
Proof. intros a b. unfold hpos, lex_before, vsub; cbn. lra. Qed.

Definition sg (q : Q) : Z := if Qltb 0 q then 1%Z else if Qltb q 0 then (-1)%Z else 0%Z.
Lemma sg_mono : forall x y, x <= y -> (sg x <= sg y)%Z.
Proof. intros x y H. unfold sg. repeat qcase; try lia; exfalso; lra. Qed.
Lemma sg_compat : forall x y, x == y -> sg x = sg y.
Proof. intros x y H. unfold sg. repeat qcase; try lia; exfalso; lra. Qed.
Lemma sg_opp : forall x, sg (- x) = (- sg x)%Z.
Proof. intros x. unfold sg. repeat qcase; try lia; exfalso; lra. Qed.
Lemma sg_zero : forall x, sg x = 0%Z <-> x == 0.
Proof. intros x. unfold sg. repeat qcase; split; intro; try lia; try lra. Qed.
Lemma sg_pos : forall x, (0 < sg x)%Z <-> 0 < x.
Proof. intros x. unfold sg. repeat qcase; split; intro; try lia; try lra. Qed.
Lemma sg_neg : forall x, (sg x < 0)%Z <-> x < 0.
Proof. intros x. unfold sg. repeat qcase; split; intro; try lia; try lra. Qed.
Lemma sg_le : forall x y, (0 < x -> 0 < y) -> (0 <= x -> 0 <= y) -> (sg x <= sg y)%Z.
Proof. intros x y H1 H2. unfold sg. repeat qcase; try lia; exfalso; lra. Qed.

(** Angles in the half plane of directions. *)
Lemma angle_mono : forall u v w, hpos u -> hpos v -> hpos w -> 0 <= cross u v -> (sg (cross w u) <= sg (cross w v))%Z.
Proof.
  intros [ux uy] [vx vy] [wx wy] Hu Hv Hw C. unfold hpos, cross in *; cbn in *.
  assert (Id : ux * (wx * vy - wy * vx) == vx * (wx * uy - wy * ux) + wx * (ux * vy - uy * vx)) by ring.
  destruct Hu as [Hu|[Hu1 Hu2]].
  - apply sg_le; intro P.
    + destruct Hv as [Hv|[Hv1 Hv2]].
      * assert (0 < ux * (wx * vy - wy * vx)).
        { rewrite Id. assert (0 < vx * (wx * uy - wy * ux)) by (apply Qmult_lt_0_compat; assumption).
          assert (0 <= wx * (ux * vy - uy * vx)) by (apply Qmult_le_0_compat; [destruct Hw; lra|exact C]). lra. }
        apply Qnot_le_lt. intro N. assert (ux * (wx * vy - wy * vx) <= 0) by nra. lra.
      * destruct Hw as [Hw|[Hw1 Hw2]].
        -- assert (0 < wx * vy) by (apply Qmult_lt_0_compat; assumption). assert (wy * vx == 0) by (rewrite Hv1; ring). lra.
        -- exfalso. assert (wx * uy == 0) by (rewrite Hw1; ring). assert (0 < wy * ux) by (apply Qmult_lt_0_compat; assumption). lra.
    + assert (0 <= ux * (wx * vy - wy * vx)).
      { rewrite Id. assert (0 <= vx * (wx * uy - wy * ux)) by (apply Qmult_le_0_compat; [destruct Hv; lra|assumption]).
        assert (0 <= wx * (ux * vy - uy * vx)) by (apply Qmult_le_0_compat; [destruct Hw; lra|exact C]). lra. }
      apply Qnot_lt_le. intro N. assert (0 < ux * - (wx * vy - wy * vx)) by (apply Qmult_lt_0_compat; lra). lra.
  - assert (Z1 : ux * vy == 0) by (rewrite Hu1; ring).
    assert (Hv1 : vx == 0).
    { destruct Hv as [Hv|[Hv _]]; [exfalso|exact Hv]. assert (0 < uy * vx) by (apply Qmult_lt_0_compat; assumption). lra. }
    assert (Hv2 : 0 < vy) by (destruct Hv as [Hv|[_ Hv]]; [lra|exact Hv]).
    assert (E1 : wx * uy - wy * ux == wx * uy) by (rewrite Hu1; ring).
    assert (E2 : wx * vy - wy * vx == wx * vy) by (rewrite Hv1; ring).
    apply sg_le; rewrite E1, E2; intro P.
    + assert (0 < wx) by (destruct Hw as [Hw|[Hw _]]; [exact Hw|rewrite Hw in P; lra]). apply Qmult_lt_0_compat; assumption.
    + apply Qmult_le_0_compat; [destruct Hw; lra|lra].
Qed.
Lemma cross_anti : forall u v, cross u v == - cross v u.
Proof. intros [ux uy] [vx vy]; unfold cross; cbn; ring. Qed.
Lemma angle_mono' : forall u v w, hpos u -> hpos v -> hpos w -> 0 <= cross u v -> (sg (cross v w) <= sg (cross u w))%Z.
Proof.
  intros u v w Hu Hv Hw C. rewrite (sg_compat _ _ (cross_anti v w)), (sg_compat _ _ (cross_anti u w)), !sg_opp.
  assert (M := angle_mono u v w Hu Hv Hw C). lia.
Qed.
Lemma parallel_sg : forall u v w, hpos u -> hpos v -> cross u v == 0 -> sg (cross u w) = sg (cross v w).
Proof.
  intros u v w Hu Hv C. assert (C' : cross v u == 0) by (rewrite cross_anti, C; ring).
  assert (P : forall w, hpos w -> sg (cross u w) = sg (cross v w)).
  { intros x Hx. assert (M1 := angle_mono' u v x Hu Hv Hx ltac:(lra)). assert (M2 := angle_mono' v u x Hv Hu Hx ltac:(lra)). lia. }
  assert (D : hpos w \/ hpos (vscale (-(1)) w) \/ (px w == 0 /\ py w == 0)).
  { unfold hpos, vscale; cbn. destruct (Qlt_le_dec 0 (px w)); [auto|]. destruct (Qlt_le_dec (px w) 0); [right; left; left; lra|].
    destruct (Qlt_le_dec 0 (py w)); [left; right; lra|]. destruct (Qlt_le_dec (py w) 0); [right; left; right; lra|right; right; lra]. }
  destruct D as [D|[D|[D1 D2]]].
  - apply P, D.
  - specialize (P _ D). assert (N : forall u, cross u (vscale (-(1)) w) == - cross u w) by (intros [a b]; unfold cross, vscale; cbn; ring).
    rewrite !(sg_compat _ _ (N _)), !sg_opp in P. lia.
  - assert (Z : forall u, cross u w == 0) by (intros [a b]; unfold cross; cbn; rewrite D1, D2; ring). rewrite !(sg_compat _ _ (Z _)). reflexivity.
Qed.

(** The side of the point [z] of the line of the segment [s]: 1 above, 0 on, -1 below. *)
Definition height (s : seg) (z : pt) : Q := cross (dir s) (vsub z (fst s)).
Definition side (s : seg) (z : pt) : Z := sg (height s z).
Lemma height_compat : forall s z z', z =p= z' -> height s z == height s z'.
Proof. intros [[ax ay] [bx by_]] [zx zy] [wx wy] [E1 E2]. unfold height, dir, cross, vsub; cbn in *. rewrite E1, E2. ring. Qed.
Lemma side_compat : forall s z z', z =p= z' -> side s z = side s z'.
Proof. intros s z z' E. apply sg_compat, height_compat, E. Qed.
Lemma height_from : forall s z w, height s w == 0 -> height s z == cross (dir s) (vsub z w).
Proof. intros [[ax ay] [bx by_]] [zx zy] [wx wy] E. unfold height, dir, cross, vsub in *; cbn in *. lra. Qed.
Lemma height_base : forall s, height s (fst s) == 0.
Proof. intros [[ax ay] [bx by_]]. unfold height, dir, cross, vsub; cbn. ring. Qed.

(** Where the lines of two segments meet. *)
Definition meet (s1 s2 : seg) : pt :=
  lerp (fst s1) (snd s1) (cross (vsub (fst s2) (fst s1)) (dir s2) / cross (dir s1) (dir s2)).
Lemma meet_1 : forall s1 s2, ~ cross (dir s1) (dir s2) == 0 -> height s1 (meet s1 s2) == 0.
Proof. intros [[ax ay] [bx by_]] [[cx cy] [dx dy]] H. unfold meet, height, dir, lerp, vadd, vscale, cross, vsub in *; cbn in *. field. exact H. Qed.
Lemma meet_2 : forall s1 s2, ~ cross (dir s1) (dir s2) == 0 -> height s2 (meet s1 s2) == 0.
Proof. intros [[ax ay] [bx by_]] [[cx cy] [dx dy]] H. unfold meet, height, dir, lerp, vadd, vscale, cross, vsub in *; cbn in *. field. exact H. Qed.
Lemma meet_unique : forall s1 s2 z, ~ cross (dir s1) (dir s2) == 0 -> height s1 z == 0 -> height s2 z == 0 -> z =p= meet s1 s2.
Proof.
  intros s1 s2 z N H1 H2. assert (M1 := meet_1 s1 s2 N). assert (M2 := meet_2 s1 s2 N).
  rewrite (height_from s1 z _ M1) in H1. rewrite (height_from s2 z _ M2) in H2.
  destruct (dir s1) as [ux uy], (dir s2) as [vx vy], (meet s1 s2) as [wx wy], z as [zx zy]. unfold cross, vsub, pteq in *; cbn in *.
  assert (P1 : (ux * vy - uy * vx) * (zx - wx) == 0).
  { assert (E : (ux * vy - uy * vx) * (zx - wx) == ux * (vy * (zx - wx) - vx * (zy - wy)) + vx * (ux * (zy - wy) - uy * (zx - wx))) by ring.
    rewrite E. assert (E2 : vy * (zx - wx) - vx * (zy - wy) == 0) by lra. rewrite E2, H1. ring. }
  assert (P2 : (ux * vy - uy * vx) * (zy - wy) == 0).
  { assert (E : (ux * vy - uy * vx) * (zy - wy) == vy * (ux * (zy - wy) - uy * (zx - wx)) - uy * (vx * (zy - wy) - vy * (zx - wx))) by ring.
    rewrite E, H1, H2. ring. }
  apply Qmult_integral in P1. apply Qmult_integral in P2. split; [destruct P1|destruct P2]; try contradiction; lra.
Qed.

(** [s1] is not above [s2] just after the point [p]. *)
Definition ord_after (s1 s2 : seg) (p : pt) : Prop :=
  (0 < cross (dir s1) (dir s2) /\ ~ lexlt p (meet s1 s2)) \/
  (cross (dir s1) (dir s2) < 0 /\ lexlt p (meet s1 s2)) \/
  (cross (dir s1) (dir s2) == 0 /\ 0 <= cross (dir s1) (vsub (fst s2) (fst s1))).

Lemma side_right : forall s1 s2 w z, hpos (dir s1) -> hpos (dir s2) -> 0 <= cross (dir s1) (dir s2) -> height s1 w == 0 -> height s2 w == 0 ->
  lexlt w z -> (side s2 z <= side s1 z)%Z.
Proof.
  intros s1 s2 w z D1 D2 C H1 H2 L. unfold side. rewrite (sg_compat _ _ (height_from s1 z w H1)), (sg_compat _ _ (height_from s2 z w H2)).
  apply angle_mono'; try assumption. apply hpos_lexlt, L.
Qed.
Lemma side_left : forall s1 s2 w z, hpos (dir s1) -> hpos (dir s2) -> 0 <= cross (dir s1) (dir s2) -> height s1 w == 0 -> height s2 w == 0 ->
  lexlt z w -> (side s1 z <= side s2 z)%Z.
Proof.
  intros s1 s2 w z D1 D2 C H1 H2 L. unfold side. rewrite (sg_compat _ _ (height_from s1 z w H1)), (sg_compat _ _ (height_from s2 z w H2)).
  assert (N : forall d, cross d (vsub z w) == cross (vsub w z) d) by (intros [a b]; unfold cross, vsub; cbn; ring).
  rewrite !(sg_compat _ _ (N _)). apply angle_mono; try assumption. apply hpos_lexlt, L.
Qed.
Lemma side_parallel : forall s1 s2 z, hpos (dir s1) -> hpos (dir s2) -> cross (dir s1) (dir s2) == 0 -> 0 <= cross (dir s1) (vsub (fst s2) (fst s1)) ->
  (side s2 z <= side s1 z)%Z.
Proof.
  intros s1 s2 z D1 D2 C G. unfold side at 1, height. rewrite <- (parallel_sg _ _ _ D1 D2 C). apply sg_mono.
  unfold height. destruct (dir s1) as [ux uy], s1 as [[ax ay] s1'], s2 as [[cx cy] s2'], z as [zx zy]. unfold cross, vsub in *; cbn in *. lra.
Qed.
Lemma side_parallel' : forall s1 s2 z, hpos (dir s1) -> hpos (dir s2) -> cross (dir s1) (dir s2) == 0 -> cross (dir s1) (vsub (fst s2) (fst s1)) <= 0 ->
  (side s1 z <= side s2 z)%Z.
Proof.
  intros s1 s2 z D1 D2 C G. unfold side at 2, height. rewrite <- (parallel_sg _ _ _ D1 D2 C). apply sg_mono.
  unfold height. destruct (dir s1) as [ux uy], s1 as [[ax ay] s1'], s2 as [[cx cy] s2'], z as [zx zy]. unfold cross, vsub in *; cbn in *. lra.
Qed.

(** The order lasts up to the next meeting point. *)
Lemma ord_side : forall s1 s2 p z, hpos (dir s1) -> hpos (dir s2) -> ord_after s1 s2 p -> lexlt p z ->
  (cross (dir s1) (dir s2) < 0 -> ~ lexlt (meet s1 s2) z) -> (side s2 z <= side s1 z)%Z.
Proof.
  intros s1 s2 p z D1 D2 [[C O]|[[C O]|[C O]]] L W.
  - apply side_right with (w := meet s1 s2); try assumption; [lra|apply meet_1; lra|apply meet_2; lra|]. apply lexlt_trans' with p; assumption.
  - assert (M1 := meet_1 s1 s2 ltac:(lra)). assert (M2 := meet_2 s1 s2 ltac:(lra)).
    destruct (lex_total z (meet s1 s2)) as [T|[T|T]].
    + apply side_left with (w := meet s1 s2); try assumption. rewrite cross_anti. lra.
    + unfold side. rewrite (sg_compat _ _ (height_compat s1 _ _ T)), (sg_compat _ _ (height_compat s2 _ _ T)), (sg_compat _ _ M1), (sg_compat _ _ M2). reflexivity.
    + destruct (W C T).
  - apply side_parallel; assumption.
Qed.
(** Different sides of a point give the order after it. *)
Lemma side_ord : forall s1 s2 q, hpos (dir s1) -> hpos (dir s2) -> (side s2 q < side s1 q)%Z -> ord_after s1 s2 q.
Proof.
  intros s1 s2 q D1 D2 S. unfold ord_after. destruct (Qlt_le_dec 0 (cross (dir s1) (dir s2))) as [C|C].
  - left. split; [exact C|]. intro L. assert (G := side_left s1 s2 (meet s1 s2) q D1 D2 ltac:(lra) (meet_1 s1 s2 ltac:(lra)) (meet_2 s1 s2 ltac:(lra)) L). lia.
  - destruct (Qlt_le_dec (cross (dir s1) (dir s2)) 0) as [C'|C'].
    + right; left. split; [exact C'|]. assert (M1 := meet_1 s1 s2 ltac:(lra)). assert (M2 := meet_2 s1 s2 ltac:(lra)).
      destruct (lex_total q (meet s1 s2)) as [T|[T|T]]; [exact T| |]; exfalso.
      * unfold side in S. rewrite (sg_compat _ _ (height_compat s1 _ _ T)), (sg_compat _ _ (height_compat s2 _ _ T)), (sg_compat _ _ M1), (sg_compat _ _ M2) in S. lia.
      * assert (G := side_right s2 s1 (meet s1 s2) q D2 D1 ltac:(rewrite cross_anti; lra) M2 M1 T). lia.
    + right; right. split; [lra|]. apply Qnot_lt_le. intro G. assert (F := side_parallel' s1 s2 q D1 D2 ltac:(lra) ltac:(lra)). lia.
Qed.
(** Segments through a point, ordered by angle. *)
Lemma fan_ord : forall s1 s2 q, hpos (dir s1) -> hpos (dir s2) -> side s1 q = 0%Z -> side s2 q = 0%Z -> 0 <= cross (dir s1) (dir s2) -> ord_after s1 s2 q.
Proof.
  intros s1 s2 q D1 D2 S1 S2 C. apply sg_zero in S1. apply sg_zero in S2. unfold ord_after. destruct (Qlt_le_dec 0 (cross (dir s1) (dir s2))) as [P|P].
  - left. split; [exact P|]. intro L. apply (lexlt_neq _ _ L). apply meet_unique; try assumption. lra.
  - right; right. split; [lra|]. assert (E : sg (cross (dir s1) (vsub q (fst s2))) = 0%Z).
    { rewrite (parallel_sg _ _ _ D1 D2 ltac:(lra)). apply sg_zero, S2. }
    apply sg_zero in E. unfold height in S1. destruct (dir s1) as [ux uy], (fst s1) as [ax ay], (fst s2) as [cx cy], q as [zx zy]. unfold cross, vsub in *; cbn in *. lra.
Qed.

(** A point of the line of a segment, in its range, is on it. *)
Lemma in_range_on : forall s z, hpos (dir s) -> height s z == 0 -> ~ lexlt z (fst s) -> ~ lexlt (snd s) z -> on_segment (fst s) (snd s) z.
Proof.
  intros [[ax ay] [bx by_]] [zx zy] D H L1 L2. unfold height, dir, cross, vsub, hpos in *; cbn in *.
  destruct D as [D|[D1 D2]].
  - exists ((zx - ax) / (bx - ax)). assert (X1 : ax <= zx) by (apply Qnot_lt_le; intro G; apply L1; left; exact G).
    assert (X2 : zx <= bx) by (apply Qnot_lt_le; intro G; apply L2; left; exact G). split.
    + split; [apply Qle_shift_div_l; lra|apply Qle_shift_div_r; lra].
    + unfold lerp, vadd, vscale, vsub; split; cbn; [field; lra|]. assert (E : (zx - ax) / (bx - ax) * (by_ - ay) == ((by_ - ay) * (zx - ax)) / (bx - ax)) by (field; lra).
      rewrite E. assert (E' : (by_ - ay) * (zx - ax) == (bx - ax) * (zy - ay)) by lra. rewrite E'. field. lra.
  - assert (P : (by_ - ay) * (zx - ax) == 0) by (assert (Z : (bx - ax) * (zy - ay) == 0) by (rewrite D1; ring); lra).
    apply Qmult_integral in P. destruct P as [P|P]; [lra|].
    exists ((zy - ay) / (by_ - ay)). assert (X1 : ay <= zy) by (apply Qnot_lt_le; intro G; apply L1; right; cbn; split; lra).
    assert (X2 : zy <= by_) by (apply Qnot_lt_le; intro G; apply L2; right; cbn; split; lra). split.
    + split; [apply Qle_shift_div_l; lra|apply Qle_shift_div_r; lra].
    + unfold lerp, vadd, vscale, vsub; split; cbn; [rewrite D1; lra|field; lra].
Qed.
Lemma on_height : forall s z, on_segment (fst s) (snd s) z -> height s z == 0.
Proof.
  intros [[ax ay] [bx by_]] [zx zy] (t & Ht & E1 & E2). unfold height, dir, cross, vsub, lerp, vadd, vscale, vsub in *; cbn in *. rewrite E1, E2. ring.
Qed.
Lemma on_range : forall s z, hpos (dir s) -> on_segment (fst s) (snd s) z -> ~ lexlt z (fst s) /\ ~ lexlt (snd s) z.
Proof.
  intros [[ax ay] [bx by_]] [zx zy] D (t & Ht & E1 & E2). unfold dir, hpos, vsub, lerp, vadd, vscale, vsub, lex_before in *; cbn in *.
  destruct D as [D|[D1 D2]].
  - split; intros [G|[G1 G2]]; try nra.
    + assert (P : t * (bx - ax) == 0) by lra. apply Qmult_integral in P. destruct P as [P|P]; [|lra]. rewrite P in E2. lra.
    + assert (P : (1 - t) * (bx - ax) == 0) by lra. apply Qmult_integral in P. destruct P as [P|P]; [|lra]. assert (t == 1) by lra. rewrite H in E2. lra.
  - assert (P : t * (bx - ax) == 0) by (rewrite D1; ring). split; intros [G|[G1 G2]]; try lra; nra.
Qed.
