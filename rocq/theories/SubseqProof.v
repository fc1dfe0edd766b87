From Verif Require Import Base CmpModel BoxSpec OrientModel OrientSpec OrientProof DistModel DistSpec DistProof PlanarModel PlanarSpec PlanarProof SubseqModel.

Definition sides (n : nat) := map (fun i => (i, (S i mod n)%nat)) (seq 0 n).
Lemma border_sides : forall n, (2 <= n)%nat -> border_indices n 0 1 n = sides n.
Proof. intros n L. unfold sides. rewrite <- (border_indices_ok n n 0) by lia. f_equal. rewrite Nat.mod_small; lia. Qed.
Lemma side_in : forall ps i, (i < length ps)%nat -> exists A B, polygon_edge ps i A B.
Proof.
  intros ps i I. destruct (nth_error ps i) as [A|] eqn:EA; [|apply nth_error_None in EA; lia].
  destruct (nth_error ps (S i mod length ps)) as [B|] eqn:EB; [|apply nth_error_None in EB; pose proof (Nat.mod_upper_bound (S i) (length ps)); lia]. exists A, B. split; assumption.
Qed.

Lemma containing_ok : forall ps p k i0, proper_polygon ps -> (i0 + k = length ps)%nat ->
  exists r, containing_loop direct ps p (map (fun i => (i, (S i mod length ps)%nat)) (seq i0 k)) = Some r /\
    match r with
    | Some i => (i0 <= i)%nat /\ (exists A B, polygon_edge ps i A B /\ on_segment A B p) /\ forall k A B, (i0 <= k < i)%nat -> polygon_edge ps k A B -> ~ on_segment A B p
    | None => forall k A B, (i0 <= k)%nat -> polygon_edge ps k A B -> ~ on_segment A B p
    end.
Proof.
  intros ps p. induction k as [|k IH]; intros i0 PP E; cbn [seq map containing_loop].
  - exists None. split; [reflexivity|]. intros k A B K [H _]. exfalso. assert (k < length ps)%nat by (apply nth_error_Some; congruence). lia.
  - destruct (side_in ps i0 ltac:(lia)) as (A & B & EA & EB). rewrite EA, EB.
    pose proof (is_between_true A B p (PP i0 A B (conj EA EB))) as BT. destruct (is_between direct A B p true).
    + exists (Some i0). split; [reflexivity|]. split; [lia|]. split; [exists A, B; split; [split; assumption|apply BT; reflexivity]|]. intros; lia.
    + destruct (IH (S i0) PP ltac:(lia)) as (r & R & H). exists r. split; [exact R|].
      assert (HD : forall A' B', polygon_edge ps i0 A' B' -> ~ on_segment A' B' p). { intros A' B' [HA HB] O. rewrite EA in HA. injection HA as <-. rewrite EB in HB. injection HB as <-. apply BT in O. discriminate. }
      destruct r as [i|].
      * destruct H as (LE & EX & NO). split; [lia|]. split; [exact EX|]. intros j A' B' J EJ. destruct (Nat.eq_dec j i0) as [->|]; [apply HD, EJ|]. apply (NO j A' B'); [lia|exact EJ].
      * intros j A' B' J EJ. destruct (Nat.eq_dec j i0) as [->|]; [apply HD, EJ|]. apply (H j A' B'); [lia|exact EJ].
Qed.

(** The best side among those before i0. *)
Definition best_ok (ps : list pt) (p : pt) (i0 : nat) (best : option (Q * nat)) : Prop :=
  match best with
  | None => i0 = 0%nat
  | Some (d, i) => (i < i0)%nat /\ (exists A B, polygon_edge ps i A B /\ d = point_segment_distance_sqrd p A B) /\
      (forall k A B, (k < i)%nat -> polygon_edge ps k A B -> d < point_segment_distance_sqrd p A B) /\
      (forall k A B, (k < i0)%nat -> polygon_edge ps k A B -> d <= point_segment_distance_sqrd p A B)
  end.
Lemma take_ok : forall ps p i0 best A B, best_ok ps p i0 best -> polygon_edge ps i0 A B -> best_ok ps p (S i0) (take_index best (point_segment_distance_sqrd p A B) i0).
Proof.
  intros ps p i0 best A B H E. unfold take_index. destruct best as [(d & i)|]; cbn [option_map fst less_inf].
  - destruct H as (LT & EX & BEF & ALL). destruct (Qltb_spec (point_segment_distance_sqrd p A B) d) as [L|L].
    + split; [lia|]. split; [exists A, B; auto|]. split.
      * intros k A' B' K EK. specialize (ALL k A' B' K EK). lra.
      * intros k A' B' K EK. destruct (Nat.eq_dec k i0) as [->|]; [|specialize (ALL k A' B' ltac:(lia) EK); lra]. destruct E as [E1 E2], EK as [E3 E4]. rewrite E1 in E3. injection E3 as <-. rewrite E2 in E4. injection E4 as <-. lra.
    + split; [lia|]. split; [exact EX|]. split; [exact BEF|]. intros k A' B' K EK. destruct (Nat.eq_dec k i0) as [->|]; [|apply (ALL k A' B'); [lia|exact EK]]. destruct E as [E1 E2], EK as [E3 E4]. rewrite E1 in E3. injection E3 as <-. rewrite E2 in E4. injection E4 as <-. lra.
  - cbn in H. subst i0. split; [lia|]. split; [exists A, B; auto|]. split; [intros; lia|]. intros k A' B' K EK. assert (k = 0%nat) as -> by lia. destruct E as [E1 E2], EK as [E3 E4]. rewrite E1 in E3. injection E3 as <-. rewrite E2 in E4. injection E4 as <-. lra.
Qed.
Lemma closest_ok : forall ps p k i0 best, (i0 + k = length ps)%nat -> best_ok ps p i0 best ->
  exists b, closest_loop ps p best (map (fun i => (i, (S i mod length ps)%nat)) (seq i0 k)) = Some (option_map snd b) /\ best_ok ps p (length ps) b.
Proof.
  intros ps p. induction k as [|k IH]; intros i0 best E H; cbn [seq map closest_loop].
  - exists best. split; [reflexivity|]. replace (length ps) with i0 by lia. exact H.
  - destruct (side_in ps i0 ltac:(lia)) as (A & B & EA & EB). rewrite EA, EB. apply IH; [lia|]. apply take_ok; [exact H|split; assumption].
Qed.

Lemma dist_nonneg : forall p A B, 0 <= point_segment_distance_sqrd p A B.
Proof. intros p A B. destruct (point_segment_least p A B) as [(q & _ & E) _]. rewrite <- E. unfold dist2, dot. pose proof (sq_nonneg (px (vsub q p))). pose proof (sq_nonneg (py (vsub q p))). lra. Qed.
Lemma dist_zero : forall p A B, point_segment_distance_sqrd p A B == 0 <-> on_segment A B p.
Proof.
  intros p A B. destruct (point_segment_least p A B) as [(q & O & E) L]. split.
  - intro Z. rewrite Z in E. unfold dist2, dot, vsub in E. destruct p as [p1 p2], q as [q1 q2]. cbn in E. pose proof (sq_nonneg (q1 - p1)). pose proof (sq_nonneg (q2 - p2)).
    assert (X : q1 - p1 == 0) by (apply sq_zero; lra). assert (Y : q2 - p2 == 0) by (apply sq_zero; lra). destruct O as (t & T & O1 & O2). exists t. split; [exact T|]. split; cbn in *; lra.
  - intro O2. specialize (L p O2). pose proof (dist_nonneg p A B). assert (Z : dist2 p p == 0) by (unfold dist2, dot, vsub; cbn; ring). lra.
Qed.
(** With exact comparison the combined search is the search for the closest side. *)
Lemma loops_agree : forall ps p k i0 best b, proper_polygon ps -> (i0 + k = length ps)%nat -> best_ok ps p i0 best ->
  (match best with Some (d, _) => 0 < d | None => True end) ->
  closest_loop ps p best (map (fun i => (i, (S i mod length ps)%nat)) (seq i0 k)) = Some (option_map snd b) -> best_ok ps p (length ps) b ->
  containing_or_closest_loop direct ps p best (map (fun i => (i, (S i mod length ps)%nat)) (seq i0 k)) = Some (option_map snd b).
Proof.
  intros ps p. induction k as [|k IH]; intros i0 best b PP E H POS C BB; cbn [seq map closest_loop containing_or_closest_loop] in *; [exact C|].
  destruct (side_in ps i0 ltac:(lia)) as (A & B & EA & EB). rewrite EA, EB in *.
  pose proof (is_between_true A B p (PP i0 A B (conj EA EB))) as BT. pose proof (dist_zero p A B) as DZ. pose proof (dist_nonneg p A B) as DN.
  destruct (is_between direct A B p true) eqn:EBT.
  - assert (Z : point_segment_distance_sqrd p A B == 0) by (apply DZ, BT; reflexivity).
    destruct b as [(d & i)|]; [|cbn in BB; lia]. cbn [option_map snd]. f_equal. f_equal.
    destruct BB as (LT & (A' & B' & EI & ED) & BEF & ALL).
    assert (D0 : d == 0). { pose proof (ALL i0 A B ltac:(lia) (conj EA EB)). pose proof (dist_nonneg p A' B'). rewrite <- ED in *. lra. }
    destruct (lt_eq_lt_dec i i0) as [[L| ->]|L]; [exfalso|reflexivity|exfalso].
    + (* before i0: best has positive distance there *)
      destruct best as [(d' & i')|]; [|cbn in H; lia]. destruct H as (_ & _ & _ & H). specialize (H i A' B' L EI). rewrite <- ED in H. lra.
    + specialize (BEF i0 A B L (conj EA EB)). lra.
  - apply (IH (S i0)); try assumption; [lia|apply take_ok; [exact H|split; assumption]|].
    unfold take_index. assert (P : 0 < point_segment_distance_sqrd p A B). { destruct (Qlt_le_dec 0 (point_segment_distance_sqrd p A B)) as [P|P]; [exact P|]. assert (Z : point_segment_distance_sqrd p A B == 0) by lra. apply DZ, BT in Z. discriminate. }
    destruct (less_inf _ _); [exact P|exact POS].
Qed.
