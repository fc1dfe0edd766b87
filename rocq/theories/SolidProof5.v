(** Distances from the walls. *)
From Verif Require Import Base CmpModel OrientModel OrientSpec OrientProof BoxSpec DistModel DistProof PolygonModel PolygonSpec PolygonProof BspModel BspSpec BspProof BspProof2 BspProof3 BspProof4 SolidModel SolidSpec SolidProof SolidProof2 SolidProof3 SolidProof4.
From Coq Require Import Lia.

Definition wall_dist2 (segs : list seg) (p : pt) (i : nat) : Q := point_segment_distance_sqrd p (fst (nth i segs no_seg)) (snd (nth i segs no_seg)).
Definition best_le (best : option (Q * nat)) (d : Q) : Prop := match best with Some (m, _) => m <= d | None => False end.
Definition best_ok (segs : list seg) (p : pt) (best : option (Q * nat)) : Prop := match best with Some (m, i) => (i < length segs)%nat /\ m = wall_dist2 segs p i | None => True end.
Lemma scan_ok : forall segs p ix best, (forall i, In i ix -> (i < length segs)%nat) -> best_ok segs p best ->
  best_ok segs p (scan_indices segs p ix best) /\ (forall d, best_le best d -> best_le (scan_indices segs p ix best) d) /\ forall i, In i ix -> best_le (scan_indices segs p ix best) (wall_dist2 segs p i).
Proof.
  induction ix as [|i ix IH]; intros best I B; cbn [scan_indices]; [split; [exact B|]; split; [auto|intros ? []]|].
  fold (wall_dist2 segs p i). set (b' := match best with None => Some (wall_dist2 segs p i, i) | Some (m, _) => if Qltb (wall_dist2 segs p i) m then Some (wall_dist2 segs p i, i) else best end).
  assert (B' : best_ok segs p b'). { unfold b'. destruct best as [[m j]|]; [destruct (Qltb _ m)|]; try exact B; cbn; (split; [apply I; left; reflexivity|reflexivity]). }
  assert (L : best_le b' (wall_dist2 segs p i)). { unfold b'. destruct best as [[m j]|]; [|cbn; lra]. destruct (Qltb_spec (wall_dist2 segs p i) m); cbn; lra. }
  assert (K : forall d, best_le best d -> best_le b' d). { intro d. unfold b'. destruct best as [[m j]|]; [|contradiction]. destruct (Qltb_spec (wall_dist2 segs p i) m); cbn; lra. }
  destruct (IH b') as (O & A & C); [intros; apply I; right; assumption|exact B'|]. split; [exact O|]. split; [auto|]. intros j [<- |J]; auto.
Qed.

(** ** Distance from a line *)
Lemma cauchy : forall ax ay bx by_ : Q, (ax * bx + ay * by_) * (ax * bx + ay * by_) <= (ax * ax + ay * ay) * (bx * bx + by_ * by_).
Proof. intros. assert (0 <= (ax * by_ - ay * bx) * (ax * by_ - ay * bx)) by (destruct (Qlt_le_dec 0 (ax * by_ - ay * bx)); nra). lra. Qed.
Lemma line_far : forall r p Y, proper r -> side r p * side r Y <= 0 -> plane_dist r p * plane_dist r p / dot (normal r) (normal r) <= dist2 p Y.
Proof.
  intros r p Y P S. pose proof (nz_dot _ P) as N. assert (ND : 0 < dot (normal r) (normal r)) by (unfold dot, normal, vsub in *; cbn [px py] in *; lra). apply Qle_shift_div_r; [exact ND|]. rewrite plane_dist_side.
  assert (D : side r p - side r Y == (px p - px Y) * px (normal r) + (py p - py Y) * py (normal r)) by (unfold side, tri2, cross, vsub, normal; cbn [px py]; ring).
  pose proof (cauchy (px p - px Y) (py p - py Y) (px (normal r)) (py (normal r))) as C. rewrite <- D in C. unfold dist2, dot, vsub. cbn [px py].
  assert (side r p * side r p <= (side r p - side r Y) * (side r p - side r Y)). { assert (0 <= side r Y * side r Y) by (destruct (Qlt_le_dec 0 (side r Y)); nra). lra. }
  unfold dist2, vsub, dot in *. cbn [px py] in *. lra.
Qed.

(** ** The loop *)
Fixpoint stack_nodes (l : list solid_bsp) : nat := match l with [] => 0 | t :: l' => (solid_nodes t + stack_nodes l')%nat end.
Definition pending (segs : list seg) (stack : list solid_bsp) (Y : pt) : Prop := exists o items t, In t stack /\ solid_of segs o items t /\ on_any (segs_of items) Y.
Definition sound (segs : list seg) (stack : list solid_bsp) : Prop := forall t, In t stack -> exists o items, solid_of segs o items t.
Lemma wf_index : forall segs it, wf_item segs it -> (it_index it < length segs)%nat.
Proof. intros segs it (r & N & _). apply nth_error_Some. congruence. Qed.
Lemma wf_dist : forall segs p it Y, wf_item segs it -> on_segment (fst (it_seg it)) (snd (it_seg it)) Y -> wall_dist2 segs p (it_index it) <= dist2 p Y.
Proof.
  intros segs p it Y (r & N & _ & P) O. unfold wall_dist2. rewrite (nth_error_nth _ _ no_seg N). destruct (point_segment_least p (fst r) (snd r)) as [_ L]. apply L. exact (piece_on _ _ _ P O).
Qed.
Lemma min_loop : forall segs p, (forall s, In s segs -> proper s) -> forall fuel stack best, (stack_nodes stack < fuel)%nat -> sound segs stack -> best_ok segs p best ->
  (forall Y, on_any segs Y -> best_le best (dist2 p Y) \/ pending segs stack Y) ->
  exists res, min_distance_loop segs p fuel stack best = Some res /\ best_ok segs p res /\ forall Y, on_any segs Y -> best_le res (dist2 p Y).
Proof.
  intros segs p PP. induction fuel as [|fuel IH]; intros stack best L SO B INV; [lia|]. cbn [min_distance_loop]. destruct stack as [|t stack].
  - exists best. split; [reflexivity|]. split; [exact B|]. intros Y O. destruct (INV Y O) as [H|(o & items & t & [] & _)]. exact H.
  - destruct (SO t (or_introl eq_refl)) as (o & items & H). inversion H as [o' items' U W E1 E2 E3|o' items' k it r front back co f b W E U NR P HF HB E1 E2 E3]; subst.
    + destruct (scan_ok segs p (map it_index items) best) as (B' & K & C); [intros i I; apply in_map_iff in I; destruct I as (x & <- & I); apply wf_index, W, I|exact B|].
      apply IH; [cbn in L; lia|intros x X; apply SO; right; exact X|exact B'|]. intros Y O. destruct (INV Y O) as [Q1|(o2 & it2 & t2 & [<- |I2] & S2 & O2)]; [left; apply K; exact Q1| |right; exists o2, it2, t2; auto].
      left. inversion S2 as [o3 it3 U3 W3 E3 E4 [E5 EM]|]; subst. apply on_segs in O2. destruct O2 as (x & IX & OX). assert (IN : In (it_index x) (map it_index items)) by (rewrite <- EM; apply in_map; exact IX). specialize (C _ IN). pose proof (wf_dist segs p x Y (W3 x IX) OX) as WD.
      try rewrite EM. destruct (scan_indices segs p (map it_index items) best) as [[m j]|]; cbn [best_le] in *; [lra|contradiction].
    + rewrite (nth_error_nth segs _ no_seg NR). assert (IN : In it items) by exact (nth_error_In _ _ E). destruct (W it IN) as (r' & NR' & PR & _). assert (r' = r) by congruence. subst r'.
      assert (IC : forall i, In i co -> (i < length segs)%nat). { intros i I. apply (pa_co _ _ _ _ _ _ P) in I. destruct I as (x & X & <- & _). apply wf_index. exact (wf_set_used _ _ _ _ E W x X). }
      destruct (scan_ok segs p co best IC B) as (B' & K & C). set (best' := scan_indices segs p co best) in *.
      set (dist := plane_dist r p). set (dist2' := dist * dist / dot (normal r) (normal r)). set (closer := match best' with None => true | Some (m, _) => Qltb dist2' m end).
      set (stack1 := if closer || negb (Qltb 0 dist) then b :: stack else stack). set (stack2 := if closer || negb (Qltb dist 0) then f :: stack1 else stack1).
      assert (IN1 : incl stack stack1) by (unfold stack1; destruct (closer || negb (Qltb 0 dist)); [apply incl_tl|]; apply incl_refl). assert (IN2 : incl stack1 stack2) by (unfold stack2; destruct (closer || negb (Qltb dist 0)); [apply incl_tl|]; apply incl_refl).
      apply IH.
      * cbn [stack_nodes solid_nodes] in L. unfold stack2, stack1. destruct (closer || negb (Qltb 0 dist)), (closer || negb (Qltb dist 0)); cbn [stack_nodes]; lia.
      * assert (S1 : sound segs stack1). { intros x X. unfold stack1 in X. destruct (closer || negb (Qltb 0 dist)); [destruct X as [<- |X]; [eauto|]|]; apply SO; right; exact X. }
        intros x X. unfold stack2 in X. destruct (closer || negb (Qltb dist 0)); [destruct X as [<- |X]; [eauto|]|]; apply S1; exact X.
      * exact B'.
      * intros Y O. destruct (INV Y O) as [Q1|(o2 & it2 & t2 & [<- |I2] & S2 & O2)]; [left; apply K; exact Q1| |right; exists o2, it2, t2; split; [apply IN2, IN1; exact I2|auto]].
        assert (PRUNE : closer = false -> side r p * side r Y <= 0 -> best_le best' (dist2 p Y)).
        { intros CF SS. unfold closer in CF. destruct best' as [[m j]|]; [|discriminate]. cbn [best_le]. destruct (Qltb_spec dist2' m) as [|G]; [discriminate|]. pose proof (line_far r p Y PR SS) as LF. fold dist in LF. fold dist2' in LF. lra. }
        inversion S2 as [|o3 it3 k3 i3 r3 fr3 bk3 co3 f3 b3 W3 E3 U3 NR3 P3 HF3 HB3 Eq1 Eq2 Eq3]; subst. assert (r3 = r) by congruence. subst r3. destruct (on_parted _ _ _ _ _ _ _ _ P3 O2) as [F|G].
        -- destruct (closer || negb (Qltb dist 0)) eqn:CB.
           ++ right. exists o_front, fr3, f. split; [unfold stack2; try rewrite CB; left; reflexivity|auto].
           ++ apply orb_false_iff in CB. destruct CB as [CF DN]. apply negb_false_iff in DN. destruct (Qltb_spec dist 0) as [DL|]; [|discriminate]. left. apply PRUNE; [exact CF|]. apply on_segs in F. destruct F as (x & IX & OX). pose proof (to_front_on _ _ _ (proj1 (pa_front _ _ _ _ _ _ P3 x IX)) OX) as SY. unfold dist in DL. rewrite plane_dist_side in DL.
              assert (0 <= - side r p * side r Y) by (apply Qmult_le_0_compat; lra). lra.
        -- destruct (closer || negb (Qltb 0 dist)) eqn:CB.
           ++ right. exists o_back, bk3, b. split; [apply IN2; unfold stack1; try rewrite CB; left; reflexivity|auto].
           ++ apply orb_false_iff in CB. destruct CB as [CF DN]. apply negb_false_iff in DN. destruct (Qltb_spec 0 dist) as [DL|]; [|discriminate]. left. apply PRUNE; [exact CF|]. apply on_segs in G. destruct G as (x & IX & OX). pose proof (to_back_on _ _ _ (proj1 (pa_back _ _ _ _ _ _ P3 x IX)) OX) as SY. unfold dist in DL. rewrite plane_dist_side in DL.
              assert (0 <= side r p * - side r Y) by (apply Qmult_le_0_compat; lra). lra.
Qed.
Lemma min_distance_ok : forall segs t p, (forall s, In s segs -> proper s) -> segs <> [] -> solid_of segs o_root (start segs) t ->
  exists m i s, get_min_distance_sqrd_to_solid segs t p = Some (Some (m, i)) /\ nth_error segs i = Some s /\ least_dist2 p (on_any segs) m /\ least_dist2 p (on_segment (fst s) (snd s)) m.
Proof.
  intros segs t p PP NE H. unfold get_min_distance_sqrd_to_solid. destruct (min_loop segs p PP (S (solid_nodes t)) [t] None) as (res & E & B & A); [cbn; lia|intros x [<- |[]]; eauto|exact I| |].
  { intros Y O. right. exists o_root, (start segs), t. split; [left; reflexivity|]. split; [exact H|]. apply start_on. exact O. }
  rewrite E. destruct segs as [|s0 segs]; [congruence|]. assert (O0 : on_any (s0 :: segs) (fst s0)) by (exists s0; split; [left; reflexivity|apply end_on]). pose proof (A _ O0) as A0. destruct res as [[m i]|]; [|contradiction].
  destruct B as [LI EM]. destruct (nth_error (s0 :: segs) i) as [s|] eqn:N; [|apply nth_error_None in N; lia]. exists m, i, s. split; [reflexivity|]. split; [exact N|].
  unfold wall_dist2 in EM. rewrite (nth_error_nth _ _ no_seg N) in EM. pose proof (point_segment_least p (fst s) (snd s)) as LS. rewrite <- EM in LS. split; [|exact LS]. destruct LS as [(X & OX & EX) _]. split; [exists X; split; [exists s; split; [exact (nth_error_In _ _ N)|exact OX]|exact EX]|]. intros Y OY. exact (A Y OY).
Qed.
