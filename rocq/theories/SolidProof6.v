(** Rays. *)
From Verif Require Import Base CmpModel DistModel OrientModel OrientSpec OrientProof LinIntModel PolygonModel PolygonSpec PolygonProof BspModel BspSpec BspProof BspProof2 BspProof3 BspProof4 SolidModel SolidSpec SolidProof SolidProof2 SolidProof3 SolidProof4 SolidProof5.
From Coq Require Import Lia.

Notation ray := at_ray.
Lemma side_ray : forall r p d s, side r (ray p d s) == side r p + s * dot d (normal r).
Proof. intros. unfold side, at_ray, tri2, cross, dot, normal, vsub, vadd, vscale. cbn [px py]. ring. Qed.
Lemma code_dist : forall r p, distance_to_origin r - dot p (normal r) == - side r p.
Proof. intros r p. rewrite <- plane_dist_side. unfold plane_dist. ring. Qed.

(** ** The hit of a line crossed at [m] *)
Lemma ray_hit : forall s p d m, proper s -> ~ dot d (normal s) == 0 -> side s (ray p d m) == 0 -> 0 <= m ->
  (on_segment (fst s) (snd s) (ray p d m) /\ exists ty t pts, ray_segment_intersection direct p d (fst s) (snd s) = Some (ty, Some t, pts) /\ ty <> e_non_crossing) \/
  (~ on_segment (fst s) (snd s) (ray p d m) /\ exists ot pts, ray_segment_intersection direct p d (fst s) (snd s) = Some (e_non_crossing, ot, pts)).
Proof.
  intros [A B] p d m PS N Z M. cbn [fst snd]. destruct (proj2 (line_side (A, B) _ PS) Z) as (w & EW). pose proof EW as [W1 W2].
  assert (ON : on_segment A B (ray p d m) <-> 0 <= w <= 1).
  { split; [|intro W; exists w; auto]. intros (w' & W' & [X1 X2]). rewrite W1 in X1. rewrite W2 in X2. unfold lerp, vadd, vscale, vsub in *. cbn [fst snd px py] in *.
    assert (K1 : (w - w') * (px B - px A) == 0) by lra. assert (K2 : (w - w') * (py B - py A) == 0) by lra. destruct (Qeq_dec w w') as [->|NW]; [exact W'|]. exfalso. apply PS. unfold vsub. cbn [fst snd px py]. split; [destruct (Qmult_integral _ _ K1); [lra|assumption]|destruct (Qmult_integral _ _ K2); [lra|assumption]]. }
  unfold ray_segment_intersection. simpl equals; simpl less_than; simpl greater_than. cbv zeta. set (den := dot (vsub B A) (left_normal d)).
  unfold at_ray, lerp, vadd, vscale, vsub in W1, W2. cbn [fst snd px py] in W1, W2.
  assert (ND : ~ den == 0). { intro K. apply N. assert (dot d (normal (A, B)) == - den) as -> by (unfold den, dot, normal, left_normal, vsub; cbn [fst snd px py]; ring). rewrite K. reflexivity. }
  destruct (Qeqb_spec den 0) as [K|_]; [contradiction|].
  assert (T1 : cross (vsub B A) (vsub p A) == m * den). { unfold den, cross, dot, left_normal, vsub. cbn [px py]. assert (E1 : px p - px A == w * (px B - px A) - m * px d) by lra. assert (E2 : py p - py A == w * (py B - py A) - m * py d) by lra. rewrite E1, E2. ring. }
  assert (T2 : dot (vsub p A) (left_normal d) == w * den). { unfold den, cross, dot, left_normal, vsub. cbn [px py]. assert (E1 : px p - px A == w * (px B - px A) - m * px d) by lra. assert (E2 : py p - py A == w * (py B - py A) - m * py d) by lra. rewrite E1, E2. ring. }
  unfold qdiv_opt. destruct (Qeqb_spec den 0) as [K|_]; [contradiction|]. 
  assert (V1 : cross (vsub B A) (vsub p A) / den == m) by (rewrite T1; field; exact ND). assert (V2 : dot (vsub p A) (left_normal d) / den == w) by (rewrite T2; field; exact ND).
  set (q1 := cross (vsub B A) (vsub p A) / den) in *. set (q2 := dot (vsub p A) (left_normal d) / den) in *.
  destruct (Qltb_spec q1 0) as [L|L]; [lra|]. destruct (Qltb_spec q2 0) as [L2|L2]; cbn [orb].
  - right. split; [rewrite ON; lra|]. eexists. eexists. reflexivity.
  - destruct (Qgtb_spec q2 1) as [L3|L3]; [right; split; [rewrite ON; lra|]; eexists; eexists; reflexivity|].
    left. split; [rewrite ON; lra|]. eexists. eexists. eexists. split; [reflexivity|]. destruct (Qeqb q2 0 || Qeqb q2 1); discriminate.
Qed.
Definition crossed (segs : list seg) (p d : pt) (m : Q) (i : nat) : Prop := exists s, nth_error segs i = Some s /\ proper s /\ ~ dot d (normal s) == 0 /\ side s (ray p d m) == 0.
Definition on_wall (segs : list seg) (i : nat) (X : pt) : Prop := exists s, nth_error segs i = Some s /\ on_segment (fst s) (snd s) X.
Lemma closest_ok : forall segs p d m, 0 <= m -> forall l minDist minIndex, (forall i, In i l -> crossed segs p d m i) -> (minIndex = None -> minDist = None) -> (forall i, minIndex = Some i -> on_wall segs i (ray p d m)) ->
  match find_closest_hit segs p d l minDist minIndex with Some i => on_wall segs i (ray p d m) | None => minIndex = None /\ forall i, In i l -> ~ on_wall segs i (ray p d m) end.
Proof.
  intros segs p d m M. induction l as [|i l IH]; intros mD mI C H1 H2; cbn [find_closest_hit]; [destruct mI; [apply H2; reflexivity|split; [reflexivity|intros ? []]]|].
  destruct (C i (or_introl eq_refl)) as (s & NS & PS & ND & Z). rewrite (nth_error_nth _ _ no_seg NS). assert (CL : forall j, In j l -> crossed segs p d m j) by (intros; apply C; right; assumption).
  destruct (ray_hit s p d m PS ND Z M) as [(ON & ty & t & pts & -> & NT)|(OFF & ot & pts & ->)].
  - assert (G : match (if match mD with None => true | Some m => Qltb t m end then find_closest_hit segs p d l (Some t) (Some i) else find_closest_hit segs p d l mD mI) with Some i => on_wall segs i (ray p d m) | None => mI = None /\ forall j, In j (i :: l) -> ~ on_wall segs j (ray p d m) end).
    { destruct (match mD with None => true | Some m => Qltb t m end) eqn:EC.
      - specialize (IH (Some t) (Some i) CL ltac:(discriminate)). destruct (find_closest_hit segs p d l (Some t) (Some i)) as [j|]; [apply IH|destruct IH as [K _]; [|discriminate K]]; intros j' [= <-]; exists s; auto.
      - specialize (IH mD mI CL H1 H2). destruct (find_closest_hit segs p d l mD mI) as [j|]; [exact IH|]. destruct IH as [K _]. rewrite (H1 K) in EC. discriminate. }
    destruct ty; try exact G. congruence.
  - specialize (IH mD mI CL H1 H2). destruct (find_closest_hit segs p d l mD mI) as [j|]; [exact IH|]. destruct IH as [K L]. split; [exact K|]. intros j [<- |J]; [|exact (L j J)]. intros (s' & NS' & O'). assert (s' = s) by congruence. subst s'. exact (OFF O').
Qed.

(** ** Index sets *)
Lemma insert_in : forall i l x, In x (insert_index i l) <-> x = i \/ In x l.
Proof.
  induction l as [|j l IH]; intro x; cbn [insert_index]; [cbn; intuition|]. destruct (Nat.ltb i j); [cbn; intuition|]. destruct (Nat.eqb_spec i j) as [->|N]; [cbn; intuition|]. cbn [In]. rewrite IH. intuition.
Qed.
Lemma index_set_in : forall l x, In x (index_set l) <-> In x l.
Proof. induction l as [|i l IH]; intro x; [reflexivity|]. unfold index_set in *. cbn [fold_right]. rewrite insert_in, IH. cbn. intuition. Qed.

(** ** The loop *)
Definition up_to (s : Q) (hi : option Q) : Prop := match hi with Some m => s <= m | None => True end.
Section Ray.
Variables (segs : list seg) (p d : pt) (root : solid_bsp) (onlyBorder : bool).
Hypothesis proper_all : forall s, In s segs -> proper s.
Hypothesis ahead : forall r, In r segs -> side r p == 0 -> dot d (normal r) <= 0.
Hypothesis origin : ~ reach segs (ray p d 0) root in_solid.

Definition part (node : solid_bsp) (lo : Q) (hi : option Q) : Prop :=
  (exists o items, solid_of segs o items node) /\ forall s, lo <= s -> up_to s hi -> forall c, reach segs (ray p d s) node c -> reach segs (ray p d s) root c.
Definition good (m : Q) (l : list nat) : Prop := l <> [] /\ forall i, In i l -> crossed segs p d m i.
Definition good_max (hi : option Q) (l : list nat) : Prop := match hi with Some m => good m l | None => True end.
Fixpoint chain (lo : option Q) (stack : list (solid_bsp * option Q * list nat)) : Prop :=
  match stack with
  | [] => lo = None
  | (n, hi, mx) :: stack' => exists l, lo = Some l /\ up_to l hi /\ part n l hi /\ good_max hi mx /\ chain hi stack'
  end.
Fixpoint ray_nodes (stack : list (solid_bsp * option Q * list nat)) : nat := match stack with [] => 0 | (n, _, _) :: s => (solid_nodes n + ray_nodes s)%nat end.
Definition passed (tmin : Q) (mn : list nat) : Prop := tmin == 0 \/ (good tmin mn /\ forall s, 0 <= s <= tmin -> reach segs (ray p d s) root in_empty_space).
Definition before_hit (tmin : Q) (mn : list nat) : Prop := (tmin = 0 /\ mn = []) \/ (good tmin mn /\ forall s, 0 <= s <= tmin -> reach segs (ray p d s) root in_empty_space).

Lemma ray_loop_ok : forall fuel node tmin tmax mn mx stack, (solid_nodes node + ray_nodes stack < fuel)%nat -> 0 <= tmin -> up_to tmin tmax -> part node tmin tmax -> good_max tmax mx -> chain tmax stack -> before_hit tmin mn ->
  exists res, ray_loop segs p d onlyBorder fuel node tmin tmax mn mx stack = Some res /\
    match res with
    | None => forall s, 0 <= s -> reach segs (ray p d s) root in_empty_space
    | Some (ot, oi) => exists t mn', ot = Some t /\ 0 <= t /\ reach segs (ray p d t) root in_solid /\ (forall s, 0 <= s <= t -> reach segs (ray p d s) root in_empty_space) /\ good t mn' /\ oi = find_closest_hit segs p d mn' None None
    end.
Proof.
  induction fuel as [|fuel IH]; intros node tmin tmax mn mx stack L T0 TM PT GM CH BH; [lia|]. destruct node as [sol ix|i ix f b].
  - cbn [ray_loop]. destruct PT as [(o & items & SO) PT]. destruct sol.
    + assert (RS : reach segs (ray p d tmin) root in_solid) by (apply PT; [lra|exact TM|apply (reach_leaf segs _ true)]). destruct BH as [[-> ->]|[G BH]]; [contradiction|]. destruct G as [NE G]. destruct mn as [|i0 mn0] eqn:EM; [congruence|]. cbn [negb orb].
      eexists. split; [reflexivity|]. exists tmin, (i0 :: mn0). split; [reflexivity|]. split; [exact T0|]. split; [exact RS|]. split; [exact BH|]. split; [split; [discriminate|exact G]|reflexivity].
    + assert (RE : forall s, tmin <= s -> up_to s tmax -> reach segs (ray p d s) root in_empty_space) by (intros s S1 S2; apply PT; [exact S1|exact S2|apply (reach_leaf segs _ false)]).
      assert (ALL : forall s, 0 <= s -> up_to s tmax -> reach segs (ray p d s) root in_empty_space).
      { intros s S0 S2. destruct (Qlt_le_dec s tmin) as [LT|GE]; [|exact (RE s GE S2)]. destruct BH as [[-> _]|[_ BH]]; [lra|apply BH; lra]. }
      destruct stack as [|[[n hi] mx'] stack].
      * cbn in CH. subst tmax. exists None. split; [reflexivity|]. intros s S0. apply ALL; [exact S0|exact I].
      * cbn [chain] in CH. destruct CH as (l & -> & UL & PN & GN & CH). cbn [ray_nodes solid_nodes] in L. cbn in TM.
        apply IH; [lia|lra|exact UL|exact PN|exact GN|exact CH|]. right. split; [exact GM|]. intros s S. apply ALL; cbn; lra.
  - cbn [ray_loop]. destruct PT as [(o & items & SO) PT]. cbn [solid_nodes] in L. inversion SO as [|o' items' k it r front back co f' b' W E U NR P HF HB E1 E2]; subst.
    rewrite (nth_error_nth segs _ no_seg NR). assert (IR : In r segs) by exact (nth_error_In _ _ NR). assert (PR : proper r) by exact (proper_all r IR).
    set (denom := dot d (normal r)). set (dist := distance_to_origin r - dot p (normal r)). pose proof (code_dist r p) as ED. fold dist in ED.
    assert (SF : forall lo hi, (forall s, lo <= s -> up_to s hi -> 0 <= side r (ray p d s)) -> (tmin <= lo) -> (forall s, up_to s hi -> up_to s tmax) -> part f lo hi).
    { intros lo hi SS LO HI. split; [eauto|]. intros s S1 S2 c R. apply PT; [lra|apply HI; exact S2|]. apply reach_front; [|exact R]. rewrite (nth_error_nth segs _ no_seg NR). apply SS; assumption. }
    assert (SB : forall lo hi, (forall s, lo <= s -> up_to s hi -> side r (ray p d s) <= 0) -> (tmin <= lo) -> (forall s, up_to s hi -> up_to s tmax) -> part b lo hi).
    { intros lo hi SS LO HI. split; [eauto|]. intros s S1 S2 c R. apply PT; [lra|apply HI; exact S2|]. apply reach_back; [|exact R]. rewrite (nth_error_nth segs _ no_seg NR). apply SS; assumption. }
    assert (SR : forall s, side r (ray p d s) == s * denom - dist) by (intro s; rewrite side_ray; fold denom; lra).
    assert (NEAR : forall lo hi, (forall s, lo <= s -> up_to s hi -> if Qltb 0 dist then side r (ray p d s) <= 0 else 0 <= side r (ray p d s)) -> tmin <= lo -> (forall s, up_to s hi -> up_to s tmax) -> part (if Qltb 0 dist then b else f) lo hi).
    { intros lo hi SS. destruct (Qltb 0 dist); [apply SB|apply SF]; exact SS. }
    assert (FAR : forall lo hi, (forall s, lo <= s -> up_to s hi -> if Qltb 0 dist then 0 <= side r (ray p d s) else side r (ray p d s) <= 0) -> tmin <= lo -> (forall s, up_to s hi -> up_to s tmax) -> part (if negb (Qltb 0 dist) then b else f) lo hi).
    { intros lo hi SS. destruct (Qltb 0 dist); cbn [negb]; [apply SF|apply SB]; exact SS. }
    assert (LN : (solid_nodes (if Qltb 0 dist then b else f) + solid_nodes (if negb (Qltb 0 dist) then b else f) = solid_nodes f + solid_nodes b)%nat) by (destruct (Qltb 0 dist); cbn [negb]; lia).
    assert (AH : dist == 0 -> denom <= 0) by (intro Z; apply ahead; [exact IR|lra]).
    destruct (Qeqb_spec denom 0) as [ZD|ND]; cbn [negb].
    + (* parallel *) apply IH; try assumption; [lia|]. apply NEAR; [|lra|auto]. intros s _ _. destruct (Qltb_spec 0 dist) as [DL|DL]; rewrite SR, ZD; lra.
    + assert (TD : dist / denom * denom == dist) by (field; exact ND). set (t := dist / denom) in *. assert (ST : forall s, side r (ray p d s) == (s - t) * denom) by (intro s; rewrite SR; lra).
      (* signs *)
      assert (SG : 0 <= t -> (Qltb 0 dist = true -> 0 < denom) /\ (Qltb 0 dist = false -> denom < 0)).
      { intro TP. split; intro Q0; destruct (Qltb_spec 0 dist) as [DL|DL]; try discriminate.
        - destruct (Qlt_le_dec 0 denom) as [|LE]; [assumption|]. assert (0 <= t * - denom) by (apply Qmult_le_0_compat; lra). lra.
        - destruct (Qlt_le_dec denom 0) as [|GE]; [assumption|]. exfalso. assert (0 < denom) by lra. assert (0 <= t * denom) by (apply Qmult_le_0_compat; lra). assert (dist == 0) as DZ by lra. specialize (AH DZ). lra. }
      assert (SL : forall s, 0 <= t -> s <= t -> if Qltb 0 dist then side r (ray p d s) <= 0 else 0 <= side r (ray p d s)).
      { intros s TP S. destruct (SG TP) as [G1 G2]. destruct (Qltb 0 dist); [specialize (G1 eq_refl); assert (0 <= (t - s) * denom) by (apply Qmult_le_0_compat; lra)|specialize (G2 eq_refl); assert (0 <= (t - s) * - denom) by (apply Qmult_le_0_compat; lra)]; rewrite ST; lra. }
      assert (SU : forall s, 0 <= t -> t <= s -> if Qltb 0 dist then 0 <= side r (ray p d s) else side r (ray p d s) <= 0).
      { intros s TP S. destruct (SG TP) as [G1 G2]. destruct (Qltb 0 dist); [specialize (G1 eq_refl); assert (0 <= (s - t) * denom) by (apply Qmult_le_0_compat; lra)|specialize (G2 eq_refl); assert (0 <= (s - t) * - denom) by (apply Qmult_le_0_compat; lra)]; rewrite ST; lra. }
      destruct (Qleb_spec 0 t) as [TP|TN]; cbn [andb].
      * destruct (match tmax with None => true | Some m => Qleb t m end) eqn:ETM.
        -- assert (UT : up_to t tmax). { unfold up_to. destruct tmax as [m|]; [|exact I]. destruct (Qleb_spec t m); [assumption|discriminate]. }
           assert (UTS : forall s, s <= t -> up_to s tmax). { intros s S. unfold up_to in *. destruct tmax; [lra|exact I]. }
           destruct (Qleb_spec tmin t) as [TT|TT].
           ++ apply IH; [cbn [ray_nodes]; lia|exact T0|exact TT| | | |exact BH].
              ** apply NEAR; [|lra|exact UTS]. intros s _ S2. apply SL; [exact TP|exact S2].
              ** cbn [good_max]. split.
                 { intro N0. assert (IC : In (it_index it) (index_set ix)). { apply index_set_in. apply (pa_co _ _ _ _ _ _ P). exists (mark it). split; [apply set_used_mark; exact E|]. split; [reflexivity|]. destruct (W it (nth_error_In _ _ E)) as (r' & NR' & _ & PC). assert (r' = r) by congruence. subst r'. apply same_along, piece_same. exact PC. } rewrite N0 in IC. destruct IC. }
                 { intros i I. rewrite index_set_in in I. apply (pa_co _ _ _ _ _ _ P) in I. destruct I as (x & X & <- & AL). pose proof (wf_set_used _ _ _ _ E W x X) as (rx & NX & PX & PCX). exists rx. split; [exact NX|]. split; [exact PX|].
                   pose proof (along_piece _ _ _ PCX AL) as ALX. assert (ZX : side rx (ray p d t) == 0). { apply (along_side r rx); [exact PR|exact ALX| |exact PX]. rewrite ST. ring. } split; [|exact ZX].
                   intro ZN. apply ND. (* parallel lines *)
                   assert (Z1 : side rx (ray p d (t + 1)) == 0) by (rewrite side_ray in ZX |- *; rewrite ZN in *; lra). assert (AL2 : along rx r). { destruct ALX as [A1 A2]. destruct (proj2 (line_side r _ PR) A1) as (u & [U1 U2]). destruct (proj2 (line_side r _ PR) A2) as (v & [V1 V2]). unfold lerp, vadd, vscale, vsub in *. cbn [px py] in *. split; unfold side, tri2, cross, vsub; cbn [px py]; rewrite U1, U2, V1, V2; ring. }
                   pose proof (along_side rx r _ PX AL2 Z1 PR) as Z2. rewrite ST in Z2. lra. }
              ** cbn [chain]. exists t. split; [reflexivity|]. split; [exact UT|]. split; [|split; [exact GM|exact CH]]. apply FAR; [|lra|auto]. intros s S1 _. apply SU; [exact TP|exact S1].
           ++ apply IH; try assumption; [lia|]. apply FAR; [|lra|auto]. intros s S1 _. apply SU; [exact TP|lra].
        -- apply IH; try assumption; [lia|]. apply NEAR; [|lra|auto]. intros s _ S2. apply SL; [exact TP|]. destruct tmax as [m|]; [|discriminate]. destruct (Qleb_spec t m); [discriminate|]. cbn in S2. lra.
      * (* the plane is behind *) apply IH; try assumption; [lia|]. apply NEAR; [|lra|auto]. intros s S1 _. destruct (Qltb_spec 0 dist) as [DL|DL]; rewrite ST.
        -- destruct (Qlt_le_dec 0 denom) as [DP|DP]; [assert (0 < - t * denom) by (apply Qmult_lt_0_compat; lra); lra|]. assert (0 <= (s - t) * - denom) by (apply Qmult_le_0_compat; lra). lra.
        -- destruct (Qlt_le_dec denom 0) as [DP|DP]; [|assert (0 <= (s - t) * denom) by (apply Qmult_le_0_compat; lra); lra]. assert (0 < - t * - denom) by (apply Qmult_lt_0_compat; lra). lra.
Qed.
End Ray.
