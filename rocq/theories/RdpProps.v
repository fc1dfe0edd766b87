(** C100: polyline simplification (Ramer-Douglas-Peucker). *)
From Coq Require Import Sorted.
From Verif Require Import Base RdpModel RdpSpec RdpProof.

(** Two or more points, all different, a tolerance that is not negative.  Without assertions the result
    is always a selection of the given points, in their order, from the first to the last.  The points
    left out between two neighbours a and c of the selection are within the tolerance of a line: of the
    line through a and c if c is the last point, of the line through a and the point BEFORE c
    otherwise.  (With assertions the call may be stopped.) *)
Theorem C100_result : forall ndebug ps eps, 0 <= eps -> (2 <= length ps)%nat -> all_different ps ->
  match ramer_douglas_peucker_algorithm ndebug ps eps with
  | Thinned out =>
    exists idx, picked ps idx out /\ increasing idx /\
      (exists l, idx = 0%nat :: l ++ [length ps - 1]%nat) /\
      (forall a c, neighbours idx a c ->
         if (c =? length ps - 1)%nat then flat_between eps ps a c else flat_between eps ps a (c - 1))
  | Stopped => ndebug = false
  | Undefined | Endless => False
  end.
Proof.
  intros ndebug ps eps E0 L AD. unfold ramer_douglas_peucker_algorithm. pose proof (range_ok ndebug eps ps E0 (S (length ps)) 0 (length ps) [] ltac:(lia) ltac:(lia) ltac:(lia)) as H.
  destruct (rdp_range (S (length ps)) ndebug ps eps [] 0 (length ps)) as [out| | |]; try exact H.
  - destruct H as (idx & ts & z & (a & C & A & FL) & -> & P & Z & LT). destruct (chain_sorted _ _ _ _ C) as (SO & RG & (l' & HD) & (l'' & TL) & NB).
    assert (LT' : forall x, In x idx -> (x < length ps - 1)%nat) by (intros x I; apply LT; [lia|exact I]).
    exists (idx ++ [length ps - 1]%nat). split; [unfold picked; cbn [app]; apply Forall2_app; [exact P|repeat constructor; exact Z]|]. split; [|split].
    + unfold increasing in *. clear - SO LT'. induction idx as [|x idx IH]; cbn [app]; [repeat constructor|]. inversion SO as [|? ? SO' FA]; subst. constructor.
      * apply IH; [exact SO'|]. intros y I. apply LT'. right. exact I.
      * apply Forall_app. split; [exact FA|]. repeat constructor. apply LT'. left. reflexivity.
    + exists l'. rewrite HD. reflexivity.
    + intros x c (l1 & l2 & E). destruct l2 as [|y l2] using rev_ind.
      * assert (E' : idx ++ [(length ps - 1)%nat] = (l1 ++ [x]) ++ [c]) by (rewrite E, <- app_assoc; reflexivity). apply app_inj_tail in E' as [E1 <-]. rewrite Nat.eqb_refl.
        rewrite TL in E1. apply app_inj_tail in E1 as [_ <-]. exact FL.
      * clear IHl2. assert (E' : idx ++ [(length ps - 1)%nat] = (l1 ++ x :: c :: l2) ++ [y]) by (rewrite E, <- app_assoc; reflexivity). apply app_inj_tail in E' as [E1 _].
        assert (I : In c idx) by (rewrite E1; apply in_or_app; right; right; left; reflexivity). apply LT' in I.
        destruct (Nat.eqb_spec c (length ps - 1)); [lia|]. apply NB. exists l1, l2. exact E1.
  - destruct H as (i & j & A & B & NE & NA & NB & E). apply NE, (AD i j A B NA NB E).
Qed.

(** If every point is within the tolerance of the line through the first and last, those two remain. *)
Theorem C100_flat : forall ndebug ps eps A B, 0 <= eps -> (2 <= length ps)%nat ->
  nth_error ps 0 = Some A -> nth_error ps (length ps - 1) = Some B -> ~ A =p= B ->
  flat_between eps ps 0 (length ps - 1) -> ramer_douglas_peucker_algorithm ndebug ps eps = Thinned [A; B].
Proof.
  intros ndebug ps eps A B E0 L HA HB NE FL. unfold ramer_douglas_peucker_algorithm. cbn [rdp_range].
  destruct (split_ok ps 0 (length ps) eps E0 ltac:(lia) ltac:(lia)) as [(_ & _ & a & b & A' & B' & E)|[(-> & _)|(i & _ & I1 & I2 & a & b & p & A' & B' & P & NN & _)]].
  - exfalso. rewrite HA in A'. injection A' as <-. rewrite HB in B'. injection B' as <-. contradiction.
  - rewrite HA, HB. destruct (Nat.eqb_spec (0 + 1) (length ps)); [lia|]. reflexivity.
  - exfalso. apply NN. rewrite A' in HA. injection HA as ->. rewrite B' in HB. injection HB as ->. apply (FL i A B p); try assumption. lia.
Qed.

(** If some point is farther away than the tolerance, a farthest one is kept. *)
Theorem C100_farthest : forall ps eps A B K q, 0 <= eps -> all_different ps ->
  nth_error ps 0 = Some A -> nth_error ps (length ps - 1) = Some B ->
  nth_error ps K = Some q -> ~ near_line eps A B q ->
  exists out p, ramer_douglas_peucker_algorithm true ps eps = Thinned out /\ In p out /\ ~ near_line eps A B p /\
    forall r, In r ps -> forall d, near_line d A B p -> near_line d A B r.
Proof.
  intros ps eps A B K q E0 AD HA HB HK NN.
  assert (N0 : forall d X Y, near_line d X Y X). { intros d [x1 x2] [y1 y2]. exists 0. unfold dot, lerp_at, vadd, vscale, vsub. cbn. ring_simplify. pose proof (sq_nonneg d). lra. }
  assert (N1 : forall d X Y, near_line d X Y Y). { intros d [x1 x2] [y1 y2]. exists 1. unfold dot, lerp_at, vadd, vscale, vsub. cbn. ring_simplify. pose proof (sq_nonneg d). lra. }
  assert (K0 : (0 < K < length ps - 1)%nat).
  { assert (KL : (K < length ps)%nat) by (apply nth_error_Some; congruence). destruct (Nat.eq_dec K 0) as [->|]; [exfalso; rewrite HA in HK; injection HK as <-; apply NN, N0|].
    destruct (Nat.eq_dec K (length ps - 1)) as [->|]; [exfalso; rewrite HB in HK; injection HK as <-; apply NN, N1|]. lia. }
  unfold ramer_douglas_peucker_algorithm. 
  destruct (split_ok ps 0 (length ps) eps E0 ltac:(lia) ltac:(lia)) as [(_ & _ & a & b & A' & B' & E)|[(_ & FL)|(i & SP & I1 & I2 & a & b & p & A' & B' & P & NP & NZ & FAR)]].
  - exfalso. pose proof (AD _ _ _ _ A' B' E). lia.
  - exfalso. apply NN, (FL K A B q); try assumption. 
  - rewrite HA in A'. injection A' as <-. rewrite HB in B'. injection B' as <-.
    rewrite (rdp_split _ _ _ _ _ _ _ i SP).
    pose proof (range_ok true eps ps E0 (length ps) 0 i [] ltac:(lia) ltac:(lia) ltac:(lia)) as R1.
    destruct (rdp_range (length ps) true ps eps [] 0 i) as [o1| | |]; [|exfalso; destruct R1 as (i' & j' & X & Y & NE & NX & NY & E); apply NE, (AD i' j' X Y NX NY E)|discriminate|contradiction].
    destruct R1 as (idx1 & ts1 & z1 & _ & -> & _). cbn [app].
    destruct (ts1 ++ [z1]) as [|h t] eqn:EQ; [destruct ts1; discriminate|]. rewrite <- EQ. rewrite removelast_last. clear EQ h t.
    pose proof (range_ok true eps ps E0 (length ps) i (length ps) ts1 ltac:(lia) ltac:(lia) ltac:(lia)) as R2.
    destruct (rdp_range (length ps) true ps eps ts1 i (length ps)) as [o2| | |]; [|exfalso; destruct R2 as (i' & j' & X & Y & NE & NX & NY & E); apply NE, (AD i' j' X Y NX NY E)|discriminate|contradiction].
    destruct R2 as (idx2 & ts2 & z2 & (a2 & C2 & _) & -> & P2 & _).
    exists (ts1 ++ ts2 ++ [z2]), p. split; [reflexivity|]. split; [|split; [exact NP|]].
    + destruct (chain_sorted _ _ _ _ C2) as (_ & _ & (l' & HD) & _). rewrite HD in P2. inversion P2 as [|? y ? ? HY]; subst. rewrite P in HY. injection HY as ->.
      apply in_or_app. right. left. reflexivity.
    + intros r R d D. apply In_nth_error in R as (k & R). destruct (Nat.eq_dec k 0) as [->|]; [rewrite HA in R; injection R as <-; apply N0|].
      destruct (Nat.eq_dec k (length ps - 1)) as [->|]; [rewrite HB in R; injection R as <-; apply N1|].
      assert (KL : (k < length ps)%nat) by (apply nth_error_Some; congruence).
      apply (offset_near d A B p NZ) in D. apply (offset_near d A B r NZ). specialize (FAR k r ltac:(lia) R).
      assert (0 <= line_offset A B r) by (unfold line_offset; apply qabs_spec). set (o := line_offset A B r) in *. set (o' := line_offset A B p) in *. clearbody o o'.
      assert (o * o <= o' * o') by nra. lra.
Qed.

(** The tolerance is not kept: a point left out may be farther from the result. *)
Definition spur := [mkpt 0 0; mkpt (-9) 9; mkpt 5 10; mkpt 10 0].
Theorem C100_tolerance_refuted :
  ramer_douglas_peucker_algorithm true spur 1 = Thinned [mkpt 0 0; mkpt 5 10; mkpt 10 0] /\
  ~ near_polyline 12 [mkpt 0 0; mkpt 5 10; mkpt 10 0] (mkpt (-9) 9).
Proof.
  split; [vm_compute; reflexivity|]. intros ([|[|[|i]]] & A & B & HA & HB & t & T & D); try discriminate; cbn in HA, HB; injection HA as <-; injection HB as <-;
    unfold dot, lerp_at, vadd, vscale, vsub in D; cbn in D; pose proof (sq_nonneg (t - (9 # 25))); nra.
Qed.
(** With assertions on, every polyline of three points whose middle is not within the tolerance stops. *)
Theorem C100_assertion_refuted : forall A B C eps, 0 <= eps -> ~ A =p= C -> ~ near_line eps A C B ->
  ramer_douglas_peucker_algorithm false [A; B; C] eps = Stopped.
Proof.
  intros A B C eps E0 NE NN. unfold ramer_douglas_peucker_algorithm. cbn [length rdp_range].
  destruct (split_ok [A; B; C] 0 3 eps E0 ltac:(lia) ltac:(cbn; lia)) as [(_ & _ & a & b & A' & B' & E)|[(_ & FL)|(i & SP & I1 & I2 & _)]].
  - exfalso. injection A' as <-. injection B' as <-. contradiction.
  - exfalso. apply NN. apply (FL 1%nat A C B); try reflexivity. lia.
  - rewrite SP. assert (i = 1%nat) as -> by lia. cbn [split_at Nat.ltb Nat.leb Nat.add]. assert (Qltb eps 0 = false) as H by (destruct (Qltb_spec eps 0); [lra|reflexivity]). unfold split_at. cbn [Nat.ltb Nat.leb Nat.add]. rewrite H. reflexivity.
Qed.
(** A closed polyline is beyond it: the line through equal points does not exist. *)
Theorem C100_closed_refuted : forall ndebug A ps eps, (2 <= length ps)%nat -> ramer_douglas_peucker_algorithm ndebug (A :: ps ++ [A]) eps = Undefined.
Proof.
  intros ndebug A ps eps L. unfold ramer_douglas_peucker_algorithm. set (all := A :: ps ++ [A]). assert (N : length all = (length ps + 2)%nat) by (unfold all; cbn; rewrite app_length; cbn; lia).
  cbn [rdp_range]. unfold split_at. rewrite N. destruct (Nat.ltb_spec (0 + 2) (length ps + 2)); [|lia].
  assert (E : nth_error all (length ps + 2 - 1) = Some A). { replace (length ps + 2 - 1)%nat with (S (length ps)) by lia. unfold all. cbn. rewrite nth_error_app2 by lia. rewrite Nat.sub_diag. reflexivity. }
  rewrite E. cbn [all nth_error]. destruct (Qeqb_spec (dot (vsub A A) (vsub A A)) 0) as [_|NZ]; [reflexivity|]. exfalso. apply NZ. unfold dot, vsub. cbn. ring.
Qed.

(** Five different points with one bend. *)
Definition bend := [mkpt 0 0; mkpt 1 (1 # 10); mkpt 2 0; mkpt 3 5; mkpt 4 0].
Example C100_witness : all_different bend /\ (exists P, nth_error bend 3 = Some P /\ ~ near_line 1 (mkpt 0 0) (mkpt 4 0) P) /\
  ramer_douglas_peucker_algorithm true bend 1 = Thinned [mkpt 0 0; mkpt 3 5; mkpt 4 0] /\
  ramer_douglas_peucker_algorithm true bend 10 = Thinned [mkpt 0 0; mkpt 4 0] /\
  ramer_douglas_peucker_algorithm false bend 1 = Thinned [mkpt 0 0; mkpt 3 5; mkpt 4 0].
Proof.
  split; [|split; [|vm_compute; auto]].
  - intros [|[|[|[|[|i]]]]] [|[|[|[|[|j]]]]] A B HA HB [X Y]; try reflexivity; cbn in HA, HB; try (destruct i; discriminate); try (destruct j; discriminate);
      injection HA as <-; injection HB as <-; cbn in X, Y; exfalso; lra.
  - exists (mkpt 3 5). split; [reflexivity|]. intros (t & D). unfold dot, lerp_at, vadd, vscale, vsub in D. cbn in D. pose proof (sq_nonneg (3 - (0 + t * (4 - 0)))). lra.
Qed.

Print Assumptions C100_result.
Print Assumptions C100_flat.
Print Assumptions C100_farthest.
Print Assumptions C100_assertion_refuted.
Print Assumptions C100_closed_refuted.
