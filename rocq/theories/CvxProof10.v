(** Polygons whose interiors meet: the points visited have the common part as their hull. *)
From Verif Require Import Base CmpModel OrientModel OrientSpec OrientProof DistModel DistSpec LinIntModel LinIntSpec LinIntProof PolygonModel PolygonSpec PolygonProof PolygonConvexProof CvxModel CvxSpec CvxProof CvxProof2 CvxProof3 CvxProof4 CvxProof5 CvxProof6 CvxProof7 CvxProof8 CvxProof9 PfillProof3.

Lemma hull_same : forall k l Y, (forall X, In X k -> In X l) -> in_hull k Y -> in_hull l Y.
Proof. intros k l Y H (A & B & C & IA & IB & IC & T). exists A, B, C. auto. Qed.
Lemma hull_sub : forall ps l Y, convex_polygon ps -> (forall X, In X l -> in_hull ps X) -> in_hull l Y -> in_hull ps Y.
Proof.
  intros ps l Y [Cv L] H (A & B & C & IA & IB & IC & a & b & c & Ha & Hb & Hc & S1 & E). apply left_of_all_hull; [exact Cv|exact L|]. intros i Hi.
  rewrite (tri2_pteq _ _ _ _ E), tri2_comb by exact S1.
  pose proof (hull_left ps A i Cv L (H A IA) Hi) as VA. pose proof (hull_left ps B i Cv L (H B IB) Hi) as VB. pose proof (hull_left ps C i Cv L (H C IC) Hi) as VC.
  set (x := tri2 _ _ A) in *. set (y := tri2 _ _ B) in *. set (v := tri2 _ _ C) in *. clearbody x y v.
  assert (0 <= a * x) by (apply Qmult_le_0_compat; lra). assert (0 <= b * y) by (apply Qmult_le_0_compat; lra). assert (0 <= c * v) by (apply Qmult_le_0_compat; lra). lra.
Qed.

Section Run.
Variables P Q : list pt.
Hypothesis CP : convex_polygon P.
Hypothesis CQ : convex_polygon Q.
Variable X0 : pt.
Hypothesis IP : forall i, 0 < tri2 (from P i) (vtx P i) X0.
Hypothesis IQ : forall j, 0 < tri2 (from Q j) (vtx Q j) X0.
Let n := length P.
Let m := length Q.
Variable z : Z.
Variables i0 j0 : nat.
Variable X1 : pt.
Variable f1 : QArith_base.Q.
Hypothesis Hi0 : (n <= i0)%nat.
Hypothesis Hj0 : (m <= j0)%nat.
Hypothesis OP1 : edge_on P i0 X1.
Hypothesis OQ1 : edge_on Q j0 X1.
Hypothesis D0 : -2 < delta P Q z i0 j0 < 2.
Hypothesis WP1 : tP P 0 i0 - 2 < f1 < tP P 0 i0.
Hypothesis WQ1 : tP Q z j0 - 2 < f1 < tP Q z j0.

Definition inv (i j : nat) (s : cx_state) : Prop :=
  cx_a s = (i mod n)%nat /\ cx_b s = (j mod m)%nat /\ (cx_aa s + i0 = i)%nat /\ (cx_ba s + j0 = j)%nat /\ (1 <= cx_n s)%nat /\ -2 < delta P Q z i j <= 2 /\
  exists x l f, cx_out s = x :: l /\ chain (common_point P Q) X0 X1 f1 (x :: l) f /\
  match cx_in s with
  | pgon1_in => side P Q z 0 i j x f
  | pgon2_in => side Q P (- z) z j i x f
  | in_unknown => False
  end.
Lemma C1 : forall Y, common_point P Q Y <-> in_hull P Y /\ in_hull Q Y.
Proof. intro Y. reflexivity. Qed.
Lemma C2 : forall Y, common_point P Q Y <-> in_hull Q Y /\ in_hull P Y.
Proof. intro Y. unfold common_point. apply and_comm. Qed.
Lemma sides : forall i j, delta P Q z i j == tP Q z j - tP P 0 i.
Proof. intros. unfold delta, tP. change (inject_Z 0) with 0. ring. Qed.

(** Which way the walk goes. *)
Lemma adv_cases : forall i j s, ~ (AB P Q i j == 0 /\ aB P Q i j < 0 /\ bA P Q i j < 0) ->
  (AB P Q i j == 0 /\ aB P Q i j == 0 /\ bA P Q i j == 0 /\ advanced P Q i j s = inl (if is_pgon1_in (cx_in s) then advance_b m [] s else advance_a n [] s)) \/
  (~ (AB P Q i j == 0 /\ aB P Q i j == 0 /\ bA P Q i j == 0) /\ ((0 <= AB P Q i j /\ 0 < bA P Q i j) \/ (AB P Q i j < 0 /\ aB P Q i j <= 0)) /\
    advanced P Q i j s = inl (advance_a n (if is_pgon1_in (cx_in s) then [vtx P i] else []) s)) \/
  (~ (AB P Q i j == 0 /\ aB P Q i j == 0 /\ bA P Q i j == 0) /\ ((0 <= AB P Q i j /\ bA P Q i j <= 0) \/ (AB P Q i j < 0 /\ 0 < aB P Q i j)) /\
    advanced P Q i j s = inl (advance_b m (if is_pgon2_in (cx_in s) then [vtx Q j] else []) s)).
Proof.
  intros i j s NA. unfold advanced, cx_advance. fold n m. unfold AB, aB, bA in *.
  pose proof (orientation_direct_v (edg P i) (edg Q j)) as (O1 & O2 & O3).
  pose proof (orientation_direct (from Q j) (vtx Q j) (vtx P i)) as (A1 & A2 & A3). pose proof (orientation_direct (from P i) (vtx P i) (vtx Q j)) as (B1 & B2 & B3).
  fold (tri2 (from Q j) (vtx Q j) (vtx P i)) in A1, A2, A3. fold (tri2 (from P i) (vtx P i) (vtx Q j)) in B1, B2, B3.
  set (c := cross (edg P i) (edg Q j)) in *. set (a := tri2 (from Q j) (vtx Q j) (vtx P i)) in *. set (b := tri2 (from P i) (vtx P i) (vtx Q j)) in *. clearbody a b c.
  destruct (get_orientation_v direct (edg P i) (edg Q j)); destruct (get_orientation direct (from Q j) (vtx Q j) (vtx P i)); destruct (get_orientation direct (from P i) (vtx P i) (vtx Q j));
    cbn [cx_is_left cx_is_right cx_is_collinear andb negb];
    repeat match goal with H : ?o = ?o <-> _ |- _ => apply proj1 in H; specialize (H eq_refl) | H : _ = _ <-> _ |- _ => clear H end;
    first [exfalso; apply NA; lra | left; split; [lra|split; [lra|split; [lra|reflexivity]]] | right; left; split; [lra|split; [lra|reflexivity]] | right; right; split; [lra|split; [lra|reflexivity]]].
Qed.
Lemma XPQ : in_hull P X0 /\ in_hull Q X0.
Proof.
  split; (apply left_of_all_hull; [first [apply CP|apply CQ]|first [apply CP|apply CQ]|]); intros l Hl.
  - pose proof (IP (S l)) as T1. rewrite (from_S P CP) in T1. unfold vtx in T1. rewrite (Nat.mod_small l) in T1 by exact Hl. lra.
  - pose proof (IQ (S l)) as T1. rewrite (from_S Q CQ) in T1. unfold vtx in T1. rewrite (Nat.mod_small l) in T1 by exact Hl. lra.
Qed.
Lemma signs : forall i j, -2 < delta P Q z i j <= 2 ->
  (delta P Q z i j < 0 -> AB P Q i j < 0) /\ (0 <= delta P Q z i j -> 0 <= AB P Q i j) /\
  (AB P Q i j == 0 -> delta P Q z i j == 0 \/ (delta P Q z i j == 2 /\ 0 < bA P Q i j /\ 0 < aB P Q i j /\ ~ touch P Q i j)) /\
  (delta P Q z i j == 0 -> exists k, 0 < k /\ aB P Q i j == - k * bA P Q i j) /\ (0 < AB P Q i j -> 0 < delta P Q z i j < 2) /\ (AB P Q i j < 0 -> delta P Q z i j < 0).
Proof.
  intros i j B. destruct (d_signs P Q CP CQ z i j) as (S1 & S2 & S3 & S4 & _). set (d := delta P Q z i j) in *.
  assert (CS : -2 < d < 0 \/ d == 0 \/ 0 < d < 2 \/ d == 2).
  { destruct (Qlt_le_dec d 0); [left; lra|right]. destruct (Qeq_dec d 0); [left; assumption|right]. destruct (Qeq_dec d 2); [right; assumption|left; lra]. }
  destruct CS as [K|[K|[K|K]]].
  - specialize (S2 K). repeat split; intros; try lra.
  - destruct (S3 K) as [Z D]. split; [intro; lra|]. split; [intro; lra|]. split; [intro; left; exact K|]. split; [intro; apply (alike P Q CP i j Z D)|]. split; intro; lra.
  - specialize (S1 K). repeat split; intros; try lra.
  - destruct (S4 (or_introl K)) as [Z D]. split; [intro; lra|]. split; [intro; lra|]. split; [intro; right; split; [exact K|exact (opposite P Q CP X0 IP IQ i j Z D)]|]. split; [intro; lra|]. split; intro; lra.
Qed.
Lemma mod_next : forall k i, (0 < k)%nat -> ((i mod k + 1) mod k = S i mod k)%nat.
Proof. exact (mod_S P Q). Qed.
Lemma swapped_touch : forall i j, touch Q P j i -> touch P Q i j.
Proof. intros i j (X & H1 & H2). exists X. auto. Qed.

Lemma adv_inv : forall i j s, inv i j s ->
  (cx_in s = pgon1_in -> ~ (touch P Q i j /\ 0 < AB P Q i j /\ aB P Q i j <= 0 /\ 0 < bA P Q i j)) ->
  (cx_in s = pgon2_in -> ~ (touch P Q i j /\ AB P Q i j < 0 /\ bA P Q i j <= 0 /\ 0 < aB P Q i j)) ->
  exists s', advanced P Q i j s = inl s' /\ (inv (S i) j s' \/ inv i (S j) s').
Proof.
  intros i j s (Ea & Eb & Ia & Ib & Hn & B & x & l & f & Eo & CH & SD) NX1 NX2.
  assert (n0 : (0 < n)%nat) by (pose proof (proj2 CP); unfold n; lia). assert (m0 : (0 < m)%nat) by (pose proof (proj2 CQ); unfold m; lia).
  assert (Li : (n <= i)%nat) by lia. assert (Lj : (m <= j)%nat) by lia.
  destruct (signs i j B) as (G1 & G2 & G3 & G4 & G5 & G6).
  assert (SWD : delta Q P (- z) j i == - delta P Q z i j) by apply swap_delta.
  destruct (adv_cases i j s) as [(Z1 & Z2 & Z3 & E)|[(NC & GO & E)|(NC & GO & E)]].
  - intros (K1 & K2 & K3). destruct XPQ as [XP XQ]. exact (not_apart P Q CP CQ X0 XP XQ i j K1 K2 K3).
  - assert (DZ : delta P Q z i j == 0) by (destruct (G3 Z1) as [K|K]; [exact K|lra]). rewrite E. eexists. split; [reflexivity|].
    destruct (cx_in s) eqn:EI; cbn [is_pgon1_in]; [right|left|contradiction].
    + unfold inv, advance_b; cbn [cx_a cx_b cx_aa cx_ba cx_in cx_n cx_out rev app length]. rewrite Ea, Eb, mod_next, EI by exact m0. split; [reflexivity|]. split; [reflexivity|].
      split; [exact Ia|]. split; [lia|]. split; [lia|]. split; [apply (keep_b P Q CP CQ z X0 IP IQ); [exact B|intro; lra]|].
      exists x, l, f. split; [exact Eo|]. split; [exact CH|]. apply (side_other P Q CP CQ z X0 IP IQ); [lra|intro; lra|exact SD].
    + unfold inv, advance_a; cbn [cx_a cx_b cx_aa cx_ba cx_in cx_n cx_out rev app length]. rewrite Ea, Eb, mod_next, EI by exact n0. split; [reflexivity|]. split; [reflexivity|].
      split; [lia|]. split; [exact Ib|]. split; [lia|]. split; [apply (keep_a P Q CP CQ z X0 IP IQ); [exact B|intro; lra]|].
      exists x, l, f. split; [exact Eo|]. split; [exact CH|]. apply (side_other Q P CQ CP (- z) X0 IQ IP); [lra|intro; lra|exact SD].
  - assert (A1 : delta P Q z i j < 0 -> aB P Q i j <= 0) by (intro K; specialize (G1 K); lra).
    assert (A2 : 0 <= delta P Q z i j -> 0 < bA P Q i j) by (intro K; specialize (G2 K); lra).
    rewrite E. eexists. split; [reflexivity|]. left.
    assert (KB := keep_a P Q CP CQ z X0 IP IQ i j B A1).
    destruct (cx_in s) eqn:EI; cbn [is_pgon1_in]; [| |contradiction];
    unfold inv, advance_a; cbn [cx_a cx_b cx_aa cx_ba cx_in cx_n cx_out rev app length]; rewrite Ea, Eb, mod_next, EI by exact n0;
      (split; [reflexivity|]; split; [reflexivity|]; split; [lia|]; split; [exact Ib|]; split; [lia|]; split; [exact KB|]).
    + destruct (visit P Q CP CQ z X0 IP IQ 0 (common_point P Q) C1 X1 f1 i j x l f Lj B SD CH A1 A2 (NX1 eq_refl)) as (g & Hg & Sg).
      exists (vtx P i), (x :: l), g. rewrite Eo. split; [reflexivity|]. split; [exact Hg|exact Sg].
    + exists x, l, f. split; [exact Eo|]. split; [exact CH|]. apply (side_other Q P CQ CP (- z) X0 IQ IP); [lra| |exact SD].
      intro K. change (bA Q P j i) with (aB P Q i j). apply A1. lra.
  - assert (A1 : 0 < delta P Q z i j -> bA P Q i j <= 0) by (intro K; specialize (G2 ltac:(lra)); lra).
    assert (A2 : delta P Q z i j <= 0 -> 0 < aB P Q i j).
    { intro K. destruct (Qeq_dec (delta P Q z i j) 0) as [Z|Z]; [|specialize (G1 ltac:(lra)); lra]. destruct (G4 Z) as (k & K0 & EK).
      assert (ZA : AB P Q i j == 0) by (destruct (d_signs P Q CP CQ z i j) as (_ & _ & S3 & _); apply (S3 Z)). assert (BL : bA P Q i j <= 0) by lra.
      destruct (Qeq_dec (bA P Q i j) 0) as [Z2|Z2]; [exfalso; apply NC; split; [exact ZA|]; split; [rewrite EK, Z2; ring|exact Z2]|]. rewrite EK. nra. }
    assert (B2 : delta P Q z i j < 2).
    { destruct (Qeq_dec (delta P Q z i j) 2) as [Z|Z]; [exfalso|lra]. destruct (d_signs P Q CP CQ z i j) as (_ & _ & _ & S4 & _). destruct (S4 (or_introl Z)) as [Z1 _].
      destruct (G3 Z1) as [K|(_ & K & _)]; [lra|]. specialize (A1 ltac:(lra)). lra. }
    rewrite E. eexists. split; [reflexivity|]. right.
    assert (KB := keep_b P Q CP CQ z X0 IP IQ i j B A1).
    destruct (cx_in s) eqn:EI; cbn [is_pgon2_in]; [| |contradiction];
    unfold inv, advance_b; cbn [cx_a cx_b cx_aa cx_ba cx_in cx_n cx_out rev app length]; rewrite Ea, Eb, mod_next, EI by exact m0;
      (split; [reflexivity|]; split; [reflexivity|]; split; [exact Ia|]; split; [lia|]; split; [lia|]; split; [exact KB|]).
    + exists x, l, f. split; [exact Eo|]. split; [exact CH|]. apply (side_other P Q CP CQ z X0 IP IQ); [lra|exact A1|exact SD].
    + destruct (visit Q P CQ CP (- z) X0 IQ IP z (common_point P Q) C2 X1 f1 j i x l f Li ltac:(lra) SD CH) as (g & Hg & Sg).
      * intro K. change (aB Q P j i) with (bA P Q i j). apply A1. lra.
      * intro K. change (bA Q P j i) with (aB P Q i j). apply A2. lra.
      * intros (T & K1 & K2 & K3). rewrite swap_AB in K1. change (aB Q P j i) with (bA P Q i j) in K2. change (bA Q P j i) with (aB P Q i j) in K3.
        apply (NX2 eq_refl). split; [apply swapped_touch; exact T|]. split; [lra|]. split; [exact K2|exact K3].
      * exists (vtx Q j), (x :: l), g. rewrite Eo. split; [reflexivity|]. split; [exact Hg|exact Sg].
Qed.

Lemma left_is : forall A B Y, cx_is_left (get_orientation direct A B Y) = true <-> 0 < tri2 A B Y.
Proof.
  intros A B Y. destruct (orientation_direct A B Y) as (O1 & O2 & O3). fold (tri2 A B Y) in *.
  destruct (get_orientation direct A B Y); cbn; split; intro H; try discriminate; try reflexivity.
  - apply proj1 in O2. specialize (O2 eq_refl). lra.
  - apply proj1 in O3. specialize (O3 eq_refl). lra.
  - apply O1. reflexivity.
Qed.
(** At a point where the edges meet, the ends tell how they cross. *)
Lemma ends : forall i j X, edge_on P i X -> edge_on Q j X -> (0 < aB P Q i j -> AB P Q i j < 0) /\ (0 < bA P Q i j -> 0 < AB P Q i j).
Proof.
  intros i j X H1 H2. destruct (to_end P i X H1) as (k & K & E1). destruct (to_end Q j X H2) as (k' & K' & E2).
  pose proof (tri2_moved Q j X _ _ k E1) as T1. pose proof (tri2_moved P i X _ _ k' E2) as T2. rewrite (edge_zero Q j X H2), (cross_swap P Q) in T1. rewrite (edge_zero P i X H1) in T2.
  fold (aB P Q i j) in T1. fold (bA P Q i j) in T2. fold (AB P Q i j) in T2. split; intro L.
  - destruct (Qlt_le_dec (AB P Q i j) 0) as [M|M]; [exact M|]. assert (0 <= k * AB P Q i j) by (apply Qmult_le_0_compat; lra). lra.
  - destruct (Qlt_le_dec 0 (AB P Q i j)) as [M|M]; [exact M|]. assert (0 <= k' * - AB P Q i j) by (apply Qmult_le_0_compat; lra). lra.
Qed.
Lemma rec_inv : forall i j s X, inv i j s -> ~ AB P Q i j == 0 -> edge_on P i X -> edge_on Q j X ->
  let s' := record_crossing (get_orientation direct (from Q j) (vtx Q j) (vtx P i)) (get_orientation direct (from P i) (vtx P i) (vtx Q j)) X s in
  inv i j s' /\ (cx_in s' = pgon1_in -> ~ (touch P Q i j /\ 0 < AB P Q i j /\ aB P Q i j <= 0 /\ 0 < bA P Q i j)) /\
  (cx_in s' = pgon2_in -> ~ (touch P Q i j /\ AB P Q i j < 0 /\ bA P Q i j <= 0 /\ 0 < aB P Q i j)).
Proof.
  intros i j s X (Ea & Eb & Ia & Ib & Hn & B & x & l & f & Eo & CH & SD) N XP XQ. cbv zeta.
  destruct (signs i j B) as (G1 & G2 & G3 & G4 & G5 & G6).
  assert (SWD : delta Q P (- z) j i == - delta P Q z i j) by apply swap_delta.
  assert (B2 : -2 < delta P Q z i j < 2).
  { split; [lra|]. destruct (Qeq_dec (delta P Q z i j) 2) as [Z|Z]; [exfalso|lra]. destruct (d_signs P Q CP CQ z i j) as (_ & _ & _ & S4 & _). destruct (S4 (or_introl Z)). contradiction. }
  assert (HX : common_point P Q X) by (split; [apply (around_in P CP i); exact XP|apply (around_in Q CQ j); exact XQ]).
  destruct (seen P X0 IP i X XP) as [SP NZ]. destruct (seen Q X0 IQ j X XQ) as [SQ _].
  assert (NS : ~ AB Q P j i == 0) by (rewrite swap_AB; intro K; apply N; lra).
  assert (EX : exists g, tP P 0 i - 2 < g < tP P 0 i /\ tP Q z j - 2 < g < tP Q z j /\ chain (common_point P Q) X0 X1 f1 (X :: x :: l) g).
  { pose proof (sides i j) as SI. destruct (cx_in s); [| |contradiction].
    - destruct (meet_extend P Q CP CQ z X0 IP 0 (common_point P Q) C1 X1 f1 i j x l f X B2 N SD CH XP XQ) as (g & Bg & Hg). exists g. split; [exact Bg|]. split; [|exact Hg].
      destruct (chain_last _ _ _ _ _ _ _ Hg) as [_ Ag]. apply (window _ _ (tP P 0 i) (edg Q j) _ NZ (edg_nonzero Q CQ j) Ag Bg SQ (tP_angle Q z j)). lra.
    - destruct (meet_extend Q P CQ CP (- z) X0 IQ z (common_point P Q) C2 X1 f1 j i x l f X ltac:(lra) NS SD CH XQ XP) as (g & Bg & Hg). exists g. split; [|split; [exact Bg|exact Hg]].
      destruct (chain_last _ _ _ _ _ _ _ Hg) as [_ Ag]. apply (window _ _ (tP Q z j) (edg P i) _ NZ (edg_nonzero P CP i) Ag Bg SP (tP_angle P 0 i)). lra. }
  destruct EX as (g & GP & GQ & Hg). destruct (ends i j X XP XQ) as [EN1 EN2].
  pose proof (left_is (from Q j) (vtx Q j) (vtx P i)) as LA. pose proof (left_is (from P i) (vtx P i) (vtx Q j)) as LB.
  fold (aB P Q i j) in LA. fold (bA P Q i j) in LB. unfold inv, record_crossing. cbn [cx_a cx_b cx_aa cx_ba cx_in cx_n cx_out].
  assert (RS : is_in_unknown (cx_in s) && Nat.eqb (cx_n s + 1) 1 = false) by (destruct (Nat.eqb_spec (cx_n s + 1) 1); [lia|apply andb_false_r]). rewrite RS.
  split.
  - split; [exact Ea|]. split; [exact Eb|]. split; [exact Ia|]. split; [exact Ib|]. split; [lia|]. split; [exact B|].
    exists X, (x :: l), g. rewrite Eo. split; [reflexivity|]. split; [exact Hg|].
    destruct (cx_is_left (get_orientation direct (from Q j) (vtx Q j) (vtx P i))).
    + pose proof (proj1 LA eq_refl) as L. apply (side_new P Q CP CQ z); try assumption. specialize (G6 (EN1 L)). lra.
    + destruct (cx_is_left (get_orientation direct (from P i) (vtx P i) (vtx Q j))).
      * pose proof (proj1 LB eq_refl) as L. apply (side_new Q P CQ CP (- z)); try assumption. specialize (G5 (EN2 L)). lra.
      * destruct (cx_in s); [apply (side_keep P Q CP CQ z 0 i j x f); assumption|apply (side_keep Q P CQ CP (- z) z j i x f); try assumption; lra|exact SD].
  - destruct (cx_is_left (get_orientation direct (from Q j) (vtx Q j) (vtx P i))).
    + pose proof (proj1 LA eq_refl) as L. split; [intros _ (_ & _ & K & _); lra|discriminate].
    + assert (NL : ~ 0 < aB P Q i j) by (intro K; apply LA in K; discriminate).
      split; [|intros _ (_ & _ & _ & K); contradiction].
      destruct (cx_is_left (get_orientation direct (from P i) (vtx P i) (vtx Q j))); [discriminate|]. intros _ (_ & _ & _ & K). apply LB in K. discriminate.
Qed.
Lemma step_inv : forall i j s, inv i j s -> exists s' i' j', cx_step direct P Q s = inl s' /\ inv i' j' s'.
Proof.
  intros i j s H. pose proof H as (Ea & Eb & _ & _ & _ & B & _).
  destruct (step_cases P Q CP CQ i j s Ea Eb) as [(_ & N & X & XP & XQ & E)|[(H1 & Z & _)|(NH & E)]].
  - destruct (rec_inv i j s X H N XP XQ) as (H2 & N1 & N2). destruct (adv_inv i j _ H2 N1 N2) as (s' & E' & [K|K]); rewrite E, E'; eauto.
  - exfalso. destruct H1 as [T [K|K]]; [contradiction|]. exact (proj2 (proj2 (opposite P Q CP X0 IP IQ i j Z K)) T).
  - destruct (adv_inv i j s H) as (s' & E' & [K|K]); [| |rewrite E, E'; eauto|rewrite E, E'; eauto].
    + intros _ (T & K & _). apply NH. split; [exact T|left; lra].
    + intros _ (T & K & _). apply NH. split; [exact T|left; lra].
Qed.

Definition exact_hull (r : cx_result) : Prop := exists l, r = CxDone px_overlapping l /\ forall Y, common_point P Q Y <-> in_hull l Y.
Lemma finish_exact : forall i j s, inv i j s -> (cx_aa s < n \/ cx_ba s < m -> 2 * n <= cx_aa s \/ 2 * m <= cx_ba s)%nat -> exact_hull (cx_finish P Q s).
Proof.
  intros i j s (Ea & Eb & Ia & Ib & Hn & B & x & l & f & Eo & CH & SD) H.
  assert (L3 : (3 <= n)%nat) by apply CP. assert (M3 : (3 <= m)%nat) by apply CQ.
  assert (GE : (i0 + n <= i)%nat /\ (j0 + m <= j)%nat).
  { pose proof (theta_turn P CP i0) as T1. pose proof (theta_turn P CP (i0 + n)) as T2. pose proof (theta_turn Q CQ j0) as T3. pose proof (theta_turn Q CQ (j0 + m)) as T4. fold n in T1, T2. fold m in T3, T4.
    destruct (le_lt_dec (i0 + n) i) as [K1|K1]; destruct (le_lt_dec (j0 + m) j) as [K2|K2]; [auto| | |]; exfalso.
    - pose proof (theta_mono Q CQ j (j0 + m) K2). pose proof (theta_mono_le P CP (i0 + n + n) i ltac:(lia)). unfold delta in *. lra.
    - pose proof (theta_mono P CP i (i0 + n) K1). pose proof (theta_mono_le Q CQ (j0 + m + m) j ltac:(lia)). unfold delta in *. lra.
    - lia. }
  destruct GE as [GI GJ].
  assert (FT : exists k g, chain (common_point P Q) X0 X1 f1 k g /\ f1 + 4 <= g /\ forall Y, In Y k <-> In Y (x :: l)).
  { destruct (cx_in s); [| |contradiction].
    - destruct SD as (O & W & _). apply (full_turn P Q CP X0 IP 0 (common_point P Q) C1 X1 f1 i i0 x l f CH O W OP1 WP1 GI).
    - destruct SD as (O & W & _). apply (full_turn Q P CQ X0 IQ z (common_point P Q) C2 X1 f1 j j0 x l f CH O W OQ1 WQ1 GJ). }
  destruct FT as (k & g & HK & GT & SAME).
  exists (rev (cx_out s)). split.
  - unfold cx_finish. destruct (cx_in s); [| |contradiction]; cbn [is_in_unknown]; destruct (Nat.eqb_spec (cx_n s) 0); try lia; reflexivity.
  - intro Y. rewrite hull_rev, Eo. split.
    + intro HY. apply (hull_same k); [intros V HV; apply SAME; exact HV|]. exact (wound _ _ _ _ _ _ HK GT Y HY).
    + intro HY. destruct (chain_in _ _ _ _ _ _ CH) as [_ FC]. rewrite Forall_forall in FC.
      split; [apply (hull_sub P (x :: l))|apply (hull_sub Q (x :: l))]; try assumption; intros V HV; apply (FC V HV).
Qed.
Lemma loop_exact : forall fuel i j s, inv i j s -> (cx_aa s < 2 * n)%nat -> (cx_ba s < 2 * m)%nat -> (cx_measure n m s < fuel)%nat -> exact_hull (cx_loop direct P Q fuel s).
Proof.
  induction fuel as [|fuel IH]; intros i j s H Ha Hb F; [lia|]. cbn [cx_loop].
  destruct (step_inv i j s H) as (s' & i' & j' & E & H'). rewrite E. pose proof (step_measure direct P Q s s' E Ha Hb) as M. fold n in M. fold m in M. change (length P) with n. change (length Q) with m.
  destruct (_ && _) eqn:K.
  - apply andb_prop in K as [K K3]. apply andb_prop in K as [_ K2]. apply Nat.ltb_lt in K2, K3. apply (IH i' j'); [exact H'|lia|lia|lia].
  - apply (finish_exact i' j'); [exact H'|]. intro L. apply andb_false_iff in K as [K|K]; [apply andb_false_iff in K as [K|K]|].
    + apply orb_false_iff in K as [K1 K2]. apply Nat.ltb_ge in K1, K2. lia.
    + apply Nat.ltb_ge in K. lia.
    + apply Nat.ltb_ge in K. lia.
Qed.
Lemma after : forall fuel i j s, inv i j s -> (cx_measure n m s < fuel)%nat ->
  exact_hull (if (Nat.ltb (cx_aa s) (length P) || Nat.ltb (cx_ba s) (length Q)) && Nat.ltb (cx_aa s) (length P * 2) && Nat.ltb (cx_ba s) (length Q * 2)
      then cx_loop direct P Q fuel s else cx_finish P Q s).
Proof.
  intros fuel i j s H F. change (length P) with n. change (length Q) with m. destruct (_ && _) eqn:K.
  - apply andb_prop in K as [K K3]. apply andb_prop in K as [_ K2]. apply Nat.ltb_lt in K2, K3. apply (loop_exact fuel i j); [exact H|lia|lia|lia].
  - apply (finish_exact i j); [exact H|]. intro L. apply andb_false_iff in K as [K|K]; [apply andb_false_iff in K as [K|K]|].
    + apply orb_false_iff in K as [K1 K2]. apply Nat.ltb_ge in K1, K2. lia.
    + apply Nat.ltb_ge in K. lia.
    + apply Nat.ltb_ge in K. lia.
Qed.
End Run.

Lemma shift_mod : forall k i, (0 < k)%nat -> ((i + k) mod k = i mod k)%nat.
Proof. intros k i H. replace (i + k)%nat with (i + 1 * k)%nat by lia. apply Nat.mod_add. lia. Qed.
(** The first edges found to meet. *)
Section First.
Variables P Q : list pt.
Hypothesis CP : convex_polygon P.
Hypothesis CQ : convex_polygon Q.
Variable X0 : pt.
Hypothesis IP : forall i, 0 < tri2 (from P i) (vtx P i) X0.
Hypothesis IQ : forall j, 0 < tri2 (from Q j) (vtx Q j) X0.
Let n := length P.
Let m := length Q.
Lemma near_shift : forall i j, exists z, -2 < delta P Q z i j <= 2.
Proof.
  intros i j. set (d := theta Q j - theta P i). exists (Qround.Qfloor ((2 - d) * (1 # 4))). unfold delta.
  pose proof (Qround.Qfloor_le ((2 - d) * (1 # 4))) as F1. pose proof (Qround.Qlt_floor ((2 - d) * (1 # 4))) as F2. rewrite inject_Z_plus in F2. change (inject_Z 1) with 1 in F2.
  set (k := inject_Z _) in *. unfold d in *. clearbody k. lra.
Qed.
Lemma shift_hit : forall i j, hit P Q i j -> hit P Q (i + n) (j + m).
Proof.
  intros i j H. pose proof (proj2 CP). pose proof (proj2 CQ).
  assert (E1 : vtx P (i + n) = vtx P i) by (unfold vtx; rewrite shift_mod by (unfold n; lia); reflexivity).
  assert (E2 : vtx Q (j + m) = vtx Q j) by (unfold vtx; rewrite shift_mod by (unfold m; lia); reflexivity).
  assert (E3 : from P (i + n) = from P i) by (unfold from; rewrite shift_mod by (unfold n; lia); reflexivity).
  assert (E4 : from Q (j + m) = from Q j) by (unfold from; rewrite shift_mod by (unfold m; lia); reflexivity).
  unfold hit, touch, edge_on, AB, edg in *. rewrite E1, E2, E3, E4. exact H.
Qed.
Lemma swap_hit : forall i j, hit P Q i j -> hit Q P j i.
Proof.
  intros i j [T H]. split; [destruct T as (X & H1 & H2); exists X; auto|]. rewrite swap_AB. destruct H as [H|H]; [left; intro K; apply H; lra|right].
  assert (E : dot (edg Q j) (edg P i) == dot (edg P i) (edg Q j)) by (unfold dot; ring). rewrite E. exact H.
Qed.
Lemma not_parallel : forall i j, hit P Q i j -> ~ AB P Q i j == 0.
Proof. intros i j [T [H|H]]; [exact H|]. intro Z. exact (proj2 (proj2 (opposite P Q CP X0 IP IQ i j Z H)) T). Qed.
(** The start of the next edge, when the walk passes the end of an edge on the other polygon. *)
Lemma next_meets : forall z i j X, -2 < delta P Q z i j <= 2 -> edge_on P i X -> edge_on Q j X -> 0 < AB P Q i j -> bA P Q i j <= 0 ->
  X =p= vtx Q j /\ edge_on Q (S j) X /\ 0 < delta P Q z i (S j) < 2 /\ 0 < AB P Q i (S j) /\ aB P Q i (S j) <= 0 /\ 0 < bA P Q i (S j).
Proof.
  intros z i j X B XP XQ A BL. destruct (signs P Q CP CQ X0 IP IQ z i j B) as (G1 & G2 & G3 & G4 & G5 & G6).
  assert (EX : X =p= vtx Q j).
  { destruct (to_end Q j X XQ) as (k & K & E). pose proof (tri2_moved P i X _ _ k E) as T. rewrite (edge_zero P i X XP) in T. fold (AB P Q i j) in T. fold (bA P Q i j) in T.
    assert (KZ : k == 0) by nra. destruct E as [E1 E2]. split; [rewrite E1|rewrite E2]; cbn [vadd vscale px py]; rewrite KZ; ring. }
  assert (OS : edge_on Q (S j) X). { apply (segment_pteq _ _ (vtx Q j)); [apply pteq_sym; exact EX|]. rewrite <- (from_S Q CQ j). apply edge_start. }
  specialize (G5 A). pose proof (keep_b P Q CP CQ z X0 IP IQ i j B ltac:(intro; lra)) as KB. pose proof (delta_b P Q CQ z i j) as DB.
  assert (NZ : ~ AB P Q i (S j) == 0).
  { intro Z. destruct (signs P Q CP CQ X0 IP IQ z i (S j) KB) as (_ & _ & G3' & _). destruct (G3' Z) as [K|(_ & _ & _ & NT)]; [lra|]. apply NT. exists X. auto. }
  destruct (signs P Q CP CQ X0 IP IQ z i (S j) KB) as (_ & G2' & _ & _ & G5' & _). specialize (G2' ltac:(lra)).
  assert (A' : 0 < AB P Q i (S j)) by (destruct (Qeq_dec (AB P Q i (S j)) 0); [contradiction|lra]).
  split; [exact EX|]. split; [exact OS|]. split; [exact (G5' A')|]. split; [exact A'|]. split.
  - destruct (Qlt_le_dec 0 (aB P Q i (S j))) as [K|K]; [|exact K]. apply (ends P Q i (S j) X XP OS) in K. lra.
  - apply (leave_row P Q CP i (S j) X); [apply (around_in P CP i); exact XP|exact OS| |exact A'].
    intro K. apply (edg_nonzero Q CQ (S j)). unfold edg. rewrite (from_S Q CQ j). destruct EX as [E1 E2]. destruct K as [K1 K2]. rewrite K1 in E1. rewrite K2 in E2. unfold vsub. cbn [px py]. split; lra.
Qed.
End First.

Section First2.
Variables P Q : list pt.
Hypothesis CP : convex_polygon P.
Hypothesis CQ : convex_polygon Q.
Variable X0 : pt.
Hypothesis IP : forall i, 0 < tri2 (from P i) (vtx P i) X0.
Hypothesis IQ : forall j, 0 < tri2 (from Q j) (vtx Q j) X0.
Let n := length P.
Let m := length Q.
Lemma unpar : forall z i j, -2 < delta P Q z i j <= 2 -> ~ AB P Q i j == 0 -> -2 < delta P Q z i j < 2.
Proof.
  intros z i j B N. split; [lra|]. destruct (Qeq_dec (delta P Q z i j) 2) as [Z|Z]; [exfalso|lra].
  destruct (d_signs P Q CP CQ z i j) as (_ & _ & _ & S4 & _). destruct (S4 (or_introl Z)). contradiction.
Qed.
Lemma first_hit : forall i j fuel, hit P Q i j -> (i < 2 * n)%nat -> (j < 2 * m)%nat -> (cx_measure n m (st P Q i j) < fuel)%nat ->
  exact_hull P Q (cx_loop direct P Q fuel (st P Q i j)).
Proof.
  intros i j fuel HH Li Lj F. assert (n3 : (3 <= n)%nat) by apply CP. assert (m3 : (3 <= m)%nat) by apply CQ.
  apply (shift_hit P Q CP CQ) in HH. fold n in HH. fold m in HH. set (i0 := (i + n)%nat) in *. set (j0 := (j + m)%nat) in *.
  pose proof (not_parallel P Q CP X0 IP IQ i0 j0 HH) as N. destruct (near_shift P Q i0 j0) as [z B]. pose proof (unpar z i0 j0 B N) as B2.
  assert (Ei : (i mod n = i0 mod n)%nat) by (symmetry; apply (shift_mod n i); lia). assert (Ej : (j mod m = j0 mod m)%nat) by (symmetry; apply (shift_mod m j); lia).
  destruct (step_cases P Q CP CQ i0 j0 (st P Q i j) Ei Ej) as [(_ & _ & X & XP & XQ & E)|[(_ & Z & _)|(NH & _)]]; [|contradiction|contradiction].
  assert (HX : common_point P Q X) by (split; [apply (around_in P CP i0); exact XP|apply (around_in Q CQ j0); exact XQ]).
  destruct (seen P X0 IP i0 X XP) as [SP NZ]. destruct (seen Q X0 IQ j0 X XQ) as [SQ _].
  destruct (lift_left _ _ (tP P 0 i0) NZ (edg_nonzero P CP i0) SP (tP_angle P 0 i0)) as (f1 & A1 & W1).
  assert (W2 : tP Q z j0 - 2 < f1 < tP Q z j0).
  { apply (window _ _ (tP P 0 i0) (edg Q j0) _ NZ (edg_nonzero Q CQ j0) A1 W1 SQ (tP_angle Q z j0)). pose proof (sides P Q z i0 j0). lra. }
  assert (CH : chain (common_point P Q) X0 X f1 [X] f1) by (apply chain_one; assumption).
  pose proof (left_is (from Q j0) (vtx Q j0) (vtx P i0)) as LA. pose proof (left_is (from P i0) (vtx P i0) (vtx Q j0)) as LB.
  fold (aB P Q i0 j0) in LA. fold (bA P Q i0 j0) in LB.
  destruct (ends P Q i0 j0 X XP XQ) as [EN1 EN2]. destruct (signs P Q CP CQ X0 IP IQ z i0 j0 B) as (_ & _ & _ & _ & G5 & G6).
  destruct fuel as [|fuel]; [lia|]. assert (SM := step_measure direct P Q (st P Q i j)). cbn [cx_loop].
  assert (Hi0 : (length P <= i0)%nat) by (unfold i0, n; lia). assert (Hj0 : (length Q <= j0)%nat) by (unfold j0, m; lia).
  assert (GO : forall i' j' s' fl, inv P Q X0 z i0 j0 X f1 i' j' s' -> (cx_measure n m s' < fl)%nat ->
    exact_hull P Q (if (Nat.ltb (cx_aa s') (length P) || Nat.ltb (cx_ba s') (length Q)) && Nat.ltb (cx_aa s') (length P * 2) && Nat.ltb (cx_ba s') (length Q * 2)
      then cx_loop direct P Q fl s' else cx_finish P Q s')).
  { intros i' j' s' fl HI HF. apply (after P Q CP CQ X0 IP IQ z i0 j0 X f1 Hi0 Hj0 XP XQ B2 W1 W2 fl i' j' s' HI HF). }
  assert (DONE : 0 < aB P Q i0 j0 \/ 0 < bA P Q i0 j0 -> exact_hull P Q (cx_loop direct P Q (S fuel) (st P Q i j))).
  { intro PO. set (s0 := record_crossing _ _ X (st P Q i j)) in E.
    assert (K : inv P Q X0 z i0 j0 X f1 i0 j0 s0 /\ (cx_in s0 = pgon1_in -> 0 < aB P Q i0 j0) /\ (cx_in s0 = pgon2_in -> ~ 0 < aB P Q i0 j0)).
    { unfold s0, inv, record_crossing, st. cbn [cx_a cx_b cx_aa cx_ba cx_in cx_n cx_out is_in_unknown Nat.add Nat.eqb andb].
      destruct (cx_is_left (get_orientation direct (from Q j0) (vtx Q j0) (vtx P i0))) eqn:FA.
      - pose proof (proj1 LA eq_refl) as L. split; [|split; [intros _; exact L|discriminate]].
        split; [exact Ei|]. split; [exact Ej|]. split; [reflexivity|]. split; [reflexivity|]. split; [lia|]. split; [exact B|]. exists X, [], f1. split; [reflexivity|]. split; [exact CH|].
        apply (side_new P Q CP CQ z); try assumption. specialize (G6 (EN1 L)). lra.
      - assert (NL : ~ 0 < aB P Q i0 j0) by (intro K; apply LA in K; discriminate).
        assert (L : 0 < bA P Q i0 j0) by (destruct PO; [contradiction|assumption]). pose proof (proj2 LB L) as FB. rewrite FB.
        split; [|split; [discriminate|intros _; exact NL]].
        split; [exact Ei|]. split; [exact Ej|]. split; [reflexivity|]. split; [reflexivity|]. split; [lia|]. split; [exact B|]. exists X, [], f1. split; [reflexivity|]. split; [exact CH|].
        apply (side_new Q P CQ CP (- z)); try assumption. rewrite swap_delta. specialize (G5 (EN2 L)). lra. }
    destruct K as (K1 & K2 & K3).
    destruct (adv_inv P Q CP CQ X0 IP IQ z i0 j0 X f1 Hi0 Hj0 i0 j0 s0 K1) as (s' & E' & KK).
    - intros K (_ & _ & L & _). specialize (K2 K). lra.
    - intros K (_ & _ & _ & L). exact (K3 K L).
    - rewrite E' in E. specialize (SM s' E Li Lj). fold n in SM. fold m in SM. cbn [cx_loop]. rewrite E. destruct KK as [KK|KK]; apply (GO _ _ _ _ KK); lia. }
  destruct (Qlt_le_dec 0 (aB P Q i0 j0)) as [L1|L1]; [apply DONE; left; exact L1|].
  destruct (Qlt_le_dec 0 (bA P Q i0 j0)) as [L2|L2]; [apply DONE; right; exact L2|]. clear DONE.
  assert (S0 : record_crossing (get_orientation direct (from Q j0) (vtx Q j0) (vtx P i0)) (get_orientation direct (from P i0) (vtx P i0) (vtx Q j0)) X (st P Q i j)
    = mkcx (i mod n) (j mod m) 0 0 in_unknown 1 [X]).
  { unfold record_crossing, st. cbn [cx_a cx_b cx_aa cx_ba cx_in cx_n cx_out is_in_unknown Nat.add Nat.eqb andb].
    destruct (cx_is_left (get_orientation direct (from Q j0) (vtx Q j0) (vtx P i0))); [specialize (proj1 LA eq_refl); intro; lra|].
    destruct (cx_is_left (get_orientation direct (from P i0) (vtx P i0) (vtx Q j0))); [specialize (proj1 LB eq_refl); intro; lra|]. reflexivity. }
  rewrite S0 in E.
  destruct (adv_cases P Q i0 j0 (mkcx (i mod n) (j mod m) 0 0 in_unknown 1 [X])) as [(Z & _)|[(_ & GA & EA)|(_ & GB & EB)]].
  - intros (K & _). contradiction.
  - contradiction.
  - assert (AN : AB P Q i0 j0 < 0) by lra. cbn [cx_in is_pgon1_in] in EA. rewrite EA in E.
    specialize (SM _ E Li Lj). fold n in SM. fold m in SM. rewrite E. set (s1 := advance_a _ _ _) in *. 
    destruct (next_meets Q P CQ CP X0 IQ IP (- z) j0 i0 X) as (EX & OS & DS & AS & aS & bS); [rewrite swap_delta; lra|exact XQ|exact XP|rewrite swap_AB; lra|exact L1|].
    rewrite swap_delta in DS. rewrite swap_AB in AS. change (aB Q P j0 (S i0)) with (bA P Q (S i0) j0) in aS. change (bA Q P j0 (S i0)) with (aB P Q (S i0) j0) in bS.
    unfold s1, advance_a. cbn [cx_aa cx_ba cx_a cx_b cx_n cx_in cx_out]. 
    destruct (Nat.ltb_spec (0 + 1) (length P)) as [Q1|Q1]; [|unfold n in n3; lia]. destruct (Nat.ltb_spec (0 + 1) (length P * 2)) as [Q2|Q2]; [|lia]. destruct (Nat.ltb_spec 0 (length Q * 2)) as [Q3|Q3]; [|unfold m in m3; lia].
    cbn [orb andb rev app length]. 
    destruct fuel as [|fuel]; [lia|]. 
    assert (Ei1 : cx_a s1 = (S i0 mod n)%nat) by (unfold s1, advance_a; cbn [cx_a]; rewrite Ei; apply (mod_next P Q); lia).
    assert (Ej1 : cx_b s1 = (j0 mod m)%nat) by (unfold s1, advance_a; cbn [cx_b]; exact Ej).
    change (exact_hull P Q (cx_loop direct P Q (S fuel) s1)).
    destruct (step_cases P Q CP CQ (S i0) j0 s1 Ei1 Ej1) as [(_ & N2 & X' & XP' & XQ' & E')|[(_ & Z & _)|(NH & _)]]; [|lra|exfalso; apply NH; split; [exists X; auto|left; lra]].
    assert (HX' : common_point P Q X') by (split; [apply (around_in P CP (S i0)); exact XP'|apply (around_in Q CQ j0); exact XQ']).
    destruct (seen P X0 IP (S i0) X OS) as [SP' _].
    assert (W3 : tP P 0 (S i0) - 2 < f1 < tP P 0 (S i0)).
    { apply (window _ _ (tP Q z j0) (edg P (S i0)) _ NZ (edg_nonzero P CP (S i0)) A1 W2 SP' (tP_angle P 0 (S i0))). pose proof (sides P Q z (S i0) j0). lra. }
    assert (BF : before (edg P (S i0)) X X').
    { destruct (from_start P (S i0) X' XP') as (k & K & E1 & E2). exists k. split; [exact K|]. rewrite (from_S P CP i0) in E1, E2. destruct EX as [EX1 EX2]. split; [rewrite E1|rewrite E2]; cbn [vadd vscale px py]; [rewrite EX1|rewrite EX2]; reflexivity. }
    destruct (extend P Q CP X0 IP 0 (common_point P Q) (C1 P Q) X f1 (S i0) X [] f1 X' CH OS W3 BF HX' XP') as (g & Wg & CG).
    set (s2 := record_crossing _ _ X' s1) in E'.
    assert (FL : cx_in s2 = pgon1_in).
    { unfold s2, record_crossing. cbn [cx_in]. rewrite (proj2 (left_is (from Q j0) (vtx Q j0) (vtx P (S i0))) bS). reflexivity. }
    assert (K1 : inv P Q X0 z i0 j0 X f1 (S i0) j0 s2).
    { unfold inv. rewrite FL. split; [exact Ei1|]. split; [exact Ej1|]. unfold s2, record_crossing, s1, advance_a. cbn [cx_aa cx_ba cx_n cx_in cx_out is_in_unknown Nat.add Nat.eqb andb rev app length].
      split; [lia|]. split; [reflexivity|]. split; [lia|]. split; [lra|]. exists X', [X], g. split; [reflexivity|]. split; [exact CG|].
      apply (side_new P Q CP CQ z); try assumption. lra. }
    destruct (adv_inv P Q CP CQ X0 IP IQ z i0 j0 X f1 Hi0 Hj0 (S i0) j0 s2 K1) as (s' & E2 & KK).
    + intros _ (_ & _ & L & _). lra.
    + rewrite FL. discriminate.
    + rewrite E2 in E'. assert (SM2 := step_measure direct P Q s1 s' E'). unfold s1 in SM2 at 1 2. cbn [advance_a cx_aa cx_ba] in SM2. specialize (SM2 ltac:(lia) ltac:(lia)). fold n in SM2. fold m in SM2.
      cbn [cx_loop]. rewrite E'. destruct KK as [KK|KK]; apply (GO _ _ _ _ KK); lia.
  - assert (AN : 0 < AB P Q i0 j0) by (destruct (Qeq_dec (AB P Q i0 j0) 0); [contradiction|lra]). cbn [cx_in is_pgon2_in] in EB. rewrite EB in E.
    specialize (SM _ E Li Lj). fold n in SM. fold m in SM. rewrite E. set (s1 := advance_b _ _ _) in *.
    destruct (next_meets P Q CP CQ X0 IP IQ z i0 j0 X B XP XQ AN L2) as (EX & OS & DS & AS & aS & bS).
    unfold s1, advance_b. cbn [cx_aa cx_ba cx_a cx_b cx_n cx_in cx_out].
    destruct (Nat.ltb_spec 0 (length P)) as [Q1|Q1]; [|unfold n in n3; lia]. destruct (Nat.ltb_spec 0 (length P * 2)) as [Q2|Q2]; [|lia]. destruct (Nat.ltb_spec (0 + 1) (length Q * 2)) as [Q3|Q3]; [|unfold m in m3; lia].
    cbn [orb andb rev app length].
    destruct fuel as [|fuel]; [lia|].
    assert (Ei1 : cx_a s1 = (i0 mod n)%nat) by (unfold s1, advance_b; cbn [cx_a]; exact Ei).
    assert (Ej1 : cx_b s1 = (S j0 mod m)%nat) by (unfold s1, advance_b; cbn [cx_b]; rewrite Ej; apply (mod_next P Q); lia).
    change (exact_hull P Q (cx_loop direct P Q (S fuel) s1)).
    destruct (step_cases P Q CP CQ i0 (S j0) s1 Ei1 Ej1) as [(_ & N2 & X' & XP' & XQ' & E')|[(_ & Z & _)|(NH & _)]]; [|lra|exfalso; apply NH; split; [exists X; auto|left; lra]].
    assert (HX' : common_point P Q X') by (split; [apply (around_in P CP i0); exact XP'|apply (around_in Q CQ (S j0)); exact XQ']).
    destruct (seen Q X0 IQ (S j0) X OS) as [SQ' _].
    assert (W3 : tP Q z (S j0) - 2 < f1 < tP Q z (S j0)).
    { apply (window _ _ (tP P 0 i0) (edg Q (S j0)) _ NZ (edg_nonzero Q CQ (S j0)) A1 W1 SQ' (tP_angle Q z (S j0))). pose proof (sides P Q z i0 (S j0)). lra. }
    assert (BF : before (edg Q (S j0)) X X').
    { destruct (from_start Q (S j0) X' XQ') as (k & K & E1 & E2). exists k. split; [exact K|]. rewrite (from_S Q CQ j0) in E1, E2. destruct EX as [EX1 EX2]. split; [rewrite E1|rewrite E2]; cbn [vadd vscale px py]; [rewrite EX1|rewrite EX2]; reflexivity. }
    destruct (extend Q P CQ X0 IQ z (common_point P Q) (C2 P Q) X f1 (S j0) X [] f1 X' CH OS W3 BF HX' XQ') as (g & Wg & CG).
    set (s2 := record_crossing _ _ X' s1) in E'.
    assert (FL : cx_in s2 = pgon2_in).
    { unfold s2, record_crossing. cbn [cx_in]. rewrite (proj2 (left_is (from P i0) (vtx P i0) (vtx Q (S j0))) bS).
      destruct (cx_is_left (get_orientation direct (from Q (S j0)) (vtx Q (S j0)) (vtx P i0))) eqn:FA; [|reflexivity]. apply left_is in FA. unfold aB in aS. lra. }
    assert (K1 : inv P Q X0 z i0 j0 X f1 i0 (S j0) s2).
    { unfold inv. rewrite FL. split; [exact Ei1|]. split; [exact Ej1|]. unfold s2, record_crossing, s1, advance_b. cbn [cx_aa cx_ba cx_n cx_in cx_out is_in_unknown Nat.add Nat.eqb andb rev app length].
      split; [reflexivity|]. split; [lia|]. split; [lia|]. split; [lra|]. exists X', [X], g. split; [reflexivity|]. split; [exact CG|].
      apply (side_new Q P CQ CP (- z)); try assumption. rewrite swap_delta. lra. }
    destruct (adv_inv P Q CP CQ X0 IP IQ z i0 j0 X f1 Hi0 Hj0 i0 (S j0) s2 K1) as (s' & E2 & KK).
    + rewrite FL. discriminate.
    + intros _ (_ & L & _). lra.
    + rewrite E2 in E'. assert (SM2 := step_measure direct P Q s1 s' E'). unfold s1 in SM2 at 1 2. cbn [advance_b cx_aa cx_ba] in SM2. specialize (SM2 ltac:(lia) ltac:(lia)). fold n in SM2. fold m in SM2.
      cbn [cx_loop]. rewrite E'. destruct KK as [KK|KK]; apply (GO _ _ _ _ KK); lia.
Qed.
End First2.

Lemma strictly_edges : forall ps X, convex_polygon ps -> strictly_inside ps X -> forall i, 0 < tri2 (from ps i) (vtx ps i) X.
Proof.
  intros ps X C H i. assert (L : (0 < length ps)%nat) by (pose proof (proj2 C); lia).
  pose proof (vtx_turn ps C i) as V. assert (T : from ps (i + length ps) = from ps i) by (unfold from; rewrite shift_mod by exact L; reflexivity). rewrite <- V, <- T.
  replace (i + length ps)%nat with (S (i + length ps - 1)) by lia. set (k := (i + length ps - 1)%nat). rewrite (from_S ps C k). unfold vtx.
  pose proof (Nat.mod_upper_bound k (length ps) ltac:(lia)) as B. apply (H (k mod length ps)).
  replace (S k mod length ps)%nat with (S (k mod length ps) mod length ps)%nat; [apply PfillProof3.edge_pnth; exact B|].
  rewrite <- (mod_S ps ps (length ps) k) by exact L. f_equal. lia.
Qed.
Lemma on_polygon_edge : forall ps X, convex_polygon ps -> on_polygon ps X -> exists i, edge_on ps i X.
Proof. intros ps X C (i & A & B & E & O). apply edge_is in E as (Hi & -> & ->). exists (S i). apply edge_on_next; assumption. Qed.
Theorem overlap_exact : forall P Q fuel X0 X, convex_polygon P -> convex_polygon Q -> (4 * (length P + length Q) < fuel)%nat ->
  strictly_inside P X0 -> strictly_inside Q X0 -> on_polygon P X -> on_polygon Q X ->
  exact_hull P Q (convex_polygon_polygon_intersection direct fuel P Q).
Proof.
  intros P Q fuel X0 X CP CQ F SP SQ OP OQ. pose proof (strictly_edges P X0 CP SP) as IP. pose proof (strictly_edges Q X0 CQ SQ) as IQ.
  destruct (on_polygon_edge P X CP OP) as [i Hi]. destruct (on_polygon_edge Q X CQ OQ) as [j Hj].
  apply (boundary_found P Q CP CQ (exact_hull P Q)) with (i := i) (j := j); [|exists X; auto|exact F].
  intros i' j' fl H1 H2 H3 H4. apply (first_hit P Q CP CQ X0 IP IQ); assumption.
Qed.
