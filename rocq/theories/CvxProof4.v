(** Directions as rational angles: a turn has length 4. *)
From Coq Require Import Qabs.
From Verif Require Import Base OrientSpec OrientProof PolygonModel PolygonSpec PolygonProof PolygonConvexProof CvxSpec CvxProof.

Definition size1 (v : pt) : Q := Qabs (px v) + Qabs (py v).
Definition dia (v : pt) : Q := if Qle_bool 0 (py v) then 1 - px v / size1 v else 3 + px v / size1 v.

Lemma size1_pos : forall v, nonzero v -> 0 < size1 v.
Proof.
  intros v N. unfold size1. pose proof (Qabs_nonneg (px v)). pose proof (Qabs_nonneg (py v)).
  destruct (Qeq_dec (px v) 0) as [E|E].
  - assert (Y : ~ py v == 0) by (intro Z; apply N; split; assumption).
    assert (0 < Qabs (py v)); [|lra]. apply Qabs_case; intro; lra.
  - assert (0 < Qabs (px v)); [|lra]. apply Qabs_case; intro; lra.
Qed.
(** The normalised vector. *)
Lemma unit1 : forall v, nonzero v -> exists s a c, 0 < s /\ px v == s * a /\ py v == s * c /\ px v / size1 v == a /\
  ((0 <= a /\ 0 <= c /\ c == 1 - a) \/ (a <= 0 /\ 0 <= c /\ c == 1 + a) \/ (0 <= a /\ c < 0 /\ c == a - 1) \/ (a <= 0 /\ c < 0 /\ c == -1 - a)).
Proof.
  intros v N. pose proof (size1_pos v N) as S. exists (size1 v), (px v / size1 v), (py v / size1 v).
  assert (E1 : px v == size1 v * (px v / size1 v)) by (field; lra). assert (E2 : py v == size1 v * (py v / size1 v)) by (field; lra).
  split; [exact S|]. split; [exact E1|]. split; [exact E2|]. split; [reflexivity|].
  set (a := px v / size1 v) in *. set (c := py v / size1 v) in *. set (s := size1 v) in *.
  assert (ES : s == Qabs (px v) + Qabs (py v)) by reflexivity. clearbody a c s.
  rewrite (Qabs_wd _ _ E1), (Qabs_wd _ _ E2), !Qabs_Qmult, (Qabs_pos s) in ES by lra.
  assert (U : Qabs a + Qabs c == 1) by nra. clear ES.
  revert U. apply Qabs_case; apply Qabs_case; intros Hc Ha U.
  - left. lra.
  - destruct (Qlt_le_dec c 0); [right; right; left; lra|left; lra].
  - right; left. lra.
  - destruct (Qlt_le_dec c 0); [right; right; right; lra|right; left; lra].
Qed.
Lemma dia_range : forall v, nonzero v -> 0 <= dia v < 4.
Proof.
  intros v N. destruct (unit1 v N) as (s & a & c & S & E1 & E2 & E3 & C). unfold dia.
  destruct (Qle_bool 0 (py v)) eqn:L; rewrite E3.
  - apply Qle_bool_iff in L. rewrite E2 in L. assert (0 <= c) by nra. lra.
  - assert (~ 0 <= py v) by (intro K; apply Qle_bool_iff in K; congruence). assert (py v < 0) by lra. rewrite E2 in H0. assert (c < 0) by nra. lra.
Qed.

Lemma dia_cases : forall v, nonzero v -> exists s a c, 0 < s /\ px v == s * a /\ py v == s * c /\
  ((0 <= a /\ 0 <= c /\ c == 1 - a /\ dia v == 1 - a) \/ (a <= 0 /\ 0 <= c /\ c == 1 + a /\ dia v == 1 - a) \/
   (0 <= a /\ c < 0 /\ c == a - 1 /\ dia v == 3 + a) \/ (a <= 0 /\ c < 0 /\ c == -1 - a /\ dia v == 3 + a)).
Proof.
  intros v N. destruct (unit1 v N) as (s & a & c & S & E1 & E2 & E3 & C). exists s, a, c. repeat (split; [assumption|]). unfold dia.
  destruct (Qle_bool 0 (py v)) eqn:L; rewrite E3.
  - apply Qle_bool_iff in L. rewrite E2 in L. assert (0 <= c) by nra. lra.
  - assert (~ 0 <= py v) by (intro K; apply Qle_bool_iff in K; congruence). assert (py v < 0) by lra. rewrite E2 in H0. assert (c < 0) by nra. lra.
Qed.

Lemma dia_left : forall u v, nonzero u -> nonzero v -> 0 < cross u v -> 0 < dia v - dia u < 2 \/ -4 < dia v - dia u < -2.
Proof.
  intros u v Nu Nv H. destruct (dia_cases u Nu) as (s & a & c & S & X1 & Y1 & C1). destruct (dia_cases v Nv) as (t & b & d & T & X2 & Y2 & C2).
  unfold cross in H. rewrite X1, Y1, X2, Y2 in H. assert (K : 0 < a * d - c * b).
  { assert (E : s * a * (t * d) - s * c * (t * b) == (s * t) * (a * d - c * b)) by ring. rewrite E in H.
    assert (0 < s * t) by nra. nra. }
  clear H X1 Y1 X2 Y2 S T.
  destruct C1 as [C1|[C1|[C1|C1]]]; destruct C2 as [C2|[C2|[C2|C2]]]; destruct C1 as (A1 & A2 & A3 & ->); destruct C2 as (B1 & B2 & B3 & ->);
   rewrite A3, B3 in K; rewrite A3 in A2; rewrite B3 in B2; clear A3 B3; first [left; split; nra | right; split; nra].
Qed.
Lemma dia_flat : forall u v, nonzero u -> nonzero v -> cross u v == 0 ->
  (0 < dot u v -> dia v == dia u) /\ (dot u v < 0 -> dia v == dia u + 2 \/ dia v == dia u - 2) /\ ~ dot u v == 0.
Proof.
  intros u v Nu Nv H. destruct (dia_cases u Nu) as (s & a & c & S & X1 & Y1 & C1). destruct (dia_cases v Nv) as (t & b & d & T & X2 & Y2 & C2).
  unfold cross in H. unfold dot. rewrite X1, Y1, X2, Y2 in *. assert (ST : 0 < s * t) by nra. assert (K : a * d - c * b == 0).
  { assert (E : s * a * (t * d) - s * c * (t * b) == (s * t) * (a * d - c * b)) by ring. rewrite E in H. nra. }
  assert (ED : s * a * (t * b) + s * c * (t * d) == (s * t) * (a * b + c * d)) by ring. rewrite ED.
  assert (G : (0 < a * b + c * d -> dia v == dia u) /\ (a * b + c * d < 0 -> dia v == dia u + 2 \/ dia v == dia u - 2) /\ ~ a * b + c * d == 0).
  { clear H ED ST X1 Y1 X2 Y2 S T s t.
    destruct C1 as [C1|[C1|[C1|C1]]]; destruct C2 as [C2|[C2|[C2|C2]]]; destruct C1 as (A1 & A2 & A3 & ->); destruct C2 as (B1 & B2 & B3 & ->);
     rewrite A3, B3 in *; clear A3 B3 c d; (split; [|split]); try (intro D; nra). all: intro D; try (left; nra); try (right; nra). }
  destruct G as (G1 & G2 & G3). split; [|split].
  - intro D. apply G1. nra.
  - intro D. apply G2. nra.
  - intro D. apply G3. nra.
Qed.

(** [t] is an angle of [v], up to whole turns. *)
Definition angle_of (v : pt) (t : Q) : Prop := exists z, t == dia v + 4 * inject_Z z.
Lemma angle_signs : forall u v s t, nonzero u -> nonzero v -> angle_of u s -> angle_of v t ->
  (0 < t - s < 2 -> 0 < cross u v) /\ (-2 < t - s < 0 -> cross u v < 0) /\ (t == s -> cross u v == 0 /\ 0 < dot u v) /\
  (t == s + 2 \/ t == s - 2 -> cross u v == 0 /\ dot u v < 0).
Proof.
  intros u v s t Nu Nv (z & Hs) (w & Ht). pose proof (dia_range u Nu) as Ru. pose proof (dia_range v Nv) as Rv.
  assert (E : t - s == dia v - dia u + 4 * inject_Z (w - z)) by (rewrite Hs, Ht; unfold Z.sub; rewrite inject_Z_plus, inject_Z_opp; ring).
  assert (C : (0 < cross u v /\ (0 < dia v - dia u < 2 \/ -4 < dia v - dia u < -2)) \/ (cross u v < 0 /\ (-2 < dia v - dia u < 0 \/ 2 < dia v - dia u < 4)) \/
     (cross u v == 0 /\ ((0 < dot u v /\ dia v == dia u) \/ (dot u v < 0 /\ (dia v == dia u + 2 \/ dia v == dia u - 2))))).
  { destruct (Q_dec (cross u v) 0) as [[K|K]|K].
    - right; left. split; [exact K|]. assert (K' : 0 < cross v u) by (unfold cross in *; lra). apply dia_left in K'; [lra|assumption|assumption].
    - left. split; [exact K|]. apply dia_left; assumption.
    - right; right. split; [exact K|]. destruct (dia_flat u v Nu Nv K) as (D1 & D2 & D3). destruct (Q_dec (dot u v) 0) as [[D|D]|D]; [right; auto|left; auto|contradiction]. }
  set (k := (w - z)%Z) in *. clearbody k. clear Hs Ht Nu Nv.
  assert (KC : forall a b : Q, a < t - s -> t - s < b -> a - 4 < 4 * inject_Z k /\ 4 * inject_Z k < b + 4) by (intros; lra).
  assert (K3 : (k <= -2)%Z \/ k = (-1)%Z \/ k = 0%Z \/ k = 1%Z \/ (2 <= k)%Z) by lia.
  assert (KV : (k <= -2)%Z -> inject_Z k <= -2) by (intro Hk; rewrite Zle_Qle in Hk; exact Hk).
  assert (KW : (2 <= k)%Z -> 2 <= inject_Z k) by (intro Hk; rewrite Zle_Qle in Hk; exact Hk).
  destruct K3 as [K|[K|[K|[K|K]]]].
  - specialize (KV K). repeat split; intros; lra.
  - subst k. change (inject_Z (-1)) with (-1) in *. repeat split; intros; lra.
  - subst k. change (inject_Z 0) with 0 in *. repeat split; intros; lra.
  - subst k. change (inject_Z 1) with 1 in *. repeat split; intros; lra.
  - specialize (KW K). repeat split; intros; lra.
Qed.

(** ** The edges of a convex polygon, counted on around it *)
Definition vtx (ps : list pt) (i : nat) : pt := pnth ps (i mod length ps).
(** Edge [i] ends in vertex [i]. *)
Definition from (ps : list pt) (i : nat) : pt := pnth ps (prev (length ps) (i mod length ps)).
Definition edg (ps : list pt) (i : nat) : pt := vsub (vtx ps i) (from ps i).
Definition turn_by (u v : pt) : Q := if Qlt_le_dec 0 (dia v - dia u) then dia v - dia u else dia v - dia u + 4.
Fixpoint theta (ps : list pt) (i : nat) : Q :=
  match i with O => dia (edg ps 0) | S k => theta ps k + turn_by (edg ps k) (edg ps (S k)) end.

Section Around.
Variable ps : list pt.
Hypothesis CP : convex_polygon ps.
Let n := length ps.
Lemma L3 : (3 <= n)%nat. Proof. exact (proj2 CP). Qed.

Lemma vtx_lt : forall i, (i mod n < n)%nat.
Proof. pose proof L3 as L3. intro i. apply Nat.mod_upper_bound. lia. Qed.
Lemma from_S : forall i, from ps (S i) = vtx ps i.
Proof.
  pose proof L3 as L3.
  intro i. unfold from, vtx, prev. fold n. f_equal. pose proof (vtx_lt i) as H.
  replace (S i) with (i + 1)%nat by lia. rewrite Nat.add_mod by lia. rewrite (Nat.mod_small 1) by lia.
  destruct (Nat.eq_dec (i mod n + 1) n) as [E|E].
  - rewrite E, Nat.mod_same by lia. rewrite Nat.mod_small by lia. lia.
  - rewrite (Nat.mod_small (i mod n + 1)) by lia. replace (i mod n + 1 + n - 1)%nat with (i mod n + 1 * n)%nat by lia.
    rewrite Nat.mod_add by lia. apply Nat.mod_small. exact H.
Qed.
Lemma vtx_turn : forall i, vtx ps (i + n) = vtx ps i.
Proof. pose proof L3 as L3. intro i. unfold vtx. fold n. rewrite <- (Nat.mul_1_l n) at 1. rewrite Nat.mod_add by lia. reflexivity. Qed.
Lemma from_turn : forall i, from ps (i + n) = from ps i.
Proof. pose proof L3 as L3. intro i. unfold from. fold n. rewrite <- (Nat.mul_1_l n) at 2. rewrite Nat.mod_add by lia. reflexivity. Qed.
Lemma edg_turn : forall i, edg ps (i + n) = edg ps i.
Proof. intro i. unfold edg. rewrite vtx_turn, from_turn. reflexivity. Qed.
Lemma edg_nonzero : forall i, nonzero (edg ps i).
Proof. intro i. unfold edg, from, vtx. apply convex_nonzero; [exact CP|apply vtx_lt]. Qed.
Lemma around_left : forall i X, in_hull ps X -> 0 <= tri2 (from ps i) (vtx ps i) X.
Proof. intros i X H. unfold from, vtx. apply hull_prev; [exact CP|apply vtx_lt|exact H]. Qed.
Lemma around_on : forall i X, in_hull ps X -> tri2 (from ps i) (vtx ps i) X == 0 -> on_segment (from ps i) (vtx ps i) X.
Proof. intros i X H. unfold from, vtx. apply hull_on_edge; [exact CP|apply vtx_lt|exact H]. Qed.
Lemma around_in : forall i X, on_segment (from ps i) (vtx ps i) X -> in_hull ps X.
Proof. intros i X H. unfold from, vtx in H. eapply edge_in_hull; [| |exact H]; [apply prev_lt|]; apply vtx_lt. Qed.
Lemma vtx_in : forall i, in_hull ps (vtx ps i).
Proof. intro i. apply vertex_in_hull, pnth_In, vtx_lt. Qed.
Lemma around_strict : forall i k, (k mod n <> i mod n)%nat -> (k mod n <> prev n (i mod n))%nat -> 0 < tri2 (from ps i) (vtx ps i) (vtx ps k).
Proof.
  pose proof L3 as L3.
  intros i k N1 N2. destruct CP as [C L]. unfold from, vtx. fold n.
  pose proof (convex_edge_vertex ps (prev n (i mod n)) (k mod n) C L (prev_lt _ _ (vtx_lt i)) (vtx_lt k) N2) as T. fold n in T.
  rewrite (prev_next n _ (vtx_lt i)) in T. exact (T N1).
Qed.
Lemma edg_left : forall i, 0 < cross (edg ps i) (edg ps (S i)).
Proof.
  pose proof L3 as L3.
  intro i.
  assert (K : 0 < tri2 (from ps i) (vtx ps i) (vtx ps (S i))).
  { pose proof (vtx_lt i) as Hi. apply around_strict.
    - replace (S i) with (i + 1)%nat by lia. rewrite Nat.add_mod by lia. rewrite (Nat.mod_small 1) by lia.
      destruct (Nat.eq_dec (i mod n + 1) n) as [E|E]; [rewrite E, Nat.mod_same by lia; lia|rewrite Nat.mod_small by lia; lia].
    - unfold prev. replace (S i) with (i + 1)%nat by lia. rewrite (Nat.add_mod i 1) by lia. rewrite (Nat.mod_small 1) by lia.
      destruct (Nat.eq_dec (i mod n) 0) as [Z|Z].
      + rewrite Z, !Nat.mod_small by lia. lia.
      + replace (i mod n + n - 1)%nat with (i mod n - 1 + 1 * n)%nat by lia. rewrite Nat.mod_add by lia. rewrite (Nat.mod_small (i mod n - 1)) by lia.
        destruct (Nat.eq_dec (i mod n + 1) n) as [E|E]; [rewrite E, Nat.mod_same by lia; lia|rewrite Nat.mod_small by lia; lia]. }
  unfold edg. rewrite from_S. unfold tri2, cross, vsub in *. cbn [px py] in *. lra.
Qed.
Lemma turn_range : forall i, 0 < turn_by (edg ps i) (edg ps (S i)) < 2.
Proof.
  intro i. pose proof (dia_left _ _ (edg_nonzero i) (edg_nonzero (S i)) (edg_left i)) as H. unfold turn_by. destruct (Qlt_le_dec _ _); lra.
Qed.
Lemma theta_S : forall i, theta ps i < theta ps (S i) < theta ps i + 2.
Proof. intro i. cbn [theta]. pose proof (turn_range i). lra. Qed.
Lemma theta_mono : forall i j, (i < j)%nat -> theta ps i < theta ps j.
Proof. intros i j H. induction H as [|j H IH]; [apply theta_S|]. pose proof (theta_S j). lra. Qed.
Lemma theta_mono_le : forall i j, (i <= j)%nat -> theta ps i <= theta ps j.
Proof. intros i j H. destruct (Nat.eq_dec i j) as [->|N]; [lra|]. pose proof (theta_mono i j ltac:(lia)). lra. Qed.
Lemma theta_angle : forall i, angle_of (edg ps i) (theta ps i).
Proof.
  induction i as [|i [z IH]]; [exists 0%Z; cbn [theta]; change (inject_Z 0) with 0; ring|].
  cbn [theta]. unfold turn_by. destruct (Qlt_le_dec _ _).
  - exists z. rewrite IH. ring.
  - exists (z + 1)%Z. rewrite IH, inject_Z_plus. change (inject_Z 1) with 1. ring.
Qed.
Definition edg_signs i j := angle_signs _ _ _ _ (edg_nonzero i) (edg_nonzero j) (theta_angle i) (theta_angle j).

(** At a vertex where the first edge goes down and the second does not, the polygon is above. *)
Lemma lowest : forall A i X, cross A (edg ps i) <= 0 -> 0 <= cross A (edg ps (S i)) -> in_hull ps X -> cross A (vtx ps i) <= cross A X.
Proof.
  intros A i X H1 H2 HX. pose proof (around_left i X HX) as T1. pose proof (around_left (S i) X HX) as T2. pose proof (edg_left i) as C.
  rewrite from_S in T2. set (u := edg ps i) in *. set (v := edg ps (S i)) in *. set (p := vtx ps i) in *.
  assert (E1 : tri2 (from ps i) p X == cross u (vsub X p)) by (unfold u, edg, p, tri2, cross, vsub; cbn [px py]; ring).
  assert (E2 : tri2 p (vtx ps (S i)) X == cross v (vsub X p)) by (unfold v, edg; rewrite from_S; unfold p, tri2, cross, vsub; cbn [px py]; ring).
  rewrite E1 in T1. rewrite E2 in T2. set (w := vsub X p) in *.
  assert (ED : cross A X - cross A p == cross A w) by (unfold w, cross, vsub; cbn [px py]; ring).
  assert (I : cross u v * cross A w == cross u w * cross A v - cross v w * cross A u) by (unfold cross; ring).
  assert (0 <= cross u w * cross A v) by (apply Qmult_le_0_compat; assumption).
  assert (0 <= cross v w * - cross A u) by (apply Qmult_le_0_compat; lra).
  assert (0 <= cross A w); [|lra]. nra.
Qed.

Lemma theta_first : forall i, (i < n)%nat -> theta ps i < theta ps 0 + 4.
Proof.
  pose proof L3 as L3.
  induction i as [|i IH]; intro H; [lra|]. specialize (IH ltac:(lia)). pose proof (theta_S i) as S.
  destruct (Qlt_le_dec (theta ps (Datatypes.S i)) (theta ps 0 + 4)) as [K|K]; [exact K|exfalso].
  assert (I0 : i <> 0%nat) by (intro Z; subst i; lra).
  assert (H1 : cross (edg ps 0) (edg ps i) < 0).
  { destruct (theta_angle i) as [z Hz]. apply (angle_signs (edg ps 0) (edg ps i) (theta ps 0) (theta ps i - 4) (edg_nonzero _) (edg_nonzero _) (theta_angle _)); [|lra].
    exists (z - 1)%Z. rewrite Hz. unfold Z.sub. rewrite inject_Z_plus. change (inject_Z (-(1))) with (-1). ring. }
  assert (H2 : 0 <= cross (edg ps 0) (edg ps (Datatypes.S i))).
  { destruct (theta_angle (Datatypes.S i)) as [z Hz].
    assert (G := angle_signs (edg ps 0) (edg ps (Datatypes.S i)) (theta ps 0) (theta ps (Datatypes.S i) - 4) (edg_nonzero _) (edg_nonzero _) (theta_angle _)).
    destruct G as (G1 & _ & G2 & _).
    { exists (z - 1)%Z. rewrite Hz. unfold Z.sub. rewrite inject_Z_plus. change (inject_Z (-(1))) with (-1). ring. }
    destruct (Qeq_dec (theta ps (Datatypes.S i) - 4) (theta ps 0)) as [E|E]; [apply G2 in E; lra|]. apply Qlt_le_weak, G1. lra. }
  pose proof (lowest (edg ps 0) i (vtx ps 0) ltac:(lra) H2 (vtx_in 0)) as T.
  assert (T' : 0 < tri2 (from ps 0) (vtx ps 0) (vtx ps i)).
  { apply around_strict; rewrite (Nat.mod_small i), (Nat.mod_small 0) by lia; [exact I0|]. unfold prev. rewrite Nat.mod_small by lia. lia. }
  assert (E : tri2 (from ps 0) (vtx ps 0) (vtx ps i) == cross (edg ps 0) (vtx ps i) - cross (edg ps 0) (vtx ps 0)) by (unfold edg, tri2, cross, vsub; cbn [px py]; ring).
  rewrite E in T'. lra.
Qed.
Lemma theta_turn : forall i, theta ps (i + n) == theta ps i + 4.
Proof.
  pose proof L3 as L3.
  induction i as [|i IH].
  - rewrite Nat.add_0_l. destruct (theta_angle n) as [z Hz]. destruct (theta_angle 0) as [z0 Hz0].
    assert (EN : edg ps n = edg ps 0) by (rewrite <- (Nat.add_0_l n); apply edg_turn). rewrite EN in Hz.
    pose proof (theta_mono 0 n ltac:(lia)) as M. pose proof (theta_first (n - 1) ltac:(lia)) as F. pose proof (theta_S (n - 1)) as S.
    replace (Datatypes.S (n - 1)) with n in S by lia.
    assert (E : theta ps n - theta ps 0 == 4 * inject_Z (z - z0)) by (rewrite Hz, Hz0; unfold Z.sub; rewrite inject_Z_plus, inject_Z_opp; ring).
    assert (K : (z - z0 = 1)%Z).
    { assert (0 < inject_Z (z - z0)) by lra. assert (inject_Z (z - z0) < 2) by lra.
      change 0 with (inject_Z 0) in H. change 2 with (inject_Z 2) in H0. rewrite <- Zlt_Qlt in H, H0. lia. }
    rewrite K in E. change (inject_Z 1) with 1 in E. lra.
  - cbn [Nat.add theta]. rewrite IH. change (S (i + n)) with (S i + n)%nat. rewrite !edg_turn. ring.
Qed.
End Around.
