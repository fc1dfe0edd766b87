(** Segment against triangle: proofs. *)
From Verif Require Import Base CmpModel OrientModel OrientSpec OrientProof DistModel DistSpec DistProof LinIntModel LinIntSpec LinIntProof PolygonModel PolygonSpec PolygonProof PolygonBorderProof PlanarModel PlanarSpec PlanarProof PlanarProof2 PlanarProof4 PlanarProof5 TriModel.
From Coq Require Import Lia Sorting.Sorted.

(** ** Extreme points *)
Definition extreme (S : pt -> Prop) (X : pt) : Prop := S X /\ forall Y Z t, S Y -> S Z -> 0 < t < 1 -> X =p= lerp Y Z t -> Y =p= Z.
Lemma lerp_same : forall Y Z t, Y =p= Z -> lerp Y Z t =p= Y.
Proof. intros Y Z t [E1 E2]. split; unfold lerp, vadd, vscale, vsub; cbn; rewrite <- ?E1, <- ?E2; ring. Qed.
Lemma extreme_compat : forall (S : pt -> Prop) X X', (forall Y Y', Y =p= Y' -> S Y -> S Y') -> X =p= X' -> extreme S X -> extreme S X'.
Proof. intros S X X' HS E [H1 H2]. split; [apply (HS X); assumption|]. intros Y Z t SY SZ Ht EX. apply (H2 Y Z t SY SZ Ht). eapply pteq_trans; [exact E|exact EX]. Qed.
Lemma single_extreme : forall S X Z, is_single_point S X -> (extreme S Z <-> Z =p= X).
Proof.
  intros S X Z H. split; [intros [SZ _]; apply H, SZ|]. intro E. split; [apply H, E|]. intros Y W t SY SW _ _. apply H in SY, SW. eapply pteq_trans; [exact SY|apply pteq_sym, SW].
Qed.
Lemma empty_extreme : forall S Z, is_empty_set S -> ~ extreme S Z.
Proof. intros S Z H [SZ _]. apply (H Z SZ). Qed.
Lemma lerp_lerp : forall X Y a b t, lerp (lerp X Y a) (lerp X Y b) t =p= lerp X Y (a + t * (b - a)).
Proof. intros. split; unfold lerp, vadd, vscale, vsub; cbn; ring. Qed.
Lemma lerp_cong : forall Y Y' Z Z' t, Y =p= Y' -> Z =p= Z' -> lerp Y Z t =p= lerp Y' Z' t.
Proof. intros Y Y' Z Z' t [E1 E2] [E3 E4]. split; unfold lerp, vadd, vscale, vsub; cbn; rewrite ?E1, ?E2, ?E3, ?E4; reflexivity. Qed.
Lemma lerp_param : forall X Y t t', t == t' -> lerp X Y t =p= lerp X Y t'.
Proof. intros X Y t t' E. split; unfold lerp, vadd, vscale, vsub; cbn; rewrite E; reflexivity. Qed.
Lemma lerp_0 : forall X Y, lerp X Y 0 =p= X.
Proof. intros. split; unfold lerp, vadd, vscale, vsub; cbn; ring. Qed.
Lemma lerp_1 : forall X Y, lerp X Y 1 =p= Y.
Proof. intros. split; unfold lerp, vadd, vscale, vsub; cbn; ring. Qed.
Lemma lerp_inj : forall X Y s t, ~ X =p= Y -> lerp X Y s =p= lerp X Y t -> s == t.
Proof.
  intros [x1 y1] [x2 y2] s t N [E1 E2]. unfold lerp, vadd, vscale, vsub in *; cbn in *.
  destruct (Qeq_dec s t) as [G|G]; [exact G|exfalso]. apply N. unfold pteq; cbn.
  assert (F1 : (s - t) * (x2 - x1) == 0) by lra. assert (F2 : (s - t) * (y2 - y1) == 0) by lra.
  apply Qmult_integral in F1. apply Qmult_integral in F2. split; lra.
Qed.
Lemma lerp_eq_ends : forall X Y s t, X =p= Y -> lerp X Y s =p= lerp X Y t.
Proof. intros X Y s t E. eapply pteq_trans; [apply lerp_same, E|apply pteq_sym, lerp_same, E]. Qed.
Lemma pt_eq_dec : forall X Y : pt, X =p= Y \/ ~ X =p= Y.
Proof. intros X Y. unfold pteq. destruct (Qeq_dec (px X) (px Y)); [|tauto]. destruct (Qeq_dec (py X) (py Y)); tauto. Qed.
(** The extreme points of a segment are its ends. *)
Lemma segment_extreme : forall S X Y Z, is_segment_set S X Y -> (extreme S Z <-> Z =p= X \/ Z =p= Y).
Proof.
  intros S X Y Z H.
  assert (Mem : forall s, 0 <= s <= 1 -> S (lerp X Y s)) by (intros s Hs; apply H; exists s; split; [exact Hs|apply pteq_refl]).
  assert (HS : forall U V, U =p= V -> S U -> S V).
  { intros U V E SU. apply H in SU. apply H. eapply on_segment_compat; [apply pteq_refl|apply pteq_refl|exact E|exact SU]. }
  split.
  - intros [SZ HZ]. apply H in SZ. destruct SZ as (s & Hs & E).
    destruct (Qeq_dec s 0) as [S0|S0]; [left; eapply pteq_trans; [exact E|]; eapply pteq_trans; [apply lerp_param, S0|apply lerp_0]|].
    destruct (Qeq_dec s 1) as [S1|S1]; [right; eapply pteq_trans; [exact E|]; eapply pteq_trans; [apply lerp_param, S1|apply lerp_1]|].
    left. assert (G : X =p= Y).
    { apply (HZ X Y s); [apply H, DistProof.on_segment_ends|apply H, DistProof.on_segment_ends| |exact E]. lra. }
    eapply pteq_trans; [exact E|apply lerp_same, G].
  - assert (Par : forall U V t s, S U -> S V -> 0 < t < 1 -> s == 0 \/ s == 1 -> lerp X Y s =p= lerp U V t -> U =p= V).
    { intros U V t s SU SV Ht Hs E. destruct (pt_eq_dec X Y) as [G|G].
      - apply H in SU, SV. destruct SU as (u & _ & Eu). destruct SV as (v & _ & Ev). eapply pteq_trans; [exact Eu|]. eapply pteq_trans; [apply (lerp_eq_ends X Y u v G)|apply pteq_sym, Ev].
      - apply H in SU, SV. destruct SU as (u & Hu & Eu). destruct SV as (v & Hv & Ev).
        assert (E' : s == u + t * (v - u)).
        { apply (lerp_inj X Y); [exact G|]. eapply pteq_trans; [exact E|]. eapply pteq_trans; [apply lerp_cong; [exact Eu|exact Ev]|apply lerp_lerp]. }
        assert (u == v) by (destruct Hs; nra).
        eapply pteq_trans; [exact Eu|]. eapply pteq_trans; [apply lerp_param; eassumption|apply pteq_sym, Ev]. }
    intros [E|E].
    + apply (extreme_compat S X); [exact HS|apply pteq_sym, E|]. split; [apply H, DistProof.on_segment_ends|]. intros U V t SU SV Ht EX.
      apply (Par U V t 0 SU SV Ht); [left; reflexivity|]. eapply pteq_trans; [apply lerp_0|exact EX].
    + apply (extreme_compat S Y); [exact HS|apply pteq_sym, E|]. split; [apply H, DistProof.on_segment_ends|]. intros U V t SU SV Ht EX.
      apply (Par U V t 1 SU SV Ht); [right; reflexivity|]. eapply pteq_trans; [apply lerp_1|exact EX].
Qed.

(** ** What a side adds *)
Lemma add_contacts_ok : forall A B C D s, nonzero (vsub B A) -> nonzero (vsub D C) -> StronglySorted lexlt s -> exists s',
  add_contacts direct A B C D s = Some s' /\ StronglySorted lexlt s' /\
  forall X, inp X s' <-> extreme (both (on_segment A B) (on_segment C D)) X \/ inp X s.
Proof.
  intros A B C D s N1 N2 Hs. destruct (segseg_ok A B C D N1 N2) as (ty & pts & R & Sp). cbv zeta in Sp. unfold add_contacts. rewrite R. destruct ty.
  - contradiction.
  - destruct Sp as [-> S1]. exists s. split; [reflexivity|]. split; [exact Hs|]. intro Z. pose proof (empty_extreme _ Z S1). tauto.
  - destruct Sp as (X & -> & S1 & _). exists (set_insert direct X s). split; [reflexivity|]. split; [apply set_insert_sorted, Hs|]. intro Z. rewrite set_insert_in, (single_extreme _ _ Z S1). tauto.
  - destruct Sp as (X & Y & -> & S1 & _). exists (set_insert direct Y (set_insert direct X s)). split; [reflexivity|]. split; [apply set_insert_sorted, set_insert_sorted, Hs|].
    intro Z. rewrite !set_insert_in, (segment_extreme _ _ _ Z S1). tauto.
  - destruct Sp as (X & -> & S1 & _). exists (set_insert direct X s). split; [reflexivity|]. split; [apply set_insert_sorted, Hs|]. intro Z. rewrite set_insert_in, (single_extreme _ _ Z S1). tauto.
Qed.

(** ** Triangles *)
Lemma in_triangle_rot : forall a b c z, in_triangle a b c z -> in_triangle b c a z.
Proof.
  intros a b c z (x & y & w & Hx & Hy & Hw & S & [E1 E2]). exists y, w, x. repeat split; try assumption; [lra| |]; unfold vadd, vscale in *; cbn in *; lra.
Qed.
Lemma in_triangle_swap : forall a b c z, in_triangle a b c z -> in_triangle a c b z.
Proof.
  intros a b c z (x & y & w & Hx & Hy & Hw & S & [E1 E2]). exists x, w, y. repeat split; try assumption; [lra| |]; unfold vadd, vscale in *; cbn in *; lra.
Qed.
Lemma tri2_rot : forall a b c, tri2 b c a == tri2 a b c.
Proof. intros. unfold tri2, cross, vsub; cbn. ring. Qed.
Lemma in_triangle_sign : forall a b c z, ~ tri2 a b c == 0 -> (in_triangle a b c z <-> 0 <= tri2 a b c * tri2 a b z /\ 0 <= tri2 a b c * tri2 b c z /\ 0 <= tri2 a b c * tri2 c a z).
Proof.
  intros a b c z N. destruct (Qlt_le_dec 0 (tri2 a b c)) as [P|P].
  - rewrite in_triangle_iff by exact P. split; [intros (H1 & H2 & H3); repeat split; apply Qmult_le_0_compat; lra|].
    intros (H1 & H2 & H3). set (d := tri2 a b c) in *. clearbody d. repeat split; nra.
  - assert (P' : 0 < tri2 a c b) by (assert (tri2 a c b == - tri2 a b c) by (unfold tri2, cross, vsub; cbn; ring); lra).
    assert (E : in_triangle a b c z <-> in_triangle a c b z) by (split; apply in_triangle_swap). rewrite E, in_triangle_iff by exact P'.
    assert (F1 : tri2 a c z == - tri2 c a z) by (unfold tri2, cross, vsub; cbn; ring). assert (F2 : tri2 c b z == - tri2 b c z) by (unfold tri2, cross, vsub; cbn; ring).
    assert (F3 : tri2 b a z == - tri2 a b z) by (unfold tri2, cross, vsub; cbn; ring). rewrite F1, F2, F3.
    assert (P2 : tri2 a b c < 0) by lra. set (d := tri2 a b c) in *. clearbody d. split; intros (H1 & H2 & H3); repeat split; nra.
Qed.
Lemma side_in_triangle : forall a b c z, on_segment a b z -> in_triangle a b c z.
Proof.
  intros a b c z (t & Ht & [E1 E2]). exists (1 - t), t, 0. repeat split; try lra; unfold lerp, vadd, vscale, vsub in *; cbn in *; lra.
Qed.
Lemma in_triangle_side : forall a b c z, ~ tri2 a b c == 0 -> in_triangle a b c z -> tri2 a b z == 0 -> on_segment a b z.
Proof.
  intros a b c z N (x & y & w & Hx & Hy & Hw & S & [E1 E2]) H. unfold vadd, vscale in *; cbn in *.
  assert (W : w * tri2 a b c == tri2 a b z).
  { unfold tri2, cross, vsub; cbn. rewrite E1, E2. setoid_replace x with (1 - y - w) by lra. ring. }
  rewrite H in W. apply Qmult_integral in W. destruct W as [W|W]; [|contradiction].
  exists y. split; [lra|]. split; unfold lerp, vadd, vscale, vsub; cbn; [rewrite E1|rewrite E2]; rewrite W; setoid_replace x with (1 - y) by lra; ring.
Qed.

Section Triangle.
Variables t0 t1 t2 : pt.
Hypothesis HT : ~ tri2 t0 t1 t2 == 0.
Variables A B : pt.
Hypothesis HAB : nonzero (vsub B A).
Let T := in_triangle t0 t1 t2.
Let common := both (on_segment A B) T.

Lemma T_compat : forall Y Z, Y =p= Z -> T Y -> T Z.
Proof. intros Y Z E (x & y & w & Hx & Hy & Hw & S & F). exists x, y, w. repeat (split; [assumption|]). eapply pteq_trans; [apply pteq_sym, E|exact F]. Qed.
Lemma common_compat : forall Y Z, Y =p= Z -> common Y -> common Z.
Proof. intros Y Z E [H1 H2]. split; [eapply on_segment_compat; [apply pteq_refl|apply pteq_refl|exact E|exact H1]|apply (T_compat Y); assumption]. Qed.
Lemma A_ne_B : ~ A =p= B.
Proof. intros [E1 E2]. apply HAB. unfold vsub; cbn. split; lra. Qed.

(** A side is a face of the triangle. *)
Definition face (c d : pt) : Prop := exists k, (forall z, T z -> 0 <= k * tri2 c d z) /\ (forall z, on_segment c d z <-> T z /\ k * tri2 c d z == 0).
Lemma face_0 : face t0 t1.
Proof.
  exists (tri2 t0 t1 t2). split; [intros z Hz; apply in_triangle_sign in Hz; tauto|]. intro z. split.
  - intro H. split; [apply side_in_triangle, H|]. destruct H as (t & _ & E). rewrite (tri2_pteq _ _ _ _ E), tri2_lerp. unfold tri2, cross, vsub; cbn. ring.
  - intros [H1 H2]. apply Qmult_integral in H2. destruct H2 as [H2|H2]; [contradiction|]. apply (in_triangle_side t0 t1 t2 z HT H1 H2).
Qed.
Lemma face_1 : face t1 t2.
Proof.
  exists (tri2 t0 t1 t2). split; [intros z Hz; apply in_triangle_sign in Hz; tauto|]. intro z. split.
  - intro H. split; [apply in_triangle_rot, in_triangle_rot, side_in_triangle, H|]. destruct H as (t & _ & E). rewrite (tri2_pteq _ _ _ _ E), tri2_lerp. unfold tri2, cross, vsub; cbn. ring.
  - intros [H1 H2]. apply Qmult_integral in H2. destruct H2 as [H2|H2]; [contradiction|]. apply (in_triangle_side t1 t2 t0 z); [rewrite tri2_rot; exact HT|apply in_triangle_rot, H1|exact H2].
Qed.
Lemma face_2 : face t2 t0.
Proof.
  exists (tri2 t0 t1 t2). split; [intros z Hz; apply in_triangle_sign in Hz; tauto|]. intro z. split.
  - intro H. split; [apply in_triangle_rot, side_in_triangle, H|]. destruct H as (t & _ & E). rewrite (tri2_pteq _ _ _ _ E), tri2_lerp. unfold tri2, cross, vsub; cbn. ring.
  - intros [H1 H2]. apply Qmult_integral in H2. destruct H2 as [H2|H2]; [contradiction|]. apply (in_triangle_side t2 t0 t1 z); [rewrite tri2_rot, tri2_rot; exact HT|apply in_triangle_rot, in_triangle_rot, H1|exact H2].
Qed.
Lemma face_extreme : forall c d X, face c d -> extreme (both (on_segment A B) (on_segment c d)) X -> extreme common X.
Proof.
  intros c d X (k & F1 & F2) [[X1 X2] XE]. apply F2 in X2. destruct X2 as [X2 X3]. split; [split; assumption|]. intros Y Z t [Y1 Y2] [Z1 Z2] Ht E.
  assert (G : k * tri2 c d X == (1 - t) * (k * tri2 c d Y) + t * (k * tri2 c d Z)) by (rewrite (tri2_pteq _ _ _ _ E), tri2_lerp; ring).
  pose proof (F1 Y Y2) as GY. pose proof (F1 Z Z2) as GZ. set (gy := k * tri2 c d Y) in *. set (gz := k * tri2 c d Z) in *.
  assert (gy == 0 /\ gz == 0) as [Y0 Z0] by (clearbody gy gz; rewrite X3 in G; split; nra).
  apply (XE Y Z t); [split; [exact Y1|apply F2; split; assumption]|split; [exact Z1|apply F2; split; assumption]|exact Ht|exact E].
Qed.
Lemma extreme_face : forall c d X, face c d -> extreme common X -> on_segment c d X -> extreme (both (on_segment A B) (on_segment c d)) X.
Proof.
  intros c d X (k & F1 & F2) [[X1 X2] XE] X3. split; [split; assumption|]. intros Y Z t [Y1 Y2] [Z1 Z2] Ht E.
  apply (XE Y Z t); [split; [exact Y1|apply F2 in Y2; tauto]|split; [exact Z1|apply F2 in Z2; tauto]|exact Ht|exact E].
Qed.
Lemma on_AB_extreme : forall X, extreme (on_segment A B) X -> T X -> extreme common X.
Proof. intros X [X1 XE] X2. split; [split; assumption|]. intros Y Z t [Y1 _] [Z1 _] Ht E. apply (XE Y Z t); assumption. Qed.

(** A small step. *)
Lemma small_step : forall l : list (Q * Q), Forall (fun p => 0 < fst p) l -> exists e, 0 < e /\ Forall (fun p => 0 <= fst p + e * snd p /\ 0 <= fst p - e * snd p) l.
Proof.
  induction l as [|[a d] l IH]; intro H; [exists 1; split; [lra|constructor]|]. inversion H as [|? ? Ha Hl]; subst. destruct (IH Hl) as (e & He & F). cbn [fst] in Ha.
  assert (Shrink : forall e', 0 < e' <= e -> Forall (fun p => 0 <= fst p + e' * snd p /\ 0 <= fst p - e' * snd p) l).
  { intros e' He'. rewrite Forall_forall in *. intros [b c] I. pose proof (F _ I) as [F1 F2]. pose proof (Hl _ I) as F3. cbn [fst snd] in *. split; nra. }
  assert (exists e', 0 < e' <= e /\ e' * d <= a /\ - a <= e' * d) as (e' & He' & D1 & D2).
  { destruct (Qlt_le_dec 0 d) as [P|P].
    - destruct (Qlt_le_dec a (e * d)) as [P1|P1]; [|exists e; split; [lra|split; [lra|nra]]]. exists (a / d). split; [split; [apply Qlt_shift_div_l; lra|apply Qle_shift_div_r; lra]|].
      setoid_replace (a / d * d) with a by (field; lra). lra.
    - destruct (Qlt_le_dec (e * d) (- a)) as [P1|P1]; [|exists e; split; [lra|split; [nra|lra]]]. assert (d < 0) by nra. exists (a / - d). split; [split; [apply Qlt_shift_div_l; lra|apply Qle_shift_div_r; lra]|].
      setoid_replace (a / - d * d) with (- a) by (field; lra). lra. }
  exists e'. split; [lra|]. constructor; [cbn [fst snd]; lra|]. apply Shrink. exact He'.
Qed.
Lemma T_sides : forall z, T z -> on_segment t0 t1 z \/ on_segment t1 t2 z \/ on_segment t2 t0 z \/
  (0 < tri2 t0 t1 t2 * tri2 t0 t1 z /\ 0 < tri2 t0 t1 t2 * tri2 t1 t2 z /\ 0 < tri2 t0 t1 t2 * tri2 t2 t0 z).
Proof.
  intros z Hz. destruct face_0 as (k0 & _ & G0). destruct face_1 as (k1 & _ & G1). destruct face_2 as (k2 & _ & G2).
  assert (H := Hz). apply in_triangle_sign in H; [|exact HT]. destruct H as (H0 & H1 & H2).
  destruct (Qeq_dec (tri2 t0 t1 z) 0) as [E0|E0]; [left; apply (in_triangle_side t0 t1 t2 z HT Hz E0)|].
  destruct (Qeq_dec (tri2 t1 t2 z) 0) as [E1|E1]; [right; left; apply (in_triangle_side t1 t2 t0 z); [rewrite tri2_rot; exact HT|apply in_triangle_rot, Hz|exact E1]|].
  destruct (Qeq_dec (tri2 t2 t0 z) 0) as [E2|E2]; [right; right; left; apply (in_triangle_side t2 t0 t1 z); [rewrite tri2_rot, tri2_rot; exact HT|apply in_triangle_rot, in_triangle_rot, Hz|exact E2]|].
  right; right; right. assert (P : forall x, ~ x == 0 -> 0 <= tri2 t0 t1 t2 * x -> 0 < tri2 t0 t1 t2 * x).
  { intros x Nx L. destruct (Qeq_dec (tri2 t0 t1 t2 * x) 0) as [E|E]; [apply Qmult_integral in E; tauto|lra]. }
  repeat split; apply P; assumption.
Qed.
Lemma extreme_common : forall X, extreme common X <->
  (X =p= A /\ T A) \/ (X =p= B /\ T B) \/ extreme (both (on_segment A B) (on_segment t0 t1)) X \/
  extreme (both (on_segment A B) (on_segment t1 t2)) X \/ extreme (both (on_segment A B) (on_segment t2 t0)) X.
Proof.
  intro X. assert (EAB : forall Z, extreme (on_segment A B) Z <-> Z =p= A \/ Z =p= B) by (intro Z; apply segment_extreme; intro W; tauto). split.
  - intros HX. assert (HX' := HX). destruct HX' as [[X1 X2] XE].
    destruct (pt_eq_dec X A) as [EA|NA]; [left; split; [exact EA|apply (T_compat X A EA X2)]|].
    destruct (pt_eq_dec X B) as [EB|NB]; [right; left; split; [exact EB|apply (T_compat X B EB X2)]|].
    right; right. destruct (T_sides X X2) as [H|[H|[H|(P0 & P1 & P2)]]].
    + left. apply extreme_face; [apply face_0|exact HX|exact H].
    + right; left. apply extreme_face; [apply face_1|exact HX|exact H].
    + right; right. apply extreme_face; [apply face_2|exact HX|exact H].
    + exfalso. destruct X1 as (s & Hs & E).
      assert (S0 : ~ s == 0) by (intro G; apply NA; eapply pteq_trans; [exact E|]; eapply pteq_trans; [apply lerp_param, G|apply lerp_0]).
      assert (S1 : ~ s == 1) by (intro G; apply NB; eapply pteq_trans; [exact E|]; eapply pteq_trans; [apply lerp_param, G|apply lerp_1]).
      set (k := tri2 t0 t1 t2) in *.
      destruct (small_step [(s, 1); (1 - s, 1); (k * tri2 t0 t1 X, k * (tri2 t0 t1 B - tri2 t0 t1 A)); (k * tri2 t1 t2 X, k * (tri2 t1 t2 B - tri2 t1 t2 A)); (k * tri2 t2 t0 X, k * (tri2 t2 t0 B - tri2 t2 t0 A))]) as (e & He & F).
      { repeat (constructor; [cbn [fst]; lra|]). constructor. }
      inversion F as [|? ? F1 F']; subst; clear F. inversion F' as [|? ? F2 F]; subst; clear F'. inversion F as [|? ? F3 F']; subst; clear F. inversion F' as [|? ? F4 F]; subst; clear F'. inversion F as [|? ? F5 F']; subst; clear F F'.
      cbn [fst snd] in *.
      assert (M : forall c d u, k * tri2 c d (lerp A B (s + u)) == k * tri2 c d X + u * (k * (tri2 c d B - tri2 c d A))).
      { intros c d u. rewrite (tri2_pteq _ _ _ _ E), !tri2_lerp. ring. }
      assert (CY : common (lerp A B (s - e))).
      { split; [exists (s - e); split; [lra|apply pteq_refl]|]. apply in_triangle_sign; [exact HT|]. fold k. unfold Qminus at 1 2 3. rewrite !M. repeat split; lra. }
      assert (CZ : common (lerp A B (s + e))).
      { split; [exists (s + e); split; [lra|apply pteq_refl]|]. apply in_triangle_sign; [exact HT|]. fold k. rewrite !M. repeat split; lra. }
      assert (G := XE _ _ (1 # 2) CY CZ ltac:(split; reflexivity)).
      assert (G2 : lerp A B (s - e) =p= lerp A B (s + e)).
      { apply G. eapply pteq_trans; [exact E|]. eapply pteq_trans; [|apply pteq_sym, lerp_lerp]. apply lerp_param. ring. }
      apply lerp_inj in G2; [lra|apply A_ne_B].
  - intros [[E H]|[[E H]|[H|[H|H]]]].
    + apply (extreme_compat common A); [exact common_compat|apply pteq_sym, E|]. apply on_AB_extreme; [apply EAB; left; apply pteq_refl|exact H].
    + apply (extreme_compat common B); [exact common_compat|apply pteq_sym, E|]. apply on_AB_extreme; [apply EAB; right; apply pteq_refl|exact H].
    + apply (face_extreme t0 t1); [apply face_0|exact H].
    + apply (face_extreme t1 t2); [apply face_1|exact H].
    + apply (face_extreme t2 t0); [apply face_2|exact H].
Qed.

(** The common points are a segment. *)
Lemma clip : forall (l : list (Q * Q)) lo hi, lo <= hi ->
  (exists lo' hi', lo' <= hi' /\ forall s, (lo <= s <= hi /\ Forall (fun p => 0 <= fst p + s * snd p) l) <-> lo' <= s <= hi') \/
  (forall s, ~ (lo <= s <= hi /\ Forall (fun p => 0 <= fst p + s * snd p) l)).
Proof.
  induction l as [|[a d] l IH]; intros lo hi H; [left; exists lo, hi; split; [exact H|]; intro s; split; [tauto|split; [tauto|constructor]]|].
  assert (Step : (exists lo' hi', lo' <= hi' /\ forall s, (lo <= s <= hi /\ 0 <= a + s * d) <-> lo' <= s <= hi') \/ (forall s, ~ (lo <= s <= hi /\ 0 <= a + s * d))).
  { destruct (Qlt_le_dec 0 d) as [P|P].
    - set (c := - a / d). assert (C : forall s, 0 <= a + s * d <-> c <= s).
      { intro s. assert (E : a + s * d == (s - c) * d) by (unfold c; field; lra). rewrite E. split; intro; nra. }
      destruct (Qlt_le_dec hi c) as [P1|P1]; [right; intros s [K1 K2]; apply C in K2; lra|]. left. destruct (Qlt_le_dec lo c) as [P2|P2]; [exists c, hi|exists lo, hi]; (split; [lra|]; intro s; rewrite C; lra).
    - destruct (Qlt_le_dec d 0) as [P0|P0].
      + set (c := - a / d). assert (C : forall s, 0 <= a + s * d <-> s <= c).
        { intro s. assert (E : a + s * d == (s - c) * d) by (unfold c; field; lra). rewrite E. split; intro; nra. }
        destruct (Qlt_le_dec c lo) as [P1|P1]; [right; intros s [K1 K2]; apply C in K2; lra|]. left. destruct (Qlt_le_dec c hi) as [P2|P2]; [exists lo, c|exists lo, hi]; (split; [lra|]; intro s; rewrite C; lra).
      + assert (D0 : d == 0) by lra. assert (C : forall s, a + s * d == a) by (intro s; rewrite D0; ring).
        destruct (Qlt_le_dec a 0) as [P1|P1]; [right; intros s [_ K2]; rewrite C in K2; lra|]. left. exists lo, hi. split; [exact H|]. intro s. rewrite C. lra. }
  destruct Step as [(lo' & hi' & L & S1)|S1].
  - destruct (IH lo' hi' L) as [(lo2 & hi2 & L2 & S2)|S2].
    + left. exists lo2, hi2. split; [exact L2|]. intro s. rewrite <- S2, <- S1. rewrite Forall_cons_iff. cbn [fst snd]. tauto.
    + right. intros s [K1 K2]. apply Forall_cons_iff in K2. cbn [fst snd] in K2. apply (S2 s). rewrite <- S1. tauto.
  - right. intros s [K1 K2]. apply Forall_cons_iff in K2. cbn [fst snd] in K2. apply (S1 s). tauto.
Qed.
Lemma common_segment : is_empty_set common \/ exists P Q, is_segment_set common P Q.
Proof.
  set (k := tri2 t0 t1 t2).
  set (l := map (fun cd => (k * tri2 (fst cd) (snd cd) A, k * (tri2 (fst cd) (snd cd) B - tri2 (fst cd) (snd cd) A))) [(t0, t1); (t1, t2); (t2, t0)]).
  assert (M : forall s, T (lerp A B s) <-> Forall (fun p => 0 <= fst p + s * snd p) l).
  { intro s. unfold T. rewrite in_triangle_sign by exact HT. fold k. unfold l. cbn [map fst snd]. rewrite !Forall_cons_iff. cbn [fst snd].
    assert (E : forall c d, k * tri2 c d (lerp A B s) == k * tri2 c d A + s * (k * (tri2 c d B - tri2 c d A))) by (intros c d; rewrite tri2_lerp; ring).
    rewrite !E. split; [intros (H1 & H2 & H3); repeat split; try assumption; constructor|tauto]. }
  destruct (clip l 0 1 ltac:(lra)) as [(lo & hi & L & S1)|S1].
  - right. exists (lerp A B lo), (lerp A B hi). assert (I0 := proj2 (S1 lo) ltac:(lra)). assert (I1 := proj2 (S1 hi) ltac:(lra)). intro Z. split.
    + intros [(s & Hs & E) HZ]. assert (K : lo <= s <= hi) by (apply S1; split; [exact Hs|]; apply M, (T_compat Z); assumption).
      destruct (Qeq_dec lo hi) as [G|G].
      * exists 0. split; [lra|]. eapply pteq_trans; [exact E|]. eapply pteq_trans; [|apply pteq_sym, lerp_lerp]. apply lerp_param. lra.
      * exists ((s - lo) / (hi - lo)). split; [split; [apply Qle_shift_div_l; lra|apply Qle_shift_div_r; lra]|]. eapply pteq_trans; [exact E|]. eapply pteq_trans; [|apply pteq_sym, lerp_lerp]. apply lerp_param. field. lra.
    + intros (t & Ht & E). apply (common_compat (lerp A B (lo + t * (hi - lo)))); [apply pteq_sym; eapply pteq_trans; [exact E|apply lerp_lerp]|].
      assert (K := proj2 (S1 (lo + t * (hi - lo))) ltac:(nra)). split; [exists (lo + t * (hi - lo)); split; [tauto|apply pteq_refl]|apply M; tauto].
  - left. intros Z [(s & Hs & E) HZ]. apply (S1 s). split; [exact Hs|]. apply M, (T_compat Z); assumption.
Qed.

(** A sorted list without other points than two. *)
Lemma sorted_ends : forall s P Q, StronglySorted lexlt s -> (forall X, inp X s <-> X =p= P \/ X =p= Q) ->
  (exists X, s = [X] /\ X =p= P /\ X =p= Q) \/ (exists X Y, s = [X; Y] /\ ~ X =p= Y /\ ((X =p= P /\ Y =p= Q) \/ (X =p= Q /\ Y =p= P))).
Proof.
  intros s P Q Hs H. destruct s as [|X s]; [exfalso; destruct (proj2 (H P) (or_introl (pteq_refl P))) as (y & [] & _)|].
  inversion Hs as [|? ? Hs1 HX]; subst. rewrite Forall_forall in HX.
  destruct s as [|Y s].
  - left. exists X. split; [reflexivity|]. split.
    + destruct (proj2 (H P) (or_introl (pteq_refl P))) as (y & [<-|[]] & E). apply pteq_sym, E.
    + destruct (proj2 (H Q) (or_intror (pteq_refl Q))) as (y & [<-|[]] & E). apply pteq_sym, E.
  - right. assert (L1 : lexlt X Y) by (apply HX; left; reflexivity). assert (NXY : ~ X =p= Y) by (intro E; exact (lexlt_irrefl X Y E L1)).
    assert (KX := proj1 (H X) ltac:(exists X; split; [left; reflexivity|apply pteq_refl])). assert (KY := proj1 (H Y) ltac:(exists Y; split; [right; left; reflexivity|apply pteq_refl])).
    assert (Hne : forall U, (X =p= U /\ Y =p= U) -> False) by (intros U [E1 E2]; apply NXY; eapply pteq_trans; [exact E1|apply pteq_sym, E2]).
    exists X, Y. destruct s as [|Z s].
    + split; [reflexivity|]. split; [exact NXY|]. destruct KX, KY; try tauto; exfalso; [apply (Hne P)|apply (Hne Q)]; tauto.
    + exfalso. assert (L2 : lexlt X Z) by (apply HX; right; left; reflexivity). inversion Hs1 as [|? ? _ HY]; subst. rewrite Forall_forall in HY. assert (L3 : lexlt Y Z) by (apply HY; left; reflexivity).
      assert (KZ := proj1 (H Z) ltac:(exists Z; split; [right; right; left; reflexivity|apply pteq_refl])).
      assert (N2 : ~ X =p= Z) by (intro E; exact (lexlt_irrefl X Z E L2)). assert (N3 : ~ Y =p= Z) by (intro E; exact (lexlt_irrefl Y Z E L3)).
      assert (Tr : forall U V W : pt, U =p= W -> V =p= W -> U =p= V) by (intros U V W E1 E2; eapply pteq_trans; [exact E1|apply pteq_sym, E2]).
      destruct KX as [K1|K1], KY as [K2|K2], KZ as [K3|K3]; eauto.
Qed.
Lemma sides_nonzero : nonzero (vsub t1 t0) /\ nonzero (vsub t2 t1) /\ nonzero (vsub t0 t2).
Proof.
  repeat split; intros [E1 E2]; apply HT; unfold tri2, cross, vsub in *; cbn in *.
  - rewrite E1, E2. ring.
  - setoid_replace (px t2) with (px t1) by lra. setoid_replace (py t2) with (py t1) by lra. ring.
  - setoid_replace (px t2) with (px t0) by lra. setoid_replace (py t2) with (py t0) by lra. ring.
Qed.

(** The result for a set of points to start with that adds nothing new. *)
Lemma contacts_ok : forall s, StronglySorted lexlt s -> (forall X, inp X s -> extreme common X) ->
  (T A -> inp A s \/ extreme (both (on_segment A B) (on_segment t0 t1)) A \/ extreme (both (on_segment A B) (on_segment t1 t2)) A \/ extreme (both (on_segment A B) (on_segment t2 t0)) A) ->
  (T B -> inp B s \/ extreme (both (on_segment A B) (on_segment t0 t1)) B \/ extreme (both (on_segment A B) (on_segment t1 t2)) B \/ extreme (both (on_segment A B) (on_segment t2 t0)) B) ->
  exists s1 s2 s3, add_contacts direct A B t0 t1 s = Some s1 /\ add_contacts direct A B t1 t2 s1 = Some s2 /\ add_contacts direct A B t2 t0 s2 = Some s3 /\
  StronglySorted lexlt s3 /\ forall X, inp X s3 <-> extreme common X.
Proof.
  intros s Hs Hin HA HB. destruct sides_nonzero as (N0 & N1 & N2).
  destruct (add_contacts_ok A B t0 t1 s HAB N0 Hs) as (s1 & R1 & Hs1 & M1). destruct (add_contacts_ok A B t1 t2 s1 HAB N1 Hs1) as (s2 & R2 & Hs2 & M2). destruct (add_contacts_ok A B t2 t0 s2 HAB N2 Hs2) as (s3 & R3 & Hs3 & M3).
  exists s1, s2, s3. repeat (split; [assumption|]). intro X. rewrite M3, M2, M1, extreme_common.
  assert (Cp : forall c d Y Z, Y =p= Z -> extreme (both (on_segment A B) (on_segment c d)) Y -> extreme (both (on_segment A B) (on_segment c d)) Z).
  { intros c d Y Z E. apply extreme_compat; [|exact E]. intros U V F [U1 U2]. split; (eapply on_segment_compat; [apply pteq_refl|apply pteq_refl|exact F|assumption]). }
  assert (Ip : forall Y Z, Y =p= Z -> inp Y s -> inp Z s) by (intros Y Z E (y & I & F); exists y; split; [exact I|eapply pteq_trans; [apply pteq_sym, E|exact F]]).
  split.
  - intros [H|[H|[H|H]]]; [tauto|tauto|tauto|]. apply Hin in H. apply extreme_common in H. exact H.
  - intros [[E H]|[[E H]|H]]; [| |tauto].
    + apply pteq_sym in E. destruct (HA H) as [G|[G|[G|G]]]; [apply (Ip A X E) in G|apply (Cp _ _ A X E) in G|apply (Cp _ _ A X E) in G|apply (Cp _ _ A X E) in G]; tauto.
    + apply pteq_sym in E. destruct (HB H) as [G|[G|[G|G]]]; [apply (Ip B X E) in G|apply (Cp _ _ B X E) in G|apply (Cp _ _ B X E) in G|apply (Cp _ _ B X E) in G]; tauto.
Qed.
Lemma final_ok : forall s3, StronglySorted lexlt s3 -> (forall X, inp X s3 <-> extreme common X) ->
  (s3 = [] /\ is_empty_set common) \/ (exists X, s3 = [X] /\ is_single_point common X) \/ (exists X Y, s3 = [X; Y] /\ ~ X =p= Y /\ is_segment_set common X Y).
Proof.
  intros s3 Hs M. destruct common_segment as [E|(P & Q & E)].
  - left. split; [|exact E]. destruct s3 as [|X s3]; [reflexivity|]. exfalso. assert (G := proj1 (M X) ltac:(exists X; split; [left; reflexivity|apply pteq_refl])). exact (empty_extreme _ _ E G).
  - right. assert (M' : forall X, inp X s3 <-> X =p= P \/ X =p= Q) by (intro X; rewrite M; apply segment_extreme, E).
    destruct (sorted_ends s3 P Q Hs M') as [(X & -> & E1 & E2)|(X & Y & -> & NE & K)].
    + left. exists X. split; [reflexivity|]. intro Z. rewrite (E Z). split.
      * intros (t & _ & EZ). eapply pteq_trans; [exact EZ|]. eapply pteq_trans; [apply lerp_same; eapply pteq_trans; [apply pteq_sym, E1|exact E2]|apply pteq_sym, E1].
      * intro EZ. exists 0. split; [lra|]. eapply pteq_trans; [exact EZ|]. eapply pteq_trans; [exact E1|apply pteq_sym, lerp_0].
    + right. exists X, Y. split; [reflexivity|]. split; [exact NE|]. intro Z. rewrite (E Z). destruct K as [[E1 E2]|[E1 E2]].
      * split; apply on_segment_compat; try apply pteq_refl; try (apply pteq_sym; assumption); assumption.
      * split; intro K; apply on_segment_swap; revert K; apply on_segment_compat; try apply pteq_refl; try (apply pteq_sym; assumption); assumption.
Qed.
End Triangle.
