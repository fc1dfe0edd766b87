From Verif Require Import Base CmpModel CmpProof BoxModel BoxSpec BoxProof DistModel DistSpec DistProof OrientSpec OrientProof LinIntModel LinIntSpec LinIntProof BoxIntModel BoxIntSpec.

(** ** Rays *)

Definition le_inf (t : Q) (b : option Q) : Prop := match b with None => True | Some x => t <= x end.

Lemma qdiv_le : forall a b d, 0 < d -> (a * (1 / d) <= b <-> a <= b * d).
Proof.
  intros a b d H. assert (E : a * (1 / d) * d == a) by (field; lra). split; intro L.
  - rewrite <- E. nra.
  - apply Qle_lteq. destruct (Qlt_le_dec b (a * (1 / d))); [|apply Qle_lteq; assumption]. exfalso. nra.
Qed.
Lemma qdiv_ge : forall a b d, 0 < d -> (b <= a * (1 / d) <-> b * d <= a).
Proof.
  intros a b d H. assert (E : a * (1 / d) * d == a) by (field; lra). split; intro L.
  - rewrite <- E. nra.
  - destruct (Qlt_le_dec (a * (1 / d)) b); [|assumption]. exfalso. nra.
Qed.

Lemma ray_slab_ok : forall p d lo hi tmin tmax, lo <= hi -> le_inf tmin tmax ->
  match ray_slab direct p d lo hi tmin tmax with
  | None => forall t, tmin <= t -> le_inf t tmax -> ~ (lo <= p + t * d <= hi)
  | Some (a, b) => le_inf a b /\ (~ d == 0 -> exists x, b = Some x) /\ (tmax <> None -> b <> None) /\
      (d == 0 -> b = tmax) /\
      forall t, (tmin <= t /\ le_inf t tmax /\ lo <= p + t * d <= hi) <-> (a <= t /\ le_inf t b)
  end.
Proof.
  intros p d lo hi tmin tmax HL HM. unfold ray_slab. simpl equals. destruct (Qeqb_spec d 0) as [E|E].
  - destruct (Qltb_spec p lo); cbn [orb]; [intros t _ _; rewrite E; lra|].
    destruct (Qgtb_spec p hi); cbn [orb]; [intros t _ _; rewrite E; lra|].
    split; [exact HM|]. split; [intro G; contradiction|]. split; [auto|]. split; [auto|]. intro t. rewrite E. intuition lra.
  - set (t1 := (lo - p) * (1 / d)). set (t2 := (hi - p) * (1 / d)).
    assert (K : exists u v, (if Qgtb t1 t2 then (t2, t1) else (t1, t2)) = (u, v) /\ forall t, lo <= p + t * d <= hi <-> u <= t <= v).
    { destruct (Qlt_le_dec 0 d) as [P|P].
      - assert (T : t1 <= t2). { apply qdiv_le; [exact P|]. unfold t2. assert (X : (hi - p) * (1 / d) * d == hi - p) by (field; lra). rewrite X. lra. }
        exists t1, t2. split; [destruct (Qgtb_spec t1 t2); [lra|reflexivity]|]. intro t. unfold t1, t2.
        rewrite qdiv_le, qdiv_ge by exact P. split; intros [A B]; split; lra.
      - assert (P' : 0 < - d) by lra.
        assert (E1 : t1 == (p - lo) * (1 / - d)) by (unfold t1; field; lra).
        assert (E2 : t2 == (p - hi) * (1 / - d)) by (unfold t2; field; lra).
        assert (T : t2 <= t1). { rewrite E2. apply qdiv_le; [exact P'|]. rewrite E1. assert (X : (p - lo) * (1 / - d) * - d == p - lo) by (field; lra). rewrite X. lra. }
        destruct (Qgtb_spec t1 t2).
        + exists t2, t1. split; [reflexivity|]. intro t. rewrite E1, E2, qdiv_le, qdiv_ge by exact P'. split; intros [A B]; split; lra.
        + exists t1, t2. split; [reflexivity|]. assert (EQ : t1 == t2) by lra. intro t.
          assert (X : t1 <= t <= t2 <-> t2 <= t <= t1) by (split; lra). rewrite X.
          rewrite E1, E2, qdiv_le, qdiv_ge by exact P'. split; intros [A B]; split; lra. }
    destruct K as (u & v & -> & K). cbn [gt_inf].
    destruct (qmax_spec tmin u) as (M1 & M2 & M3).
    assert (N : min_inf tmax v <= v /\ (forall t, t <= min_inf tmax v <-> t <= v /\ le_inf t tmax)).
    { unfold min_inf; destruct tmax as [x|]; simpl.
      - destruct (qmin_spec x v) as (N1 & N2 & N3). split; [exact N3|]. intro t; split; [intro; lra|]. intros [? ?]. destruct N1; lra.
      - split; [lra|]. intro t; intuition lra. }
    destruct N as [_ N].
    destruct (Qgtb_spec (qmax tmin u) (min_inf tmax v)) as [G|G].
    + intros t A B C. apply K in C. assert (t <= min_inf tmax v) by (apply N; split; [lra|exact B]). destruct M1; lra.
    + split; [exact G|]. split; [intros _; eexists; reflexivity|]. split; [discriminate|]. split; [intro; contradiction|]. intro t; cbn [le_inf]. rewrite N, K.
      split; [intros (A & B & C); split; [destruct M1; lra|split; [lra|exact B]]|intros (A & B & C); split; [lra|]; split; [exact C|lra]].
Qed.

Lemma aabb_has_point_ok : forall b p, aabb_has_point direct b p = true <-> in2 b p.
Proof.
  intros b p. unfold aabb_has_point, intersects_point, dim_compare_point, coord, in2; cbn.
  repeat qcase; cbn [orb]; split; intro HH; try discriminate; try reflexivity; try lra; destruct HH; lra.
Qed.

Lemma ray_aabb_ok : forall p d b, ok2 b -> nonzero d ->
  match ray_aabb direct p d b with
  | None => forall t, ~ ray_in_box p d b t
  | Some h => (h_inside h = true <-> in2 b p) /\ least (ray_in_box p d b) (h_tmin h) /\
      exists x, h_texit h = Some x /\ greatest (ray_in_box p d b) x
  end.
Proof.
  intros p d b [O1 O2] ND. unfold ray_aabb.
  assert (RB : forall t, ray_in_box p d b t <-> 0 <= t /\ (px (lb2 b) <= px p + t * px d <= px (ub2 b)) /\ (py (lb2 b) <= py p + t * py d <= py (ub2 b))) by (intro t; reflexivity).
  pose proof (ray_slab_ok (px p) (px d) _ _ 0 None O1 I) as S1.
  destruct (ray_slab direct (px p) (px d) (px (lb2 b)) (px (ub2 b)) 0 None) as [[a1 b1]|].
  - destruct S1 as (S1 & F1 & _ & Z1 & E1).
    pose proof (ray_slab_ok (py p) (py d) _ _ a1 b1 O2 S1) as S2.
    destruct (ray_slab direct (py p) (py d) (py (lb2 b)) (py (ub2 b)) a1 b1) as [[a2 b2]|].
    + destruct S2 as (S2 & F2 & G2 & Z2 & E2). cbn [h_inside h_tmin h_texit].
      assert (R : forall t, ray_in_box p d b t <-> a2 <= t /\ le_inf t b2).
      { intro t. rewrite RB, <- E2. specialize (E1 t). cbn [le_inf] in E1. intuition. }
      assert (FX : exists x, b2 = Some x).
      { destruct (Qeq_dec (px d) 0) as [X|X]; [destruct (Qeq_dec (py d) 0) as [Y|Y]; [exfalso; apply ND; auto|exact (F2 Y)]|].
        destruct (F1 X) as (x & ->). destruct b2 as [y|]; [eauto|]. exfalso; apply G2; congruence. }
      split; [apply aabb_has_point_ok|]. split.
      * split; [apply R; split; [lra|exact S2]|]. intros u Hu. apply R in Hu; tauto.
      * destruct FX as (x & ->). exists x. split; [reflexivity|]. split; [apply R; cbn in *; lra|]. intros u Hu. apply R in Hu; tauto.
    + intros t H. apply RB in H as (H1 & H2 & H3). specialize (E1 t). cbn [le_inf] in E1. destruct E1 as [E1 _].
      destruct E1 as [X Y]; [auto|]. exact (S2 t X Y H3).
  - intros t H. apply RB in H as (H1 & H2 & H3). exact (S1 t H1 I H2).
Qed.

(** ** Segments against boxes: intervals of the parameter *)

Lemma qabs_le : forall v x, qabs v <= x <-> - x <= v <= x.
Proof. intros v x. destruct (qabs_spec v) as (A & B & C & D). split; [intro; lra|]. intro; destruct B; lra. Qed.
Lemma qabs_opp : forall v, qabs (- v) == qabs v.
Proof. intro v. unfold qabs. repeat qcase; lra. Qed.
Lemma qabs_mult : forall a b, qabs (a * b) == qabs a * qabs b.
Proof. intros a b. unfold qabs. repeat qcase; nra. Qed.
Lemma qabs_compat : forall a b, a == b -> qabs a == qabs b.
Proof. intros a b E. unfold qabs. repeat qcase; lra. Qed.
Lemma qabs_tri : forall a b, qabs (a + b) <= qabs a + qabs b.
Proof. intros a b. unfold qabs. repeat qcase; lra. Qed.
Lemma qabs_nonneg : forall a, 0 <= qabs a.
Proof. intro a; apply qabs_spec. Qed.
Lemma qabs_pos : forall a, 0 <= a -> qabs a == a.
Proof. intros a H. unfold qabs; qcase; lra. Qed.

Global Instance qabs_proper : Proper (Qeq ==> Qeq) qabs.
Proof. intros a b E. apply qabs_compat; exact E. Qed.

(** The parameters t for which m + t d is in [-e, e]. *)
Definition slab_bounds (m d e : Q) (lo hi : Q) : Prop :=
  lo <= hi /\ (forall t, -1 <= t <= 1 -> (- e <= m + t * d <= e <-> lo <= t <= hi)).

Definition cx (m1 d1 e1 m2 d2 e2 : Q) : Prop := qabs (m1 * d2 - m2 * d1) <= e1 * qabs d2 + e2 * qabs d1.

(** Concrete bounds. *)
Definition slo (m d e : Q) : Q := if Qeqb d 0 then -1 else if Qltb 0 d then (- m - e) / d else (e - m) / d.
Definition shi (m d e : Q) : Q := if Qeqb d 0 then 1 else if Qltb 0 d then (e - m) / d else (- m - e) / d.

Lemma div_le_pos : forall a b d, 0 < d -> (a / d <= b <-> a <= b * d).
Proof. intros a b d H. assert (E : a / d == a * (1 / d)) by (field; lra). rewrite E. apply qdiv_le; exact H. Qed.
Lemma div_ge_pos : forall a b d, 0 < d -> (b <= a / d <-> b * d <= a).
Proof. intros a b d H. assert (E : a / d == a * (1 / d)) by (field; lra). rewrite E. apply qdiv_ge; exact H. Qed.
Lemma div_neg : forall a d, d < 0 -> a / d == (- a) / (- d).
Proof. intros a d H; field; lra. Qed.

Lemma sbounds : forall m d e t, 0 <= e -> qabs m <= e + qabs d -> -1 <= t <= 1 ->
  (- e <= m + t * d <= e <-> slo m d e <= t <= shi m d e).
Proof.
  intros m d e t He H Ht. apply qabs_le in H. unfold slo, shi.
  destruct (Qeqb_spec d 0) as [E|E].
  - assert (qabs d == 0) by (rewrite E; reflexivity). rewrite E. split; intros; lra.
  - destruct (Qltb_spec 0 d) as [P|P].
    + rewrite div_le_pos, div_ge_pos by exact P. split; intros; lra.
    + assert (N : d < 0) by lra. rewrite (div_neg _ _ N), (div_neg _ _ N). rewrite div_le_pos, div_ge_pos by lra. split; intros; lra.
Qed.

Lemma slo_le1 : forall m d e, 0 <= e -> qabs m <= e + qabs d -> slo m d e <= 1 /\ -1 <= shi m d e.
Proof.
  intros m d e He H. apply qabs_le in H. unfold slo, shi.
  destruct (Qeqb_spec d 0) as [E|E]; [lra|].
  destruct (Qltb_spec 0 d) as [P|P].
  - rewrite qabs_pos in H by lra. rewrite div_le_pos, div_ge_pos by exact P. lra.
  - assert (N : d < 0) by lra. rewrite (div_neg _ _ N), (div_neg _ _ N), div_le_pos, div_ge_pos by lra.
    assert (A : qabs d == - d) by (rewrite <- qabs_opp; apply qabs_pos; lra). rewrite A in H. lra.
Qed.

(** Normal form: d >= 0. *)
Definition snorm (m d : Q) : Q * Q := if Qltb d 0 then (- m, - d) else (m, d).
Lemma slo_norm : forall m d e, slo m d e == slo (fst (snorm m d)) (snd (snorm m d)) e /\ shi m d e == shi (fst (snorm m d)) (snd (snorm m d)) e.
Proof.
  intros m d e. unfold snorm. destruct (Qltb_spec d 0) as [N|N]; cbn [fst snd]; [|split; reflexivity].
  unfold slo, shi. destruct (Qeqb_spec d 0); [lra|]. destruct (Qeqb_spec (- d) 0); [lra|].
  destruct (Qltb_spec 0 d); [lra|]. destruct (Qltb_spec 0 (- d)); [|lra]. split; field; lra.
Qed.

Lemma slo_le_shi : forall m1 d1 e1 m2 d2 e2, 0 <= e1 -> 0 <= e2 ->
  qabs m1 <= e1 + qabs d1 -> qabs m2 <= e2 + qabs d2 -> cx m1 d1 e1 m2 d2 e2 -> slo m1 d1 e1 <= shi m2 d2 e2.
Proof.
  intros m1 d1 e1 m2 d2 e2 H1 H2 A1 A2 C.
  destruct (Qeq_dec d1 0) as [Z1|Z1].
  { assert (E : slo m1 d1 e1 = -1) by (unfold slo; apply Qeqb_eq in Z1; rewrite Z1; reflexivity). rewrite E.
    apply slo_le1; assumption. }
  destruct (Qeq_dec d2 0) as [Z2|Z2].
  { assert (E : shi m2 d2 e2 = 1) by (unfold shi; apply Qeqb_eq in Z2; rewrite Z2; reflexivity). rewrite E.
    apply slo_le1; assumption. }
  rewrite (proj1 (slo_norm m1 d1 e1)), (proj2 (slo_norm m2 d2 e2)).
  assert (P : exists n1 f1 n2 f2, snorm m1 d1 = (n1, f1) /\ snorm m2 d2 = (n2, f2) /\ 0 < f1 /\ 0 < f2 /\
    - (e1 * f2 + e2 * f1) <= n1 * f2 - n2 * f1 <= e1 * f2 + e2 * f1).
  { unfold cx in C. apply qabs_le in C. unfold snorm, qabs in *. 
    destruct (Qltb_spec d1 0), (Qltb_spec d2 0); (eexists; eexists; eexists; eexists; split; [reflexivity|]; split; [reflexivity|]; split; [lra|]; split; [lra|]); lra. }
  destruct P as (n1 & f1 & n2 & f2 & -> & -> & P1 & P2 & P3). cbn [fst snd].
  unfold slo, shi. destruct (Qeqb_spec f1 0); [lra|]. destruct (Qeqb_spec f2 0); [lra|].
  destruct (Qltb_spec 0 f1); [|lra]. destruct (Qltb_spec 0 f2); [|lra].
  apply div_le_pos; [exact P1|].
  assert (E : (e2 - n2) / f2 * f1 == ((e2 - n2) * f1) / f2) by (field; lra). rewrite E. apply div_ge_pos; [exact P2|]. lra.
Qed.

Lemma cx_self : forall m d e, 0 <= e -> cx m d e m d e.
Proof. intros m d e H. unfold cx. assert (E : m * d - m * d == 0) by ring. rewrite E. change (qabs 0) with 0. pose proof (qabs_nonneg d). nra. Qed.
Lemma cx_sym : forall m1 d1 e1 m2 d2 e2, cx m1 d1 e1 m2 d2 e2 -> cx m2 d2 e2 m1 d1 e1.
Proof.
  intros m1 d1 e1 m2 d2 e2; unfold cx; intro H. rewrite <- qabs_opp.
  assert (E : - (m2 * d1 - m1 * d2) == m1 * d2 - m2 * d1) by ring. rewrite E. lra.
Qed.

(** One-dimensional Helly, for two and three slabs. *)
Lemma helly2 : forall m1 d1 e1 m2 d2 e2, 0 <= e1 -> 0 <= e2 ->
  (exists t, -1 <= t <= 1 /\ - e1 <= m1 + t * d1 <= e1 /\ - e2 <= m2 + t * d2 <= e2) <->
  qabs m1 <= e1 + qabs d1 /\ qabs m2 <= e2 + qabs d2 /\ cx m1 d1 e1 m2 d2 e2.
Proof.
  intros m1 d1 e1 m2 d2 e2 H1 H2. split.
  - intros (t & Ht & A & B).
    assert (T : forall d, qabs (t * d) <= qabs d).
    { intro d. rewrite qabs_mult. assert (qabs t <= 1) by (apply qabs_le; lra). pose proof (qabs_nonneg t). pose proof (qabs_nonneg d). nra. }
    split; [|split].
    + pose proof (T d1) as X. apply qabs_le in X. apply qabs_le. lra.
    + pose proof (T d2) as X. apply qabs_le in X. apply qabs_le. lra.
    + unfold cx. assert (E : m1 * d2 - m2 * d1 == (m1 + t * d1) * d2 + - ((m2 + t * d2) * d1)) by ring. rewrite E.
      eapply Qle_trans; [apply qabs_tri|]. rewrite qabs_opp, !qabs_mult.
      assert (qabs (m1 + t * d1) <= e1) by (apply qabs_le; lra). assert (qabs (m2 + t * d2) <= e2) by (apply qabs_le; lra).
      pose proof (qabs_nonneg d1). pose proof (qabs_nonneg d2).
      assert (qabs (m1 + t * d1) * qabs d2 <= e1 * qabs d2) by (apply Qmult_le_compat_r; assumption).
      assert (qabs (m2 + t * d2) * qabs d1 <= e2 * qabs d1) by (apply Qmult_le_compat_r; assumption). lra.
  - intros (A1 & A2 & C).
    destruct (slo_le1 m1 d1 e1 H1 A1) as [L1 U1]. destruct (slo_le1 m2 d2 e2 H2 A2) as [L2 U2].
    pose proof (slo_le_shi _ _ _ _ _ _ H1 H2 A1 A2 C) as C12. pose proof (slo_le_shi _ _ _ _ _ _ H2 H1 A2 A1 (cx_sym _ _ _ _ _ _ C)) as C21.
    pose proof (slo_le_shi _ _ _ _ _ _ H1 H1 A1 A1 (cx_self m1 d1 e1 H1)) as C11. pose proof (slo_le_shi _ _ _ _ _ _ H2 H2 A2 A2 (cx_self m2 d2 e2 H2)) as C22.
    set (t := qmax (-1) (qmax (slo m1 d1 e1) (slo m2 d2 e2))).
    destruct (qmax_spec (-1) (qmax (slo m1 d1 e1) (slo m2 d2 e2))) as (M1 & M2 & M3). fold t in M1, M2, M3.
    destruct (qmax_spec (slo m1 d1 e1) (slo m2 d2 e2)) as (N1 & N2 & N3). 
    assert (Ht : -1 <= t <= 1) by (destruct M1; [|destruct N1]; lra).
    exists t. split; [exact Ht|]. split.
    + apply sbounds; [assumption|assumption|exact Ht|]. destruct M1; [|destruct N1]; lra.
    + apply sbounds; [assumption|assumption|exact Ht|]. destruct M1; [|destruct N1]; lra.
Qed.

Lemma helly3 : forall m1 d1 e1 m2 d2 e2 m3 d3 e3, 0 <= e1 -> 0 <= e2 -> 0 <= e3 ->
  (exists t, -1 <= t <= 1 /\ - e1 <= m1 + t * d1 <= e1 /\ - e2 <= m2 + t * d2 <= e2 /\ - e3 <= m3 + t * d3 <= e3) <->
  (qabs m1 <= e1 + qabs d1 /\ qabs m2 <= e2 + qabs d2 /\ qabs m3 <= e3 + qabs d3) /\
  cx m2 d2 e2 m3 d3 e3 /\ cx m1 d1 e1 m3 d3 e3 /\ cx m1 d1 e1 m2 d2 e2.
Proof.
  intros m1 d1 e1 m2 d2 e2 m3 d3 e3 H1 H2 H3. split.
  - intros (t & Ht & A & B & C).
    destruct (proj1 (helly2 m1 d1 e1 m2 d2 e2 H1 H2)) as (X1 & X2 & X3); [exists t; auto|].
    destruct (proj1 (helly2 m1 d1 e1 m3 d3 e3 H1 H3)) as (Y1 & Y2 & Y3); [exists t; auto|].
    destruct (proj1 (helly2 m2 d2 e2 m3 d3 e3 H2 H3)) as (Z1 & Z2 & Z3); [exists t; auto|]. auto 10.
  - intros ((A1 & A2 & A3) & C23 & C13 & C12).
    destruct (slo_le1 m1 d1 e1 H1 A1) as [L1 U1]. destruct (slo_le1 m2 d2 e2 H2 A2) as [L2 U2]. destruct (slo_le1 m3 d3 e3 H3 A3) as [L3 U3].
    pose proof (slo_le_shi _ _ _ _ _ _ H1 H2 A1 A2 C12). pose proof (slo_le_shi _ _ _ _ _ _ H2 H1 A2 A1 (cx_sym _ _ _ _ _ _ C12)).
    pose proof (slo_le_shi _ _ _ _ _ _ H1 H3 A1 A3 C13). pose proof (slo_le_shi _ _ _ _ _ _ H3 H1 A3 A1 (cx_sym _ _ _ _ _ _ C13)).
    pose proof (slo_le_shi _ _ _ _ _ _ H2 H3 A2 A3 C23). pose proof (slo_le_shi _ _ _ _ _ _ H3 H2 A3 A2 (cx_sym _ _ _ _ _ _ C23)).
    pose proof (slo_le_shi _ _ _ _ _ _ H1 H1 A1 A1 (cx_self m1 d1 e1 H1)). pose proof (slo_le_shi _ _ _ _ _ _ H2 H2 A2 A2 (cx_self m2 d2 e2 H2)).
    pose proof (slo_le_shi _ _ _ _ _ _ H3 H3 A3 A3 (cx_self m3 d3 e3 H3)).
    set (t := qmax (-1) (qmax (slo m1 d1 e1) (qmax (slo m2 d2 e2) (slo m3 d3 e3)))).
    destruct (qmax_spec (-1) (qmax (slo m1 d1 e1) (qmax (slo m2 d2 e2) (slo m3 d3 e3)))) as (M1 & M2 & M3). fold t in M1, M2, M3.
    destruct (qmax_spec (slo m1 d1 e1) (qmax (slo m2 d2 e2) (slo m3 d3 e3))) as (N1 & N2 & N3).
    destruct (qmax_spec (slo m2 d2 e2) (slo m3 d3 e3)) as (O1 & O2 & O3).
    assert (D : t == -1 \/ t == slo m1 d1 e1 \/ t == slo m2 d2 e2 \/ t == slo m3 d3 e3).
    { destruct M1 as [M|M]; [auto|]. destruct N1 as [N|N]; [right; left; lra|]. destruct O1; right; right; [left|right]; lra. }
    clear M1 N1 O1.
    assert (Ht : -1 <= t <= 1) by (destruct D as [D|[D|[D|D]]]; lra).
    exists t. split; [exact Ht|]. split; [|split]; (apply sbounds; [assumption|assumption|exact Ht|]; destruct D as [D|[D|[D|D]]]; lra).
Qed.

(** The model's tests in terms of [cx]. *)
Lemma segment_aabb_tests : forall p0 p1 b,
  segment_aabb_intersection 0 p0 p1 b = true <->
  let e := vsub (ub2 b) (lb2 b) in let d := vsub p1 p0 in let m := vadd (vsub p0 (lb2 b)) (vsub p1 (ub2 b)) in
  qabs (px m) <= px e + qabs (px d) /\ qabs (py m) <= py e + qabs (py d) /\ cx (px m) (px d) (px e) (py m) (py d) (py e).
Proof.
  intros p0 p1 b. cbv zeta. unfold segment_aabb_intersection, cx. cbv zeta.
  repeat match goal with |- context [Qgtb ?a ?b] => destruct (Qgtb_spec a b) end; split; intro HH; try discriminate; try reflexivity; try (repeat split; lra); exfalso; lra.
Qed.

Lemma segment_aabb_ok : forall p0 p1 b, ok2 b ->
  (segment_aabb_intersection 0 p0 p1 b = true <-> meet (on_segment p0 p1) (in2 b)).
Proof.
  intros p0 p1 b [O1 O2]. rewrite segment_aabb_tests. cbv zeta. rewrite <- helly2 by (unfold vsub; simpl; lra).
  unfold meet, on_segment, in2, lerp, vadd, vscale, vsub; simpl. split.
  - intros (t & Ht & A & B). set (s := (t + 1) / 2). assert (E : t == 2 * s - 1) by (unfold s; field). clearbody s. rewrite E in A, B.
    exists (lerp p0 p1 s). split; [exists s; split; [lra|apply pteq_refl]|]. unfold lerp, vadd, vscale, vsub; simpl. lra.
  - intros (X & (s & Hs & E1 & E2) & A & B). unfold lerp, vadd, vscale, vsub in *; simpl in *. rewrite E1 in A. rewrite E2 in B.
    exists (2 * s - 1). lra.
Qed.

Lemma segment_aabb_eps : forall eps p0 p1 b, 0 <= eps -> ok2 b -> meet (on_segment p0 p1) (in2 b) -> segment_aabb_intersection eps p0 p1 b = true.
Proof.
  intros eps p0 p1 b He OK M. apply segment_aabb_ok in M; [|exact OK]. apply segment_aabb_tests in M. cbv zeta in M. destruct OK as [O1 O2].
  destruct M as (M1 & M2 & M3). unfold cx in M3. unfold segment_aabb_intersection. cbv zeta.
  assert (0 <= px (vsub (ub2 b) (lb2 b))) by (unfold vsub; simpl; lra). assert (0 <= py (vsub (ub2 b) (lb2 b))) by (unfold vsub; simpl; lra).
  destruct (Qgtb_spec (qabs (px (vadd (vsub p0 (lb2 b)) (vsub p1 (ub2 b))))) (px (vsub (ub2 b) (lb2 b)) + qabs (px (vsub p1 p0)))); [lra|].
  destruct (Qgtb_spec (qabs (py (vadd (vsub p0 (lb2 b)) (vsub p1 (ub2 b))))) (py (vsub (ub2 b) (lb2 b)) + qabs (py (vsub p1 p0)))); [lra|].
  match goal with |- context [Qgtb ?x ?y] => destruct (Qgtb_spec x y) as [G|G]; [|reflexivity] end.
  exfalso. generalize dependent (qabs (px (vsub p1 p0))). generalize dependent (qabs (py (vsub p1 p0))). intros. nra.
Qed.

Lemma segment_aabb_tests3 : forall p0 p1 b,
  segment_aabb_intersection3 0 p0 p1 b = true <->
  let e := vsub3 (ub3 b) (lb3 b) in let d := vsub3 p1 p0 in let m := vadd3 (vsub3 p0 (lb3 b)) (vsub3 p1 (ub3 b)) in
  (qabs (x3 m) <= x3 e + qabs (x3 d) /\ qabs (y3 m) <= y3 e + qabs (y3 d) /\ qabs (z3 m) <= z3 e + qabs (z3 d)) /\
  cx (y3 m) (y3 d) (y3 e) (z3 m) (z3 d) (z3 e) /\ cx (x3 m) (x3 d) (x3 e) (z3 m) (z3 d) (z3 e) /\ cx (x3 m) (x3 d) (x3 e) (y3 m) (y3 d) (y3 e).
Proof.
  intros p0 p1 b. cbv zeta. unfold segment_aabb_intersection3, cx. cbv zeta.
  set (e := vsub3 (ub3 b) (lb3 b)). set (d := vsub3 p1 p0). set (m := vadd3 (vsub3 p0 (lb3 b)) (vsub3 p1 (ub3 b))).
  assert (E : qabs (z3 m * x3 d - x3 m * z3 d) == qabs (x3 m * z3 d - z3 m * x3 d)) by (rewrite <- qabs_opp; apply qabs_compat; ring).
  repeat match goal with |- context [Qgtb ?a ?b] => destruct (Qgtb_spec a b) end; split; intro HH; try discriminate; try reflexivity; try (repeat split; lra); exfalso; lra.
Qed.

Lemma segment_aabb_ok3 : forall p0 p1 b, ok3 b ->
  (segment_aabb_intersection3 0 p0 p1 b = true <-> meet (on_segment3 p0 p1) (in3 b)).
Proof.
  intros p0 p1 b (O1 & O2 & O3). rewrite segment_aabb_tests3. cbv zeta. rewrite <- helly3 by (unfold vsub3; simpl; lra).
  unfold meet, on_segment3, in3, vadd3, vscale3, vsub3; simpl. split.
  - intros (t & Ht & A & B & C). set (s := (t + 1) / 2). assert (E : t == 2 * s - 1) by (unfold s; field). clearbody s. rewrite E in A, B, C.
    exists (lerp3 p0 p1 s). split; [exists s; split; [lra|unfold pt3eq; repeat split; reflexivity]|]. unfold lerp3, vadd3, vscale3, vsub3; simpl. lra.
  - intros (X & (s & Hs & E1 & E2 & E3) & A & B & C). unfold lerp3, vadd3, vscale3, vsub3 in *; simpl in *. rewrite E1 in A. rewrite E2 in B. rewrite E3 in C.
    exists (2 * s - 1). lra.
Qed.

Lemma edges_aabb_ok : forall es b, ok2 b ->
  (edges_aabb_intersection 0 es b = true <-> exists i A B, In (i, (A, B)) es /\ meet (on_segment A B) (in2 b)).
Proof.
  intros es b OK; induction es as [|[i [A B]] es IH]; cbn [edges_aabb_intersection].
  - split; [discriminate|]. intros (i & A & B & [] & _).
  - pose proof (segment_aabb_ok A B b OK) as S. destruct (segment_aabb_intersection 0 A B b).
    + split; [|reflexivity]. intros _. exists i, A, B. split; [left; reflexivity|apply S; reflexivity].
    + rewrite IH. split.
      * intros (j & A' & B' & H1 & H2). exists j, A', B'; split; [right; exact H1|exact H2].
      * intros (j & A' & B' & [H1|H1] & H2); [|exists j, A', B'; auto]. exfalso. injection H1 as -> -> ->. apply S in H2. discriminate.
Qed.

Lemma polyline_aabb_ok : forall ps b, ok2 b -> (polyline_aabb_intersection 0 ps b = true <-> meet (on_polyline ps) (in2 b)).
Proof.
  intros ps b OK. unfold polyline_aabb_intersection. rewrite edges_aabb_ok by exact OK. split.
  - intros (i & A & B & H & X & H1 & H2). exists X. split; [|exact H2]. exists i, A, B. split; [apply polyline_edges_iff; exact H|exact H1].
  - intros (X & (i & A & B & H & H1) & H2). exists i, A, B. split; [apply polyline_edges_iff; exact H|exists X; auto].
Qed.

(** ** Discs *)
Lemma sphere_aabb_ok : forall c r b, ok2 b ->
  (sphere_aabb_intersection c r b = true <-> meet (in_disc c r) (in2 b)) /\
  (fst (sphere_aabb_intersection_point c r b) = true <-> meet (in_disc c r) (in2 b)) /\
  in2 b (snd (sphere_aabb_intersection_point c r b)) /\
  (forall X, in2 b X -> dist2 c (snd (sphere_aabb_intersection_point c r b)) <= dist2 c X).
Proof.
  intros c r b OK. destruct (point_aabb_closest_ok c b OK) as (A & B & C).
  unfold sphere_aabb_intersection, sphere_aabb_intersection_point; cbn [fst snd].
  rewrite !Qleb_le. change (dot (vsub (point_aabb_closest_point c b) c) (vsub (point_aabb_closest_point c b) c)) with (dist2 c (point_aabb_closest_point c b)).
  rewrite <- B.
  assert (M : point_aabb_distance_sqrd c b <= r * r <-> meet (in_disc c r) (in2 b)).
  { split.
    - intro H. exists (point_aabb_closest_point c b). split; [unfold in_disc; lra|exact A].
    - intros (X & H1 & H2). specialize (C X H2). unfold in_disc in H1. lra. }
  split; [exact M|]. split; [exact M|]. split; [exact A|]. intros X HX. rewrite <- B. exact (C X HX).
Qed.
Lemma sphere_aabb_ok3 : forall c r b, ok3 b ->
  (sphere_aabb_intersection3 c r b = true <-> meet (in_ball c r) (in3 b)).
Proof.
  intros c r b OK. destruct (point_aabb_closest_ok3 c b OK) as (A & B & C).
  unfold sphere_aabb_intersection3. rewrite Qleb_le. split.
  - intro H. exists (point_aabb_closest_point3 c b). split; [unfold in_ball; lra|exact A].
  - intros (X & H1 & H2). specialize (C X H2). unfold in_ball in H1. lra.
Qed.
Lemma sphere_obb_ok : forall c r b, ok_obb b ->
  (sphere_obb_intersection c r b = true <-> meet (in_disc c r) (in_obb b)).
Proof.
  intros c r b OK. destruct (point_obb_ok c b OK) as ((_ & L) & A & B).
  unfold sphere_obb_intersection. rewrite Qleb_le.
  change (dot (vsub (point_obb_closest_point c b) c) (vsub (point_obb_closest_point c b) c)) with (dist2 c (point_obb_closest_point c b)).
  split.
  - intro H. exists (point_obb_closest_point c b). split; [exact H|exact A].
  - intros (X & H1 & H2). specialize (L X H2). unfold in_disc in H1. lra.
Qed.

(** ** Planes *)
Lemma segment_plane_ok : forall a b n pd, ~ dot3 n (vsub3 b a) == 0 -> exists f t o,
  segment_plane_intersection a b n pd = Some (f, t, o) /\ on_plane n pd (lerp3 a b t) /\
  (f = true <-> 0 <= t <= 1) /\ (f = true <-> meet (on_segment3 a b) (on_plane n pd)) /\
  (f = true -> o = Some (lerp3 a b t) /\ forall X, on_segment3 a b X -> on_plane n pd X -> pt3eq X (lerp3 a b t)) /\ (f = false -> o = None).
Proof.
  intros a b n pd N. unfold segment_plane_intersection. rewrite qdiv_opt_some by exact N.
  set (t := (pd - dot3 n a) / dot3 n (vsub3 b a)).
  assert (ON : forall s, on_plane n pd (lerp3 a b s) <-> s == t).
  { intro s. assert (E : dot3 n (lerp3 a b s) == dot3 n a + s * dot3 n (vsub3 b a)) by (unfold dot3, lerp3, vadd3, vscale3, vsub3; simpl; ring).
    unfold on_plane. rewrite E. unfold t. split.
    - intro H. rewrite <- H. field. exact N.
    - intro H. rewrite H. field. exact N. }
  assert (PC : forall X Y, pt3eq X Y -> (on_plane n pd X <-> on_plane n pd Y)).
  { intros X Y (E1 & E2 & E3). unfold on_plane, dot3. rewrite E1, E2, E3. reflexivity. }
  assert (U : forall X s, pt3eq X (lerp3 a b s) -> on_plane n pd X -> s == t).
  { intros X s E H. apply ON. rewrite <- (PC _ _ E). exact H. }
  clearbody t.
  assert (M : 0 <= t <= 1 <-> meet (on_segment3 a b) (on_plane n pd)).
  { split.
    - intro H. exists (lerp3 a b t). split; [exists t; split; [exact H|unfold pt3eq; repeat split; reflexivity]|apply ON; reflexivity].
    - intros (X & (s & Hs & E) & H). pose proof (U X s E H). lra. }
  destruct (Qgeb t 0 && Qleb t 1) eqn:EB.
  - apply andb_true_iff in EB as [E1 E2]. destruct (Qgeb_spec t 0); [|discriminate]. apply Qleb_le in E2.
    exists true, t, (Some (lerp3 a b t)). split; [reflexivity|]. split; [apply ON; reflexivity|]. split; [intuition lra|].
    split; [rewrite <- M; intuition lra|]. split; [|discriminate]. intros _. split; [reflexivity|].
    intros X (s & Hs & E) HP. pose proof (U X s E HP) as ES. unfold pt3eq in *. destruct E as (F1 & F2 & F3).
    rewrite F1, F2, F3. unfold lerp3, vadd3, vscale3; simpl. rewrite ES. repeat split; reflexivity.
  - assert (NT : ~ 0 <= t <= 1). { intros [A B]. apply andb_false_iff in EB as [E|E]; [destruct (Qgeb_spec t 0); [discriminate|lra]|].
      apply Qleb_le in B. congruence. }
    exists false, t, None. split; [reflexivity|]. split; [apply ON; reflexivity|]. split; [split; [discriminate|contradiction]|].
    split; [rewrite <- M; split; [discriminate|contradiction]|]. split; [discriminate|reflexivity].
Qed.
