(** Helly's theorem for half-planes, and the separating axis theorem for convex polygons. *)
From Coq Require Import Permutation.
From Verif Require Import Base CmpModel OrientModel OrientSpec OrientProof DistModel DistSpec DistProof PolygonModel PolygonSpec PolygonProof PolygonConvexProof SatModel SatSpec.

(** The half-plane a x + b y + c >= 0. *)
Definition hplane : Type := (Q * Q * Q)%type.
Definition hval (h : hplane) (x : pt) : Q := let '(a, b, c) := h in a * px x + b * py x + c.
Definition holds (h : hplane) (x : pt) : Prop := 0 <= hval h x.

(** An affine dependence of four points. *)
Definition dependent (l1 l2 l3 l4 : Q) (x1 x2 x3 x4 : pt) : Prop :=
  l1 + l2 + l3 + l4 == 0 /\ l1 * px x1 + l2 * px x2 + l3 * px x3 + l4 * px x4 == 0 /\ l1 * py x1 + l2 * py x2 + l3 * py x3 + l4 * py x4 == 0 /\
  ~ (l1 == 0 /\ l2 == 0 /\ l3 == 0 /\ l4 == 0).
Lemma dependence : forall x1 x2 x3 x4, exists l1 l2 l3 l4, dependent l1 l2 l3 l4 x1 x2 x3 x4.
Proof.
  intros x1 x2 x3 x4. destruct (Qeq_dec (tri2 x1 x2 x3) 0) as [Z|Z].
  - destruct (Qeq_dec (px x2 - px x1) 0) as [ZX|ZX]; [destruct (Qeq_dec (py x2 - py x1) 0) as [ZY|ZY]|].
    + exists 1, (-(1)), 0, 0. unfold dependent. repeat split; lra.
    + set (s := (py x3 - py x1) / (py x2 - py x1)). exists (1 - s), s, (-(1)), 0.
      assert (E : s * (py x2 - py x1) == py x3 - py x1) by (unfold s; field; exact ZY).
      assert (EX : px x3 - px x1 == s * (px x2 - px x1)).
      { unfold tri2, cross, vsub in Z. cbn [px py] in Z. rewrite ZX in Z |- *. assert (Z' : (py x2 - py x1) * (px x3 - px x1) == 0) by lra. apply Qmult_integral in Z'. destruct Z'; [contradiction|lra]. }
      unfold dependent. repeat split; try lra.
    + set (s := (px x3 - px x1) / (px x2 - px x1)). exists (1 - s), s, (-(1)), 0.
      assert (E : s * (px x2 - px x1) == px x3 - px x1) by (unfold s; field; exact ZX).
      assert (EY : py x3 - py x1 == s * (py x2 - py x1)).
      { assert (Q : (px x2 - px x1) * (py x3 - py x1 - s * (py x2 - py x1)) == 0).
        { transitivity (tri2 x1 x2 x3 + (py x2 - py x1) * ((px x3 - px x1) - s * (px x2 - px x1))); [unfold tri2, cross, vsub; cbn [px py]; ring|]. rewrite Z, E. ring. }
        apply Qmult_integral in Q. destruct Q; [contradiction|lra]. }
      unfold dependent. repeat split; try lra.
  - exists (tri2 x2 x3 x4), (- tri2 x1 x3 x4), (tri2 x1 x2 x4), (- tri2 x1 x2 x3). unfold dependent. repeat split.
    + unfold tri2, cross, vsub; cbn [px py]; ring.
    + unfold tri2, cross, vsub; cbn [px py]; ring.
    + unfold tri2, cross, vsub; cbn [px py]; ring.
    + intros (_ & _ & _ & H). apply Z. lra.
Qed.
(** Radon: the point of the positive part. *)
Definition pos (x : Q) : Q := if Qltb 0 x then x else 0.
Lemma pos_spec : forall x, (0 < x /\ pos x == x) \/ (x <= 0 /\ pos x == 0).
Proof. intro x. unfold pos. destruct (Qltb_spec 0 x); [left|right]; split; lra || reflexivity. Qed.
Lemma helly4 : forall x1 x2 x3 x4 h1 h2 h3 h4,
  (holds h1 x2 /\ holds h1 x3 /\ holds h1 x4) -> (holds h2 x1 /\ holds h2 x3 /\ holds h2 x4) -> (holds h3 x1 /\ holds h3 x2 /\ holds h3 x4) -> (holds h4 x1 /\ holds h4 x2 /\ holds h4 x3) ->
  exists x, (holds h1 x /\ holds h2 x /\ holds h3 x /\ holds h4 x) /\ forall h, holds h x1 -> holds h x2 -> holds h x3 -> holds h x4 -> holds h x.
Proof.
  intros x1 x2 x3 x4 h1 h2 h3 h4 A1 A2 A3 A4. destruct (dependence x1 x2 x3 x4) as (l1 & l2 & l3 & l4 & S0 & SX & SY & NZ).
  set (S := pos l1 + pos l2 + pos l3 + pos l4).
  assert (N1 : 0 <= pos l1) by (destruct (pos_spec l1); lra). assert (N2 : 0 <= pos l2) by (destruct (pos_spec l2); lra). assert (N3 : 0 <= pos l3) by (destruct (pos_spec l3); lra). assert (N4 : 0 <= pos l4) by (destruct (pos_spec l4); lra).
  assert (M1 : 0 <= pos l1 - l1) by (destruct (pos_spec l1); lra). assert (M2 : 0 <= pos l2 - l2) by (destruct (pos_spec l2); lra). assert (M3 : 0 <= pos l3 - l3) by (destruct (pos_spec l3); lra). assert (M4 : 0 <= pos l4 - l4) by (destruct (pos_spec l4); lra).
  assert (SP : 0 < S).
  { destruct (Qlt_le_dec 0 S) as [P|P]; [exact P|exfalso]. unfold S in P. apply NZ. destruct (pos_spec l1), (pos_spec l2), (pos_spec l3), (pos_spec l4); repeat split; lra. }
  exists (mkpt ((pos l1 * px x1 + pos l2 * px x2 + pos l3 * px x3 + pos l4 * px x4) / S) ((pos l1 * py x1 + pos l2 * py x2 + pos l3 * py x3 + pos l4 * py x4) / S)).
  set (x := mkpt _ _).
  assert (V : forall h, S * hval h x == pos l1 * hval h x1 + pos l2 * hval h x2 + pos l3 * hval h x3 + pos l4 * hval h x4).
  { intros [[a b] c]. unfold hval, x. cbn [px py]. unfold S at 1. transitivity (a * (S * ((pos l1 * px x1 + pos l2 * px x2 + pos l3 * px x3 + pos l4 * px x4) / S)) + b * (S * ((pos l1 * py x1 + pos l2 * py x2 + pos l3 * py x3 + pos l4 * py x4) / S)) + S * c); [unfold S; ring|].
    assert (D : forall y, S * (y / S) == y) by (intro y; field; lra). rewrite !D. unfold S. ring. }
  assert (W : forall h, S * hval h x == (pos l1 - l1) * hval h x1 + (pos l2 - l2) * hval h x2 + (pos l3 - l3) * hval h x3 + (pos l4 - l4) * hval h x4).
  { intro h. rewrite V. assert (Q : l1 * hval h x1 + l2 * hval h x2 + l3 * hval h x3 + l4 * hval h x4 == 0).
    { destruct h as [[a b] c]. unfold hval. transitivity (a * (l1 * px x1 + l2 * px x2 + l3 * px x3 + l4 * px x4) + b * (l1 * py x1 + l2 * py x2 + l3 * py x3 + l4 * py x4) + c * (l1 + l2 + l3 + l4)); [ring|]. rewrite S0, SX, SY. ring. }
    lra. }
  assert (POS : forall h, 0 <= S * hval h x -> holds h x) by (intros h H; unfold holds; apply (Qmult_le_l _ _ S SP); lra).
  assert (MUL : forall a b, 0 <= a -> 0 <= b -> 0 <= a * b) by (intros; apply Qmult_le_0_compat; assumption).
  unfold holds in *. clearbody x S.
  repeat split.
  - apply POS. destruct (pos_spec l1) as [[P E]|[P E]]; [rewrite W|rewrite V]; rewrite E.
    + pose proof (MUL _ _ M2 (proj1 A1)). pose proof (MUL _ _ M3 (proj1 (proj2 A1))). pose proof (MUL _ _ M4 (proj2 (proj2 A1))). lra.
    + pose proof (MUL _ _ N2 (proj1 A1)). pose proof (MUL _ _ N3 (proj1 (proj2 A1))). pose proof (MUL _ _ N4 (proj2 (proj2 A1))). lra.
  - apply POS. destruct (pos_spec l2) as [[P E]|[P E]]; [rewrite W|rewrite V]; rewrite E.
    + pose proof (MUL _ _ M1 (proj1 A2)). pose proof (MUL _ _ M3 (proj1 (proj2 A2))). pose proof (MUL _ _ M4 (proj2 (proj2 A2))). lra.
    + pose proof (MUL _ _ N1 (proj1 A2)). pose proof (MUL _ _ N3 (proj1 (proj2 A2))). pose proof (MUL _ _ N4 (proj2 (proj2 A2))). lra.
  - apply POS. destruct (pos_spec l3) as [[P E]|[P E]]; [rewrite W|rewrite V]; rewrite E.
    + pose proof (MUL _ _ M1 (proj1 A3)). pose proof (MUL _ _ M2 (proj1 (proj2 A3))). pose proof (MUL _ _ M4 (proj2 (proj2 A3))). lra.
    + pose proof (MUL _ _ N1 (proj1 A3)). pose proof (MUL _ _ N2 (proj1 (proj2 A3))). pose proof (MUL _ _ N4 (proj2 (proj2 A3))). lra.
  - apply POS. destruct (pos_spec l4) as [[P E]|[P E]]; [rewrite W|rewrite V]; rewrite E.
    + pose proof (MUL _ _ M1 (proj1 A4)). pose proof (MUL _ _ M2 (proj1 (proj2 A4))). pose proof (MUL _ _ M3 (proj2 (proj2 A4))). lra.
    + pose proof (MUL _ _ N1 (proj1 A4)). pose proof (MUL _ _ N2 (proj1 (proj2 A4))). pose proof (MUL _ _ N3 (proj2 (proj2 A4))). lra.
  - intros h H1 H2 H3 H4. apply POS. rewrite V. pose proof (MUL _ _ N1 H1). pose proof (MUL _ _ N2 H2). pose proof (MUL _ _ N3 H3). pose proof (MUL _ _ N4 H4). lra.
Qed.
Lemma helly_length : forall n (l : list hplane), (length l <= n)%nat -> (forall h1 h2 h3, In h1 l -> In h2 l -> In h3 l -> exists x, holds h1 x /\ holds h2 x /\ holds h3 x) ->
  exists x, forall h, In h l -> holds h x.
Proof.
  induction n as [|n IH]; intros l L H; [destruct l; [exists (mkpt 0 0); intros h []|cbn in L; lia]|].
  destruct l as [|h1 [|h2 [|h3 [|h4 l]]]].
  - exists (mkpt 0 0). intros h [].
  - destruct (H h1 h1 h1) as (x & X & _); try (cbn; auto; fail). exists x. intros h [<-|[]]. exact X.
  - destruct (H h1 h2 h2) as (x & X1 & X2 & _); try (cbn; auto; fail). exists x. intros h [<-|[<-|[]]]; assumption.
  - destruct (H h1 h2 h3) as (x & X1 & X2 & X3); try (cbn; auto; fail). exists x. intros h [<-|[<-|[<-|[]]]]; assumption.
  - destruct (IH (h2 :: h3 :: h4 :: l)) as (x1 & X1); [cbn in *; lia|intros; apply H; cbn in *; tauto|].
    destruct (IH (h1 :: h3 :: h4 :: l)) as (x2 & X2); [cbn in *; lia|intros; apply H; cbn in *; tauto|].
    destruct (IH (h1 :: h2 :: h4 :: l)) as (x3 & X3); [cbn in *; lia|intros; apply H; cbn in *; tauto|].
    destruct (IH (h1 :: h2 :: h3 :: l)) as (x4 & X4); [cbn in *; lia|intros; apply H; cbn in *; tauto|].
    destruct (helly4 x1 x2 x3 x4 h1 h2 h3 h4) as (x & (Y1 & Y2 & Y3 & Y4) & Y).
    + split; [|split]; [apply X2|apply X3|apply X4]; cbn; auto.
    + split; [|split]; [apply X1|apply X3|apply X4]; cbn; auto.
    + split; [|split]; [apply X1|apply X2|apply X4]; cbn; auto.
    + split; [|split]; [apply X1|apply X2|apply X3]; cbn; auto.
    + exists x. intros h [<-|[<-|[<-|[<-|I]]]]; try assumption. apply Y; [apply X1|apply X2|apply X3|apply X4]; cbn; auto.
Qed.
Lemma helly : forall l : list hplane, (forall h1 h2 h3, In h1 l -> In h2 l -> In h3 l -> exists x, holds h1 x /\ holds h2 x /\ holds h3 x) ->
  exists x, forall h, In h l -> holds h x.
Proof. intros l H. exact (helly_length (length l) l (le_n _) H). Qed.

(** ** Convex polygons *)
Definition left_plane (A B : pt) : hplane := (- (py B - py A), px B - px A, (py B - py A) * px A - (px B - px A) * py A).
Lemma left_plane_ok : forall A B x, hval (left_plane A B) x == tri2 A B x.
Proof. intros. unfold hval, left_plane, tri2, cross, vsub. cbn [px py]. ring. Qed.
Definition planes (ps : list pt) : list hplane := map (fun i => left_plane (pnth ps i) (pnth ps (S i mod length ps))) (seq 0 (length ps)).
Lemma planes_in : forall ps h, In h (planes ps) <-> exists i, (i < length ps)%nat /\ h = left_plane (pnth ps i) (pnth ps (S i mod length ps)).
Proof.
  intros ps h. unfold planes. rewrite in_map_iff. split; [intros (i & <- & I); apply in_seq in I; exists i; split; [lia|reflexivity]|].
  intros (i & I & ->). exists i. split; [reflexivity|apply in_seq; lia].
Qed.
(** The separating axis theorem: if no edge of either has all of the other polygon strictly on its
    outer side, they have a common point. *)
Lemma separating_axis : forall p q, convex_ccw p -> convex_ccw q -> (3 <= length p)%nat -> (3 <= length q)%nat ->
  (forall i, (i < length p)%nat -> exists v, In v q /\ 0 <= tri2 (pnth p i) (pnth p (S i mod length p)) v) ->
  (forall i, (i < length q)%nat -> exists v, In v p /\ 0 <= tri2 (pnth q i) (pnth q (S i mod length q)) v) -> overlap p q.
Proof.
  intros p q Cp Cq Lp Lq Hp Hq.
  assert (SELF : forall r, convex_ccw r -> (3 <= length r)%nat -> forall h v, In h (planes r) -> In v r -> holds h v).
  { intros r C L h v Ih Iv. apply planes_in in Ih. destruct Ih as (i & I & ->). unfold holds. rewrite left_plane_ok.
    apply (In_nth r v (mkpt 0 0)) in Iv as (k & Hk & E). rewrite <- E. apply (convex_vertex_left r i k); auto. }
  assert (OTHp : forall h, In h (planes p) -> exists v, In v q /\ holds h v).
  { intros h Ih. apply planes_in in Ih. destruct Ih as (i & I & ->). destruct (Hp i I) as (v & V & T). exists v. split; [exact V|]. unfold holds. rewrite left_plane_ok. exact T. }
  assert (OTHq : forall h, In h (planes q) -> exists v, In v p /\ holds h v).
  { intros h Ih. apply planes_in in Ih. destruct Ih as (i & I & ->). destruct (Hq i I) as (v & V & T). exists v. split; [exact V|]. unfold holds. rewrite left_plane_ok. exact T. }
  pose proof (SELF p Cp Lp) as Sp. pose proof (SELF q Cq Lq) as Sq.
  destruct (helly (planes p ++ planes q)) as (x & X).
  - assert (VP : exists v, In v p) by (destruct p as [|v p]; [cbn in Lp; lia|exists v; left; reflexivity]). assert (VQ : exists v, In v q) by (destruct q as [|v q]; [cbn in Lq; lia|exists v; left; reflexivity]).
    intros h1 h2 h3 I1 I2 I3. apply in_app_or in I1. apply in_app_or in I2. apply in_app_or in I3.
    destruct I1 as [I1|I1], I2 as [I2|I2], I3 as [I3|I3].
    + destruct VP as [v V]. exists v. auto.
    + destruct (OTHq h3 I3) as (v & V & T). exists v. auto.
    + destruct (OTHq h2 I2) as (v & V & T). exists v. auto.
    + destruct (OTHp h1 I1) as (v & V & T). exists v. auto.
    + destruct (OTHq h1 I1) as (v & V & T). exists v. auto.
    + destruct (OTHp h2 I2) as (v & V & T). exists v. auto.
    + destruct (OTHp h3 I3) as (v & V & T). exists v. auto.
    + destruct VQ as [v V]. exists v. auto.
  - exists x. split; apply left_of_all_hull; auto; intros i Hi; rewrite <- left_plane_ok; apply X, in_or_app; [left|right]; apply planes_in; exists i; auto.
Qed.
(** The converse: a common point is on the inner side of every edge, so is some vertex. *)
Lemma hull_vertex : forall (f : pt -> Q) ps x, (forall a b c A B C, a + b + c == 1 -> f (vadd (vscale a A) (vadd (vscale b B) (vscale c C))) == a * f A + b * f B + c * f C) ->
  (forall x y, x =p= y -> f x == f y) -> in_hull ps x -> exists v, In v ps /\ f x <= f v.
Proof.
  intros f ps x AFF EXT (A & B & C & IA & IB & IC & a & b & c & Ha & Hb & Hc & S & E). assert (EE : f x == a * f A + b * f B + c * f C) by (etransitivity; [apply EXT, E|apply AFF, S]).
  assert (M : forall m, f A <= m -> f B <= m -> f C <= m -> f x <= m).
  { intros m HA HB HC. assert (a * f A <= a * m) by (rewrite !(Qmult_comm a); apply Qmult_le_compat_r; assumption). assert (b * f B <= b * m) by (rewrite !(Qmult_comm b); apply Qmult_le_compat_r; assumption). assert (c * f C <= c * m) by (rewrite !(Qmult_comm c); apply Qmult_le_compat_r; assumption).
    assert (a * m + b * m + c * m == m) by (transitivity ((a + b + c) * m); [ring|rewrite S; ring]). lra. }
  destruct (Qlt_le_dec (f A) (f B)) as [H1|H1].
  - destruct (Qlt_le_dec (f B) (f C)) as [H2|H2]; [exists C|exists B]; (split; [assumption|apply M; lra]).
  - destruct (Qlt_le_dec (f A) (f C)) as [H2|H2]; [exists C|exists A]; (split; [assumption|apply M; lra]).
Qed.
Lemma tri2_vertex : forall A B ps x, in_hull ps x -> exists v, In v ps /\ tri2 A B x <= tri2 A B v.
Proof. intros A B ps x H. apply hull_vertex; [intros; apply tri2_comb; assumption|intros; apply tri2_pteq; assumption|exact H]. Qed.
Lemma separating_axis_converse : forall p q, convex_ccw p -> convex_ccw q -> (3 <= length p)%nat -> (3 <= length q)%nat -> overlap p q ->
  (forall i, (i < length p)%nat -> exists v, In v q /\ 0 <= tri2 (pnth p i) (pnth p (S i mod length p)) v) /\
  (forall i, (i < length q)%nat -> exists v, In v p /\ 0 <= tri2 (pnth q i) (pnth q (S i mod length q)) v).
Proof.
  intros p q Cp Cq Lp Lq (x & Xp & Xq). split; intros i I.
  - pose proof (hull_left p x i Cp Lp Xp I) as T. destruct (tri2_vertex (pnth p i) (pnth p (S i mod length p)) q x Xq) as (v & V & T'). exists v. split; [exact V|lra].
  - pose proof (hull_left q x i Cq Lq Xq I) as T. destruct (tri2_vertex (pnth q i) (pnth q (S i mod length q)) p x Xp) as (v & V & T'). exists v. split; [exact V|lra].
Qed.
