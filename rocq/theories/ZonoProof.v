(** Zonotopes in the plane: the support inequalities across the generators decide
    membership.  This is the completeness of the separating axis test for boxes. *)
From Verif Require Import Base CmpModel BoxModel BoxSpec DistModel DistSpec OrientSpec OrientProof BoxIntModel BoxIntSpec BoxIntProof.

Definition Gen : Type := (pt * Q)%type.
Fixpoint zono (gs : list Gen) (x : pt) : Prop :=
  match gs with
  | [] => x =p= mkpt 0 0
  | (g, h) :: gs' => exists t, - h <= t <= h /\ zono gs' (vsub x (vscale t g))
  end.
Fixpoint width (gs : list Gen) (n : pt) : Q :=
  match gs with [] => 0 | (g, h) :: gs' => h * qabs (cross g n) + width gs' n end.
Definition gens_ok (gs : list Gen) : Prop := forall g h, In (g, h) gs -> 0 <= h.
Definition supports (gs : list Gen) (x : pt) : Prop := forall g h, In (g, h) gs -> qabs (cross x g) <= width gs g.

Lemma gens_ok_cons : forall g h gs, gens_ok ((g, h) :: gs) -> 0 <= h /\ gens_ok gs.
Proof. intros g h gs H; split; [apply (H g h); left; reflexivity|intros g' h' H'; apply (H g' h'); right; exact H']. Qed.

Lemma width_nonneg : forall gs n, gens_ok gs -> 0 <= width gs n.
Proof.
  induction gs as [|[g h] gs IH]; intros n OK; cbn [width]; [lra|]. apply gens_ok_cons in OK as [H OK].
  specialize (IH n OK). pose proof (qabs_nonneg (cross g n)). nra.
Qed.

Lemma zono_support : forall gs x n, zono gs x -> qabs (cross x n) <= width gs n.
Proof.
  induction gs as [|[g h] gs IH]; intros x n H; cbn [zono width] in *.
  - destruct H as [E1 E2]; simpl in *. assert (E : cross x n == 0) by (unfold cross; rewrite E1, E2; ring). rewrite E. change (qabs 0) with 0. lra.
  - destruct H as (t & Ht & H). specialize (IH _ n H).
    assert (E : cross x n == t * cross g n + cross (vsub x (vscale t g)) n) by (unfold cross, vsub, vscale; simpl; ring). rewrite E.
    eapply Qle_trans; [apply qabs_tri|]. rewrite qabs_mult. assert (qabs t <= h) by (apply qabs_le; exact Ht).
    pose proof (qabs_nonneg (cross g n)). pose proof (qabs_nonneg t).
    assert (qabs t * qabs (cross g n) <= h * qabs (cross g n)) by (apply Qmult_le_compat_r; assumption). lra.
Qed.

(** One-dimensional Helly for a list of slabs (m, d, e). *)
Definition slabs_lo (l : list (Q * Q * Q)) : Q := fold_right (fun '(m, d, e) a => qmax (slo m d e) a) (-1) l.
Lemma slabs_lo_spec : forall l, -1 <= slabs_lo l /\ (forall m d e, In (m, d, e) l -> slo m d e <= slabs_lo l) /\
  (slabs_lo l == -1 \/ exists m d e, In (m, d, e) l /\ slabs_lo l == slo m d e).
Proof.
  induction l as [|[[m d] e] l (A & B & C)]; cbn [slabs_lo fold_right].
  - split; [lra|]. split; [intros ? ? ? []|left; reflexivity].
  - fold (slabs_lo l). destruct (qmax_spec (slo m d e) (slabs_lo l)) as (M1 & M2 & M3). split; [lra|]. split.
    + intros m' d' e' [E|H]; [injection E as -> -> ->; exact M2|]. specialize (B _ _ _ H). lra.
    + destruct M1 as [M|M]; [right; exists m, d, e; split; [left; reflexivity|exact M]|].
      destruct C as [C|(m' & d' & e' & H & E)]; [left; lra|right; exists m', d', e'; split; [right; exact H|lra]].
Qed.
Lemma helly_list : forall l, (forall m d e, In (m, d, e) l -> 0 <= e /\ qabs m <= e + qabs d) ->
  (forall m1 d1 e1 m2 d2 e2, In (m1, d1, e1) l -> In (m2, d2, e2) l -> cx m1 d1 e1 m2 d2 e2) ->
  exists t, -1 <= t <= 1 /\ forall m d e, In (m, d, e) l -> - e <= m + t * d <= e.
Proof.
  intros l H1 H2. destruct (slabs_lo_spec l) as (A & B & C). exists (slabs_lo l).
  assert (U : slabs_lo l <= 1).
  { destruct C as [C|(m & d & e & H & E)]; [lra|]. destruct (H1 _ _ _ H) as [X Y]. destruct (slo_le1 m d e X Y). lra. }
  split; [lra|]. intros m d e H. destruct (H1 _ _ _ H) as [X Y]. apply sbounds; [exact X|exact Y|lra|]. split; [apply B; exact H|].
  destruct C as [C|(m' & d' & e' & H' & E)].
  - destruct (slo_le1 m d e X Y). lra.
  - rewrite E. destruct (H1 _ _ _ H') as [X' Y']. apply slo_le_shi; try assumption. apply H2; assumption.
Qed.

Lemma pluecker : forall x g a b, cross x a * cross g b - cross x b * cross g a == cross x g * cross a b.
Proof. intros; unfold cross; ring. Qed.

Lemma width_pluecker : forall gs g a b, gens_ok gs ->
  width gs g * qabs (cross a b) <= width gs a * qabs (cross g b) + width gs b * qabs (cross g a).
Proof.
  induction gs as [|[k h] gs IH]; intros g a b OK; cbn [width]; [lra|].
  apply gens_ok_cons in OK as [H OK]. specialize (IH g a b OK).
  assert (P : qabs (cross k g) * qabs (cross a b) <= qabs (cross k a) * qabs (cross g b) + qabs (cross k b) * qabs (cross g a)).
  { rewrite <- !qabs_mult. rewrite <- pluecker. assert (E : cross k a * cross g b - cross k b * cross g a == cross k a * cross g b + - (cross k b * cross g a)) by ring.
    rewrite E. eapply Qle_trans; [apply qabs_tri|]. rewrite qabs_opp. lra. }
  assert (h * (qabs (cross k g) * qabs (cross a b)) <= h * (qabs (cross k a) * qabs (cross g b) + qabs (cross k b) * qabs (cross g a))).
  { rewrite (Qmult_comm h), (Qmult_comm h). apply Qmult_le_compat_r; assumption. }
  lra.
Qed.

Lemma cross_self : forall g, cross g g == 0.
Proof. intro; unfold cross; ring. Qed.

Lemma zono_complete : forall gs g1 h1 g2 h2, ~ cross g1 g2 == 0 ->
  let all := gs ++ [(g1, h1); (g2, h2)] in gens_ok all -> forall x, supports all x -> zono all x.
Proof.
  intros gs g1 h1 g2 h2 N; cbv zeta. induction gs as [|[g h] gs IH]; intros OK x S.
  - cbn [app zono] in *.
    assert (S1 := S g1 h1 (or_introl eq_refl)). assert (S2 := S g2 h2 (or_intror (or_introl eq_refl))). cbn [width] in S1, S2.
    rewrite cross_self in S1, S2. change (qabs 0) with 0 in S1, S2.
    set (K := cross g1 g2) in *. assert (K' : cross g2 g1 == - K) by (unfold K, cross; ring). rewrite K', qabs_opp in S1.
    assert (PK : 0 < qabs K). { destruct (qabs_spec K) as (P & _ & P2 & P3). destruct (Qlt_le_dec 0 (qabs K)); [assumption|]. exfalso; apply N; lra. }
    assert (D : forall y z, qabs y <= z * qabs K -> - z <= y / K <= z).
    { intros y z H. apply qabs_le. assert (E : qabs (y / K) * qabs K == qabs y).
      { rewrite <- qabs_mult. apply qabs_compat. field. exact N. }
      destruct (Qlt_le_dec z (qabs (y / K))) as [L|L]; [|exact L]. exfalso. nra. }
    exists (cross x g2 / K). split; [apply D; lra|]. exists (- (cross x g1) / K). split; [apply D; rewrite qabs_opp; lra|].
    unfold pteq, vsub, vscale, cross in *; simpl. split; unfold K, cross; field; exact N.
  - cbn [app] in *. apply gens_ok_cons in OK as [H OK]. set (all := gs ++ [(g1, h1); (g2, h2)]) in *.
    assert (W : forall n, width ((g, h) :: all) n == h * qabs (cross g n) + width all n) by (intro; reflexivity).
    destruct (helly_list (map (fun '(k, _) => (cross x k, - h * cross g k, width all k)) all)) as (s & Hs & T).
    + intros m d e IN. apply in_map_iff in IN as ([k hk] & E & IN). assert (m = cross x k) by congruence. assert (d = - h * cross g k) by congruence.
      assert (e = width all k) by congruence. subst m d e. split; [apply width_nonneg; exact OK|].
      specialize (S k hk (or_intror IN)). rewrite W in S. rewrite qabs_mult, qabs_opp, (qabs_pos h H). lra.
    + intros m1 d1 e1 m2 d2 e2 IN1 IN2. apply in_map_iff in IN1 as ([k hk] & E & IN1). apply in_map_iff in IN2 as ([l hl] & F & IN2).
      assert (m1 = cross x k) by congruence. assert (d1 = - h * cross g k) by congruence. assert (e1 = width all k) by congruence.
      assert (m2 = cross x l) by congruence. assert (d2 = - h * cross g l) by congruence. assert (e2 = width all l) by congruence. subst.
      unfold cx.
      assert (X : cross x k * (- h * cross g l) - cross x l * (- h * cross g k) == - h * (cross x g * cross k l)) by (rewrite <- pluecker; ring).
      rewrite X, !qabs_mult, qabs_opp, (qabs_pos h H).
      assert (S0 := S g h (or_introl eq_refl)). rewrite W, cross_self in S0. change (qabs 0) with 0 in S0.
      pose proof (width_pluecker all g k l OK) as P. pose proof (qabs_nonneg (cross k l)).
      assert (qabs (cross x g) * qabs (cross k l) <= width all g * qabs (cross k l)) by (apply Qmult_le_compat_r; lra).
      assert (Y : h * (qabs (cross x g) * qabs (cross k l)) <= h * (width all k * qabs (cross g l) + width all l * qabs (cross g k))).
      { rewrite (Qmult_comm h), (Qmult_comm h). apply Qmult_le_compat_r; lra. }
      lra.
    + cbn [zono]. exists (h * s). split; [nra|]. apply (IH OK). intros k hk IN.
      assert (Z := T (cross x k) (- h * cross g k) (width all k)).
      assert (E : cross (vsub x (vscale (h * s) g)) k == cross x k + s * (- h * cross g k)) by (unfold cross, vsub, vscale; simpl; ring).
      rewrite E. apply qabs_le. apply Z. apply in_map_iff. exists (k, hk). split; [reflexivity|exact IN].
Qed.

(** ** Oriented boxes *)
Lemma perp_pair : forall u v, dot u u == 1 -> dot v v == 1 -> dot u v == 0 ->
  cross u v * cross u v == 1 /\ (forall x, dot x v == cross u v * cross u x) /\ (forall x, dot x u == - (cross u v * cross v x)).
Proof.
  intros [ux uy] [vx vy] U V O; unfold dot, cross in *; simpl in *.
  assert (K : (ux * vy - uy * vx) * (ux * vy - uy * vx) == 1).
  { assert (E : (ux * vy - uy * vx) * (ux * vy - uy * vx) == (ux * ux + uy * uy) * (vx * vx + vy * vy) - (ux * vx + uy * vy) * (ux * vx + uy * vy)) by ring.
    rewrite E, U, V, O. ring. }
  split; [exact K|].
  split; intros [x y]; simpl.
  - assert (E : (ux * vy - uy * vx) * (ux * y - uy * x) == (x * vx + y * vy) * (ux * ux + uy * uy) - (x * ux + y * uy) * (ux * vx + uy * vy)) by ring.
    rewrite E, U, O. ring.
  - assert (E : - ((ux * vy - uy * vx) * (vx * y - vy * x)) == (x * ux + y * uy) * (vx * vx + vy * vy) - (x * vx + y * vy) * (ux * vx + uy * vy)) by ring.
    rewrite E, V, O. ring.
Qed.

Lemma sq1_abs : forall k, k * k == 1 -> qabs k == 1.
Proof. intros k H. unfold qabs; qcase; nra. Qed.

Lemma perp_abs : forall u v, dot u u == 1 -> dot v v == 1 -> dot u v == 0 ->
  qabs (cross u v) == 1 /\ (forall x, qabs (cross x u) == qabs (dot x v)) /\ (forall x, qabs (cross x v) == qabs (dot x u)).
Proof.
  intros u v U V O. destruct (perp_pair u v U V O) as (K & A & B). pose proof (sq1_abs _ K) as K'. split; [exact K'|].
  split; intro x.
  - rewrite A, qabs_mult, K'. rewrite <- (qabs_opp (cross x u)). assert (E : - cross x u == cross u x) by (unfold cross; ring). rewrite E. ring.
  - rewrite B, qabs_opp, qabs_mult, K'. rewrite <- (qabs_opp (cross x v)). assert (E : - cross x v == cross v x) by (unfold cross; ring). rewrite E. ring.
Qed.

Lemma obb_zono : forall o1 o2,
  meet (in_obb o1) (in_obb o2) <->
  zono [(o_u o1, o_hu o1); (o_v o1, o_hv o1); (o_u o2, o_hu o2); (o_v o2, o_hv o2)] (vsub (o_center o2) (o_center o1)).
Proof.
  intros o1 o2. cbn [zono]. split.
  - intros (X & (s & t & Hs & Ht & E1 & E2) & (s' & t' & Hs' & Ht' & E3 & E4)).
    exists s; split; [exact Hs|]. exists t; split; [exact Ht|]. exists (- s'); split; [lra|]. exists (- t'); split; [lra|].
    unfold pteq, vsub, vadd, vscale in *; simpl in *. split; lra.
  - intros (s & Hs & t & Ht & s' & Hs' & t' & Ht' & E1 & E2).
    exists (vadd (o_center o1) (vadd (vscale s (o_u o1)) (vscale t (o_v o1)))).
    split; [exists s, t; split; [exact Hs|]; split; [exact Ht|apply pteq_refl]|].
    exists (- s'), (- t'). split; [lra|]. split; [lra|]. unfold pteq, vsub, vadd, vscale in *; simpl in *. split; lra.
Qed.

Lemma obb_obb_ok : forall o1 o2, ok_obb o1 -> ok_obb o2 ->
  (obb_obb_intersection direct o1 o2 = true <-> meet (in_obb o1) (in_obb o2)).
Proof.
  intros o1 o2 (U1 & V1 & P1 & A1 & B1) (U2 & V2 & P2 & A2 & B2).
  destruct (perp_abs _ _ U1 V1 P1) as (K1 & XU1 & XV1). destruct (perp_abs _ _ U2 V2 P2) as (K2 & XU2 & XV2).
  set (c := vsub (o_center o2) (o_center o1)).
  set (gs := [(o_u o1, o_hu o1); (o_v o1, o_hv o1); (o_u o2, o_hu o2); (o_v o2, o_hv o2)]).
  assert (SYM : forall a b, qabs (dot a b) == qabs (dot b a)) by (intros a b; apply qabs_compat; unfold dot; ring).
  assert (XS : forall a b, qabs (cross a b) == qabs (cross b a)).
  { intros a b. rewrite <- qabs_opp. apply qabs_compat. unfold cross; ring. }
  assert (UV : qabs (dot (o_u o1) (o_v o2)) == qabs (dot (o_v o1) (o_u o2))).
  { rewrite <- XU2. rewrite (SYM (o_v o1)), <- XU1. apply XS. }
  assert (W : width gs (o_v o1) == o_hu o1 + (o_hu o2 * qabs (dot (o_u o1) (o_u o2)) + o_hv o2 * qabs (dot (o_u o1) (o_v o2))) /\
              width gs (o_u o1) == o_hv o1 + (o_hu o2 * qabs (dot (o_v o1) (o_u o2)) + o_hv o2 * qabs (dot (o_v o1) (o_v o2))) /\
              width gs (o_v o2) == o_hu o1 * qabs (dot (o_u o1) (o_u o2)) + o_hv o1 * qabs (dot (o_u o1) (o_v o2)) + o_hu o2 /\
              width gs (o_u o2) == o_hu o1 * qabs (dot (o_v o1) (o_u o2)) + o_hv o1 * qabs (dot (o_v o1) (o_v o2)) + o_hv o2).
  { unfold gs; cbn [width]. rewrite !XV1, !XU1, !XV2, !XU2, U1, V1, U2, V2. change (qabs 1) with 1.
    rewrite (SYM (o_u o2) (o_u o1)), (SYM (o_v o2) (o_u o1)), (SYM (o_u o2) (o_v o1)), (SYM (o_v o2) (o_v o1)).
    rewrite (SYM (o_v o1) (o_u o1)), (SYM (o_v o2) (o_u o2)), P1, P2. change (qabs 0) with 0. rewrite <- UV.
    repeat split; try ring. }
  destruct W as (W1 & W2 & W3 & W4).
  assert (T : obb_obb_intersection direct o1 o2 = true <-> supports gs c).
  { assert (T1 : supports gs c <-> qabs (dot c (o_u o1)) <= width gs (o_v o1) /\ qabs (dot c (o_v o1)) <= width gs (o_u o1) /\
        qabs (dot c (o_u o2)) <= width gs (o_v o2) /\ qabs (dot c (o_v o2)) <= width gs (o_u o2)).
    { rewrite <- XV1, <- XU1, <- XV2, <- XU2. unfold supports. split.
      - intro S. split; [apply (S _ (o_hv o1)); unfold gs; cbn; auto|]. split; [apply (S _ (o_hu o1)); unfold gs; cbn; auto|].
        split; [apply (S _ (o_hv o2)); unfold gs; cbn; auto|apply (S _ (o_hu o2)); unfold gs; cbn; auto].
      - intros (S1 & S2 & S3 & S4) g h [E|[E|[E|[E|[]]]]]; injection E as <- <-; assumption. }
    rewrite T1, W1, W2, W3, W4. unfold obb_obb_intersection; simpl greater_than. fold c.
    repeat match goal with |- context [Qgtb ?a ?b] => destruct (Qgtb_spec a b) end; split; intro HH; try discriminate; try reflexivity; try (exfalso; lra).
    repeat split; lra. }
  rewrite T, obb_zono. fold c. fold gs. split.
  - intro S. apply (zono_complete [(o_u o1, o_hu o1); (o_v o1, o_hv o1)] (o_u o2) (o_hu o2) (o_v o2) (o_hv o2)).
    + intro E. rewrite E in K2. discriminate K2.
    + cbn [app]. intros g h [E|[E|[E|[E|[]]]]]; injection E as <- <-; assumption.
    + exact S.
  - intros Z g h IN. apply zono_support; exact Z.
Qed.
