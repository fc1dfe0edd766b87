From Verif Require Import Base CmpModel CmpProof OrientModel OrientSpec OrientProof DistModel LinIntModel LinIntSpec LinIntProof.

Ltac v3 := unfold dist2_3, lerp3, pt3eq, vadd3, vscale3, vsub3, dot3, cross3 in *; simpl in *.

Ltac g3 := unfold dist2_3, lerp3, pt3eq, vadd3, vscale3, vsub3, dot3, cross3; cbn [x3 y3 z3].

Lemma pt3eq_refl : forall a, pt3eq a a.
Proof. intro; repeat split; reflexivity. Qed.
Lemma pt3eq_sym : forall a b, pt3eq a b -> pt3eq b a.
Proof. intros a b (H1 & H2 & H3); repeat split; symmetry; assumption. Qed.
Lemma pt3eq_trans : forall a b c, pt3eq a b -> pt3eq b c -> pt3eq a c.
Proof. intros a b c (H1 & H2 & H3) (G1 & G2 & G3); repeat split; etransitivity; eauto. Qed.

Lemma nz3_dot : forall v, nonzero3 v -> 0 < dot3 v v.
Proof.
  intros [x y z] H; unfold nonzero3, dot3 in *; simpl in *.
  pose proof (sq_nonneg x); pose proof (sq_nonneg y); pose proof (sq_nonneg z).
  destruct (Qlt_le_dec 0 (x * x + y * y + z * z)) as [G|G]; [exact G|exfalso].
  apply H; repeat split; apply sq_zero; lra.
Qed.
Lemma dot3_zero : forall v, dot3 v v == 0 -> x3 v == 0 /\ y3 v == 0 /\ z3 v == 0.
Proof.
  intros [x y z] H; unfold dot3 in *; simpl in *.
  pose proof (sq_nonneg x); pose proof (sq_nonneg y); pose proof (sq_nonneg z).
  repeat split; apply sq_zero; lra.
Qed.

Lemma lerp3_inj : forall A B x y, nonzero3 (vsub3 B A) -> pt3eq (lerp3 A B x) (lerp3 A B y) -> x == y.
Proof.
  intros [ax ay az] [bx by_ bz] x y H (E1 & E2 & E3); v3.
  destruct (Qeq_dec x y) as [E|E]; [exact E|exfalso]. apply H; simpl.
  assert (P1 : (x - y) * (bx - ax) == 0) by lra. assert (P2 : (x - y) * (by_ - ay) == 0) by lra.
  assert (P3 : (x - y) * (bz - az) == 0) by lra.
  apply Qmult_integral in P1. apply Qmult_integral in P2. apply Qmult_integral in P3.
  repeat split; [destruct P1|destruct P2|destruct P3]; try assumption; exfalso; apply E; lra.
Qed.
Lemma lerp3_compat : forall A B t t', t == t' -> pt3eq (lerp3 A B t) (lerp3 A B t').
Proof. intros A B t t' E; v3; rewrite E; repeat split; ring. Qed.
Lemma lerp3_compat_pt : forall A B A' B' t, pt3eq A A' -> pt3eq B B' -> pt3eq (lerp3 A B t) (lerp3 A' B' t).
Proof. intros A B A' B' t (E1 & E2 & E3) (F1 & F2 & F3); v3; rewrite ?E1, ?E2, ?E3, ?F1, ?F2, ?F3; repeat split; ring. Qed.
Lemma lerp3_lerp3 : forall A B c d t, pt3eq (lerp3 (lerp3 A B c) (lerp3 A B d) t) (lerp3 A B (c + t * (d - c))).
Proof. intros; v3; repeat split; ring. Qed.
Lemma lerp3_0 : forall A B, pt3eq A (lerp3 A B 0).
Proof. intros; v3; repeat split; ring. Qed.
Lemma lerp3_1 : forall A B, pt3eq B (lerp3 A B 1).
Proof. intros; v3; repeat split; ring. Qed.

Lemma on_segment3_line : forall A B C D c d X, pt3eq C (lerp3 A B c) -> pt3eq D (lerp3 A B d) ->
  (on_segment3 C D X <-> exists x, btw c d x /\ pt3eq X (lerp3 A B x)).
Proof.
  intros A B C D c d X EC ED. split.
  - intros (t & Ht & E). exists (c + t * (d - c)). split; [apply param_btw; exact Ht|].
    eapply pt3eq_trans; [exact E|]. eapply pt3eq_trans; [apply lerp3_compat_pt; [exact EC|exact ED]|]. apply lerp3_lerp3.
  - intros (x & Hx & E). destruct (btw_param c d x Hx) as (t & Ht & Et). exists t; split; [exact Ht|].
    eapply pt3eq_trans; [exact E|]. eapply pt3eq_trans; [apply lerp3_compat; exact Et|].
    eapply pt3eq_trans; [apply pt3eq_sym, lerp3_lerp3|]. apply lerp3_compat_pt; apply pt3eq_sym; assumption.
Qed.

Lemma par_comp : forall v w, (let k := cross3 v w in x3 k == 0 /\ y3 k == 0 /\ z3 k == 0) ->
  x3 w * dot3 v v == dot3 v w * x3 v /\ y3 w * dot3 v v == dot3 v w * y3 v /\ z3 w * dot3 v v == dot3 v w * z3 v.
Proof.
  intros [a b c] [x y z] (K1 & K2 & K3). v3. repeat split.
  - transitivity ((a * x + b * y + c * z) * a + (c * (c * x - a * z) - b * (a * y - b * x))); [ring|]. rewrite K2, K3; ring.
  - transitivity ((a * x + b * y + c * z) * b + (a * (a * y - b * x) - c * (b * z - c * y))); [ring|]. rewrite K1, K3; ring.
  - transitivity ((a * x + b * y + c * z) * c + (b * (b * z - c * y) - a * (c * x - a * z))); [ring|]. rewrite K1, K2; ring.
Qed.

Section Params.
Variables p1 p2 p3 p4 : pt3.
Let v1 := vsub3 p2 p1.
Let v2 := vsub3 p4 p3.
Let u := vsub3 p1 p3.
Let a := dist2_3 p1 p2.
Let b := dot3 v1 v2.
Let c := dist2_3 p3 p4.
Let d := dot3 v1 u.
Let e := dot3 v2 u.
Let det := a * c - b * b.

Lemma det_cross3 : det == dot3 (cross3 v1 v2) (cross3 v1 v2).
Proof. unfold det, a, b, c, v1, v2; g3; ring. Qed.

(** A common point of the two lines solves the normal equations and makes the points
    coplanar. *)
Lemma common_solves : forall s t, pt3eq (lerp3 p1 p2 s) (lerp3 p3 p4 t) ->
  s * det == b * e - c * d /\ t * det == a * e - b * d /\ dot3 (vsub3 p3 p1) (cross3 v1 v2) == 0.
Proof.
  intros s t (E1 & E2 & E3).
  assert (U1 : x3 u == t * x3 v2 - s * x3 v1) by (unfold u, v1, v2; g3; v3; lra).
  assert (U2 : y3 u == t * y3 v2 - s * y3 v1) by (unfold u, v1, v2; g3; v3; lra).
  assert (U3 : z3 u == t * z3 v2 - s * z3 v1) by (unfold u, v1, v2; g3; v3; lra).
  assert (A1 : a == dot3 v1 v1) by (unfold a, v1; g3; ring).
  assert (C1 : c == dot3 v2 v2) by (unfold c, v2; g3; ring).
  split; [|split].
  - unfold det, d, e, b. rewrite A1, C1. unfold dot3. rewrite U1, U2, U3. ring.
  - unfold det, d, e, b. rewrite A1, C1. unfold dot3. rewrite U1, U2, U3. ring.
  - transitivity (- dot3 u (cross3 v1 v2)).
    + unfold u; g3; ring.
    + unfold dot3. rewrite U1, U2, U3. unfold cross3; simpl. ring.
Qed.

(** Conversely, when the points are coplanar and the lines not parallel. *)
Lemma solve_common : 0 < det -> dot3 (vsub3 p3 p1) (cross3 v1 v2) == 0 ->
  pt3eq (lerp3 p1 p2 ((b * e - c * d) / det)) (lerp3 p3 p4 ((a * e - b * d) / det)).
Proof.
  intros Hd HC.
  assert (A1 : a == dot3 v1 v1) by (unfold a, v1; g3; ring).
  assert (C1 : c == dot3 v2 v2) by (unfold c, v2; g3; ring).
  assert (HC' : dot3 u (cross3 v1 v2) == 0).
  { transitivity (- dot3 (vsub3 p3 p1) (cross3 v1 v2)); [|rewrite HC; ring]. unfold u; g3; ring. }
  assert (K : forall f : pt3 -> Q, (f = x3 \/ f = y3 \/ f = z3) ->
    det * f u + (b * e - c * d) * f v1 - (a * e - b * d) * f v2 == 0).
  { intros f Hf. transitivity (dot3 u (cross3 v1 v2) * f (cross3 v1 v2)); [|rewrite HC'; ring].
    unfold det, d, e, b. rewrite A1, C1.
    clearbody u v1 v2. destruct u, v1, v2. v3. destruct Hf as [->|[->| ->]]; simpl; ring. }
  set (s := (b * e - c * d) / det). set (t := (a * e - b * d) / det).
  assert (S : b * e - c * d == s * det) by (unfold s; field; lra).
  assert (T : a * e - b * d == t * det) by (unfold t; field; lra).
  assert (K' : forall f : pt3 -> Q, (f = x3 \/ f = y3 \/ f = z3) -> f u + s * f v1 - t * f v2 == 0).
  { intros f Hf. specialize (K f Hf). rewrite S, T in K.
    assert (Q' : det * (f u + s * f v1 - t * f v2) == 0) by (rewrite <- K; ring).
    apply Qmult_integral in Q' as [Q'|Q']; [lra|exact Q']. }
  pose proof (K' x3 (or_introl eq_refl)) as K1. pose proof (K' y3 (or_intror (or_introl eq_refl))) as K2.
  pose proof (K' z3 (or_intror (or_intror eq_refl))) as K3. clear K K'.
  unfold u, v1, v2 in K1, K2, K3. clearbody s t. v3. repeat split; lra.
Qed.

Lemma params3_unique : 0 < det -> forall s t, pt3eq (lerp3 p1 p2 s) (lerp3 p3 p4 t) ->
  s == (b * e - c * d) / det /\ t == (a * e - b * d) / det.
Proof.
  intros Hd s t E. destruct (common_solves s t E) as (S & T & _). rewrite <- S, <- T. split; field; lra.
Qed.

(** Parallel: second segment on the first one's line exactly when the cross product is 0. *)
Lemma par3_params : nonzero3 v1 -> det == 0 ->
  (let k := cross3 v1 (vsub3 p3 p1) in x3 k == 0 /\ y3 k == 0 /\ z3 k == 0) ->
  let s0 := dot3 v1 (vsub3 p3 p1) / dot3 v1 v1 in
  let s1 := s0 + b / dot3 v1 v1 in
  pt3eq p3 (lerp3 p1 p2 s0) /\ pt3eq p4 (lerp3 p1 p2 s1).
Proof.
  intros N D0 (K1 & K2 & K3) s0 s1. pose proof (nz3_dot v1 N) as Hn.
  rewrite det_cross3 in D0. apply dot3_zero in D0 as (X1 & X2 & X3).
  set (l2 := dot3 v1 v1) in *. set (w := vsub3 p3 p1) in *.
  assert (S0 : dot3 v1 w == s0 * l2) by (unfold s0; field; lra).
  assert (S1 : b == (s1 - s0) * l2) by (unfold s1; field; lra).
  assert (W : forall x y, x * l2 == y * l2 -> x == y).
  { intros x y H. assert (G : (x - y) * l2 == 0) by lra. apply Qmult_integral in G as [G|G]; lra. }
  destruct (par_comp v1 w (conj K1 (conj K2 K3))) as (P1 & P2 & P3).
  destruct (par_comp v1 v2 (conj X1 (conj X2 X3))) as (R1 & R2 & R3).
  fold l2 in P1, P2, P3, R1, R2, R3. fold b in R1, R2, R3. rewrite S0 in P1, P2, P3. rewrite S1 in R1, R2, R3.
  assert (W0 : x3 w == s0 * x3 v1 /\ y3 w == s0 * y3 v1 /\ z3 w == s0 * z3 v1)
    by (repeat split; apply W; [rewrite P1|rewrite P2|rewrite P3]; ring).
  assert (W1 : x3 v2 == (s1 - s0) * x3 v1 /\ y3 v2 == (s1 - s0) * y3 v1 /\ z3 v2 == (s1 - s0) * z3 v1)
    by (repeat split; apply W; [rewrite R1|rewrite R2|rewrite R3]; ring).
  clear P1 P2 P3 R1 R2 R3 S0 S1 X1 X2 X3 K1 K2 K3.
  clearbody s0 s1. destruct W0 as (W01 & W02 & W03). destruct W1 as (W11 & W12 & W13).
  unfold w in *. unfold v1, v2 in *. v3. repeat split; lra.
Qed.

Lemma common_k : det == 0 -> forall s t, pt3eq (lerp3 p1 p2 s) (lerp3 p3 p4 t) ->
  let k := cross3 v1 (vsub3 p3 p1) in x3 k == 0 /\ y3 k == 0 /\ z3 k == 0.
Proof.
  intros D0 s t (E1 & E2 & E3) k.
  rewrite det_cross3 in D0. apply dot3_zero in D0 as (X1 & X2 & X3).
  assert (U1 : x3 (vsub3 p3 p1) == s * x3 v1 - t * x3 v2) by (unfold v1, v2; g3; v3; lra).
  assert (U2 : y3 (vsub3 p3 p1) == s * y3 v1 - t * y3 v2) by (unfold v1, v2; g3; v3; lra).
  assert (U3 : z3 (vsub3 p3 p1) == s * z3 v1 - t * z3 v2) by (unfold v1, v2; g3; v3; lra).
  unfold k; repeat split; unfold cross3 in *; cbn [x3 y3 z3] in *; rewrite ?U1, ?U2, ?U3.
  - transitivity (- t * (y3 v1 * z3 v2 - z3 v1 * y3 v2)); [ring|rewrite X1; ring].
  - transitivity (- t * (z3 v1 * x3 v2 - x3 v1 * z3 v2)); [ring|rewrite X2; ring].
  - transitivity (- t * (x3 v1 * y3 v2 - y3 v1 * x3 v2)); [ring|rewrite X3; ring].
Qed.
End Params.

Lemma parallel3_det : forall u v, nonzero3 u -> nonzero3 v ->
  (parallel3 u v <-> dot3 (cross3 u v) (cross3 u v) == 0).
Proof.
  intros u v NU NV. split.
  - intros (a & b & N & E1 & E2 & E3).
    assert (Z : forall w, nonzero3 w -> forall k, x3 (vscale3 k w) == 0 /\ y3 (vscale3 k w) == 0 /\ z3 (vscale3 k w) == 0 -> k == 0).
    { intros w Nw k (G1 & G2 & G3). destruct (Qeq_dec k 0) as [E|E]; [exact E|exfalso]. apply Nw. v3.
      apply Qmult_integral in G1. apply Qmult_integral in G2. apply Qmult_integral in G3. tauto. }
    destruct (Qeq_dec a 0) as [Ea|Ea].
    + exfalso; apply N; split; [exact Ea|]. apply (Z v NV). v3. rewrite Ea in E1, E2, E3. repeat split; lra.
    + assert (K : forall q, a * q == 0 -> q == 0) by (intros q G; apply Qmult_integral in G; tauto).
      v3. assert (K1 : y3 u * z3 v - z3 u * y3 v == 0).
      { apply K. transitivity (a * y3 u * z3 v - a * z3 u * y3 v); [ring|]. rewrite E2, E3; ring. }
      assert (K2 : z3 u * x3 v - x3 u * z3 v == 0).
      { apply K. transitivity (a * z3 u * x3 v - a * x3 u * z3 v); [ring|]. rewrite E1, E3; ring. }
      assert (K3 : x3 u * y3 v - y3 u * x3 v == 0).
      { apply K. transitivity (a * x3 u * y3 v - a * y3 u * x3 v); [ring|]. rewrite E1, E2; ring. }
      rewrite K1, K2, K3; ring.
  - intro E. apply dot3_zero in E. pose proof (nz3_dot u NU) as Hn. destruct (par_comp u v E) as (P1 & P2 & P3).
    exists (dot3 u v), (dot3 u u). split; [intros [_ G]; lra|]. unfold pt3eq, vscale3; simpl.
    repeat split; lra.
Qed.

Lemma on3_lerp : forall A B X, on_segment3 A B X -> exists x, in01 x /\ pt3eq X (lerp3 A B x).
Proof. intros A B X H; exact H. Qed.

Lemma segseg3_ok : forall p1 p2 p3 p4, nonzero3 (vsub3 p2 p1) -> nonzero3 (vsub3 p4 p3) -> exists ty pts,
  segment_segment_intersection3 direct p1 p2 p3 p4 = Some (ty, pts) /\
  match ty with
  | e_invalid_intersection => False
  | e_non_crossing => pts = [] /\ forall Z, ~ common3 p1 p2 p3 p4 Z
  | e_crossing => exists X, pts = [X] /\ (forall Z, common3 p1 p2 p3 p4 Z <-> pt3eq Z X) /\
      inside_segment3 p3 p4 X /\ ~ parallel3 (vsub3 p2 p1) (vsub3 p4 p3)
  | e_endpoint => exists X, pts = [X] /\ (forall Z, common3 p1 p2 p3 p4 Z <-> pt3eq Z X) /\ (pt3eq X p3 \/ pt3eq X p4)
  | e_overlapping => exists X Y, pts = [X; Y] /\ (forall Z, common3 p1 p2 p3 p4 Z <-> on_segment3 X Y Z) /\
      ~ pt3eq X Y /\ parallel3 (vsub3 p2 p1) (vsub3 p4 p3)
  end.
Proof.
  intros p1 p2 p3 p4 N1 N2. unfold segment_segment_intersection3, is_coplanar; simpl equals.
  pose proof (common_solves p1 p2 p3 p4) as CS. pose proof (solve_common p1 p2 p3 p4) as SC.
  pose proof (params3_unique p1 p2 p3 p4) as PU. pose proof (par3_params p1 p2 p3 p4 N1) as PP.
  pose proof (common_k p1 p2 p3 p4) as CK. pose proof (det_cross3 p1 p2 p3 p4) as DC.
  pose proof (parallel3_det _ _ N1 N2) as PD. rewrite <- DC in PD.
  assert (D0 : 0 <= dist2_3 p1 p2 * dist2_3 p3 p4 - dot3 (vsub3 p2 p1) (vsub3 p4 p3) * dot3 (vsub3 p2 p1) (vsub3 p4 p3)).
  { rewrite DC. unfold dot3. pose proof (sq_nonneg (x3 (cross3 (vsub3 p2 p1) (vsub3 p4 p3)))).
    pose proof (sq_nonneg (y3 (cross3 (vsub3 p2 p1) (vsub3 p4 p3)))). pose proof (sq_nonneg (z3 (cross3 (vsub3 p2 p1) (vsub3 p4 p3)))). lra. }
  set (det := dist2_3 p1 p2 * dist2_3 p3 p4 - dot3 (vsub3 p2 p1) (vsub3 p4 p3) * dot3 (vsub3 p2 p1) (vsub3 p4 p3)) in *.
  destruct (Qeqb_spec (dot3 (vsub3 p3 p1) (cross3 (vsub3 p2 p1) (vsub3 p4 p3))) 0) as [HC|HC]; cbn [negb].
  2:{ exists e_non_crossing, []. split; [reflexivity|]. split; [reflexivity|].
      intros Z [(s & _ & E1) (t & _ & E2)]. apply HC. eapply CS. eapply pt3eq_trans; [apply pt3eq_sym; exact E1|exact E2]. }
  simpl greater_than. simpl less_than. destruct (Qgtb_spec det 0) as [HD|HD].
  - specialize (SC HD HC). specialize (PU HD). rewrite !qdiv_opt_some by lra.
    set (s := (dot3 (vsub3 p2 p1) (vsub3 p4 p3) * dot3 (vsub3 p4 p3) (vsub3 p1 p3) - dist2_3 p3 p4 * dot3 (vsub3 p2 p1) (vsub3 p1 p3)) / det) in *.
    set (t := (dist2_3 p1 p2 * dot3 (vsub3 p4 p3) (vsub3 p1 p3) - dot3 (vsub3 p2 p1) (vsub3 p4 p3) * dot3 (vsub3 p2 p1) (vsub3 p1 p3)) / det) in *.
    assert (NO : ~ (in01 s /\ in01 t) -> forall Z, ~ common3 p1 p2 p3 p4 Z).
    { intros H Z [(s' & Hs & E1) (t' & Ht & E2)]. destruct (PU s' t') as [U1 U2].
      - eapply pt3eq_trans; [apply pt3eq_sym; exact E1|exact E2].
      - apply H; unfold in01; split; lra. }
    assert (YES : in01 s -> in01 t -> forall Z, common3 p1 p2 p3 p4 Z <-> pt3eq Z (lerp3 p1 p2 s)).
    { intros Hs Ht Z; split.
      - intros [(s' & _ & E1) (t' & _ & E2)]. destruct (PU s' t') as [U1 U2].
        + eapply pt3eq_trans; [apply pt3eq_sym; exact E1|exact E2].
        + eapply pt3eq_trans; [exact E1|]. apply lerp3_compat; exact U1.
      - intro E. split; [exists s; auto|]. exists t; split; [exact Ht|]. eapply pt3eq_trans; [exact E|exact SC]. }
    clearbody s t. unfold in01 in *.
    destruct (Qltb_spec s 0); cbn [orb]; [exists e_non_crossing, []; split; [reflexivity|]; split; [reflexivity|apply NO; lra]|].
    destruct (Qgtb_spec s 1); cbn [orb]; [exists e_non_crossing, []; split; [reflexivity|]; split; [reflexivity|apply NO; lra]|].
    destruct (Qltb_spec t 0); cbn [orb]; [exists e_non_crossing, []; split; [reflexivity|]; split; [reflexivity|apply NO; lra]|].
    destruct (Qgtb_spec t 1); cbn [orb]; [exists e_non_crossing, []; split; [reflexivity|]; split; [reflexivity|apply NO; lra]|].
    change (vadd3 p1 (vscale3 s (vsub3 p2 p1))) with (lerp3 p1 p2 s).
    destruct (Qgtb_spec t 0); [destruct (Qltb_spec t 1)|]; cbn [andb].
    + exists e_crossing, [lerp3 p1 p2 s]. split; [reflexivity|]. exists (lerp3 p1 p2 s). split; [reflexivity|].
      split; [apply YES; lra|]. split; [exists t; split; [lra|exact SC]|]. rewrite PD; lra.
    + exists e_endpoint, [lerp3 p1 p2 s]. split; [reflexivity|]. exists (lerp3 p1 p2 s). split; [reflexivity|].
      split; [apply YES; lra|]. right. eapply pt3eq_trans; [exact SC|]. apply pt3eq_sym. eapply pt3eq_trans; [apply lerp3_1|].
      apply lerp3_compat; lra.
    + exists e_endpoint, [lerp3 p1 p2 s]. split; [reflexivity|]. exists (lerp3 p1 p2 s). split; [reflexivity|].
      split; [apply YES; lra|]. left. eapply pt3eq_trans; [exact SC|]. apply pt3eq_sym. eapply pt3eq_trans; [apply lerp3_0|].
      apply lerp3_compat; lra.
  - assert (E0 : det == 0) by lra. specialize (PP E0). specialize (CK E0). cbv zeta in PP, CK.
    set (k := cross3 (vsub3 p2 p1) (vsub3 p3 p1)) in *.
    destruct (Qeqb (x3 k) 0 && Qeqb (y3 k) 0 && Qeqb (z3 k) 0) eqn:EK; cbn [negb].
    2:{ exists e_non_crossing, []. split; [reflexivity|]. split; [reflexivity|].
        intros Z [(s & _ & E1) (t & _ & E2)]. apply not_true_iff_false in EK. apply EK.
        rewrite !andb_true_iff, !Qeqb_eq. destruct (CK s t) as (G1 & G2 & G3); [|tauto].
        eapply pt3eq_trans; [apply pt3eq_sym; exact E1|exact E2]. }
    rewrite !andb_true_iff, !Qeqb_eq in EK. destruct EK as [[K1 K2] K3].
    destruct (PP (conj K1 (conj K2 K3))) as [PC PDD]. pose proof (nz3_dot _ N1) as Hn.
    rewrite !qdiv_opt_some by lra.
    set (s0 := dot3 (vsub3 p2 p1) (vsub3 p3 p1) / dot3 (vsub3 p2 p1) (vsub3 p2 p1)) in *.
    set (s1 := s0 + dot3 (vsub3 p2 p1) (vsub3 p4 p3) / dot3 (vsub3 p2 p1) (vsub3 p2 p1)) in *.
    assert (NE : ~ s0 == s1).
    { intro G. apply N2. pose proof (pt3eq_trans _ _ _ PDD (pt3eq_trans _ _ _ (lerp3_compat p1 p2 s1 s0 ltac:(lra)) (pt3eq_sym _ _ PC))) as (F1 & F2 & F3).
      unfold vsub3; simpl. repeat split; lra. }
    assert (CM : forall Z, common3 p1 p2 p3 p4 Z <-> exists x, 0 <= x <= 1 /\ btw s0 s1 x /\ pt3eq Z (lerp3 p1 p2 x)).
    { intro Z; unfold common3. rewrite (on_segment3_line p1 p2 p3 p4 s0 s1 Z PC PDD). split.
      - intros [(x & Hx & E1) (y & Hy & E2)]. exists x; split; [exact Hx|]. split; [|exact E1].
        assert (x == y) by (apply (lerp3_inj p1 p2); [exact N1|]; eapply pt3eq_trans; [apply pt3eq_sym; exact E1|exact E2]).
        unfold btw in *; destruct Hy; [left|right]; lra.
      - intros (x & Hx & Hb & E). split; [exists x; auto|exists x; auto]. }
    clearbody s0 s1. clear PP CK SC PU CS DC HC D0.
    assert (LH : forall x, btw s0 s1 x <-> qmin s0 s1 <= x <= qmax s0 s1).
    { intro x; unfold btw, qmin, qmax. destruct (Qltb_spec s1 s0); destruct (Qltb_spec s0 s1); lra. }
    assert (LL : qmin s0 s1 < qmax s0 s1).
    { unfold qmin, qmax. destruct (Qltb_spec s1 s0); destruct (Qltb_spec s0 s1); lra. }
    assert (EN : forall w, w == qmin s0 s1 \/ w == qmax s0 s1 -> pt3eq (lerp3 p1 p2 w) p3 \/ pt3eq (lerp3 p1 p2 w) p4).
    { intros w Hw. assert (W : w == s0 \/ w == s1).
      { unfold qmin, qmax in Hw. destruct (Qltb s1 s0), (Qltb s0 s1); destruct Hw; auto. }
      destruct W as [W|W]; [left|right]; (eapply pt3eq_trans; [apply lerp3_compat; exact W|apply pt3eq_sym; assumption]). }
    set (lo := qmin s0 s1) in *. set (hi := qmax s0 s1) in *. clearbody lo hi.
    destruct (Qltb_spec 1 lo); cbn [orb]; [exists e_non_crossing, []; split; [reflexivity|]; split; [reflexivity|]|].
    { intros Z HZ; apply CM in HZ as (x & Hx & Hb & _). apply LH in Hb. lra. }
    destruct (Qgtb_spec 0 hi); cbn [orb]; [exists e_non_crossing, []; split; [reflexivity|]; split; [reflexivity|]|].
    { intros Z HZ; apply CM in HZ as (x & Hx & Hb & _). apply LH in Hb. lra. }
    destruct (Qgtb_spec 1 lo); [destruct (Qltb_spec 0 hi)|].
    + (* overlap from u to w *)
      assert (OV : forall X Y uu ww, pt3eq X (lerp3 p1 p2 uu) -> pt3eq Y (lerp3 p1 p2 ww) ->
        (forall x, (0 <= x <= 1 /\ lo <= x <= hi) <-> uu <= x <= ww) -> uu < ww ->
        (forall Z, common3 p1 p2 p3 p4 Z <-> on_segment3 X Y Z) /\ ~ pt3eq X Y).
      { intros X Y uu ww EX EY HU HW. split.
        - intro Z. rewrite CM, (on_segment3_line p1 p2 X Y uu ww Z EX EY). split; intros (x & J1 & J2).
          + destruct J2 as [J2 J3]. exists x; split; [|exact J3]. left. apply HU. split; [exact J1|apply LH; exact J2].
          + assert (J3 : uu <= x <= ww) by (destruct J1; lra). apply HU in J3 as [J3 J4]. exists x; split; [exact J3|].
            split; [apply LH; exact J4|exact J2].
        - intro E. assert (uu == ww) by (apply (lerp3_inj p1 p2); [exact N1|]; eapply pt3eq_trans; [apply pt3eq_sym; exact EX|]; eapply pt3eq_trans; [exact E|exact EY]). lra. }
      assert (P1E : pt3eq (vadd3 p1 (vsub3 p2 p1)) (lerp3 p1 p2 1)) by (g3; repeat split; ring).
      assert (PAR : parallel3 (vsub3 p2 p1) (vsub3 p4 p3)) by (apply PD; exact E0).
      destruct (Qltb_spec 0 lo); destruct (Qgtb_spec 1 hi); eexists; eexists; (split; [reflexivity|]); eexists; eexists; (split; [reflexivity|]).
      * destruct (OV (lerp3 p1 p2 lo) (lerp3 p1 p2 hi) lo hi (pt3eq_refl _) (pt3eq_refl _)) as [O1 O2]; [intro; lra|lra|]. auto.
      * destruct (OV (lerp3 p1 p2 lo) (vadd3 p1 (vsub3 p2 p1)) lo 1 (pt3eq_refl _) P1E) as [O1 O2]; [intro; lra|lra|]. auto.
      * destruct (OV p1 (lerp3 p1 p2 hi) 0 hi (lerp3_0 _ _) (pt3eq_refl _)) as [O1 O2]; [intro; lra|lra|]. auto.
      * destruct (OV p1 (vadd3 p1 (vsub3 p2 p1)) 0 1 (lerp3_0 _ _) P1E) as [O1 O2]; [intro; lra|lra|]. auto.
    + exists e_endpoint, [p1]. split; [reflexivity|]. exists p1; split; [reflexivity|]. split.
      * intro Z. rewrite CM. split.
        -- intros (x & Hx & Hb & E). apply LH in Hb. eapply pt3eq_trans; [exact E|]. apply pt3eq_sym. eapply pt3eq_trans; [apply lerp3_0|]. apply lerp3_compat; lra.
        -- intro E. exists 0. split; [lra|]. split; [apply LH; lra|]. eapply pt3eq_trans; [exact E|apply lerp3_0].
      * destruct (EN hi (or_intror (Qeq_refl _))) as [G|G]; [left|right]; (eapply pt3eq_trans; [|exact G]);
          (eapply pt3eq_trans; [apply (lerp3_0 p1 p2)|]); apply lerp3_compat; lra.
    + assert (P1E : pt3eq (vadd3 p1 (vsub3 p2 p1)) (lerp3 p1 p2 1)) by (g3; repeat split; ring).
      exists e_endpoint, [vadd3 p1 (vsub3 p2 p1)]. split; [reflexivity|]. eexists; split; [reflexivity|]. split.
      * intro Z. rewrite CM. split.
        -- intros (x & Hx & Hb & E). apply LH in Hb. eapply pt3eq_trans; [exact E|]. apply pt3eq_sym. eapply pt3eq_trans; [exact P1E|]. apply lerp3_compat; lra.
        -- intro E. exists 1. split; [lra|]. split; [apply LH; lra|]. eapply pt3eq_trans; [exact E|exact P1E].
      * destruct (EN lo (or_introl (Qeq_refl _))) as [G|G]; [left|right]; (eapply pt3eq_trans; [|exact G]);
          (eapply pt3eq_trans; [exact P1E|]); apply lerp3_compat; lra.
Qed.
