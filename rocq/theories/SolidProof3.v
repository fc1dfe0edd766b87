(** Small steps, and points on the lines of the walls. *)
From Verif Require Import Base CmpModel OrientModel OrientSpec OrientProof PolygonModel PolygonSpec PolygonProof BspModel BspSpec BspProof BspProof2 BspProof3 BspProof4 SolidModel SolidSpec SolidProof SolidProof2.
From Coq Require Import Lia.

(** [W] is strictly on the same side as [X] wherever X is strictly on a side. *)
Definition sharp (l : list seg) (X W : pt) : Prop := forall r, In r l -> (0 < side r X -> 0 < side r W) /\ (side r X < 0 -> side r W < 0).
Lemma sharp_refl : forall l X, sharp l X X.
Proof. intros l X r _. auto. Qed.
Lemma sharp_trans : forall l X Y Z, sharp l X Y -> sharp l Y Z -> sharp l X Z.
Proof. intros l X Y Z H K r I. destruct (H r I), (K r I). auto. Qed.
Lemma sharp_incl : forall l m X Y, incl l m -> sharp m X Y -> sharp l X Y.
Proof. intros l m X Y I H r R. exact (H r (I r R)). Qed.
Lemma lerp_sign : forall r X Y t, 0 <= t <= 1 -> 0 < side r X -> 0 < side r Y -> 0 < side r (lerp X Y t).
Proof.
  intros r X Y t T A B. rewrite side_lerp. destruct (Qlt_le_dec 0 t) as [L|L].
  - assert (0 < t * side r Y) by (apply Qmult_lt_0_compat; lra). assert (0 <= (1 - t) * side r X) by (apply Qmult_le_0_compat; lra). lra.
  - assert (t == 0) as -> by lra. lra.
Qed.
Lemma lerp_sign_neg : forall r X Y t, 0 <= t <= 1 -> side r X < 0 -> side r Y < 0 -> side r (lerp X Y t) < 0.
Proof.
  intros r X Y t T A B. rewrite side_lerp. destruct (Qlt_le_dec 0 t) as [L|L].
  - assert (0 < t * - side r Y) by (apply Qmult_lt_0_compat; lra). assert (0 <= (1 - t) * - side r X) by (apply Qmult_le_0_compat; lra). lra.
  - assert (t == 0) as -> by lra. lra.
Qed.
Lemma sharp_lerp : forall l X Y t, 0 <= t <= 1 -> sharp l X Y -> sharp l X (lerp X Y t).
Proof. intros l X Y t T H r I. destruct (H r I) as [A B]. split; intro S; [apply lerp_sign|apply lerp_sign_neg]; auto. Qed.
Lemma small_step : forall l X Y, exists e, 0 < e < 1 /\ forall t, 0 <= t <= e -> sharp l X (lerp X Y t).
Proof.
  induction l as [|r l IH]; intros X Y.
  - exists (1 # 2). split; [lra|]. intros t _ r [].
  - destruct (IH X Y) as (e & E & H). set (a := side r X). set (b := side r Y).
    assert (exists e', 0 < e' < 1 /\ forall t, 0 <= t <= e' -> (0 < a -> 0 < (1 - t) * a + t * b) /\ (a < 0 -> (1 - t) * a + t * b < 0)) as (e' & E' & H').
    { assert (G : forall a b, 0 < a -> exists e', 0 < e' < 1 /\ forall t, 0 <= t <= e' -> 0 < (1 - t) * a + t * b).
      { clear. intros a b A. destruct (Qlt_le_dec b 0) as [N|N].
        - assert (D : 0 < 2 * (a - b)) by lra. exists (a / (2 * (a - b))). assert (EQ : a / (2 * (a - b)) * (2 * (a - b)) == a) by (field; lra). set (e := a / (2 * (a - b))) in *.
          assert (0 < e) by (apply Qlt_shift_div_l; lra). assert (e < 1) by nra. split; [lra|]. intros t T. assert (0 <= (e - t) * (2 * (a - b))) by (apply Qmult_le_0_compat; lra). lra.
        - exists (1 # 2). split; [lra|]. intros t T. assert (0 <= t * b) by (apply Qmult_le_0_compat; lra). assert (0 < (1 - t) * a) by (apply Qmult_lt_0_compat; lra). lra. }
      destruct (Qlt_le_dec 0 a) as [P|P]; [|destruct (Qlt_le_dec a 0) as [N|N]].
      - destruct (G a b P) as (e' & E' & H'). exists e'. split; [exact E'|]. intros t T. split; [auto|lra].
      - destruct (G (- a) (- b)) as (e' & E' & H'); [lra|]. exists e'. split; [exact E'|]. intros t T. split; [lra|]. intros _. specialize (H' t T). lra.
      - exists (1 # 2). split; [lra|]. intros t T. split; lra. }
    assert (M : exists m, 0 < m < 1 /\ m <= e /\ m <= e') by (destruct (Qlt_le_dec e e'); [exists e|exists e']; lra). destruct M as (m & M & M1 & M2).
    exists m. split; [exact M|]. intros t T x [<- |I].
    + rewrite side_lerp. fold a b. destruct (H' t ltac:(lra)) as [A B]. split; intro L; [specialize (A L)|specialize (B L)]; lra.
    + exact (H t ltac:(lra) x I).
Qed.

Lemma off_point : forall r, proper r -> exists Z, 0 < side r Z.
Proof.
  intros r P. pose proof (nz_dot _ P) as N. unfold dot, vsub in N. cbn [px py] in N.
  exists (mkpt (px (fst r) - (py (snd r) - py (fst r))) (py (fst r) + (px (snd r) - px (fst r)))). unfold side, tri2, cross, vsub. cbn [px py]. lra.
Qed.
Lemma off_point_neg : forall r, proper r -> exists Z, side r Z < 0.
Proof.
  intros r P. pose proof (nz_dot _ P) as N. unfold dot, vsub in N. cbn [px py] in N.
  exists (mkpt (px (fst r) + (py (snd r) - py (fst r))) (py (fst r) - (px (snd r) - px (fst r)))). unfold side, tri2, cross, vsub. cbn [px py]. lra.
Qed.
(** Next to every point there is one on none of the lines. *)
Lemma generic_near : forall l m X, (forall r, In r m -> proper r) -> incl m l -> exists W, sharp l X W /\ forall r, In r m -> ~ side r W == 0.
Proof.
  intros l. induction m as [|r m IH]; intros X P I; [exists X; split; [apply sharp_refl|intros ? []]|].
  destruct (IH X) as (W & S & G); [intros; apply P; right; assumption|intros x J; apply I; right; exact J|].
  destruct (Qeq_dec (side r W) 0) as [Z|Z].
  - destruct (off_point r (P r (or_introl eq_refl))) as (Y & HY). destruct (small_step l W Y) as (e & E & H). exists (lerp W Y e). specialize (H e ltac:(lra)). split; [exact (sharp_trans _ _ _ _ S H)|].
    intros x [<- |J]; [rewrite side_lerp, Z; assert (0 < e * side r Y) by (apply Qmult_lt_0_compat; lra); lra|]. specialize (G x J). destruct (H x (I x (or_intror J))) as [A B]. destruct (Qlt_le_dec 0 (side x W)) as [L|L]; [specialize (A L); lra|]. assert (side x W < 0) as L2 by lra. specialize (B L2). lra.
  - exists W. split; [exact S|]. intros x [<- |J]; auto.
Qed.

(** ** The lines across the ends *)
Definition across1 (s : seg) : seg := (fst s, mkpt (px (fst s) + (py (snd s) - py (fst s))) (py (fst s) - (px (snd s) - px (fst s)))).
Definition across2 (s : seg) : seg := (snd s, mkpt (px (snd s) - (py (snd s) - py (fst s))) (py (snd s) + (px (snd s) - px (fst s)))).
Definition framed (l : list seg) : list seg := l ++ map across1 l ++ map across2 l.
Lemma framed_in : forall l s, In s l -> In s (framed l) /\ In (across1 s) (framed l) /\ In (across2 s) (framed l).
Proof. intros l s I. unfold framed. rewrite !in_app_iff. split; [auto|]. split; [right; left|right; right]; apply in_map; exact I. Qed.
Lemma framed_incl : forall l, incl l (framed l).
Proof. intros l s I. exact (proj1 (framed_in l s I)). Qed.
Lemma on_frame : forall s X, proper s -> (on_segment (fst s) (snd s) X <-> side s X == 0 /\ 0 <= side (across1 s) X /\ 0 <= side (across2 s) X).
Proof.
  intros s X P. pose proof (nz_dot _ P) as N. split.
  - intros (t & T & [E1 E2]). unfold lerp, vadd, vscale, vsub in *. cbn [px py] in *. unfold side, across1, across2, tri2, cross, vsub. cbn [fst snd px py]. rewrite E1, E2.
    unfold dot in N. cbn [px py] in N. set (dx := px (snd s) - px (fst s)) in *. set (dy := py (snd s) - py (fst s)) in *. set (D := dx * dx + dy * dy) in *.
    assert (0 <= t * D) by (apply Qmult_le_0_compat; lra). assert (0 <= (1 - t) * D) by (apply Qmult_le_0_compat; lra). unfold D, dx, dy in *. repeat split; lra.
  - intros (Z & A & B). destruct (proj2 (line_side s X P) Z) as (t & E). exists t. split; [|exact E]. destruct E as [E1 E2]. unfold side, across1, across2, tri2, cross, vsub, lerp, vadd, vscale, vsub in *. cbn [fst snd px py] in *. rewrite E1, E2 in A, B.
    unfold dot in N. cbn [px py] in N. set (dx := px (snd s) - px (fst s)) in *. set (dy := py (snd s) - py (fst s)) in *. set (D := dx * dx + dy * dy) in *.
    assert (A' : 0 <= t * D) by (unfold D, dx, dy in *; lra). assert (B' : 0 <= (1 - t) * D) by (unfold D, dx, dy in *; lra). nra.
Qed.
(** Off the walls, a small step stays off them. *)
Lemma off_stays : forall l X W, (forall s, In s l -> proper s) -> ~ on_any l X -> sharp (framed l) X W -> ~ on_any l W.
Proof.
  intros l X W P N S (s & I & O). apply N. exists s. split; [exact I|]. pose proof (P s I) as PS. rewrite (on_frame s W PS) in O. rewrite (on_frame s X PS). destruct O as (Z & A & B). destruct (framed_in l s I) as (I0 & I1 & I2). destruct (S _ I0) as [S0 S0'], (S _ I1) as [S1 S1'], (S _ I2) as [S2 S2'].
  split; [|split].
  - destruct (Qlt_le_dec 0 (side s X)) as [L|L]; [specialize (S0 L); lra|]. destruct (Qlt_le_dec (side s X) 0) as [L2|L2]; [specialize (S0' L2); lra|lra].
  - destruct (Qlt_le_dec (side (across1 s) X) 0) as [L|L]; [specialize (S1' L); lra|exact L].
  - destruct (Qlt_le_dec (side (across2 s) X) 0) as [L|L]; [specialize (S2' L); lra|exact L].
Qed.
Lemma off_path : forall l X W, (forall s, In s l -> proper s) -> ~ on_any l X -> sharp (framed l) X W -> forall t, 0 <= t <= 1 -> ~ on_any l (lerp X W t).
Proof. intros l X W P N S t T. apply (off_stays l X); [exact P|exact N|]. apply sharp_lerp; assumption. Qed.

(** ** Answers next to a point *)
Lemma no_seg_side : forall X, side no_seg X == 0.
Proof. intro X. unfold side, no_seg, tri2, cross, vsub. cbn [fst snd px py]. ring. Qed.
Lemma solid_class_eqb_eq : forall a b, solid_class_eqb a b = true <-> a = b.
Proof. intros [] []; cbn; split; intro H; congruence. Qed.
Lemma near_answer : forall planes t X W, sharp planes X W -> point_in_solid_space planes t X <> on_boundary -> point_in_solid_space planes t W = point_in_solid_space planes t X.
Proof.
  intros planes t X W S. induction t as [sol ix|i ix f IHF b IHB]; intro N; [reflexivity|]. cbn [point_in_solid_space] in *. set (r := nth i planes no_seg) in *.
  assert (SR : (0 < side r X -> 0 < side r W) /\ (side r X < 0 -> side r W < 0)). { destruct (nth_in_or_default i planes no_seg) as [I|E]; [exact (S r I)|]. unfold r. rewrite E, !no_seg_side. lra. }
  pose proof (plane_dist_side r X) as DX. pose proof (plane_dist_side r W) as DW. destruct SR as [SP SN].
  destruct (Qltb_spec 0 (plane_dist r X)) as [L|L].
  - destruct (Qltb_spec 0 (plane_dist r W)) as [L'|L']; [apply IHF; exact N|]. exfalso. rewrite DX in L. specialize (SP L). lra.
  - destruct (Qltb_spec (plane_dist r X) 0) as [L2|L2].
    + rewrite DX in L2. specialize (SN L2). destruct (Qltb_spec 0 (plane_dist r W)) as [L'|L']; [exfalso; lra|]. destruct (Qltb_spec (plane_dist r W) 0) as [L3|L3]; [apply IHB; exact N|exfalso; lra].
    + destruct (solid_class_eqb (point_in_solid_space planes f X) (point_in_solid_space planes b X)) eqn:EQ; [|congruence]. pose proof (proj1 (solid_class_eqb_eq _ _) EQ) as E.
      rewrite (IHF N), (IHB ltac:(congruence)), EQ, E. destruct (Qltb 0 (plane_dist r W)); [reflexivity|]. destruct (Qltb (plane_dist r W) 0); reflexivity.
Qed.

Lemma off_ok : forall segs E t X, segs <> [] -> (forall s, In s segs -> proper s) -> solid_of segs o_root (start segs) t -> empty_space segs E -> ~ on_any segs X ->
  match point_in_solid_space segs t X with in_solid => ~ E X | in_empty_space => E X | on_boundary => True end.
Proof.
  intros segs E t X NE P H [LB CE] NX. destruct (generic_near (framed segs) segs X P (framed_incl segs)) as (W & S & G).
  pose proof (off_path segs X W P NX S) as OP. pose proof (CE X W OP) as EQ. pose proof (generic_ok segs E t W NE H LB G) as OK. pose proof (near_answer segs t X W (sharp_incl _ _ _ _ (framed_incl segs) S)) as NA.
  destruct (point_in_solid_space segs t X); [rewrite (NA ltac:(discriminate)) in OK; tauto|rewrite (NA ltac:(discriminate)) in OK; tauto|exact I].
Qed.

(** ** Points on a wall *)
Lemma inside_lerp : forall A B M Y t, inside_segment A B M -> on_segment A B Y -> 0 <= t < 1 -> inside_segment A B (lerp M Y t).
Proof.
  intros A B M Y t (m & M1 & [E1 E2]) (y & Y1 & [F1 F2]) T. exists ((1 - t) * m + t * y). split.
  - assert (0 < (1 - t) * m) by (apply Qmult_lt_0_compat; lra). assert (0 <= t * y) by (apply Qmult_le_0_compat; lra). assert (0 < (1 - t) * (1 - m)) by (apply Qmult_lt_0_compat; lra). assert (0 <= t * (1 - y)) by (apply Qmult_le_0_compat; lra). lra.
  - unfold lerp, vadd, vscale, vsub in *. split; cbn [px py] in *; [rewrite E1, F1|rewrite E2, F2]; ring.
Qed.
Lemma inside_lerp' : forall A B M Y t, on_segment A B M -> inside_segment A B Y -> 0 < t <= 1 -> inside_segment A B (lerp M Y t).
Proof.
  intros A B M Y t (m & M1 & [E1 E2]) (y & Y1 & [F1 F2]) T. exists ((1 - t) * m + t * y). split.
  - assert (0 <= (1 - t) * m) by (apply Qmult_le_0_compat; lra). assert (0 < t * y) by (apply Qmult_lt_0_compat; lra). assert (0 <= (1 - t) * (1 - m)) by (apply Qmult_le_0_compat; lra). assert (0 < t * (1 - y)) by (apply Qmult_lt_0_compat; lra). lra.
  - unfold lerp, vadd, vscale, vsub in *. split; cbn [px py] in *; [rewrite E1, F1|rewrite E2, F2]; ring.
Qed.
Lemma inside_on : forall A B M, inside_segment A B M -> on_segment A B M.
Proof. intros A B M (t & T & E). exists t. split; [lra|exact E]. Qed.
Lemma end_on : forall A B, on_segment A B A /\ on_segment A B B.
Proof. intros A B. split; [exists 0|exists 1]; (split; [lra|]); unfold lerp, vadd, vscale, vsub; split; cbn [px py]; ring. Qed.
Lemma wall_point : forall l s X m, proper s -> on_segment (fst s) (snd s) X -> incl m l ->
  exists M, sharp l X M /\ inside_segment (fst s) (snd s) M /\ forall r, In r m -> ~ side r M == 0 \/ along r s.
Proof.
  intros l s X m PS O. induction m as [|r m IH]; intro I.
  - destruct (small_step l X (mid s)) as (e & E & H). exists (lerp X (mid s) e). split; [apply H; lra|]. split; [|intros ? []]. apply inside_lerp'; [exact O| |lra]. exact (mid_inside s s (piece_refl s)).
  - destruct IH as (M & S & IM & G); [intros x J; apply I; right; exact J|].
    assert (KEEP : forall Y t, sharp l M (lerp M Y t) -> forall x, In x m -> ~ side x (lerp M Y t) == 0 \/ along x s).
    { intros Y t H x J. destruct (G x J) as [N|A]; [left|right; exact A]. destruct (H x (I x (or_intror J))) as [A B]. destruct (Qlt_le_dec 0 (side x M)) as [L|L]; [specialize (A L); lra|]. assert (side x M < 0) as L2 by lra. specialize (B L2). lra. }
    destruct (Qeq_dec (side r M) 0) as [Z|Z]; [|exists M; split; [exact S|]; split; [exact IM|]; intros x [<- |J]; auto].
    destruct (Qeq_dec (side r (fst s)) 0) as [Z1|Z1]; [destruct (Qeq_dec (side r (snd s)) 0) as [Z2|Z2]|].
    + exists M. split; [exact S|]. split; [exact IM|]. intros x [<- |J]; [right; split; assumption|auto].
    + destruct (small_step l M (snd s)) as (e & E & H). specialize (H e ltac:(lra)). exists (lerp M (snd s) e). split; [exact (sharp_trans _ _ _ _ S H)|]. split; [apply inside_lerp; [exact IM|apply end_on|lra]|].
      intros x [<- |J]; [left; rewrite side_lerp, Z; intro K; apply Z2; assert (e * side r (snd s) == 0) as K2 by lra; destruct (Qmult_integral _ _ K2); [lra|assumption]|apply KEEP; assumption].
    + destruct (small_step l M (fst s)) as (e & E & H). specialize (H e ltac:(lra)). exists (lerp M (fst s) e). split; [exact (sharp_trans _ _ _ _ S H)|]. split; [apply inside_lerp; [exact IM|apply end_on|lra]|].
      intros x [<- |J]; [left; rewrite side_lerp, Z; intro K; apply Z1; assert (e * side r (fst s) == 0) as K2 by lra; destruct (Qmult_integral _ _ K2); [lra|assumption]|apply KEEP; assumption].
Qed.
Lemma along_side : forall r s X, proper r -> along r s -> side r X == 0 -> proper s -> side s X == 0.
Proof.
  intros r s X PR [A1 A2] Z PS. destruct (proj2 (line_side r _ PR) A1) as (u & [U1 U2]). destruct (proj2 (line_side r _ PR) A2) as (v & [V1 V2]). destruct (proj2 (line_side r _ PR) Z) as (w & [W1 W2]).
  unfold lerp, vadd, vscale, vsub in *. cbn [px py] in *. unfold side, tri2, cross, vsub. cbn [px py]. rewrite U1, U2, V1, V2, W1, W2. ring.
Qed.
Lemma wall_side : forall segs s M W, (forall s, In s segs -> proper s) -> In s segs -> inside_segment (fst s) (snd s) M -> (forall r, In r segs -> ~ side r M == 0 \/ along r s) -> ~ side s W == 0 -> sharp segs M W ->
  forall t, 0 < t <= 1 -> ~ on_any segs (lerp M W t).
Proof.
  intros segs s M W P IS IM G SW SH t T (r & IR & O). apply on_segment_side in O. destruct (SH r IR) as [SP SN]. destruct (G r IR) as [N|A].
  - destruct (Qlt_le_dec 0 (side r M)) as [L|L]; [pose proof (lerp_sign r M W t ltac:(lra) L (SP L)); lra|]. assert (L2 : side r M < 0) by lra. pose proof (lerp_sign_neg r M W t ltac:(lra) L2 (SN L2)); lra.
  - pose proof (along_side r s _ (P r IR) A O (P s IS)) as Z. rewrite side_lerp, (on_segment_side s M (inside_on _ _ _ IM)) in Z. assert (Z2 : t * side s W == 0) by lra. destruct (Qmult_integral _ _ Z2); [lra|contradiction].
Qed.
Lemma wall_ok : forall segs E t X, (forall s, In s segs -> proper s) -> solid_of segs o_root (start segs) t -> left_of_boundary segs E -> on_any segs X -> point_in_solid_space segs t X = on_boundary.
Proof.
  intros segs E t X P H LB (s & IS & O). assert (NE : segs <> []) by (intros ->; destruct IS). destruct (wall_point segs s X segs (P s IS) O (incl_refl _)) as (M & SM & IM & G).
  assert (SIDE : forall Z, ~ side s Z == 0 -> exists W, sharp segs M W /\ generic segs W /\ (0 < side s Z -> 0 < side s W) /\ (side s Z < 0 -> side s W < 0)).
  { intros Z NZ. destruct (small_step segs M Z) as (e & EE & SZ). specialize (SZ e ltac:(lra)). destruct (generic_near segs segs (lerp M Z e) P (incl_refl _)) as (W & SW & GW). exists W. split; [exact (sharp_trans _ _ _ _ SZ SW)|]. split; [exact GW|].
    destruct (SW s IS) as [A B]. rewrite side_lerp, (on_segment_side s M (inside_on _ _ _ IM)) in A, B. split; intro L; [apply A; assert (0 < e * side s Z) by (apply Qmult_lt_0_compat; lra); lra|apply B; assert (0 < e * - side s Z) by (apply Qmult_lt_0_compat; lra); lra]. }
  destruct (off_point s (P s IS)) as (Zp & HZp). destruct (off_point_neg s (P s IS)) as (Zn & HZn).
  destruct (SIDE Zp) as (Wp & S1 & G1 & A1 & _); [lra|]. destruct (SIDE Zn) as (Wn & S2 & G2 & _ & A2); [lra|]. specialize (A1 HZp). specialize (A2 HZn).
  destruct (LB s M Wp IS IM) as [EP _]; [apply (wall_side segs s); try assumption; lra|]. destruct (LB s M Wn IS IM) as [_ EN]; [apply (wall_side segs s); try assumption; lra|].
  pose proof (generic_ok segs E t Wp NE H LB G1) as K1. pose proof (generic_ok segs E t Wn NE H LB G2) as K2.
  destruct (point_in_solid_space segs t X) eqn:EX; [exfalso|exfalso|reflexivity];
    rewrite (near_answer segs t X Wp (sharp_trans _ _ _ _ SM S1)), EX in K1 by (rewrite EX; discriminate); rewrite (near_answer segs t X Wn (sharp_trans _ _ _ _ SM S2)), EX in K2 by (rewrite EX; discriminate); tauto.
Qed.
