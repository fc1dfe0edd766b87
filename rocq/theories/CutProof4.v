(** Proofs about the cut of a polygon by a plane: the crossing points of the diagonals of a convex polygon. *)
From Verif Require Import Base LinIntSpec DistModel BoxIntModel CutModel CutSpec CutProof CutProof2 CutProof3.

Lemma cut_edges : forall pl a ps F B, cut pl a ps F B -> forall A C, In (A, C) (combine (a :: ps) ps) -> exists fs bs, edge_case pl A C fs bs /\ incl fs F /\ incl bs B.
Proof.
  intros pl a ps F B H. induction H as [a|a b ps fs bs fs' bs' C1 C2 IH]; intros A C HI; [destruct HI|].
  change (combine (a :: b :: ps) (b :: ps)) with ((a, b) :: combine (b :: ps) ps) in HI. destruct HI as [E|HI].
  - injection E as <- <-. exists fs, bs. split; [exact C1|]. split; intros x Hx; apply in_or_app; left; exact Hx.
  - destruct (IH A C HI) as (f & g & EC & I1 & I2). exists f, g. split; [exact EC|]. split; intros x Hx; apply in_or_app; right; auto.
Qed.
Lemma cut_vertices : forall pl a ps F B, cut pl a ps F B -> forall v, In v ps -> (0 <= above pl v -> In v F) /\ (above pl v < 0 -> In v B).
Proof.
  intros pl a ps F B H. induction H as [a|a b ps fs bs fs' bs' C1 C2 IH]; intros v HI; [destruct HI|].
  destruct HI as [->|HI].
  - split; intro S; apply in_or_app; left; inversion C1 as [x X1 X2 X3|X1 X2|x X1 X2 X3|X1 X2|X1 X2|X1 X2|X1 X2]; subst; cbn [In]; try tauto; exfalso; lra.
  - destruct (IH v HI) as [I1 I2]. split; intro S; apply in_or_app; right; auto.
Qed.
Lemma cut_from : forall pl a ps F B, cut pl a ps F B -> forall v, In v (F ++ B) -> exists A C, In A (a :: ps) /\ In C ps /\ on_segment3 A C v.
Proof.
  assert (ENDS : forall A C, on_segment3 A C A /\ on_segment3 A C C).
  { intros A C. split; [exists 0|exists 1]; (split; [lra|]); unfold pt3eq, lerp3, vadd3, vscale3, vsub3; cbn [x3 y3 z3]; repeat split; ring. }
  intros pl a ps F B H. induction H as [a|a b ps fs bs fs' bs' C1 C2 IH]; intros v HI; [destruct HI|].
  assert (G : In v (fs ++ bs) \/ In v (fs' ++ bs')) by (apply in_app_or in HI; destruct HI as [HI|HI]; apply in_app_or in HI; destruct HI as [HI|HI]; [left|right|left|right]; apply in_or_app; tauto).
  destruct G as [G|G].
  - exists a, b. split; [left; reflexivity|]. split; [left; reflexivity|].
    inversion C1 as [x X1 X2 (Z & t & T & E)|X1 X2|x X1 X2 (Z & t & T & E)|X1 X2|X1 X2|X1 X2|X1 X2]; subst; cbn [app In] in G;
    repeat (destruct G as [G|G]; [subst; first [apply ENDS | exists t; split; [lra|exact E]]|]); contradiction.
  - destruct (IH v G) as (A & C & I1 & I2 & S). exists A, C. split; [right; exact I1|]. split; [right; exact I2|exact S].
Qed.
Lemma edge_hit : forall pl a ps F B A C, cut pl a ps F B -> In a ps -> In (A, C) (combine (a :: ps) ps) ->
  (0 <= above pl A /\ above pl C < 0) \/ (above pl A < 0 /\ 0 <= above pl C) ->
  exists Y, In Y F /\ In Y B /\ above pl Y == 0 /\ on_segment3 A C Y.
Proof.
  intros pl a ps F B A C H IA HI S. destruct (cut_edges _ _ _ _ _ H A C HI) as (fs & bs & EC & I1 & I2).
  assert (HA : In A ps) by (apply in_combine_l in HI; destruct HI as [<-|HI]; assumption). assert (HC : In C ps) by (apply in_combine_r in HI; exact HI).
  assert (ENDS : on_segment3 A C A /\ on_segment3 A C C).
  { split; [exists 0|exists 1]; (split; [lra|]); unfold pt3eq, lerp3, vadd3, vscale3, vsub3; cbn [x3 y3 z3]; repeat split; ring. }
  inversion EC as [x X1 X2 (Z & t & T & E)|X1 X2|x X1 X2 (Z & t & T & E)|X1 X2|X1 X2|X1 X2|X1 X2]; subst; try (exfalso; lra).
  - exists x. split; [apply I1; left; reflexivity|]. split; [apply I2; left; reflexivity|]. split; [exact Z|]. exists t. split; [lra|exact E].
  - exists x. split; [apply I1; left; reflexivity|]. split; [apply I2; left; reflexivity|]. split; [exact Z|]. exists t. split; [lra|exact E].
  - exists A. split; [apply (cut_vertices _ _ _ _ _ H A HA); lra|]. split; [apply I2; left; reflexivity|]. split; [lra|apply ENDS].
  - exists C. split; [apply I1; left; reflexivity|]. split; [apply I2; left; reflexivity|]. split; [lra|apply ENDS].
Qed.

(** ** Vertices by index, around the polygon *)
Definition vtx (ps : list pt3) (k : nat) : pt3 := nth (k mod length ps) ps (mkpt3 0 0 0).
Lemma vtx_in : forall ps k, ps <> [] -> In (vtx ps k) ps.
Proof. intros ps k H. unfold vtx. apply nth_In. apply Nat.mod_upper_bound. destruct ps; [contradiction|discriminate]. Qed.
Lemma edge_index : forall ps p k, ps <> [] -> (forall q, last ps q = p) -> In (vtx ps k, vtx ps (S k)) (combine (p :: ps) ps).
Proof.
  intros ps p k N L. assert (LN : (0 < length ps)%nat) by (destruct ps; [contradiction|cbn; lia]).
  assert (G : forall i, (i < length ps)%nat -> In (nth i (p :: ps) (mkpt3 0 0 0), nth i ps (mkpt3 0 0 0)) (combine (p :: ps) ps)).
  { clear. intro i. revert p i. induction ps as [|x ps IH]; intros p i H; [cbn in H; lia|]. destruct i as [|i]; [left; reflexivity|].
    change (combine (p :: x :: ps) (x :: ps)) with ((p, x) :: combine (x :: ps) ps). right. apply (IH x i). cbn in H. lia. }
  unfold vtx. pose proof (Nat.mod_upper_bound k (length ps)) as MB. set (r := (k mod length ps)%nat) in *.
  assert (MS : (S k mod length ps = S r mod length ps)%nat) by (unfold r; rewrite <- Nat.add_1_r, <- (Nat.add_1_r (k mod length ps)), Nat.add_mod_idemp_l; [reflexivity|lia]).
  rewrite MS. destruct (Nat.eq_dec (S r) (length ps)) as [E|E].
  - rewrite E, Nat.mod_same by lia. specialize (G 0%nat LN). change (nth 0 (p :: ps) (mkpt3 0 0 0)) with p in G.
    replace (nth r ps (mkpt3 0 0 0)) with p; [exact G|]. rewrite <- (L (mkpt3 0 0 0)). replace r with (length ps - 1)%nat by lia. clear. 
    induction ps as [|x ps IH]; [reflexivity|]. cbn [last length]. destruct ps as [|y ps]; [reflexivity|]. rewrite IH. cbn [length]. replace (S (S (length ps)) - 1)%nat with (S (S (length ps) - 1)) by lia. reflexivity.
  - rewrite (Nat.mod_small (S r)) by lia. apply (G (S r)). lia.
Qed.
Lemma sign_change : forall (b : nat -> bool) p q, (p < q)%nat -> b p <> b q -> exists k, (p <= k < q)%nat /\ b k <> b (S k).
Proof.
  intros b p q H N. remember (q - p)%nat as d eqn:D. revert p q H N D. induction d as [|d IH]; intros p q H N D; [lia|].
  destruct (Bool.bool_dec (b p) (b (S p))) as [E|E]; [|exists p; split; [lia|exact E]].
  destruct (Nat.eq_dec (S p) q) as [E'|E']; [subst q; congruence|]. destruct (IH (S p) q) as (k & K & KN); [lia|congruence|lia|]. exists k. split; [lia|exact KN].
Qed.

(** ** The crossing point of a diagonal is between two crossing points of the border *)
Lemma vanish : forall m n E D, dot3 m D == 0 -> dot3 n D == 0 -> dot3 m (cross3 E D) == 0 -> dot3 m E == 0 -> ~ dot3 n E == 0 -> 0 < dot3 m m ->
  x3 D == 0 /\ y3 D == 0 /\ z3 D == 0.
Proof.
  intros m n E D H1 H2 H3 H4 H5 H6.
  assert (H3' : dot3 (cross3 m E) D == 0) by (rewrite <- H3; unfold dot3, cross3; simpl; ring).
  assert (CR : forall f : pt3 -> Q, f = x3 \/ f = y3 \/ f = z3 -> dot3 m m * dot3 n E * f D == dot3 m E * dot3 n m * f D - (dot3 m D * f (cross3 (cross3 m E) n) + dot3 (cross3 m E) D * f (cross3 n m) + dot3 n D * f (cross3 m (cross3 m E)))).
  { intros f [Ef | [Ef | Ef] ]; subst f; unfold dot3, cross3; simpl; ring. }
  assert (Z : forall f : pt3 -> Q, f = x3 \/ f = y3 \/ f = z3 -> f D == 0).
  { intros f Hf. specialize (CR f Hf). rewrite H1, H2, H3', H4 in CR.
    assert (K : dot3 m m * dot3 n E * f D == 0) by (rewrite CR; ring).
    apply Qmult_integral in K. destruct K as [K|K]; [|exact K]. apply Qmult_integral in K. destruct K as [K|K]; [lra|contradiction]. }
  repeat split; apply Z; tauto.
Qed.
Lemma turn_eq : forall m A B X Y, pt3eq X Y -> turn m A B X == turn m A B Y.
Proof. intros m A B X Y (E1 & E2 & E3). unfold turn, dot3, cross3, vsub3; simpl. rewrite E1, E2, E3. reflexivity. Qed.
Lemma turn_on : forall m A B P Q X, on_segment3 P Q X -> (0 <= turn m A B P -> 0 <= turn m A B Q -> 0 <= turn m A B X) /\ (turn m A B P <= 0 -> turn m A B Q <= 0 -> turn m A B X <= 0).
Proof.
  intros m A B P Q X (t & T & E). rewrite (turn_eq m A B _ _ E).
  assert (K : turn m A B (lerp3 P Q t) == (1 - t) * turn m A B P + t * turn m A B Q) by (unfold turn, dot3, cross3, vsub3, lerp3, vadd3, vscale3; simpl; ring).
  rewrite K. split; intros; nra.
Qed.
Lemma plane_on : forall m e P Q X, on_segment3 P Q X -> dot3 m P == e -> dot3 m Q == e -> dot3 m X == e.
Proof.
  intros m e P Q X (t & T & (E1 & E2 & E3)) HP HQ. assert (K : dot3 m X == (1 - t) * dot3 m P + t * dot3 m Q) by (unfold dot3, lerp3, vadd3, vscale3, vsub3 in *; simpl in *; rewrite E1, E2, E3; ring).
  rewrite K, HP, HQ. ring.
Qed.
Lemma between_cone : forall O pl m e A B Y1 Y2, 0 < dot3 m m -> dot3 m A == e -> dot3 m B == e -> dot3 m Y1 == e -> dot3 m Y2 == e ->
  0 <= above pl A -> above pl B < 0 -> above pl Y1 == 0 -> above pl Y2 == 0 -> 0 <= turn m A B Y1 -> turn m A B Y2 <= 0 -> In Y1 O -> In Y2 O -> pair_ok O pl A B.
Proof.
  intros O pl m e A B Y1 Y2 MM MA MB M1 M2 GA GB G1 G2 S1 S2 I1 I2. unfold pair_ok.
  assert (KEY : forall Z, dot3 m Z == e -> above pl Z == 0 -> turn m A B Z == 0 ->
    pt3eq (vscale3 (above pl A - above pl B) Z) (vadd3 (vscale3 (- above pl B) A) (vscale3 (above pl A) B))).
  { intros Z MZ GZ SZ. set (D := vsub3 (vscale3 (above pl A - above pl B) Z) (vadd3 (vscale3 (- above pl B) A) (vscale3 (above pl A) B))).
    destruct (vanish m (pl_normal pl) (vsub3 B A) D) as (D1 & D2 & D3).
    - assert (K : dot3 m D == (above pl A - above pl B) * (dot3 m Z) + above pl B * dot3 m A - above pl A * dot3 m B) by (unfold D, dot3, vsub3, vadd3, vscale3; simpl; ring). rewrite K, MZ, MA, MB. ring.
    - assert (K : dot3 (pl_normal pl) D == (above pl A - above pl B) * above pl Z + above pl B * above pl A - above pl A * above pl B) by (unfold D, above, dot3, vsub3, vadd3, vscale3; simpl; ring). rewrite K, GZ. ring.
    - assert (K : dot3 m (cross3 (vsub3 B A) D) == (above pl A - above pl B) * turn m A B Z) by (unfold D, turn, dot3, cross3, vsub3, vadd3, vscale3; simpl; ring). rewrite K, SZ. ring.
    - assert (K : dot3 m (vsub3 B A) == dot3 m B - dot3 m A) by (unfold dot3, vsub3; simpl; ring). rewrite K, MA, MB. ring.
    - assert (K : dot3 (pl_normal pl) (vsub3 B A) == above pl B - above pl A) by (unfold above, dot3, vsub3; simpl; ring). rewrite K. lra.
    - exact MM.
    - unfold D, vsub3 in D1, D2, D3. cbn [x3 y3 z3] in D1, D2, D3. unfold pt3eq. repeat split; lra. }
  destruct (Qlt_le_dec 0 (turn m A B Y1 - turn m A B Y2)) as [P|P].
  - set (s := turn m A B Y1 - turn m A B Y2) in *.
    set (Z := vadd3 (vscale3 (- turn m A B Y2 / s) Y1) (vscale3 (turn m A B Y1 / s) Y2)).
    assert (SS : (- turn m A B Y2 / s) + (turn m A B Y1 / s) == 1) by (unfold s; field; unfold s in P; lra).
    set (a1 := - turn m A B Y2 / s) in *. set (a2 := turn m A B Y1 / s) in *.
    assert (A1 : 0 <= a1) by (unfold a1; apply Qle_shift_div_l; lra). assert (A2 : 0 <= a2) by (unfold a2; apply Qle_shift_div_l; lra).
    assert (TZ : a1 * turn m A B Y1 + a2 * turn m A B Y2 == 0) by (unfold a1, a2; field; lra).
    assert (Ea1 : a1 == 1 - a2) by lra.
    destruct (KEY Z) as (K1 & K2 & K3).
    + assert (K : dot3 m Z == a1 * dot3 m Y1 + a2 * dot3 m Y2) by (unfold Z, dot3, vadd3, vscale3; simpl; ring). rewrite K, M1, M2, Ea1. ring.
    + assert (K : above pl Z == a1 * above pl Y1 + a2 * above pl Y2 + (a1 + a2 - 1) * pl_dist pl) by (unfold Z, above, dot3, vadd3, vscale3; simpl; ring). rewrite K, G1, G2, Ea1. ring.
    + assert (K : turn m A B Z == a1 * turn m A B Y1 + a2 * turn m A B Y2 + (a1 + a2 - 1) * dot3 m (cross3 (vsub3 B A) A)) by (unfold Z, turn, dot3, cross3, vsub3, vadd3, vscale3; simpl; ring). rewrite K, TZ, Ea1. ring.
    + apply (cone_lin O 1 Y1 1 Y2 ((above pl A - above pl B) * a1) ((above pl A - above pl B) * a2)); [apply cone_vertex; exact I1|apply cone_vertex; exact I2|apply Qmult_le_0_compat; lra|apply Qmult_le_0_compat; lra| |].
      * rewrite Ea1. ring.
      * unfold pt3eq. rewrite <- K1, <- K2, <- K3. unfold Z, vadd3, vscale3; cbn [x3 y3 z3]. repeat split; ring.
  - destruct (KEY Y1) as (K1 & K2 & K3); [exact M1|exact G1|lra|].
    apply (cone_lin O 1 Y1 0 (mkpt3 0 0 0) (above pl A - above pl B) 0); [apply cone_vertex; exact I1|apply cone_zero|lra|lra|ring|].
    unfold pt3eq. rewrite <- K1, <- K2, <- K3. unfold vadd3, vscale3; cbn [x3 y3 z3]. repeat split; ring.
Qed.
