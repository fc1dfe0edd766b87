From Verif Require Import Base CmpModel CmpProof OrientModel OrientSpec OrientProof DistModel DistSpec LinIntModel LinIntSpec LinIntProof PolygonModel PolygonSpec PolygonProof PlanarModel PlanarSpec PlanarProof PlanarProof2 TrimModel TrimSpec.
From Coq Require Import Lia Lqa Sorting.Sorted.

Lemma qn_le : forall a b, qn a <= qn b <-> (a <= b)%nat.
Proof. intros. unfold qn. rewrite <- Zle_Qle. lia. Qed.
Lemma qn_lt : forall a b, qn a < qn b <-> (a < b)%nat.
Proof. intros. unfold qn. rewrite <- Zlt_Qlt. lia. Qed.
Lemma qn_S : forall a, qn (S a) == qn a + 1.
Proof. intros. unfold qn. rewrite Nat2Z.inj_succ, <- Z.add_1_r, inject_Z_plus. reflexivity. Qed.
Lemma qn_0 : qn 0 == 0.
Proof. reflexivity. Qed.

Lemma edge_fun : forall ps i A B A' B', polyline_edge ps i A B -> polyline_edge ps i A' B' -> A = A' /\ B = B'.
Proof. intros ps i A B A' B' [E1 E2] [E3 E4]. split; congruence. Qed.
Lemma edge_next : forall ps i A B C D, polyline_edge ps i A B -> polyline_edge ps (S i) C D -> B = C.
Proof. intros ps i A B C D [E1 E2] [E3 E4]. congruence. Qed.
Lemma lerp_0 : forall A B t, t == 0 -> lerp A B t =p= A.
Proof. intros A B t E. split; [rewrite lerp_px|rewrite lerp_py]; rewrite E; ring. Qed.
Lemma lerp_1 : forall A B t, t == 1 -> lerp A B t =p= B.
Proof. intros A B t E. split; [rewrite lerp_px|rewrite lerp_py]; rewrite E; ring. Qed.
Lemma lerp_eq : forall A B s t, s == t -> lerp A B s =p= lerp A B t.
Proof. intros A B s t E. split; [rewrite !lerp_px|rewrite !lerp_py]; rewrite E; ring. Qed.
Lemma lerp_inj : forall A B s t, nonzero (vsub B A) -> lerp A B s =p= lerp A B t -> s == t.
Proof.
  intros A B s t N [E1 E2]. rewrite !lerp_px in E1. rewrite !lerp_py in E2. unfold nonzero, vsub in N. cbn [px py] in N.
  destruct (Qeq_dec s t) as [E|E]; [exact E|]. exfalso. apply N. split.
  - assert (H : (s - t) * (px B - px A) == 0) by lra. apply Qmult_integral in H as [H|H]; [exfalso; apply E; lra|exact H].
  - assert (H : (s - t) * (py B - py A) == 0) by lra. apply Qmult_integral in H as [H|H]; [exfalso; apply E; lra|exact H].
Qed.

(** A place on the closed stretch of side i is the point there, whichever side it was given on. *)
Lemma place_on_side : forall ps u X i A B, at_place ps u X -> polyline_edge ps i A B -> qn i <= u <= qn i + 1 -> X =p= lerp A B (u - qn i).
Proof.
  intros ps u X i A B (j & C & D & t & EJ & T & EU & EX) EI U.
  assert (IJ : (j = i \/ j = S i \/ i = S j)%nat).
  { assert (H1 : (j <= S i)%nat) by (apply (proj1 (qn_le _ _)); rewrite qn_S; lra). assert (H2 : (i <= S j)%nat) by (apply (proj1 (qn_le _ _)); rewrite qn_S; lra). lia. }
  destruct IJ as [E | [E | E] ].
  - subst j. destruct (edge_fun _ _ _ _ _ _ EI EJ) as [-> ->]. eapply pteq_trans; [exact EX|]. apply lerp_eq. lra.
  - subst j. pose proof (edge_next _ _ _ _ _ _ EI EJ) as <-. rewrite qn_S in EU. assert (t == 0) by lra.
    eapply pteq_trans; [exact EX|]. eapply pteq_trans; [apply lerp_0; assumption|]. apply pteq_sym, lerp_1. lra.
  - subst i. pose proof (edge_next _ _ _ _ _ _ EJ EI) as <-. rewrite qn_S in U. assert (t == 1) by lra.
    eapply pteq_trans; [exact EX|]. eapply pteq_trans; [apply lerp_1; assumption|]. apply pteq_sym, lerp_0. rewrite qn_S. lra.
Qed.
Lemma at_place_eq : forall ps u v X Y, u == v -> X =p= Y -> at_place ps u X -> at_place ps v Y.
Proof. intros ps u v X Y E EX (i & A & B & t & EI & T & EU & EL). exists i, A, B, t. split; [exact EI|]. split; [exact T|]. split; [lra|]. eapply pteq_trans; [apply pteq_sym; exact EX|exact EL]. Qed.
Lemma at_place_fun : forall ps u v X Y, u == v -> at_place ps u X -> at_place ps v Y -> X =p= Y.
Proof.
  intros ps u v X Y E HX (i & A & B & t & EI & T & EU & EL). pose proof (place_on_side ps u X i A B HX EI ltac:(lra)) as H.
  eapply pteq_trans; [exact H|]. eapply pteq_trans; [|apply pteq_sym; exact EL]. apply lerp_eq. lra.
Qed.
Lemma at_place_range : forall ps u X, at_place ps u X -> 0 <= u <= qn (length ps - 1).
Proof.
  intros ps u X (i & A & B & t & EI & T & EU & _). apply polyline_edge_bound in EI. assert (H : qn (S i) <= qn (length ps - 1)) by (apply (proj2 (qn_le _ _)); lia).
  rewrite qn_S in H. assert (0 <= qn i) by (rewrite <- qn_0; apply (proj2 (qn_le _ _)); lia). lra.
Qed.
Lemma edge_pnth2 : forall ps i A B, polyline_edge ps i A B <-> (S i < length ps)%nat /\ A = pnth ps i /\ B = pnth ps (S i).
Proof.
  intros ps i A B. split.
  - intro E. pose proof (polyline_edge_bound _ _ _ _ E) as L. destruct E as [E1 E2]. unfold pnth. rewrite (nth_error_nth _ _ _ E1), (nth_error_nth _ _ _ E2). auto.
  - intros (L & -> & ->). split; apply nth_error_nth'; lia.
Qed.
Lemma vertex_place : forall ps i, (2 <= length ps)%nat -> (i < length ps)%nat -> at_place ps (qn i) (pnth ps i).
Proof.
  intros ps i L I. destruct (Nat.eq_dec (S i) (length ps)) as [E|E].
  - destruct i as [|i]; [lia|]. exists i, (pnth ps i), (pnth ps (S i)), 1. split; [apply edge_pnth2; split; [lia|auto]|]. split; [lra|]. split; [rewrite qn_S; reflexivity|]. apply pteq_sym, lerp_1. reflexivity.
  - exists i, (pnth ps i), (pnth ps (S i)), 0. split; [apply edge_pnth2; split; [lia|auto]|]. split; [lra|]. split; [lra|]. apply pteq_sym, lerp_0. reflexivity.
Qed.

(** *** A stretch of one side *)
Lemma stretch : forall ps u v X Y i, at_place ps u X -> at_place ps v Y -> qn i <= u -> u < v -> v <= qn i + 1 -> 
  (S i < length ps)%nat /\ forall Z, on_segment X Y Z <-> exists w, u <= w <= v /\ at_place ps w Z.
Proof.
  intros ps u v X Y i HX HY H1 H2 H3. pose proof (at_place_range _ _ _ HY) as RV.
  assert (LI : (S i < length ps)%nat).
  { assert (H : qn i < qn (length ps - 1)) by lra. apply (proj1 (qn_lt _ _)) in H. lia. }
  split; [exact LI|]. assert (EI : polyline_edge ps i (pnth ps i) (pnth ps (S i))) by (apply edge_pnth2; auto).
  set (A := pnth ps i) in *. set (B := pnth ps (S i)) in *. clearbody A B.
  pose proof (place_on_side _ _ _ _ _ _ HX EI ltac:(lra)) as EX. pose proof (place_on_side _ _ _ _ _ _ HY EI ltac:(lra)) as EY.
  intro Z. split.
  - intros (t & T & EZ). exists (u + t * (v - u)). split; [nra|]. exists i, A, B, (u + t * (v - u) - qn i). split; [exact EI|]. split; [nra|]. split; [lra|].
    eapply pteq_trans; [exact EZ|]. destruct EX as [X1 X2], EY as [Y1 Y2]. rewrite lerp_px in X1, Y1. rewrite lerp_py in X2, Y2.
    split; [rewrite !lerp_px|rewrite !lerp_py]; [rewrite X1, Y1|rewrite X2, Y2]; ring.
  - intros (w & W & HZ). pose proof (place_on_side _ _ _ _ _ _ HZ EI ltac:(lra)) as EZ.
    exists ((w - u) / (v - u)). split.
    { split; [apply Qle_shift_div_l; lra|apply Qle_shift_div_r; lra]. }
    eapply pteq_trans; [exact EZ|]. destruct EX as [X1 X2], EY as [Y1 Y2]. rewrite lerp_px in X1, Y1. rewrite lerp_py in X2, Y2.
    split; [rewrite !lerp_px|rewrite !lerp_py]; [rewrite X1, Y1|rewrite X2, Y2]; field; lra.
Qed.
Lemma stretch_ne : forall ps u v X Y i, proper_polyline ps -> at_place ps u X -> at_place ps v Y -> qn i <= u -> u < v -> v <= qn i + 1 -> ~ X =p= Y.
Proof.
  intros ps u v X Y i P HX HY H1 H2 H3 E. destruct (stretch _ _ _ _ _ _ HX HY H1 H2 H3) as [LI _].
  assert (EI : polyline_edge ps i (pnth ps i) (pnth ps (S i))) by (apply edge_pnth2; auto).
  pose proof (place_on_side _ _ _ _ _ _ HX EI ltac:(lra)) as EX. pose proof (place_on_side _ _ _ _ _ _ HY EI ltac:(lra)) as EY.
  assert (F : u - qn i == v - qn i). { apply (lerp_inj (pnth ps i) (pnth ps (S i))); [apply (P i); exact EI|]. eapply pteq_trans; [apply pteq_sym; exact EX|]. eapply pteq_trans; [exact E|exact EY]. }
  lra.
Qed.

(** *** A run: consecutive points are the ends of a stretch of a side *)
Fixpoint stepping (ps : list pt) (u : Q) (X : pt) (rest : list pt) (v : Q) : Prop :=
  match rest with
  | [] => u == v
  | Y :: rest' => exists w i, qn i <= u /\ u < w /\ w <= qn i + 1 /\ at_place ps w Y /\ stepping ps w Y rest' v
  end.
Lemma stepping_on : forall ps rest u X v, at_place ps u X -> stepping ps u X rest v -> rest <> [] ->
  forall Z, on_polyline (X :: rest) Z <-> exists w, u <= w <= v /\ at_place ps w Z.
Proof.
  intros ps rest. induction rest as [|Y rest IH]; intros u X v HX ST NE Z; [congruence|]. clear NE.
  cbn [stepping] in ST. destruct ST as (w & i & H1 & H2 & H3 & HY & ST). destruct (stretch _ _ _ _ _ _ HX HY H1 H2 H3) as [_ ST1].
  destruct rest as [|Y' rest].
  - cbn [stepping] in ST. split.
    + intros (k & A & B & EK & OZ). destruct k as [|k]; [|destruct EK as [_ EK]; destruct k; discriminate]. destruct EK as [EA EB]. cbn in EA, EB. injection EA as <-. injection EB as <-.
      apply ST1 in OZ as (w' & W & HZ). exists w'. split; [lra|exact HZ].
    + intros (w' & W & HZ). exists 0%nat, X, Y. split; [split; reflexivity|]. apply ST1. exists w'. split; [lra|exact HZ].
  - assert (NE : Y' :: rest <> []) by discriminate. specialize (IH w Y v HY ST NE Z).
    assert (WV : w <= v). { clear -ST. revert w Y ST. induction (Y' :: rest) as [|Y2 r IH]; intros w Y ST; cbn [stepping] in ST; [lra|]. destruct ST as (w2 & i & H1 & H2 & H3 & _ & ST). apply IH in ST. lra. }
    split.
    + intros (k & A & B & EK & OZ). destruct k as [|k].
      * destruct EK as [EA EB]. cbn in EA, EB. injection EA as <-. injection EB as <-. apply ST1 in OZ as (w' & W & HZ). exists w'. split; [lra|exact HZ].
      * assert (OP : on_polyline (Y :: Y' :: rest) Z) by (exists k, A, B; split; [exact EK|exact OZ]). apply IH in OP as (w' & W & HZ). exists w'. split; [lra|exact HZ].
    + intros (w' & W & HZ). destruct (Qlt_le_dec w' w) as [L|L].
      * exists 0%nat, X, Y. split; [split; reflexivity|]. apply ST1. exists w'. split; [lra|exact HZ].
      * assert (OP : on_polyline (Y :: Y' :: rest) Z) by (apply IH; exists w'; split; [lra|exact HZ]). destruct OP as (k & A & B & EK & OZ). exists (S k), A, B. split; [exact EK|exact OZ].
Qed.
Lemma stepping_proper : forall ps rest u X v, proper_polyline ps -> at_place ps u X -> stepping ps u X rest v -> proper_polyline (X :: rest).
Proof.
  intros ps rest. induction rest as [|Y rest IH]; intros u X v P HX ST k A B EK.
  - destruct EK as [_ EK]. destruct k; discriminate.
  - cbn [stepping] in ST. destruct ST as (w & i & H1 & H2 & H3 & HY & ST). destruct k as [|k].
    + destruct EK as [EA EB]. cbn in EA, EB. injection EA as <-. injection EB as <-. pose proof (stretch_ne _ _ _ _ _ _ P HX HY H1 H2 H3) as NE.
      intros [E1 E2]. apply NE. unfold vsub in *. cbn [px py] in *. split; lra.
    + apply (IH w Y v P HY ST k A B). exact EK.
Qed.
Lemma stepping_end : forall ps rest u X v, at_place ps u X -> stepping ps u X rest v -> at_place ps v (last (X :: rest) (mkpt 0 0)).
Proof.
  intros ps rest. induction rest as [|Y rest IH]; intros u X v HX ST; cbn [stepping] in ST.
  - apply (at_place_eq ps u v X X ST (pteq_refl X) HX).
  - destruct ST as (w & i & H1 & H2 & H3 & HY & ST). change (last (X :: Y :: rest) (mkpt 0 0)) with (last (Y :: rest) (mkpt 0 0)). apply (IH w Y v HY ST).
Qed.
Lemma side_of : forall ps u X, at_place ps u X -> u < qn (length ps - 1) -> exists i, qn i <= u /\ u < qn i + 1.
Proof.
  intros ps u X (i & A & B & t & EI & T & EU & _) L. destruct (Qlt_le_dec t 1) as [H|H].
  - exists i. split; lra.
  - exists (S i). rewrite qn_S. split; lra.
Qed.
(** From the middle of a side over vertices to the end. *)
Lemma stepping_seq : forall ps v Y k a u X rest, (2 <= length ps)%nat -> (a + k <= length ps)%nat -> at_place ps v Y -> at_place ps u X -> u < v ->
  (forall i, u < qn i < v <-> (a <= i < a + k)%nat) -> Forall2 pteq rest (map (pnth ps) (seq a k) ++ [Y]) -> stepping ps u X rest v.
Proof.
  intros ps v Y k. induction k as [|k IH]; intros a u X rest L LA HY HX UV IN F.
  - cbn in F. inversion F as [|Y' ? r ? EY F']; subst. inversion F'; subst. pose proof (at_place_range _ _ _ HY) as RV. destruct (side_of ps u X HX ltac:(lra)) as (i & I1 & I2).
    cbn [stepping]. exists v, i. split; [lra|]. split; [lra|]. split.
    + destruct (Qlt_le_dec (qn i + 1) v) as [C|C]; [|exact C]. exfalso. assert (H : u < qn (S i) < v) by (rewrite qn_S; lra). apply IN in H. lia.
    + split; [apply (at_place_eq ps v v Y Y'); [reflexivity|apply pteq_sym; exact EY|exact HY]|reflexivity].
  - cbn [seq map app] in F. inversion F as [|Z ? r ? EZ F']; subst. assert (IA : u < qn a < v) by (apply IN; lia).
    assert (HZ : at_place ps (qn a) Z). { apply (at_place_eq ps (qn a) (qn a) (pnth ps a) Z); [reflexivity|apply pteq_sym; exact EZ|]. apply vertex_place; lia. }
    cbn [stepping]. destruct a as [|a].
    { exfalso. pose proof (at_place_range _ _ _ HX). rewrite qn_0 in IA. lra. }
    exists (qn (S a)), a. rewrite qn_S in IA. split.
    + destruct (Qlt_le_dec u (qn a)) as [C|C]; [|exact C]. exfalso. assert (H : u < qn a < v) by lra. apply IN in H. lia.
    + split; [rewrite qn_S; lra|]. split; [rewrite qn_S; lra|]. split; [exact HZ|]. apply (IH (S (S a)) (qn (S a)) Z r L); try assumption; try lia; try (rewrite qn_S; lra).
      intro i. split.
      * intros [H1 H2]. apply (proj1 (qn_lt _ _)) in H1. assert (H : u < qn i < v) by (split; [|exact H2]; assert (qn (S a) <= qn i) by (apply (proj2 (qn_le _ _)); lia); rewrite qn_S in *; lra). apply IN in H. lia.
      * intro H. split; [apply (proj2 (qn_lt _ _)); lia|]. apply IN. lia.
Qed.
Lemma runs_bound : forall (ps : list pt) u v k a, (2 <= length ps)%nat -> u < v -> v <= qn (length ps - 1) -> (forall i, u < qn i < v <-> (a <= i < a + k)%nat) -> (k = 0 \/ a + k <= length ps)%nat.
Proof.
  intros ps u v k a L UV V IN. destruct k as [|k]; [auto|]. right. assert (H : u < qn (a + k) < v) by (apply IN; lia). assert (H2 : qn (a + k) < qn (length ps - 1)) by lra. apply (proj1 (qn_lt _ _)) in H2. lia.
Qed.
Lemma runs_stepping : forall ps u v pi, (2 <= length ps)%nat -> runs ps u v pi -> exists X rest, pi = X :: rest /\ at_place ps u X /\ stepping ps u X rest v /\ rest <> [].
Proof.
  intros ps u v pi L (UV & X & Y & a & k & HX & HY & F & IN). inversion F as [|X' ? rest ? EX F']; subst. exists X', rest. split; [reflexivity|].
  assert (HX' : at_place ps u X') by (apply (at_place_eq ps u u X X'); [reflexivity|apply pteq_sym; exact EX|exact HX]). split; [exact HX'|]. split.
  - destruct (runs_bound ps u v k a L UV) as [E|LA]; [apply (at_place_range _ _ _ HY)|exact IN| |].
    + subst k. apply (stepping_seq ps v Y 0 0 u X' rest L); try assumption; try lia. intro i. rewrite IN. lia.
    + apply (stepping_seq ps v Y k a u X' rest L); assumption.
  - intros ->. inversion F' as [E1 E2|]. destruct (map (pnth ps) (seq a k)); discriminate.
Qed.
Lemma runs_facts : forall ps u v pi, (2 <= length ps)%nat -> proper_polyline ps -> runs ps u v pi ->
  (2 <= length pi)%nat /\ proper_polyline pi /\ at_place ps u (hd (mkpt 0 0) pi) /\ at_place ps v (last pi (mkpt 0 0)) /\
  forall Z, on_polyline pi Z <-> exists w, u <= w <= v /\ at_place ps w Z.
Proof.
  intros ps u v pi L P R. destruct (runs_stepping _ _ _ _ L R) as (X & rest & -> & HX & ST & NE). split; [destruct rest; [congruence|cbn; lia]|].
  split; [apply (stepping_proper _ _ _ _ _ P HX ST)|]. split; [exact HX|]. split; [apply (stepping_end _ _ _ _ _ HX ST)|]. apply (stepping_on _ _ _ _ _ HX ST NE).
Qed.
