(** The intersection of two convex polygons: all positions together. *)
From Verif Require Import Base CmpModel OrientModel OrientSpec OrientProof DistModel DistSpec LinIntModel LinIntSpec LinIntProof PolygonModel PolygonSpec PolygonProof PolygonConvexProof CvxModel CvxSpec CvxProof CvxProof2 CvxProof3 CvxProof4 CvxProof5 CvxProof6 CvxProof7 CvxProof8 CvxProof9 CvxProof10 CvxProof11 CvxProof12 PfillProof3.

(** Membership in a convex hull is decidable. *)
Lemma seg_either : forall A B Y, on_segment A B Y \/ ~ on_segment A B Y.
Proof.
  intros A B Y. destruct (pteq_either A B) as [EAB|N].
  - destruct (pteq_either Y A) as [E|E]; [left; exists 0; split; [lra|]; destruct E as [E1 E2]; split; unfold lerp; cbn [px py vadd vscale vsub]; lra|right].
    intros (t & Ht & EY). apply E. destruct EAB as [A1 A2], EY as [Y1 Y2]. unfold lerp in Y1, Y2; cbn [px py vadd vscale vsub] in Y1, Y2. split; [rewrite Y1, <- A1|rewrite Y2, <- A2]; ring.
  - set (d := vsub B A). assert (D : 0 < dot d d).
    { destruct (Qlt_le_dec 0 (dot d d)) as [K|K]; [exact K|exfalso]. unfold dot, d in K; cbn [px py vsub] in K.
      pose proof (sq_nonneg (px B - px A)). pose proof (sq_nonneg (py B - py A)). apply N.
      assert (Z1 : (px B - px A) * (px B - px A) == 0) by lra. assert (Z2 : (py B - py A) * (py B - py A) == 0) by lra.
      apply Qmult_integral in Z1. apply Qmult_integral in Z2. split; lra. }
    set (t := dot (vsub Y A) d / dot d d).
    assert (U : forall u, Y =p= lerp A B u -> u == t).
    { intros u [E1 E2]. unfold t. assert (E : dot (vsub Y A) d == u * dot d d) by (unfold dot, d, lerp in *; cbn [px py vadd vscale vsub] in *; rewrite E1, E2; ring). rewrite E. field. lra. }
    destruct (pteq_either Y (lerp A B t)) as [E|E].
    + destruct (Qlt_le_dec t 0) as [K|K]; [right; intros (u & Hu & EU); pose proof (U u EU); lra|].
      destruct (Qlt_le_dec 1 t) as [K'|K']; [right; intros (u & Hu & EU); pose proof (U u EU); lra|]. left. exists t. split; [lra|exact E].
    + right. intros (u & Hu & EU). apply E. pose proof (U u EU) as UT. destruct EU as [E1 E2]. unfold lerp in *. split; cbn [px py vadd vscale vsub] in *; [rewrite E1|rewrite E2]; rewrite UT; reflexivity.
Qed.
Lemma flat_triangle : forall A B C Y, tri2 A B C == 0 -> in_triangle A B C Y -> on_segment A B Y \/ on_segment B C Y \/ on_segment C A Y.
Proof.
  intros A B C Y Z (a & b & c & Ha & Hb & Hc & S1 & E). destruct (pteq_either A B) as [EAB|N].
  - right. right. exists (a + b). split; [lra|]. destruct E as [E1 E2], EAB as [A1 A2]. unfold lerp. split; cbn [px py vadd vscale vsub] in *; [rewrite E1, A1|rewrite E2, A2].
    + assert (c == 1 - a - b) as -> by lra. ring.
    + assert (c == 1 - a - b) as -> by lra. ring.
  - set (d := vsub B A) in *.
    assert (D : 0 < dot d d).
    { destruct (Qlt_le_dec 0 (dot d d)) as [K|K]; [exact K|exfalso]. unfold dot, d in K; cbn [px py vsub] in K.
      pose proof (sq_nonneg (px B - px A)). pose proof (sq_nonneg (py B - py A)). apply N.
      assert (Z1 : (px B - px A) * (px B - px A) == 0) by lra. assert (Z2 : (py B - py A) * (py B - py A) == 0) by lra.
      apply Qmult_integral in Z1. apply Qmult_integral in Z2. split; lra. }
    assert (EC : exists s, px C == px A + s * (px B - px A) /\ py C == py A + s * (py B - py A)).
    { exists (dot (vsub C A) d / dot d d). unfold tri2, cross in Z. unfold dot, d in D |- *; cbn [px py vsub] in *.
      set (dx := px B - px A) in *. set (dy := py B - py A) in *. set (cx := px C - px A) in *. set (cy := py C - py A) in *.
      assert (Ex : px C == px A + cx) by (unfold cx; ring). assert (Ey : py C == py A + cy) by (unfold cy; ring).
      split; [rewrite Ex|rewrite Ey].
      - assert (K : (cx * dx + cy * dy) * dx == cx * (dx * dx + dy * dy) + dy * (dx * cy - dy * cx)) by ring. rewrite Z in K.
        assert (K2 : (cx * dx + cy * dy) / (dx * dx + dy * dy) * dx == cx) by (apply (Qmult_inj_r _ _ (dx * dx + dy * dy)); [lra|]; rewrite <- Qmult_assoc, (Qmult_comm dx (dx * dx + dy * dy)), Qmult_assoc; unfold Qdiv; rewrite <- (Qmult_assoc (cx * dx + cy * dy)), (Qmult_comm (/ _)), Qmult_inv_r, Qmult_1_r by lra; lra). rewrite K2. reflexivity.
      - assert (K : (cx * dx + cy * dy) * dy == cy * (dx * dx + dy * dy) - dx * (dx * cy - dy * cx)) by ring. rewrite Z in K.
        assert (K2 : (cx * dx + cy * dy) / (dx * dx + dy * dy) * dy == cy) by (apply (Qmult_inj_r _ _ (dx * dx + dy * dy)); [lra|]; rewrite <- Qmult_assoc, (Qmult_comm dy (dx * dx + dy * dy)), Qmult_assoc; unfold Qdiv; rewrite <- (Qmult_assoc (cx * dx + cy * dy)), (Qmult_comm (/ _)), Qmult_inv_r, Qmult_1_r by lra; lra). rewrite K2. reflexivity. }
    destruct EC as (s & C1 & C2). destruct E as [E1 E2]. cbn [px py vadd vscale] in E1, E2. 
    assert (F1 : px Y == px A + (b + c * s) * (px B - px A)) by (rewrite E1, C1; assert (a == 1 - b - c) as -> by lra; ring).
    assert (F2 : py Y == py A + (b + c * s) * (py B - py A)) by (rewrite E2, C2; assert (a == 1 - b - c) as -> by lra; ring).
    destruct (Qlt_le_dec s 0) as [S0|S0]; [|destruct (Qlt_le_dec 1 s) as [S2|S2]].
    + right. left. assert (HI : 0 < 1 - s) by lra. assert (c * s <= 0) by (assert (0 <= c * - s) by (apply Qmult_le_0_compat; lra); lra).
      assert (s <= b + c * s) by (assert (0 <= (1 - c) * - s) by (apply Qmult_le_0_compat; lra); lra).
      exists ((1 - (b + c * s)) / (1 - s)). split; [split; [apply Qle_shift_div_l; lra|apply Qle_shift_div_r; lra]|].
      assert (M : (1 - (b + c * s)) / (1 - s) * (1 - s) == 1 - (b + c * s)) by (field; lra). set (r := (1 - (b + c * s)) / (1 - s)) in *.
      unfold lerp. split; cbn [px py vadd vscale vsub]; [rewrite F1, C1|rewrite F2, C2].
      * transitivity (px B - (1 - (b + c * s)) * (px B - px A)); [ring|]. rewrite <- M. ring.
      * transitivity (py B - (1 - (b + c * s)) * (py B - py A)); [ring|]. rewrite <- M. ring.
    + right. right. assert (0 <= c * s) by (apply Qmult_le_0_compat; lra). assert (b + c * s <= s) by (assert (0 <= (1 - c) * (s - 1)) by (apply Qmult_le_0_compat; lra); lra).
      exists (1 - (b + c * s) / s). assert (0 <= (b + c * s) / s) by (apply Qle_shift_div_l; lra). assert ((b + c * s) / s <= 1) by (apply Qle_shift_div_r; lra). split; [lra|].
      assert (M : (b + c * s) / s * s == b + c * s) by (field; lra). set (r := (b + c * s) / s) in *.
      unfold lerp. split; cbn [px py vadd vscale vsub]; [rewrite F1, C1|rewrite F2, C2]; rewrite <- M; ring.
    + left. exists (b + c * s). assert (0 <= c * s) by (apply Qmult_le_0_compat; lra). assert (0 <= c * (1 - s)) by (apply Qmult_le_0_compat; lra). split; [lra|].
      unfold lerp. split; cbn [px py vadd vscale vsub]; assumption.
Qed.
Lemma triangle_either : forall A B C Y, in_triangle A B C Y \/ ~ in_triangle A B C Y.
Proof.
  intros A B C Y. destruct (Qeq_dec (tri2 A B C) 0) as [Z|Z].
  - destruct (seg_either A B Y) as [(t & Ht & E1 & E2)|N1].
    { left. exists (1 - t), t, 0. unfold lerp in *. cbn [px py vadd vscale vsub] in *. repeat (split; [lra|]). split; cbn [px py vadd vscale vsub]; [rewrite E1|rewrite E2]; ring. }
    destruct (seg_either B C Y) as [(t & Ht & E1 & E2)|N2].
    { left. exists 0, (1 - t), t. unfold lerp in *. cbn [px py vadd vscale vsub] in *. repeat (split; [lra|]). split; cbn [px py vadd vscale vsub]; [rewrite E1|rewrite E2]; ring. }
    destruct (seg_either C A Y) as [(t & Ht & E1 & E2)|N3].
    { left. exists t, 0, (1 - t). unfold lerp in *. cbn [px py vadd vscale vsub] in *. repeat (split; [lra|]). split; cbn [px py vadd vscale vsub]; [rewrite E1|rewrite E2]; ring. }
    right. intro T. destruct (flat_triangle A B C Y Z T) as [T'|[T'|T']]; contradiction.
  - assert (NEC : forall a b c, a + b + c == 1 -> Y =p= vadd (vscale a A) (vadd (vscale b B) (vscale c C)) ->
      tri2 B C Y == a * tri2 A B C /\ tri2 C A Y == b * tri2 A B C /\ tri2 A B Y == c * tri2 A B C).
    { intros a b c S1 [E1 E2]. cbn [px py vadd vscale] in E1, E2. assert (EA : a == 1 - b - c) by lra. unfold tri2, cross; cbn [px py vsub]. rewrite E1, E2, EA. repeat split; ring. }
    set (a := tri2 B C Y / tri2 A B C). set (b := tri2 C A Y / tri2 A B C). set (c := tri2 A B Y / tri2 A B C).
    assert (UA : forall a' b' c', a' + b' + c' == 1 -> Y =p= vadd (vscale a' A) (vadd (vscale b' B) (vscale c' C)) -> a' == a /\ b' == b /\ c' == c).
    { intros a' b' c' S1 E. destruct (NEC a' b' c' S1 E) as (H1 & H2 & H3). unfold a, b, c. rewrite H1, H2, H3. repeat split; field; exact Z. }
    destruct (Qlt_le_dec a 0) as [K|Ka]; [right; intros (a' & b' & c' & H1 & H2 & H3 & S1 & E); destruct (UA a' b' c' S1 E) as (G1 & G2 & G3); lra|].
    destruct (Qlt_le_dec b 0) as [K|Kb]; [right; intros (a' & b' & c' & H1 & H2 & H3 & S1 & E); destruct (UA a' b' c' S1 E) as (G1 & G2 & G3); lra|].
    destruct (Qlt_le_dec c 0) as [K|Kc]; [right; intros (a' & b' & c' & H1 & H2 & H3 & S1 & E); destruct (UA a' b' c' S1 E) as (G1 & G2 & G3); lra|].
    left. exists a, b, c. split; [exact Ka|]. split; [exact Kb|]. split; [exact Kc|]. unfold a, b, c. clear NEC UA Ka Kb Kc a b c. unfold tri2, cross in *. cbn [px py vsub] in *.
    split; [field; exact Z|]. split; cbn [px py vadd vscale]; field; exact Z.
Qed.
Lemma list_either : forall (l : list pt) (F : pt -> Prop), (forall x, F x \/ ~ F x) -> (exists x, In x l /\ F x) \/ ~ (exists x, In x l /\ F x).
Proof.
  intros l F D. induction l as [|x l IH]; [right; intros (y & [] & _)|]. destruct (D x) as [H|H]; [left; exists x; split; [left; reflexivity|exact H]|].
  destruct IH as [(y & Hy & G)|N]; [left; exists y; split; [right; exact Hy|exact G]|right]. intros (y & [<-|Hy] & G); [contradiction|]. apply N. exists y. auto.
Qed.
Lemma hull_either : forall l Y, in_hull l Y \/ ~ in_hull l Y.
Proof.
  intros l Y. destruct (list_either l (fun A => exists B, In B l /\ exists C, In C l /\ in_triangle A B C Y)) as [(A & IA & B & IB & C & IC & T)|N].
  - intro A. apply list_either. intro B. apply list_either. intro C. apply triangle_either.
  - left. exists A, B, C. auto.
  - right. intros (A & B & C & IA & IB & IC & T). apply N. exists A. split; [exact IA|]. exists B. split; [exact IB|]. exists C. auto.
Qed.

(** Outlines that do not meet: one polygon inside the other, or apart. *)
Lemma all_inside : forall P Q, convex_polygon P -> convex_polygon Q -> (forall i j, ~ touch P Q i j) -> in_hull Q (vtx P 0) -> forall V, In V P -> strictly_inside Q V.
Proof.
  intros P Q CP CQ N H0. 
  assert (ALL : forall k, in_hull Q (vtx P k)).
  { induction k as [|k IH]; [exact H0|]. destruct (leave_polygon Q (vtx P k) (vtx P (S k)) CQ IH) as [K|(s & b & Hs & _ & OK & _)]; [exact K|exfalso].
    apply (N (S k) b). exists (lerp (vtx P k) (vtx P (S k)) s). split; [|exact OK]. unfold edge_on. rewrite (from_S P CP). exists s. split; [lra|apply pteq_refl]. }
  intros V HV. apply (In_nth _ V (mkpt 0 0)) in HV as (k & Hk & EV). assert (EV' : vtx P k = V) by (unfold vtx; rewrite Nat.mod_small by exact Hk; exact EV).
  rewrite <- EV'. apply strictly_off; [exact CQ|apply ALL|]. intros b Hb. apply (N k b). exists (vtx P k). split; [apply edge_end|exact Hb].
Qed.
Lemma touch_swap : forall P Q, (forall i j, ~ touch P Q i j) -> forall i j, ~ touch Q P i j.
Proof. intros P Q N i j (X & H1 & H2). apply (N j i). exists X. auto. Qed.

Definition cx_answer (P Q : list pt) (r : cx_result) : Prop :=
  match r with
  | CxNoFuel => False
  | CxUndefined => (length P < length Q)%nat /\ forall V, In V P -> strictly_inside Q V
  | CxDone t l => (forall X, In X l -> common_point P Q X) /\
    match t with
    | px_none => l = [] /\ forall X, ~ common_point P Q X
    | px_face => exists k X Y, l = k ++ [X; Y] /\ forall Z, common_point P Q Z <-> on_segment X Y Z
    | px_overlapping => (forall Y, common_point P Q Y <-> in_hull l Y) \/
        ((length Q < length P)%nat /\ (forall V, In V P -> strictly_inside Q V) /\ l = firstn (length Q) P)
    end
  end.
Theorem convex_complete : forall P Q fuel, convex_polygon P -> convex_polygon Q -> (4 * (length P + length Q) < fuel)%nat ->
  cx_answer P Q (convex_polygon_polygon_intersection direct fuel P Q).
Proof.
  intros P Q fuel CP CQ F. pose proof (proj2 CP) as LP. pose proof (proj2 CQ) as LQ.
  destruct (touch_dec P Q CP CQ) as [(i & j & T)|N].
  - set (r := convex_polygon_polygon_intersection direct fuel P Q).
    assert (NN : ~ ~ (touch_ok P Q r \/ exact_hull P Q r)).
    { intro K. apply K. left. apply (boundary_found P Q CP CQ (touch_ok P Q)) with (i := i) (j := j); [|exact T|exact F].
      intros i' j' fl H1 H2 H3 H4. assert (NI : forall X, strictly_inside P X -> strictly_inside Q X -> False).
      { intros X0 SP SQ. apply K. right. apply (boundary_found P Q CP CQ (exact_hull P Q)) with (i := i) (j := j); [|exact T|exact F].
        intros i'' j'' fl' G1 G2 G3 G4. apply (first_hit P Q CP CQ X0 (strictly_edges P X0 CP SP) (strictly_edges Q X0 CQ SQ)); assumption. }
      apply (first_touch P Q CP CQ NI i' j' (st P Q i' j')); [|exact H1|exact H4].
      unfold start, st. cbn [cx_a cx_b cx_aa cx_ba cx_n cx_out cx_in]. repeat (split; [reflexivity || assumption|]). assumption. }
    pose proof (convex_intersection_ok P Q CP CQ fuel F) as OK. fold r in OK.
    assert (CD : forall X, common_point P Q X \/ ~ common_point P Q X).
    { intro X. destruct (hull_either P X) as [A|A]; [destruct (hull_either Q X) as [B|B]|]; [left; split; assumption|right; intros []; contradiction|right; intros []; contradiction]. }
    assert (HC : forall l, (forall X, In X l -> common_point P Q X) -> forall Y, in_hull l Y -> common_point P Q Y).
    { intros l HL Y HY. split; [apply (hull_sub P l)|apply (hull_sub Q l)]; try assumption; intros X HX; apply (HL X HX). }
    destruct r as [t l| |]; cbn [cx_answer].
    + destruct OK as [_ OK]. assert (COM : forall X, In X l -> common_point P Q X).
      { intros Z HZ. destruct (CD Z) as [D|D]; [exact D|exfalso]. apply NN. intros [(t' & l' & E & K)|(l' & E & K)].
        - injection E as <- <-. destruct K as [(-> & k' & X' & Y' & E' & KK)|(-> & _ & KK & _)]; [|apply D; rewrite Forall_forall in KK; exact (KK Z HZ)].
          destruct OK as (k & X & Y & E & H). rewrite E' in E, HZ. apply (f_equal (@rev pt)) in E. rewrite !rev_app_distr in E. cbn [rev app] in E. injection E as E1 E2 E3.
          apply in_app_or in HZ as [HZ|HZ]; [rewrite Forall_forall in KK; exact (D (KK Z HZ))|]. apply D. apply H. destruct HZ as [<-|[<-|[]]]; [rewrite E2; exists 0|rewrite E1; exists 1]; (split; [lra|]; split; unfold lerp; cbn [px py vadd vscale vsub]; ring).
        - injection E as -> <-. apply D. apply K. apply vertex_in_hull. exact HZ. }
      split; [exact COM|]. destruct t.
      * exfalso. apply NN. intros [(t' & l' & E & K)|(l' & E & K)]; [|discriminate]. injection E as <- <-. destruct K as [(K & _)|(K & _)]; discriminate.
      * exact OK.
      * left. intro Y. split; [intro HY|apply HC; exact COM]. destruct (hull_either l Y) as [D|D]; [exact D|exfalso]. apply NN. intros [(t' & l' & E & K)|(l' & E & K)].
        -- injection E as <- <-. destruct K as [(K & _)|(_ & NE & _ & ONE)]; [discriminate|]. destruct l as [|X l]; [contradiction|]. apply D.
           assert (EX : Y =p= X) by (apply ONE; [exact HY|apply COM; left; reflexivity]). exists X, X, X. repeat (split; [left; reflexivity|]). exists 1, 0, 0. repeat (split; [lra|]).
           destruct EX as [E1 E2]. split; cbn [px py vadd vscale]; lra.
        -- injection E as <-. apply D. apply K. exact HY.
    + exfalso. apply NN. intros [(t' & l' & E & K)|(l' & E & K)]; discriminate.
    + exfalso. apply NN. intros [(t' & l' & E & K)|(l' & E & K)]; discriminate.
  - destruct (hull_either Q (vtx P 0)) as [H|H].
    + pose proof (all_inside P Q CP CQ N H) as AI. rewrite (nested_first P Q fuel CP CQ F AI). destruct (Nat.leb_spec (length Q) (length P)) as [L|L]; cbn [cx_answer]; [|split; [exact L|exact AI]].
      assert (COM : forall X, In X P -> common_point P Q X) by (intros X HX; split; [apply vertex_in_hull; exact HX|apply inside_hull; [exact CQ|apply AI; exact HX]]).
      split; [intros X HX; apply COM; rewrite <- (firstn_skipn (length Q) P); apply in_or_app; left; exact HX|].
      destruct (Nat.eq_dec (length Q) (length P)) as [E|E]; [left|right; split; [lia|split; [exact AI|reflexivity]]].
      rewrite E, firstn_all. intro Y. split; [intros [HY _]; exact HY|]. intro HY. split; [exact HY|]. apply (hull_sub Q P); [exact CQ| |exact HY]. intros X HX. apply (COM X HX).
    + destruct (hull_either P (vtx Q 0)) as [H'|H'].
      * pose proof (all_inside Q P CQ CP (touch_swap P Q N) H') as AI. rewrite (nested_second P Q fuel CP CQ F AI). cbn [cx_answer].
        assert (COM : forall X, In X Q -> common_point P Q X) by (intros X HX; split; [apply inside_hull; [exact CP|apply AI; exact HX]|apply vertex_in_hull; exact HX]).
        split; [exact COM|]. left. intro Y. split; [intros [_ HY]; exact HY|]. intro HY. split; [|exact HY]. apply (hull_sub P Q); [exact CP| |exact HY]. intros X HX. apply (COM X HX).
      * assert (NC : forall X, ~ common_point P Q X).
        { intros X HX. destruct (apart_nested P Q CP CQ N (ex_intro _ X HX)) as [K|K]; [apply H|apply H']; unfold vtx; rewrite Nat.mod_0_l by lia; apply inside_hull; assumption. }
        rewrite (disjoint_none P Q fuel CP CQ F NC). cbn [cx_answer]. split; [intros X []|]. split; [reflexivity|exact NC].
Qed.

(** A point of a hull that is not between two others is one of the points. *)
Lemma extreme_visited : forall l V, in_hull l V -> (forall X Y t, in_hull l X -> in_hull l Y -> 0 < t < 1 -> V =p= lerp X Y t -> X =p= V) -> exists W, In W l /\ W =p= V.
Proof.
  intros l V (A & B & C & IA & IB & IC & a & b & c & Ha & Hb & Hc & S1 & E) EX.
  assert (ONE : forall A B C a b c, In A l -> In B l -> In C l -> 0 < a -> 0 <= b -> 0 <= c -> a + b + c == 1 -> V =p= vadd (vscale a A) (vadd (vscale b B) (vscale c C)) -> A =p= V).
  { clear - EX. intros A B C a b c IA IB IC Ha Hb Hc S1 [E1 E2]. cbn [px py vadd vscale] in E1, E2. destruct (Qlt_le_dec a 1) as [L|L].
    - apply (EX A (vadd (vscale (b / (b + c)) B) (vscale (c / (b + c)) C)) (1 - a)).
      + apply vertex_in_hull. exact IA.
      + exists B, C, C. split; [exact IB|]. split; [exact IC|]. split; [exact IC|]. exists (b / (b + c)), (c / (b + c)), 0. split; [apply Qle_shift_div_l; lra|]. split; [apply Qle_shift_div_l; lra|]. split; [lra|].
        split; [field; lra|]. split; cbn [px py vadd vscale]; ring.
      + lra.
      + assert (EA : a == 1 - b - c) by lra. unfold lerp. split; cbn [px py vadd vscale vsub]; [rewrite E1|rewrite E2]; rewrite EA; field; lra.
    - assert (b == 0) as B0 by lra. assert (c == 0) as C0 by lra. assert (a == 1) as A1 by lra. rewrite A1, B0, C0 in E1, E2. split; lra. }
  destruct (Qlt_le_dec 0 a) as [K|K]; [exists A; split; [exact IA|exact (ONE A B C a b c IA IB IC K Hb Hc S1 E)]|].
  destruct (Qlt_le_dec 0 b) as [K'|K']; [exists B; split; [exact IB|apply (ONE B A C b a c); try assumption; [lra|]]|exists C; split; [exact IC|apply (ONE C A B c a b); try assumption; [lra|lra|]]].
  - destruct E as [E1 E2]. split; [rewrite E1|rewrite E2]; cbn [px py vadd vscale]; ring.
  - destruct E as [E1 E2]. split; [rewrite E1|rewrite E2]; cbn [px py vadd vscale]; ring.
Qed.
