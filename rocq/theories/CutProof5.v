(** Proofs about the cut of a convex polygon by a plane: the parts. *)
From Verif Require Import Base LinIntSpec DistModel BoxIntModel CutModel CutSpec CutProof CutProof2 CutProof3 CutProof4.

Lemma vtx_nth : forall ps k, (k < length ps)%nat -> nth_error ps k = Some (vtx ps k).
Proof. intros ps k H. unfold vtx. rewrite Nat.mod_small by exact H. apply nth_error_nth'. exact H. Qed.
Section Convex.
Context (ps : list pt3) (m : pt3) (e : Q).
Hypothesis len : (3 <= length ps)%nat.
Hypothesis flat : forall v, In v ps -> dot3 m v == e.
Hypothesis conv : forall i j k A B C, (i < j < k)%nat -> nth_error ps i = Some A -> nth_error ps j = Some B -> nth_error ps k = Some C -> 0 < turn m A B C.
Notation v := (vtx ps).
Lemma conv_v : forall i j k, (i < j < k)%nat -> (k < length ps)%nat -> 0 < turn m (v i) (v j) (v k).
Proof. intros i j k H K. apply (conv i j k); [exact H| | |]; apply vtx_nth; lia. Qed.
Lemma mm_pos : 0 < dot3 m m.
Proof.
  pose proof (conv_v 0 1 2 ltac:(lia) ltac:(lia)) as H. destruct (Qlt_le_dec 0 (dot3 m m)) as [|Z]; [assumption|exfalso].
  unfold dot3 in Z. assert (E1 : x3 m == 0) by nra. assert (E2 : y3 m == 0) by nra. assert (E3 : z3 m == 0) by nra.
  unfold turn, dot3 in H. rewrite E1, E2, E3 in H. lra.
Qed.
Lemma turn_rot : forall A B C, turn m A B C == turn m B C A.
Proof. intros. unfold turn, dot3, cross3, vsub3; simpl. ring. Qed.
Lemma turn_swap : forall A B C, turn m A B C == - turn m A C B.
Proof. intros. unfold turn, dot3, cross3, vsub3; simpl. ring. Qed.
Lemma turn_flip : forall A B C, turn m B A C == - turn m A B C.
Proof. intros. unfold turn, dot3, cross3, vsub3; simpl. ring. Qed.
Lemma turn_same : forall A B, turn m A B A == 0 /\ turn m A B B == 0.
Proof. intros. split; unfold turn, dot3, cross3, vsub3; simpl; ring. Qed.
Lemma side_inner : forall p q k, (p < q < length ps)%nat -> (p <= k <= q)%nat -> turn m (v p) (v q) (v k) <= 0.
Proof.
  intros p q k H K. destruct (Nat.eq_dec k p) as [->|N1]; [destruct (turn_same (v p) (v q)); lra|]. destruct (Nat.eq_dec k q) as [->|N2]; [destruct (turn_same (v p) (v q)); lra|].
  rewrite turn_swap. pose proof (conv_v p k q ltac:(lia) ltac:(lia)). lra.
Qed.
Lemma vtx_wrap : forall k, v (k + length ps) = v k.
Proof. intro k. unfold vtx. replace (k + length ps)%nat with (k + 1 * length ps)%nat by lia. rewrite Nat.mod_add by lia. reflexivity. Qed.
Lemma side_outer : forall p q k, (p < q < length ps)%nat -> (q <= k <= p + length ps)%nat -> 0 <= turn m (v p) (v q) (v k).
Proof.
  intros p q k H K. destruct (Nat.lt_ge_cases k (length ps)) as [C|C].
  - destruct (Nat.eq_dec k q) as [->|N2]; [destruct (turn_same (v p) (v q)); lra|]. pose proof (conv_v p q k ltac:(lia) ltac:(lia)). lra.
  - replace k with ((k - length ps) + length ps)%nat by lia. rewrite vtx_wrap. destruct (Nat.eq_dec (k - length ps) p) as [->|N2]; [destruct (turn_same (v p) (v q)); lra|].
    rewrite turn_rot. rewrite turn_rot. pose proof (conv_v (k - length ps) p q ltac:(lia) ltac:(lia)). lra.
Qed.

(** Two crossing points of the border, one on each side of the diagonal. *)
Lemma two_hits : forall pl a F B p q, cut pl a ps F B -> (forall d, last ps d = a) -> (p < q < length ps)%nat ->
  (0 <= above pl (v p) /\ above pl (v q) < 0) \/ (above pl (v p) < 0 /\ 0 <= above pl (v q)) ->
  exists Y1 Y2, (In Y1 F /\ In Y1 B /\ above pl Y1 == 0 /\ dot3 m Y1 == e /\ turn m (v p) (v q) Y1 <= 0) /\
                (In Y2 F /\ In Y2 B /\ above pl Y2 == 0 /\ dot3 m Y2 == e /\ 0 <= turn m (v p) (v q) Y2).
Proof.
  intros pl a F B p q C L H SG. assert (N : ps <> []) by (intro E; rewrite E in len; cbn in len; lia).
  assert (IA : In a ps). { rewrite <- (L (mkpt3 0 0 0)). clear -N. destruct ps as [|x l]; [contradiction|]. clear N. revert x. induction l as [|y l IH]; intro x; [left; reflexivity|]. right. apply (IH y). }
  set (b := fun k => Qleb 0 (above pl (v k))).
  assert (HB : forall k, b k <> b (S k) -> exists Y, In Y F /\ In Y B /\ above pl Y == 0 /\ on_segment3 (v k) (v (S k)) Y).
  { intros k NE. apply (edge_hit pl a ps F B _ _ C IA (edge_index ps a k N L)). unfold b in NE.
    destruct (Qleb_spec 0 (above pl (v k))), (Qleb_spec 0 (above pl (v (S k)))); try congruence; [left|right]; split; assumption. }
  assert (NPQ : b p <> b q) by (unfold b; destruct (Qleb_spec 0 (above pl (v p))), (Qleb_spec 0 (above pl (v q))); try discriminate; intros _; lra).
  assert (WP : b (p + length ps)%nat = b p) by (unfold b; rewrite vtx_wrap; reflexivity).
  destruct (sign_change b p q) as (k1 & K1 & D1); [lia|exact NPQ|]. destruct (sign_change b q (p + length ps)) as (k2 & K2 & D2); [lia|congruence|].
  destruct (HB k1 D1) as (Y1 & F1 & B1 & Z1 & S1). destruct (HB k2 D2) as (Y2 & F2 & B2 & Z2 & S2). exists Y1, Y2. split.
  - repeat (split; [assumption|]). split; [eapply plane_on; [exact S1| |]; apply flat, vtx_in; exact N|].
    apply (turn_on m (v p) (v q)) in S1. apply S1; apply side_inner; lia.
  - repeat (split; [assumption|]). split; [eapply plane_on; [exact S2| |]; apply flat, vtx_in; exact N|].
    apply (turn_on m (v p) (v q)) in S2. apply S2; apply side_outer; lia.
Qed.
Lemma pairs_ok : forall pl a F B, cut pl a ps F B -> (forall d, last ps d = a) ->
  forall u l, In u ps -> In l ps -> 0 <= above pl u -> above pl l < 0 -> pair_ok F pl u l /\ pair_ok B pl u l.
Proof.
  intros pl a F B C L u l IU IL GU GL. apply (In_nth _ _ (mkpt3 0 0 0)) in IU, IL. destruct IU as (i & I1 & I2), IL as (j & J1 & J2).
  assert (VU : v i = u) by (unfold vtx; rewrite Nat.mod_small by lia; exact I2). assert (VL : v j = l) by (unfold vtx; rewrite Nat.mod_small by lia; exact J2).
  assert (FU : dot3 m u == e) by (apply flat; rewrite <- I2; apply nth_In; exact I1). assert (FL : dot3 m l == e) by (apply flat; rewrite <- J2; apply nth_In; exact J1).
  destruct (Nat.lt_trichotomy i j) as [H|[->|H] ].
  - destruct (two_hits pl a F B i j C L) as (Y1 & Y2 & (A1 & A2 & A3 & A4 & A5) & (B1 & B2 & B3 & B4 & B5)); [lia|left; rewrite VU, VL; split; assumption|].
    rewrite VU, VL in *. split; eapply (between_cone _ pl m e u l Y2 Y1); eauto using mm_pos.
  - exfalso. rewrite VU in VL. subst. lra.
  - destruct (two_hits pl a F B j i C L) as (Y1 & Y2 & (A1 & A2 & A3 & A4 & A5) & (B1 & B2 & B3 & B4 & B5)); [lia|right; rewrite VU, VL; split; assumption|].
    rewrite VU, VL in *. split; eapply (between_cone _ pl m e u l Y1 Y2); eauto using mm_pos; rewrite turn_flip; lra.
Qed.
End Convex.

Lemma hull_mono : forall ps O, (forall x, In x O -> cone ps 1 x) -> forall X, in_hull3 O X -> in_hull3 ps X.
Proof.
  intros ps O H X (l & L1 & L2 & L3). change (cone ps 1 X). eapply cone_eq; [apply (cone_list ps l)| |exact L3].
  - intros w v HI. destruct (L1 w v HI). auto.
  - symmetry. exact L2.
Qed.
Lemma hull_above : forall pl O, ((forall x, In x O -> 0 <= above pl x) -> forall X, in_hull3 O X -> 0 <= above pl X) /\ ((forall x, In x O -> above pl x <= 0) -> forall X, in_hull3 O X -> above pl X <= 0).
Proof.
  intros pl O.
  assert (K : forall X l, weight l == 1 -> pt3eq X (combination l) -> above pl X == height pl l).
  { intros X l W (E1 & E2 & E3). unfold above, height, dot3. rewrite E1, E2, E3, W. ring. }
  split; intros H X (l & L1 & L2 & L3); rewrite (K X l L2 L3).
  - apply height_sign. intros w v HI. destruct (L1 w v HI). auto.
  - clear L2 L3. induction l as [|[w v] l IH]; [unfold height, dot3; cbn; lra|]. rewrite height_cons. destruct (L1 w v) as [W I]; [left; reflexivity|]. specialize (H v I).
    assert (height pl l <= 0) by (apply IH; intros; apply L1; right; assumption). nra.
Qed.
Lemma on_segment_cone : forall ps A B X, In A ps -> In B ps -> on_segment3 A B X -> cone ps 1 X.
Proof.
  intros ps A B X IA IB (t & T & (E1 & E2 & E3)). apply (cone_lin ps 1 A 1 B (1 - t) t); [apply cone_vertex; exact IA|apply cone_vertex; exact IB|lra|lra|ring|].
  unfold pt3eq, lerp3, vadd3, vscale3, vsub3 in *; cbn [x3 y3 z3] in *. rewrite E1, E2, E3. repeat split; ring.
Qed.
Lemma last_in : forall (ps : list pt3) a, ps <> [] -> (forall d, last ps d = a) -> In a ps.
Proof. intros ps a N L. rewrite <- (L (mkpt3 0 0 0)). destruct ps as [|x l]; [contradiction|]. clear. revert x. induction l as [|y l IH]; intro x; [left; reflexivity|]. right. apply (IH y). Qed.

Lemma convex_parts : forall ps pl F B, convex_polygon ps -> split_polygon ps pl = Some (F, B) ->
  (forall X, in_hull3 F X <-> in_hull3 ps X /\ 0 <= above pl X) /\
  ((exists w, In w ps /\ behind pl w) -> forall X, in_hull3 B X <-> in_hull3 ps X /\ above pl X <= 0).
Proof.
  intros ps pl F B (len & m & e & flat & conv) H. assert (N : ps <> []) by (intro; subst; discriminate).
  destruct (split_polygon_cut ps pl N) as (p & F' & B' & E & L & LA & C). rewrite E in H. injection H as -> ->.
  destruct (sides pl p ps F B C) as [SF SB].
  assert (FR : forall x, In x (F ++ B) -> cone ps 1 x).
  { intros x HI. destruct (cut_from pl p ps F B C x HI) as (A & D & I1 & I2 & S). eapply on_segment_cone; [|exact I2|exact S]. destruct I1 as [<-|I1]; [apply last_in; assumption|exact I1]. }
  split.
  - intro X. split.
    + intro HX. split; [eapply hull_mono; [|exact HX]; intros; apply FR, in_or_app; left; assumption|eapply hull_above; [exact SF|exact HX]].
    + intros [HX A]. eapply (hull_front ps); [| |exact HX|exact A].
      * intros v IV G. apply cone_vertex. apply (cut_vertices pl p ps F B C v IV). exact G.
      * intros u l IU IL GU GL. eapply (pairs_ok ps m e len flat conv pl p F B C LA); assumption.
  - intros W X. split.
    + intro HX. split; [eapply hull_mono; [|exact HX]; intros; apply FR, in_or_app; right; assumption|eapply hull_above; [exact SB|exact HX]].
    + intros [HX A]. eapply (hull_back ps); [exact W| | |exact HX|exact A].
      * intros v IV G. apply cone_vertex. apply (cut_vertices pl p ps F B C v IV). exact G.
      * intros u l IU IL GU GL. eapply (pairs_ok ps m e len flat conv pl p F B C LA); assumption.
Qed.
(** No vertex behind: nothing in the back list. *)
Lemma back_empty : forall pl a ps F B, cut pl a ps F B -> 0 <= above pl a -> (forall v, In v ps -> 0 <= above pl v) -> B = [].
Proof.
  intros pl a ps F B C. induction C as [a|a b ps fs bs fs' bs' C1 C2 IH]; intros GA H; [reflexivity|].
  assert (GB : 0 <= above pl b) by (apply H; left; reflexivity). rewrite IH; [|exact GB|intros; apply H; right; assumption].
  inversion C1 as [x X1 X2 X3|X1 X2|x X1 X2 X3|X1 X2|X1 X2|X1 X2|X1 X2]; subst; try reflexivity; exfalso; lra.
Qed.
Lemma classify_polygon : forall ps pl,
  (classify_simplex_to_plane ps pl = SolidModel.straddling_plane <-> (exists v, In v ps /\ in_front pl v) /\ (exists v, In v ps /\ behind pl v)) /\
  (classify_simplex_to_plane ps pl = SolidModel.in_front_of_plane <-> (exists v, In v ps /\ in_front pl v) /\ (forall v, In v ps -> ~ behind pl v)) /\
  (classify_simplex_to_plane ps pl = SolidModel.in_back_of_plane <-> (exists v, In v ps /\ behind pl v) /\ (forall v, In v ps -> ~ in_front pl v)) /\
  (classify_simplex_to_plane ps pl = SolidModel.coplanar_with_plane <-> forall v, In v ps -> above pl v == 0).
Proof.
  intros ps pl. unfold classify_simplex_to_plane.
  assert (CF : count_side SolidModel.in_front_of_plane ps pl = 0%nat <-> forall v, In v ps -> ~ in_front pl v).
  { unfold count_side. rewrite length_zero_iff_nil. split.
    - intros E v HI G. assert (K : In v []) by (rewrite <- E; apply filter_In; split; [exact HI|]; unfold in_front in G; destruct (classify_cases v pl) as [(-> & K)|[(-> & K)|(-> & K)] ]; [reflexivity|lra|lra]). destruct K.
    - intro H. match goal with |- ?l = [] => destruct l as [|x l0] eqn:E; [reflexivity|exfalso] end. assert (K : In x (x :: l0)) by (left; reflexivity). rewrite <- E in K. apply filter_In in K. destruct K as [K1 K2].
      apply (H x K1). unfold in_front. destruct (classify_cases x pl) as [(K & G)|[(K & G)|(K & G)] ]; rewrite K in K2; try discriminate. exact G. }
  assert (CB : count_side SolidModel.in_back_of_plane ps pl = 0%nat <-> forall v, In v ps -> ~ behind pl v).
  { unfold count_side. rewrite length_zero_iff_nil. split.
    - intros E v HI G. assert (K : In v []) by (rewrite <- E; apply filter_In; split; [exact HI|]; unfold behind in G; destruct (classify_cases v pl) as [(-> & K)|[(-> & K)|(-> & K)] ]; [lra|reflexivity|lra]). destruct K.
    - intro H. match goal with |- ?l = [] => destruct l as [|x l0] eqn:E; [reflexivity|exfalso] end. assert (K : In x (x :: l0)) by (left; reflexivity). rewrite <- E in K. apply filter_In in K. destruct K as [K1 K2].
      apply (H x K1). unfold behind. destruct (classify_cases x pl) as [(K & G)|[(K & G)|(K & G)] ]; rewrite K in K2; try discriminate. exact G. }
  assert (XF : count_side SolidModel.in_front_of_plane ps pl <> 0%nat -> exists v, In v ps /\ in_front pl v).
  { intro K. destruct (Exists_dec (fun v => in_front pl v) ps) as [D|D]; [intro v; unfold in_front; destruct (Qlt_le_dec 0 (above pl v)); [left; assumption|right; lra]|apply Exists_exists in D; exact D|].
    exfalso. apply K, CF. intros v HI G. apply D, Exists_exists. exists v. split; assumption. }
  assert (XB : count_side SolidModel.in_back_of_plane ps pl <> 0%nat -> exists v, In v ps /\ behind pl v).
  { intro K. destruct (Exists_dec (fun v => behind pl v) ps) as [D|D]; [intro v; unfold behind; destruct (Qlt_le_dec (above pl v) 0); [left; assumption|right; lra]|apply Exists_exists in D; exact D|].
    exfalso. apply K, CB. intros v HI G. apply D, Exists_exists. exists v. split; assumption. }
  destruct (Nat.eqb_spec (count_side SolidModel.in_back_of_plane ps pl) 0) as [B|B], (Nat.eqb_spec (count_side SolidModel.in_front_of_plane ps pl) 0) as [F|F]; cbn [negb andb].
  - pose proof (proj1 CB B) as B1; clear B; rename B1 into B. pose proof (proj1 CF F) as F1; clear F; rename F1 into F. repeat split; try discriminate; try (intros [(v & I & G) _]; exfalso; try (apply (B v I G)); apply (F v I G)); try (intros [_ (v & I & G)]; exfalso; try (apply (B v I G)); apply (F v I G)).
    intros _ v I. specialize (B v I). specialize (F v I). unfold in_front, behind in *. lra.
  - pose proof (XF F) as XF'. pose proof (proj1 CB B) as B1; clear B; rename B1 into B. split; [|split; [|split]].
    + split; [discriminate|]. intros [_ (v & I & G)]. exfalso. apply (B v I G).
    + tauto.
    + split; [discriminate|]. intros [(v & I & G) _]. exfalso. apply (B v I G).
    + split; [discriminate|]. intro Z. destruct XF' as (v & I & G). specialize (Z v I). unfold in_front in G. lra.
  - pose proof (XB B) as XB'. pose proof (proj1 CF F) as F1; clear F; rename F1 into F. split; [|split; [|split]].
    + split; [discriminate|]. intros [(v & I & G) _]. exfalso. apply (F v I G).
    + split; [discriminate|]. intros [(v & I & G) _]. exfalso. apply (F v I G).
    + tauto.
    + split; [discriminate|]. intro Z. destruct XB' as (v & I & G). specialize (Z v I). unfold behind in G. lra.
  - pose proof (XF F) as XF'. pose proof (XB B) as XB'. split; [|split; [|split]].
    + tauto.
    + split; [discriminate|]. intros [_ H]. destruct XB' as (v & I & G). exfalso. apply (H v I G).
    + split; [discriminate|]. intros [_ H]. destruct XF' as (v & I & G). exfalso. apply (H v I G).
    + split; [discriminate|]. intro Z. destruct XF' as (v & I & G). specialize (Z v I). unfold in_front in G. lra.
Qed.
