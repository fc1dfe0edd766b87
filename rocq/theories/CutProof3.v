(** Proofs about the cut of a polygon by a plane: convex polygons. *)
From Verif Require Import Base LinIntSpec DistModel BoxIntModel CutModel CutSpec CutProof CutProof2.

(** ** Cones *)
Definition cone (ps : list pt3) (c : Q) (V : pt3) : Prop :=
  exists l, (forall w v, In (w, v) l -> 0 <= w /\ In v ps) /\ weight l == c /\ pt3eq V (combination l).
Lemma weight_app : forall l l', weight (l ++ l') == weight l + weight l'.
Proof. induction l as [|p l IH]; intro l'; [cbn [app]; unfold weight at 2; cbn [fold_right]; ring|]. cbn [app weight fold_right]. fold (weight (l ++ l')) (weight l). rewrite IH. ring. Qed.
Lemma combination_app : forall l l', pt3eq (combination (l ++ l')) (vadd3 (combination l) (combination l')).
Proof.
  induction l as [|p l IH]; intro l'.
  - cbn [app]. change (combination []) with (mkpt3 0 0 0). unfold pt3eq, vadd3; cbn [x3 y3 z3]. repeat split; ring.
  - cbn [app combination fold_right]. fold (combination (l ++ l')) (combination l). destruct (IH l') as (E1 & E2 & E3). unfold pt3eq, vadd3 in *; simpl in *. rewrite E1, E2, E3. repeat split; ring.
Qed.
Definition scale_all (k : Q) (l : list (Q * pt3)) : list (Q * pt3) := map (fun p => (k * fst p, snd p)) l.
Lemma weight_scale : forall k l, weight (scale_all k l) == k * weight l.
Proof. intros k l. induction l as [|p l IH]; [cbn; ring|]. cbn [scale_all map weight fold_right fst]. fold (scale_all k l). fold (weight (scale_all k l)) (weight l). rewrite IH. ring. Qed.
Lemma combination_scale : forall k l, pt3eq (combination (scale_all k l)) (vscale3 k (combination l)).
Proof.
  intros k l. induction l as [|p l IH]; [unfold pt3eq; cbn; repeat split; ring|]. cbn [scale_all map combination fold_right fst snd]. fold (scale_all k l). fold (combination (scale_all k l)) (combination l).
  destruct IH as (E1 & E2 & E3). unfold pt3eq, vadd3, vscale3 in *; simpl in *. rewrite E1, E2, E3. repeat split; ring.
Qed.
Lemma cone_lin : forall ps a V b W k k' c Z, cone ps a V -> cone ps b W -> 0 <= k -> 0 <= k' -> c == k * a + k' * b -> pt3eq Z (vadd3 (vscale3 k V) (vscale3 k' W)) -> cone ps c Z.
Proof.
  intros ps a V b W k k' c Z (l & L1 & L2 & L3) (l' & M1 & M2 & M3) K K' C (Z1 & Z2 & Z3). exists (scale_all k l ++ scale_all k' l'). split; [|split].
  - intros w v H. apply in_app_or in H. unfold scale_all in H. destruct H as [H|H]; apply in_map_iff in H; destruct H as ([w0 v0] & E & H); cbn [fst snd] in E; injection E as <- <-.
    + destruct (L1 _ _ H). split; [apply Qmult_le_0_compat; assumption|assumption].
    + destruct (M1 _ _ H). split; [apply Qmult_le_0_compat; assumption|assumption].
  - rewrite weight_app, !weight_scale, L2, M2, C. reflexivity.
  - destruct (combination_app (scale_all k l) (scale_all k' l')) as (E1 & E2 & E3).
    destruct (combination_scale k l) as (F1 & F2 & F3), (combination_scale k' l') as (G1 & G2 & G3), L3 as (L31 & L32 & L33), M3 as (M31 & M32 & M33).
    unfold pt3eq, vadd3, vscale3 in *; simpl in *. rewrite Z1, Z2, Z3, E1, E2, E3, F1, F2, F3, G1, G2, G3, L31, L32, L33, M31, M32, M33. repeat split; reflexivity.
Qed.
Lemma cone_zero : forall ps, cone ps 0 (mkpt3 0 0 0).
Proof. intro ps. exists []. split; [intros w v []|]. split; [reflexivity|]. unfold pt3eq; cbn; repeat split; reflexivity. Qed.
Lemma cone_vertex : forall ps v, In v ps -> cone ps 1 v.
Proof.
  intros ps v H. exists [(1, v)]. split; [intros w u [E|[]]; injection E as <- <-; split; [lra|exact H]|]. split; [cbn; ring|]. unfold pt3eq; cbn; repeat split; ring.
Qed.
Lemma cone_eq : forall ps c V c' V', cone ps c V -> c' == c -> pt3eq V' V -> cone ps c' V'.
Proof.
  intros ps c V c' V' H E (E1 & E2 & E3). apply (cone_lin ps c V 0 (mkpt3 0 0 0) 1 0); [exact H|apply cone_zero|lra|lra|lra|]. unfold pt3eq, vadd3, vscale3; simpl. rewrite E1, E2, E3. repeat split; ring.
Qed.
Lemma cone_list : forall ps l, (forall w v, In (w, v) l -> 0 <= w /\ cone ps 1 v) -> cone ps (weight l) (combination l).
Proof.
  intros ps l. induction l as [|[w v] l IH]; intro H; [apply cone_zero|].
  apply (cone_lin ps 1 v (weight l) (combination l) w 1); [apply (H w v); left; reflexivity|apply IH; intros; apply H; right; assumption|apply (H w v); left; reflexivity|lra| |].
  - cbn [weight fold_right fst]. fold (weight l). ring.
  - cbn [combination fold_right fst snd]. fold (combination l). unfold pt3eq, vadd3, vscale3; simpl. repeat split; ring.
Qed.
Lemma hull_cone : forall ps X, in_hull3 ps X <-> cone ps 1 X.
Proof. intros. reflexivity. Qed.

(** The height of a combination. *)
Definition height (pl : plane3) (l : list (Q * pt3)) : Q := dot3 (pl_normal pl) (combination l) - pl_dist pl * weight l.
Lemma height_cons : forall pl w v l, height pl ((w, v) :: l) == w * above pl v + height pl l.
Proof.
  intros. unfold height, above. cbn [weight combination fold_right fst snd]. fold (weight l) (combination l). unfold dot3, vadd3, vscale3; simpl. ring.
Qed.

Section Transfer.
Context (ps : list pt3) (pl : plane3).
Definition pair_ok (u l : pt3) : Prop := cone ps (above pl u - above pl l) (vadd3 (vscale3 (- above pl l) u) (vscale3 (above pl u) l)).
Lemma transfer_one : forall u L, (forall w l, In (w, l) L -> 0 <= w /\ pair_ok u l) ->
  cone ps (- height pl L + above pl u * weight L) (vadd3 (vscale3 (- height pl L) u) (vscale3 (above pl u) (combination L))).
Proof.
  intros u L. induction L as [|[w l] L IH]; intro H.
  - eapply cone_eq; [apply cone_zero| |]; unfold height, pt3eq, vadd3, vscale3, dot3; cbn; repeat split; ring.
  - destruct (H w l) as [W P]; [left; reflexivity|]. assert (IH' := IH (fun w' l' H' => H w' l' (or_intror H'))).
    eapply (cone_lin ps _ _ _ _ w 1); [exact P|exact IH'|exact W|lra| |].
    + rewrite height_cons. cbn [weight fold_right fst]. fold (weight L). ring.
    + unfold pt3eq, vadd3, vscale3; cbn [x3 y3 z3]. rewrite !height_cons. cbn [combination fold_right fst snd]. fold (combination L). unfold vadd3, vscale3; cbn [x3 y3 z3]. repeat split; ring.
Qed.
Lemma transfer : forall U L, (forall w u, In (w, u) U -> 0 <= w /\ forall w' l, In (w', l) L -> 0 <= w' /\ pair_ok u l) ->
  cone ps (- height pl L * weight U + height pl U * weight L) (vadd3 (vscale3 (- height pl L) (combination U)) (vscale3 (height pl U) (combination L))).
Proof.
  intros U L. induction U as [|[w u] U IH]; intro H.
  - eapply cone_eq; [apply cone_zero| |].
    + unfold height at 2. cbn. unfold dot3; simpl. ring.
    + assert (E : height pl [] == 0) by (unfold height, dot3; cbn; ring). unfold pt3eq, vadd3, vscale3; cbn [x3 y3 z3]. rewrite !E. cbn. repeat split; ring.
  - destruct (H w u) as [W P]; [left; reflexivity|]. assert (IH' := IH (fun w' l' H' => H w' l' (or_intror H'))).
    eapply (cone_lin ps _ _ _ _ w 1); [apply (transfer_one u L P)|exact IH'|exact W|lra| |].
    + rewrite !height_cons. cbn [weight fold_right fst]. fold (weight U). ring.
    + unfold pt3eq, vadd3, vscale3; cbn [x3 y3 z3]. rewrite !height_cons. cbn [combination fold_right fst snd]. fold (combination U). unfold vadd3, vscale3; cbn [x3 y3 z3]. repeat split; ring.
Qed.
End Transfer.

(** A combination split into what is on the plane or in front, and what is behind. *)
Definition up (pl : plane3) (l : list (Q * pt3)) := filter (fun p => Qleb 0 (above pl (snd p))) l.
Definition down (pl : plane3) (l : list (Q * pt3)) := filter (fun p => negb (Qleb 0 (above pl (snd p)))) l.
Lemma up_down : forall pl l, weight l == weight (up pl l) + weight (down pl l) /\ pt3eq (combination l) (vadd3 (combination (up pl l)) (combination (down pl l))).
Proof.
  intros pl l. induction l as [|p l [IH1 (IH2 & IH3 & IH4)]]; [split; [reflexivity|unfold pt3eq; cbn; repeat split; reflexivity]|].
  unfold up, down in *. cbn [filter]. destruct (Qleb 0 (above pl (snd p))); cbn [negb weight combination fold_right];
  fold (weight l) (combination l) (weight (filter (fun p => Qleb 0 (above pl (snd p))) l)) (combination (filter (fun p => Qleb 0 (above pl (snd p))) l)) (weight (filter (fun p => negb (Qleb 0 (above pl (snd p)))) l)) (combination (filter (fun p => negb (Qleb 0 (above pl (snd p)))) l));
  (split; [rewrite IH1; ring|]); unfold pt3eq, vadd3 in *; simpl in *; rewrite IH2, IH3, IH4; repeat split; ring.
Qed.
Lemma height_sign : forall pl l, (forall w v, In (w, v) l -> 0 <= w /\ 0 <= above pl v) -> 0 <= height pl l.
Proof.
  intros pl l. induction l as [|[w v] l IH]; intro H; [unfold height, dot3; cbn; lra|]. rewrite height_cons. destruct (H w v) as [H1 H2]; [left; reflexivity|].
  assert (0 <= height pl l) by (apply IH; intros; apply H; right; assumption). nra.
Qed.
Lemma height_sign_down : forall pl l, (forall w v, In (w, v) l -> 0 <= w /\ above pl v < 0) ->
  height pl l <= 0 /\ (height pl l == 0 -> forall w v, In (w, v) l -> w == 0).
Proof.
  intros pl l. induction l as [|[w v] l IH]; intro H; [split; [unfold height, dot3; cbn; lra|intros _ w v []]|]. destruct (H w v) as [H1 H2]; [left; reflexivity|].
  destruct IH as [I1 I2]; [intros; apply H; right; assumption|]. pose proof (height_cons pl w v l) as HC. split; [nra|].
  intros E w' v' [E'|HI]; [injection E' as <- <-; nra|]. eapply I2; [nra|exact HI].
Qed.
Lemma height_zero_up : forall pl l, (forall w v, In (w, v) l -> 0 <= w /\ 0 <= above pl v) -> height pl l == 0 -> forall w v, In (w, v) l -> w == 0 \/ above pl v == 0.
Proof.
  intros pl l. induction l as [|[w v] l IH]; intros H E w' v' HI; [contradiction|]. destruct (H w v) as [H1 H2]; [left; reflexivity|].
  assert (G : 0 <= height pl l) by (apply height_sign; intros; apply H; right; assumption). rewrite height_cons in E.
  destruct HI as [E'|HI].
  - injection E' as <- <-. destruct (Qlt_le_dec 0 w); [right|left; lra]. assert (w * above pl v == 0) by nra. destruct (Qlt_le_dec 0 (above pl v)); [nra|lra].
  - eapply IH; [intros; apply H; right; assumption|nra|exact HI].
Qed.
Lemma weights_zero : forall l, (forall w v, In (w, v) l -> w == 0) -> weight l == 0 /\ pt3eq (combination l) (mkpt3 0 0 0).
Proof.
  induction l as [|[w v] l IH]; intro H; [split; [reflexivity|unfold pt3eq; cbn; repeat split; reflexivity]|].
  destruct IH as [I1 (I2 & I3 & I4)]; [intros w' v' H'; apply (H w' v'); right; exact H'|]. assert (W : w == 0) by (apply (H w v); left; reflexivity).
  cbn [weight combination fold_right fst snd]. fold (weight l) (combination l). split; [rewrite I1, W; ring|]. unfold pt3eq, vadd3, vscale3 in *; simpl in *. rewrite I2, I3, I4, W. repeat split; ring.
Qed.

(** Hulls of the parts, from the crossing points of the diagonals. *)
Section Hull.
Context (ps F B : list pt3) (pl : plane3).
Lemma hull_front : (forall v, In v ps -> 0 <= above pl v -> cone F 1 v) ->
  (forall u l, In u ps -> In l ps -> 0 <= above pl u -> above pl l < 0 -> pair_ok F pl u l) ->
  forall X, in_hull3 ps X -> 0 <= above pl X -> in_hull3 F X.
Proof.
  intros V P X (l & L1 & L2 & L3) H. change (cone F 1 X). destruct (up_down pl l) as [W (C1 & C2 & C3)]. set (U := up pl l) in *. set (D := down pl l) in *.
  assert (HU : forall w v, In (w, v) U -> 0 <= w /\ In v ps /\ 0 <= above pl v).
  { intros w v HI. unfold U, up in HI. apply filter_In in HI. destruct HI as [HI HB]. cbn [snd] in HB. apply Qleb_le in HB. destruct (L1 w v HI). auto. }
  assert (HD : forall w v, In (w, v) D -> 0 <= w /\ In v ps /\ above pl v < 0).
  { intros w v HI. unfold D, down in HI. apply filter_In in HI. destruct HI as [HI HB]. cbn [snd] in HB. destruct (Qleb_spec 0 (above pl v)); [discriminate|]. destruct (L1 w v HI). auto. }
  assert (SU : 0 <= height pl U) by (apply height_sign; intros w v HI; destruct (HU w v HI) as (? & ? & ?); auto).
  destruct (height_sign_down pl D) as [SD SZ]; [intros w v HI; destruct (HD w v HI) as (? & ? & ?); auto|].
  assert (HX : above pl X == height pl U + height pl D).
  { destruct L3 as (X1 & X2 & X3). unfold above, height, dot3. rewrite X1, X2, X3, C1, C2, C3. unfold vadd3; cbn [x3 y3 z3]. assert (weight U + weight D == 1) by lra. setoid_replace (pl_dist pl) with (pl_dist pl * (weight U + weight D)) at 1 by (rewrite H0; ring). ring. }
  assert (CU : cone F (weight U) (combination U)) by (apply cone_list; intros w v HI; destruct (HU w v HI) as (? & ? & ?); auto).
  assert (T : cone F (- height pl D * weight U + height pl U * weight D) (vadd3 (vscale3 (- height pl D) (combination U)) (vscale3 (height pl U) (combination D)))).
  { apply transfer. intros w u HI. destruct (HU w u HI) as (? & ? & ?). split; [assumption|]. intros w' l' HI'. destruct (HD w' l' HI') as (? & ? & ?). split; [assumption|]. apply P; assumption. }
  destruct L3 as (X1 & X2 & X3). unfold vadd3 in C1, C2, C3; cbn [x3 y3 z3] in C1, C2, C3.
  destruct (Qlt_le_dec 0 (height pl U)) as [A|A].
  - apply (cone_lin F _ _ _ _ (/ height pl U * (height pl U + height pl D)) (/ height pl U) 1 X CU T).
    + apply Qmult_le_0_compat; [apply Qinv_le_0_compat; exact SU|lra].
    + apply Qinv_le_0_compat; exact SU.
    + setoid_replace 1 with (weight U + weight D) by lra. field. lra.
    + unfold pt3eq, vadd3, vscale3; cbn [x3 y3 z3]. rewrite X1, X2, X3, C1, C2, C3. repeat split; field; lra.
  - destruct (weights_zero D) as [D1 (D2 & D3 & D4)]; [apply SZ; lra|]. cbn [x3 y3 z3] in D2, D3, D4.
    eapply cone_eq; [exact CU|lra|]. unfold pt3eq. rewrite X1, X2, X3, C1, C2, C3, D2, D3, D4. repeat split; ring.
Qed.
Lemma hull_back : (exists l, In l ps /\ above pl l < 0) -> (forall v, In v ps -> above pl v < 0 -> cone B 1 v) ->
  (forall u l, In u ps -> In l ps -> 0 <= above pl u -> above pl l < 0 -> pair_ok B pl u l) ->
  forall X, in_hull3 ps X -> above pl X <= 0 -> in_hull3 B X.
Proof.
  intros (l0 & I0 & A0) V P X (l & L1 & L2 & L3) H. change (cone B 1 X). destruct (up_down pl l) as [W (C1 & C2 & C3)]. set (U := up pl l) in *. set (D := down pl l) in *.
  assert (HU : forall w v, In (w, v) U -> 0 <= w /\ In v ps /\ 0 <= above pl v).
  { intros w v HI. unfold U, up in HI. apply filter_In in HI. destruct HI as [HI HB]. cbn [snd] in HB. apply Qleb_le in HB. destruct (L1 w v HI). auto. }
  assert (HD : forall w v, In (w, v) D -> 0 <= w /\ In v ps /\ above pl v < 0).
  { intros w v HI. unfold D, down in HI. apply filter_In in HI. destruct HI as [HI HB]. cbn [snd] in HB. destruct (Qleb_spec 0 (above pl v)); [discriminate|]. destruct (L1 w v HI). auto. }
  assert (SU : 0 <= height pl U) by (apply height_sign; intros w v HI; destruct (HU w v HI) as (? & ? & ?); auto).
  destruct (height_sign_down pl D) as [SD SZ]; [intros w v HI; destruct (HD w v HI) as (? & ? & ?); auto|].
  assert (HX : above pl X == height pl U + height pl D).
  { destruct L3 as (X1 & X2 & X3). unfold above, height, dot3. rewrite X1, X2, X3, C1, C2, C3. unfold vadd3; cbn [x3 y3 z3]. assert (weight U + weight D == 1) by lra. setoid_replace (pl_dist pl) with (pl_dist pl * (weight U + weight D)) at 1 by (rewrite H0; ring). ring. }
  assert (CD : cone B (weight D) (combination D)) by (apply cone_list; intros w v HI; destruct (HD w v HI) as (? & ? & ?); auto).
  assert (T : cone B (- height pl D * weight U + height pl U * weight D) (vadd3 (vscale3 (- height pl D) (combination U)) (vscale3 (height pl U) (combination D)))).
  { apply transfer. intros w u HI. destruct (HU w u HI) as (? & ? & ?). split; [assumption|]. intros w' l' HI'. destruct (HD w' l' HI') as (? & ? & ?). split; [assumption|]. apply P; assumption. }
  destruct L3 as (X1 & X2 & X3). unfold vadd3 in C1, C2, C3; cbn [x3 y3 z3] in C1, C2, C3.
  destruct (Qlt_le_dec (height pl D) 0) as [A|A].
  - assert (IP : 0 <= / (- height pl D)) by (apply Qinv_le_0_compat; lra).
    apply (cone_lin B _ _ _ _ (/ (- height pl D) * (- height pl D - height pl U)) (/ (- height pl D)) 1 X CD T).
    + apply Qmult_le_0_compat; [exact IP|lra].
    + exact IP.
    + setoid_replace 1 with (weight U + weight D) by lra. field. lra.
    + unfold pt3eq, vadd3, vscale3; cbn [x3 y3 z3]. rewrite X1, X2, X3, C1, C2, C3. repeat split; field; lra.
  - destruct (weights_zero D) as [D1 (D2 & D3 & D4)]; [apply SZ; lra|]. cbn [x3 y3 z3] in D2, D3, D4.
    assert (CU : cone B (weight (filter (fun p => negb (Qeqb (fst p) 0)) U)) (combination (filter (fun p => negb (Qeqb (fst p) 0)) U))).
    { apply cone_list. intros w v HI. apply filter_In in HI. destruct HI as [HI NZ]. cbn [fst] in NZ. destruct (HU w v HI) as (? & ? & ?). split; [assumption|].
      destruct (height_zero_up pl U) with (w := w) (v := v) as [Z|Z]; [intros w' v' HI'; destruct (HU w' v' HI') as (? & ? & ?); auto|lra|exact HI|apply Qeqb_eq in Z; rewrite Z in NZ; discriminate|].
      pose proof (P v l0 H1 I0 H2 A0) as PK. unfold pair_ok in PK.
      apply (cone_lin B _ _ 0 (mkpt3 0 0 0) (/ (- above pl l0)) 0 1 v PK (cone_zero B)); [apply Qinv_le_0_compat; lra|lra| |].
      - rewrite Z. field. lra.
      - unfold pt3eq, vadd3, vscale3; cbn [x3 y3 z3]. rewrite Z. repeat split; field; lra. }
    assert (FZ : forall l' : list (Q * pt3), weight (filter (fun p => negb (Qeqb (fst p) 0)) l') == weight l' /\ pt3eq (combination (filter (fun p => negb (Qeqb (fst p) 0)) l')) (combination l')).
    { clear. induction l' as [|[w v] l' [I1 (I2 & I3 & I4)]]; [split; [reflexivity|unfold pt3eq; repeat split; reflexivity]|]. cbn [filter fst].
      destruct (Qeqb_spec w 0) as [Z|Z]; cbn [negb weight combination fold_right fst snd]; fold (weight l') (combination l');
      try fold (weight (filter (fun p : Q * pt3 => negb (Qeqb (fst p) 0)) l')) (combination (filter (fun p : Q * pt3 => negb (Qeqb (fst p) 0)) l'));
      unfold pt3eq, vadd3, vscale3 in *; cbn [x3 y3 z3]; rewrite ?I1, ?I2, ?I3, ?I4; (split; [|repeat split]); try reflexivity; rewrite Z; ring. }
    destruct (FZ U) as [F1 (F2 & F3 & F4)].
    eapply cone_eq; [exact CU|lra|]. unfold pt3eq. rewrite X1, X2, X3, C1, C2, C3, D2, D3, D4, F2, F3, F4. repeat split; ring.
Qed.
End Hull.
