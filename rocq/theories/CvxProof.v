From Verif Require Import Base CmpModel OrientModel OrientSpec OrientProof DistModel DistSpec LinIntModel LinIntSpec LinIntProof PolygonModel PolygonSpec PolygonProof PolygonConvexProof CvxModel CvxSpec.

(** ** Termination *)
Definition cx_measure (n m : nat) (s : cx_state) : nat :=
  ((if Nat.eqb (cx_n s) 0 then 2 * n + 2 * m else 0) + (2 * n - cx_aa s) + (2 * m - cx_ba s))%nat.

Lemma advance_measure : forall n m AB aHB bHA pa pb s s', cx_advance n m AB aHB bHA pa pb s = Some s' ->
  (cx_aa s < 2 * n)%nat -> (cx_ba s < 2 * m)%nat -> (cx_measure n m s' < cx_measure n m s)%nat.
Proof.
  intros n m AB aHB bHA pa pb s s' E Ha Hb.
  assert (K : forall k, ((if Nat.eqb (cx_n s + k) 0 then 2 * n + 2 * m else 0) <= (if Nat.eqb (cx_n s) 0 then 2 * n + 2 * m else 0))%nat).
  { intro k. destruct (Nat.eqb_spec (cx_n s + k) 0), (Nat.eqb_spec (cx_n s) 0); lia. }
  assert (Sa : forall vs, (cx_measure n m (advance_a n vs s) < cx_measure n m s)%nat).
  { intro vs. unfold cx_measure, advance_a; cbn [cx_n cx_aa cx_ba]. specialize (K (length vs)). lia. }
  assert (Sb : forall vs, (cx_measure n m (advance_b m vs s) < cx_measure n m s)%nat).
  { intro vs. unfold cx_measure, advance_b; cbn [cx_n cx_aa cx_ba]. specialize (K (length vs)). lia. }
  unfold cx_advance in E.
  repeat match type of E with context [if ?c then _ else _] => destruct c end; try discriminate; injection E as <-; auto.
Qed.
Lemma record_measure : forall n m aHB bHA x s, (cx_aa s < 2 * n)%nat -> (cx_ba s < 2 * m)%nat ->
  let s' := record_crossing aHB bHA x s in
  (cx_measure n m s' <= cx_measure n m s)%nat /\ (cx_aa s' < 2 * n)%nat /\ (cx_ba s' < 2 * m)%nat.
Proof.
  intros n m aHB bHA x s Ha Hb. unfold cx_measure, record_crossing; cbn [cx_n cx_aa cx_ba].
  destruct (Nat.eqb_spec (cx_n s + 1) 0); [lia|].
  destruct (Nat.eqb_spec (cx_n s + 1) 1), (Nat.eqb_spec (cx_n s) 0); try lia; destruct (is_in_unknown (cx_in s)); cbn [andb]; lia.
Qed.

Lemma step_measure : forall cmp P Q s s', cx_step cmp P Q s = inl s' ->
  (cx_aa s < 2 * length P)%nat -> (cx_ba s < 2 * length Q)%nat ->
  (cx_measure (length P) (length Q) s' < cx_measure (length P) (length Q) s)%nat.
Proof.
  intros cmp P Q s s' E Ha Hb. unfold cx_step in E.
  repeat match type of E with context [match nth_error ?l ?i with _ => _ end] => destruct (nth_error l i); [|discriminate] end.
  destruct (segment_segment_intersection _ _ _ _ _) as [[ty pts]|]; [|discriminate].
  cbv zeta in E. set (AB := get_orientation_v cmp (vsub p0 p) (vsub p2 p1)) in *. set (aHB := get_orientation cmp p1 p2 p0) in *. set (bHA := get_orientation cmp p p0 p2) in *.
  assert (G : forall s0, (cx_measure (length P) (length Q) s0 <= cx_measure (length P) (length Q) s)%nat -> (cx_aa s0 < 2 * length P)%nat -> (cx_ba s0 < 2 * length Q)%nat ->
     match cx_advance (length P) (length Q) AB aHB bHA p0 p2 s0 with None => inr (CxDone px_none (rev (cx_out s0))) | Some s => inl s end = inl s' ->
     (cx_measure (length P) (length Q) s' < cx_measure (length P) (length Q) s)%nat).
  { intros s0 H1 H2 H3 H4. destruct (cx_advance _ _ _ _ _ _ _ s0) as [s1|] eqn:E1; [|discriminate]. injection H4 as <-.
    apply advance_measure in E1; lia. }
  assert (R : forall x, match cx_advance (length P) (length Q) AB aHB bHA p0 p2 (record_crossing aHB bHA x s) with None => inr (CxDone px_none (rev (cx_out (record_crossing aHB bHA x s)))) | Some s => inl s end = inl s' ->
     (cx_measure (length P) (length Q) s' < cx_measure (length P) (length Q) s)%nat).
  { intros x. destruct (record_measure (length P) (length Q) aHB bHA x s Ha Hb) as (H1 & H2 & H3). apply G; assumption. }
  destruct ty; [|  | | |]; destruct pts as [|x0 [|x1 pts]]; try (apply (G s); [lia|assumption|assumption|exact E]); try (apply (R x0); exact E).
  destruct (Qltb _ _); [discriminate|]. apply (G s); [lia|assumption|assumption|exact E].
Qed.

(** A property kept by every turn holds at the end. *)
Lemma loop_ind : forall cmp P Q (I : cx_state -> Prop) (R : cx_result -> Prop),
  (forall s s', I s -> cx_step cmp P Q s = inl s' -> I s') ->
  (forall s r, I s -> cx_step cmp P Q s = inr r -> R r) ->
  (forall s, I s -> R (cx_finish P Q s)) ->
  forall fuel s, I s -> (cx_aa s < 2 * length P)%nat -> (cx_ba s < 2 * length Q)%nat ->
  (cx_measure (length P) (length Q) s < fuel)%nat -> R (cx_loop cmp P Q fuel s).
Proof.
  intros cmp P Q I R H1 H2 H3. induction fuel as [|fuel IH]; intros s Hs Ha Hb Hf; [lia|].
  cbn [cx_loop]. destruct (cx_step cmp P Q s) as [s'|r] eqn:E; [|eapply H2; eauto].
  assert (M := step_measure cmp P Q s s' E Ha Hb). assert (I' := H1 s s' Hs E).
  destruct (_ && _) eqn:C; [|apply H3; exact I'].
  apply andb_prop in C as [C C3]. apply andb_prop in C as [_ C2]. apply Nat.ltb_lt in C2, C3. apply IH; [exact I'|lia|lia|lia].
Qed.

(** ** What one turn does *)
Definition prev (n a : nat) : nat := ((a + n - 1) mod n)%nat.
Lemma prev_lt : forall n a, (a < n)%nat -> (prev n a < n)%nat.
Proof. intros n a H. apply Nat.mod_upper_bound. lia. Qed.
Lemma prev_next : forall n a, (a < n)%nat -> (S (prev n a) mod n = a)%nat.
Proof.
  intros n a H. unfold prev. destruct a as [|a].
  - rewrite Nat.add_0_l, (Nat.mod_small (n - 1)) by lia. replace (S (n - 1)) with n by lia. apply Nat.mod_same. lia.
  - replace (S a + n - 1)%nat with (a + 1 * n)%nat by lia. rewrite Nat.mod_add by lia. rewrite (Nat.mod_small a) by lia. apply Nat.mod_small. exact H.
Qed.
Lemma convex_nonzero : forall ps a, convex_polygon ps -> (a < length ps)%nat -> nonzero (vsub (pnth ps a) (pnth ps (prev (length ps) a))).
Proof.
  intros ps a [C L] H. pose proof (prev_lt _ _ H) as Hp. pose proof (prev_next _ _ H) as E.
  assert (K : exists k, (k < length ps)%nat /\ k <> prev (length ps) a /\ k <> a).
  { destruct (Nat.eq_dec (prev (length ps) a) 0), (Nat.eq_dec a 0); [exists 1%nat|destruct (Nat.eq_dec a 1); [exists 2%nat|exists 1%nat]|destruct (Nat.eq_dec (prev (length ps) a) 1); [exists 2%nat|exists 1%nat]|exists 0%nat]; lia. }
  destruct K as (k & Hk & N1 & N2).
  assert (T := convex_edge_vertex ps (prev (length ps) a) k C L Hp Hk N1). rewrite E in T. specialize (T N2).
  intros [Z1 Z2]. unfold tri2, cross in T. cbn [px py vsub] in T, Z1, Z2. rewrite Z1, Z2 in T. lra.
Qed.

(** ** Edges and hulls *)
Lemma vertex_in_hull : forall ps X, In X ps -> in_hull ps X.
Proof.
  intros ps X H. exists X, X, X. repeat (split; [exact H|]). exists 1, 0, 0. repeat (split; [lra|]).
  split; cbn [px py vadd vscale]; ring.
Qed.
Lemma edge_in_hull : forall ps i j X, (i < length ps)%nat -> (j < length ps)%nat -> on_segment (pnth ps i) (pnth ps j) X -> in_hull ps X.
Proof.
  intros ps i j X Hi Hj (t & Ht & E). exists (pnth ps i), (pnth ps j), (pnth ps j).
  split; [apply pnth_In; exact Hi|]. split; [apply pnth_In; exact Hj|]. split; [apply pnth_In; exact Hj|].
  exists (1 - t), t, 0. split; [lra|]. split; [lra|]. split; [lra|]. split; [ring|].
  destruct E as [E1 E2]. split; [rewrite E1|rewrite E2]; unfold lerp; cbn [px py vadd vscale vsub]; ring.
Qed.
Lemma hull_prev : forall ps a X, convex_polygon ps -> (a < length ps)%nat -> in_hull ps X ->
  0 <= tri2 (pnth ps (prev (length ps) a)) (pnth ps a) X.
Proof.
  intros ps a X [C L] Ha H. pose proof (hull_left ps X _ C L H (prev_lt _ _ Ha)) as T. rewrite (prev_next _ _ Ha) in T. exact T.
Qed.
(** The points of the polygon on the line of an edge are on the edge. *)
Lemma hull_on_edge : forall ps a X, convex_polygon ps -> (a < length ps)%nat -> in_hull ps X ->
  tri2 (pnth ps (prev (length ps) a)) (pnth ps a) X == 0 -> on_segment (pnth ps (prev (length ps) a)) (pnth ps a) X.
Proof.
  intros ps a X [C L] Ha (A & B & D & IA & IB & ID & x & y & z & Hx & Hy & Hz & S1 & E) T.
  set (u := pnth ps (prev (length ps) a)) in *. set (v := pnth ps a) in *.
  rewrite (tri2_pteq _ _ _ _ E), tri2_comb in T by exact S1.
  assert (V : forall Y, In Y ps -> 0 <= tri2 u v Y /\ (tri2 u v Y == 0 -> exists l, 0 <= l <= 1 /\ Y =p= lerp u v l)).
  { intros Y HY. split; [apply hull_prev; [split; assumption|exact Ha|apply vertex_in_hull; exact HY]|]. intro Z.
    apply (In_nth ps Y (mkpt 0 0)) in HY as (k & Hk & <-). fold (pnth ps k) in *.
    destruct (Nat.eq_dec k (prev (length ps) a)) as [->|N1].
    { exists 0. split; [lra|]. fold u. split; unfold lerp; cbn [px py vadd vscale vsub]; ring. }
    destruct (Nat.eq_dec k a) as [->|N2].
    { exists 1. split; [lra|]. fold v. split; unfold lerp; cbn [px py vadd vscale vsub]; ring. }
    pose proof (convex_edge_vertex ps (prev (length ps) a) k C L (prev_lt _ _ Ha) Hk N1) as T'. rewrite (prev_next _ _ Ha) in T'.
    specialize (T' N2). fold u v in T'. lra. }
  assert (W : forall Y w, In Y ps -> 0 <= w -> w * tri2 u v Y == 0 -> exists l, 0 <= l <= 1 /\ w * px Y == w * px (lerp u v l) /\ w * py Y == w * py (lerp u v l)).
  { intros Y w HY Hw Z. destruct (Qeq_dec w 0) as [Z0|Z0].
    - exists 0. split; [lra|]. rewrite Z0. split; ring.
    - apply Qmult_integral in Z as [Z|Z]; [contradiction|]. destruct (proj2 (V Y HY) Z) as (l & Hl & E1 & E2). exists l. split; [exact Hl|]. rewrite E1, E2. split; reflexivity. }
  destruct (V A IA) as [VA _], (V B IB) as [VB _], (V D ID) as [VD _].
  assert (PA := Qmult_le_0_compat _ _ Hx VA). assert (PB := Qmult_le_0_compat _ _ Hy VB). assert (PD := Qmult_le_0_compat _ _ Hz VD).
  destruct (W A x IA Hx ltac:(lra)) as (la & La & A1 & A2). destruct (W B y IB Hy ltac:(lra)) as (lb & Lb & B1 & B2).
  destruct (W D z ID Hz ltac:(lra)) as (ld & Ld & D1 & D2).
  exists (x * la + y * lb + z * ld). split.
  - assert (0 <= x * la) by (apply Qmult_le_0_compat; lra). assert (0 <= y * lb) by (apply Qmult_le_0_compat; lra). assert (0 <= z * ld) by (apply Qmult_le_0_compat; lra).
    assert (0 <= x * (1 - la)) by (apply Qmult_le_0_compat; lra). assert (0 <= y * (1 - lb)) by (apply Qmult_le_0_compat; lra). assert (0 <= z * (1 - ld)) by (apply Qmult_le_0_compat; lra).
    split; lra.
  - assert (Z : z == 1 - x - y) by lra. destruct E as [E1 E2]. cbn [px py vadd vscale] in E1, E2. rewrite A1, B1, D1 in E1. rewrite A2, B2, D2 in E2.
    split; [rewrite E1|rewrite E2]; unfold lerp; cbn [px py vadd vscale vsub]; rewrite Z; ring.
Qed.

(** Two parallel edges, each strictly right of the other: no common point. *)
Lemma separated : forall pa1 pa pb1 pb X, cross (vsub pa pa1) (vsub pb pb1) == 0 -> tri2 pb1 pb pa < 0 -> tri2 pa1 pa pb < 0 ->
  0 <= tri2 pa1 pa X -> 0 <= tri2 pb1 pb X -> False.
Proof.
  intros pa1 pa pb1 pb X Z H1 H2 H3 H4.
  set (A := vsub pa pa1) in *. set (B := vsub pb pb1) in *.
  assert (PL : cross A (vsub X pa) * cross B (vsub pb pa) == cross A (vsub pb pa) * cross B (vsub X pa) + cross A B * cross (vsub X pa) (vsub pb pa)) by (unfold cross, vsub; cbn [px py]; ring).
  rewrite Z in PL.
  assert (E1 : tri2 pb1 pb pa == - cross B (vsub pb pa)) by (unfold tri2, B, cross, vsub; cbn [px py]; ring).
  assert (E2 : tri2 pa1 pa pb == cross A (vsub pb pa)) by (unfold tri2, A, cross, vsub; cbn [px py]; ring).
  assert (E3 : tri2 pa1 pa X == cross A (vsub X pa)) by (unfold tri2, A, cross, vsub; cbn [px py]; ring).
  assert (E4 : tri2 pb1 pb X == cross B (vsub X pa) + tri2 pb1 pb pa) by (unfold tri2, B, cross, vsub; cbn [px py]; ring).
  nra.
Qed.
(** Antiparallel edges with a common point: a point left of both is on both lines. *)
Lemma antiparallel : forall pa1 pa pb1 pb X Y, cross (vsub pa pa1) (vsub pb pb1) == 0 -> dot (vsub pa pa1) (vsub pb pb1) < 0 ->
  tri2 pa1 pa Y == 0 -> tri2 pb1 pb Y == 0 -> 0 <= tri2 pa1 pa X -> 0 <= tri2 pb1 pb X -> tri2 pa1 pa X == 0 /\ tri2 pb1 pb X == 0.
Proof.
  intros pa1 pa pb1 pb X Y Z D Y1 Y2 H1 H2.
  set (A := vsub pa pa1) in *. set (B := vsub pb pb1) in *.
  assert (E1 : tri2 pa1 pa X == cross A (vsub X Y) + tri2 pa1 pa Y) by (unfold tri2, A, cross, vsub; cbn [px py]; ring).
  assert (E2 : tri2 pb1 pb X == cross B (vsub X Y) + tri2 pb1 pb Y) by (unfold tri2, B, cross, vsub; cbn [px py]; ring).
  assert (I : dot A A * cross B (vsub X Y) == dot A B * cross A (vsub X Y) - cross A B * dot A (vsub X Y)) by (unfold cross, dot, vsub; cbn [px py]; ring).
  assert (I' : dot B B * cross A (vsub X Y) == dot A B * cross B (vsub X Y) + cross A B * dot B (vsub X Y)) by (unfold cross, dot, vsub; cbn [px py]; ring).
  rewrite Z in I, I'. rewrite Y1 in E1. rewrite Y2 in E2.
  assert (NA : 0 <= dot A A) by (unfold dot; pose proof (sq_nonneg (px A)); pose proof (sq_nonneg (py A)); lra).
  assert (NB : 0 <= dot B B) by (unfold dot; pose proof (sq_nonneg (px B)); pose proof (sq_nonneg (py B)); lra).
  set (ca := cross A (vsub X Y)) in *. set (cb := cross B (vsub X Y)) in *. clearbody ca cb.
  assert (P1 : 0 <= dot A A * cb) by (apply Qmult_le_0_compat; lra). assert (P2 : 0 <= dot B B * ca) by (apply Qmult_le_0_compat; lra).
  split; nra.
Qed.
