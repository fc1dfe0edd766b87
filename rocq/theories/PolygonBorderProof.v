(** Proofs about the border classification and the index and segment helpers. *)
From Coq Require Import ArithRing Psatz Permutation.
From Verif Require Import Base CmpModel CmpSpec CmpProof OrientModel OrientSpec OrientProof DistModel DistSpec DistProof PolygonModel PolygonSpec PolygonProof.

Lemma point_equals_direct : forall a b, point_equals direct a b = true <-> a =p= b.
Proof.
  intros a b. unfold point_equals. cbn [numeric_sequence_equals]. unfold pteq. cbn [equals direct].
  rewrite ?andb_true_iff, ?Qeqb_eq. tauto.
Qed.

(** The crossing of the horizontal through p, to the right and to the left. *)
Definition r_count (p h i : pt) : bool :=
  xorb (Qltb (py p) (py i)) (Qltb (py p) (py h)) && Qltb (px p) ((px h - px i) / (py h - py i) * (py p - py i) + px i).
Definition l_count (p h i : pt) : bool :=
  xorb (Qltb (py i) (py p)) (Qltb (py h) (py p)) && Qltb ((px h - px i) / (py h - py i) * (py p - py i) + px i) (px p).
Lemma negb_eqb_xorb : forall a b, negb (Bool.eqb a b) = xorb a b.
Proof. intros [|] [|]; reflexivity. Qed.
Lemma step_counts : forall eps p h i c, containment_step direct eps p h i c =
  (if r_count p h i then S (fst c) else fst c, if l_count p h i then S (snd c) else snd c).
Proof.
  intros eps p h i c. unfold containment_step, r_count, l_count. cbn [greater_than less_than direct]. unfold Qgtb. rewrite !negb_eqb_xorb.
  destruct (Qeqb (py h - py i) 0) eqn:E.
  - apply Qeqb_eq in E. assert (E' : py h == py i) by lra.
    assert (X1 : Qltb (py p) (py i) = Qltb (py p) (py h)) by (apply Qltb_eqv; [reflexivity|lra]).
    assert (X2 : Qltb (py i) (py p) = Qltb (py h) (py p)) by (apply Qltb_eqv; [lra|reflexivity]).
    rewrite X1, X2, !xorb_nilpotent. destruct c; reflexivity.
  - destruct (xorb (Qltb (py p) (py i)) (Qltb (py p) (py h))); destruct (xorb (Qltb (py i) (py p)) (Qltb (py h) (py p)));
      cbn [orb andb]; destruct c; reflexivity.
Qed.
Lemma odd_if : forall (b : bool) n, Nat.odd (if b then S n else n) = xorb b (Nat.odd n).
Proof. intros [|] n; [rewrite Nat.odd_succ, <- Nat.negb_odd|]; destruct (Nat.odd n); reflexivity. Qed.
Lemma loop_counts : forall eps p es c,
  match containment_loop direct eps p es c with
  | None => exists h i, In (h, i) es /\ p =p= i
  | Some c' => (forall h i, In (h, i) es -> ~ p =p= i) /\
      Nat.odd (fst c') = xorb (Nat.odd (fst c)) (xsum (r_count p) es) /\ Nat.odd (snd c') = xorb (Nat.odd (snd c)) (xsum (l_count p) es)
  end.
Proof.
  induction es as [|[h i] es IH]; intro c; cbn [containment_loop].
  - split; [intros h i []|]. simpl. rewrite !xorb_false_r. auto.
  - destruct (point_equals direct p i) eqn:E.
    + apply point_equals_direct in E. exists h, i. split; [left; reflexivity|exact E].
    + rewrite step_counts. specialize (IH (if r_count p h i then S (fst c) else fst c, if l_count p h i then S (snd c) else snd c)).
      destruct (containment_loop direct eps p es _) as [c'|].
      * destruct IH as (H1 & H2 & H3). split; [|split].
        -- intros a b [X|X]; [|apply (H1 a b X)]. assert (b = i) by congruence. subst b. intro K. apply point_equals_direct in K. congruence.
        -- rewrite H2. cbn [fst xsum]. rewrite odd_if. cbn [snd]. destruct (r_count p h i), (Nat.odd (fst c)), (xsum (r_count p) es); reflexivity.
        -- rewrite H3. cbn [snd xsum]. rewrite odd_if. cbn [fst]. destruct (l_count p h i), (Nat.odd (snd c)), (xsum (l_count p) es); reflexivity.
      * destruct IH as (a & b & X & Y). exists a, b. split; [right; exact X|exact Y].
Qed.
(** The right count is the flip of the even-odd test. *)
Lemma level_x : forall h i y, ~ py h == py i -> (px h - px i) / (py h - py i) * (y - py i) + px i ==
  (px i * (py h - py i) + (px h - px i) * (y - py i)) / (py h - py i).
Proof. intros. field. lra. Qed.
Lemma level_gt : forall p h i, py i < py h -> 
  (Qltb (px p) ((px h - px i) / (py h - py i) * (py p - py i) + px i) = Qltb 0 (tri2 i h p)) /\
  (Qltb ((px h - px i) / (py h - py i) * (py p - py i) + px i) (px p) = Qltb (tri2 i h p) 0).
Proof.
  intros p h i H.
  assert (E : tri2 i h p == (px i * (py h - py i) + (px h - px i) * (py p - py i)) - px p * (py h - py i))
    by (unfold tri2, cross, vsub; cbn [px py]; ring).
  assert (NE : ((px h - px i) / (py h - py i) * (py p - py i) + px i) * (py h - py i) == px i * (py h - py i) + (px h - px i) * (py p - py i)) by (field; lra).
  assert (D : 0 < py h - py i) by lra.
  set (x := (px h - px i) / (py h - py i) * (py p - py i) + px i) in *. rewrite <- NE in E. clear NE.
  set (d := py h - py i) in *. set (k := tri2 i h p) in *. clearbody d x k.
  split; apply bool_iff; rewrite !Qltb_lt, E; clear E; split; intro; nra.
Qed.
Lemma level_sym : forall h i y, ~ py h == py i -> (px h - px i) / (py h - py i) * (y - py i) + px i == (px i - px h) / (py i - py h) * (y - py h) + px h.
Proof. intros. field. split; lra. Qed.
Lemma r_count_sym : forall p h i, r_count p h i = r_count p i h.
Proof.
  intros p h i. unfold r_count. rewrite (xorb_comm (Qltb (py p) (py i))).
  destruct (xorb (Qltb (py p) (py h)) (Qltb (py p) (py i))) eqn:E; [|reflexivity]. cbn [andb]. apply Qltb_eqv; [reflexivity|].
  apply level_sym. intro K. assert (X : Qltb (py p) (py h) = Qltb (py p) (py i)) by (apply Qltb_eqv; [reflexivity|exact K]).
  rewrite X, xorb_nilpotent in E. discriminate.
Qed.
Lemma l_count_sym : forall p h i, l_count p h i = l_count p i h.
Proof.
  intros p h i. unfold l_count. rewrite (xorb_comm (Qltb (py i) (py p))).
  destruct (xorb (Qltb (py h) (py p)) (Qltb (py i) (py p))) eqn:E; [|reflexivity]. cbn [andb]. apply Qltb_eqv; [|reflexivity].
  apply level_sym. intro K. assert (X : Qltb (py h) (py p) = Qltb (py i) (py p)) by (apply Qltb_eqv; [exact K|reflexivity]).
  rewrite X, xorb_nilpotent in E. discriminate.
Qed.
Lemma r_count_flip : forall p h i, r_count p h i = pip_flip p h i.
Proof.
  assert (U : forall p h i, py i <= py h -> r_count p h i = pip_flip p h i).
  { intros p h i L. rewrite pip_flip_sym. unfold r_count.
    destruct (Qltb_spec (py p) (py i)) as [I|I]; destruct (Qltb_spec (py p) (py h)) as [H|H]; cbn [xorb andb].
    - rewrite pip_flip_high by assumption. reflexivity.
    - lra.
    - rewrite pip_flip_up by assumption. apply (level_gt p h i). lra.
    - rewrite pip_flip_low by assumption. reflexivity. }
  intros p h i. destruct (Qlt_le_dec (py h) (py i)) as [L|L]; [|apply U; exact L].
  rewrite r_count_sym, pip_flip_sym. apply U. lra.
Qed.

(** Decidable membership in the segment. *)
Definition on_edge (p u v : pt) : bool :=
  Qeqb (tri2 u v p) 0 && Qleb (qmin (px u) (px v)) (px p) && Qleb (px p) (qmax (px u) (px v)) &&
  Qleb (qmin (py u) (py v)) (py p) && Qleb (py p) (qmax (py u) (py v)).
Lemma on_edge_iff : forall p u v, on_edge p u v = true <-> on_segment u v p.
Proof.
  intros p u v. unfold on_edge. rewrite !andb_true_iff, Qeqb_eq, !Qleb_le. split.
  - intros ((((C & X1) & X2) & Y1) & Y2). unfold tri2, cross, vsub in C; cbn [px py] in C.
    destruct (Qeq_dec (px u) (px v)) as [E|E].
    + destruct (Qeq_dec (py u) (py v)) as [F|F].
      * exists 0. split; [lra|]. unfold lerp, vadd, vscale, vsub; split; cbn [px py]; unfold qmin, qmax in *; revert X1 X2 Y1 Y2; repeat qcase; intros; lra.
      * exists ((py p - py u) / (py v - py u)). split.
        -- clear C. unfold qmin, qmax in Y1, Y2. revert Y1 Y2. repeat qcase; intros; try (split; [apply Qle_shift_div_l; lra|apply Qle_shift_div_r; lra]);
           setoid_replace ((py p - py u) / (py v - py u)) with ((py u - py p) / (py u - py v)) by (field; split; lra);
           split; try (apply Qle_shift_div_l; lra); try (apply Qle_shift_div_r; lra).
        -- unfold lerp, vadd, vscale, vsub; split; cbn [px py]; [|field; lra].
           setoid_replace (px v - px u) with 0 by lra. unfold qmin, qmax in X1, X2; revert X1 X2; repeat qcase; intros; lra.
    + exists ((px p - px u) / (px v - px u)). split.
      * clear C. unfold qmin, qmax in X1, X2. revert X1 X2. repeat qcase; intros; try (split; [apply Qle_shift_div_l; lra|apply Qle_shift_div_r; lra]);
        setoid_replace ((px p - px u) / (px v - px u)) with ((px u - px p) / (px u - px v)) by (field; split; lra);
        split; try (apply Qle_shift_div_l; lra); try (apply Qle_shift_div_r; lra).
      * unfold lerp, vadd, vscale, vsub; split; cbn [px py]; [field; lra|].
        setoid_replace (py u + (px p - px u) / (px v - px u) * (py v - py u)) with (py u + (py v - py u) * (px p - px u) / (px v - px u)) by (field; lra).
        assert (K : (py v - py u) * (px p - px u) == (px v - px u) * (py p - py u)) by lra. rewrite K. field. lra.
  - intros (t & Ht & E1 & E2). unfold lerp, vadd, vscale, vsub in E1, E2; cbn [px py] in E1, E2.
    assert (B : forall a b c, c == a + t * (b - a) -> qmin a b <= c /\ c <= qmax a b).
    { intros a b c E. rewrite E. unfold qmin, qmax. clear - Ht. repeat qcase; split; nra. }
    destruct (B _ _ _ E1), (B _ _ _ E2). repeat split; try assumption.
    unfold tri2, cross, vsub; cbn [px py]. rewrite E1, E2. ring.
Qed.
Lemma on_edge_sym : forall p u v, on_edge p u v = on_edge p v u.
Proof. intros. apply bool_iff. rewrite !on_edge_iff. split; apply on_segment_swap. Qed.

(** The vertex value: above the level, or on it and strictly left of p. *)
Definition side_value (p v : pt) : bool := Qltb (py p) (py v) || (Qeqb (py v) (py p) && Qltb (px v) (px p)).
Lemma side_up : forall p v, py p < py v -> side_value p v = true.
Proof. intros p v H. unfold side_value. apply Qltb_lt in H. rewrite H. reflexivity. Qed.
Lemma side_down : forall p v, py v < py p -> side_value p v = false.
Proof. intros p v H. unfold side_value. destruct (Qltb_spec (py p) (py v)); [lra|]. destruct (Qeqb (py v) (py p)) eqn:E; [apply Qeqb_eq in E; lra|reflexivity]. Qed.
Lemma side_level : forall p v, py v == py p -> side_value p v = Qltb (px v) (px p).
Proof. intros p v H. unfold side_value. destruct (Qltb_spec (py p) (py v)); [lra|]. apply Qeqb_eq in H. rewrite H. reflexivity. Qed.
Lemma edge_value : forall p h i, ~ p =p= h -> ~ p =p= i ->
  xorb (xorb (r_count p h i) (l_count p h i)) (on_edge p h i) = xorb (side_value p h) (side_value p i).
Proof.
  assert (U : forall p h i, py i <= py h -> ~ p =p= h -> ~ p =p= i ->
     xorb (xorb (r_count p h i) (l_count p h i)) (on_edge p h i) = xorb (side_value p h) (side_value p i)).
  { intros p h i L NH NI.
    assert (OFF : (forall X, on_segment h i X -> ~ X =p= p) -> on_edge p h i = false).
    { intro K. destruct (on_edge p h i) eqn:E; [|reflexivity]. exfalso. apply on_edge_iff in E. apply (K p E). split; reflexivity. }
    assert (YS : on_edge p h i = true -> py i <= py p <= py h).
    { intro E. apply on_edge_iff in E as (t & Ht & _ & E). unfold lerp, vadd, vscale, vsub in E; cbn [py] in E. rewrite E. clear - Ht L. split; nra. }
    destruct (Q_dec (py i) (py p)) as [[I|I]|I]; destruct (Q_dec (py h) (py p)) as [[H|H]|H]; try lra.
    - (* both below *)
      rewrite (side_down p h), (side_down p i) by assumption. unfold r_count, l_count.
      assert (Q1 : Qltb (py p) (py i) = false) by (destruct (Qltb_spec (py p) (py i)); [lra|reflexivity]).
      assert (Q2 : Qltb (py p) (py h) = false) by (destruct (Qltb_spec (py p) (py h)); [lra|reflexivity]).
      assert (Q3 : Qltb (py i) (py p) = true) by (apply Qltb_lt; exact I).
      assert (Q4 : Qltb (py h) (py p) = true) by (apply Qltb_lt; exact H).
      rewrite Q1, Q2, Q3, Q4. cbn [xorb andb]. destruct (on_edge p h i) eqn:E; [specialize (YS eq_refl); lra|reflexivity].
    - (* i below, h above *)
      rewrite (side_up p h), (side_down p i) by assumption. unfold r_count, l_count.
      assert (Q1 : Qltb (py p) (py i) = false) by (destruct (Qltb_spec (py p) (py i)); [lra|reflexivity]).
      assert (Q2 : Qltb (py p) (py h) = true) by (apply Qltb_lt; exact H).
      assert (Q3 : Qltb (py i) (py p) = true) by (apply Qltb_lt; exact I).
      assert (Q4 : Qltb (py h) (py p) = false) by (destruct (Qltb_spec (py h) (py p)); [lra|reflexivity]).
      rewrite Q1, Q2, Q3, Q4. cbn [xorb andb negb]. destruct (level_gt p h i) as [G1 G2]; [lra|]. rewrite G1, G2.
      rewrite on_edge_sym.
      assert (ON : on_edge p i h = Qeqb (tri2 i h p) 0).
      { apply bool_iff. rewrite Qeqb_eq. split.
        - unfold on_edge. rewrite !andb_true_iff, Qeqb_eq. tauto.
        - intro Z. apply on_edge_iff. exists ((py p - py i) / (py h - py i)). split; [split; [apply Qle_shift_div_l; lra|apply Qle_shift_div_r; lra]|].
          unfold lerp, vadd, vscale, vsub; split; cbn [px py]; [|field; lra].
          unfold tri2, cross, vsub in Z; cbn [px py] in Z.
          setoid_replace (px i + (py p - py i) / (py h - py i) * (px h - px i)) with (px i + (px h - px i) * (py p - py i) / (py h - py i)) by (field; lra).
          assert (K : (px h - px i) * (py p - py i) == (py h - py i) * (px p - px i)) by lra. rewrite K. field. lra. }
      rewrite ON. set (k := tri2 i h p). destruct (Q_dec k 0) as [[K|K]|K].
      + destruct (Qltb_spec 0 k); [lra|]. destruct (Qltb_spec k 0); [|lra]. destruct (Qeqb k 0) eqn:E; [apply Qeqb_eq in E; lra|reflexivity].
      + destruct (Qltb_spec 0 k); [|lra]. destruct (Qltb_spec k 0); [lra|]. destruct (Qeqb k 0) eqn:E; [apply Qeqb_eq in E; lra|reflexivity].
      + destruct (Qltb_spec 0 k); [lra|]. destruct (Qltb_spec k 0); [lra|]. apply Qeqb_eq in K. rewrite K. reflexivity.
    - (* i below, h on the level *)
      rewrite (side_level p h), (side_down p i) by assumption. unfold r_count, l_count.
      assert (Q1 : Qltb (py p) (py i) = false) by (destruct (Qltb_spec (py p) (py i)); [lra|reflexivity]).
      assert (Q2 : Qltb (py p) (py h) = false) by (destruct (Qltb_spec (py p) (py h)); [lra|reflexivity]).
      assert (Q3 : Qltb (py i) (py p) = true) by (apply Qltb_lt; exact I).
      assert (Q4 : Qltb (py h) (py p) = false) by (destruct (Qltb_spec (py h) (py p)); [lra|reflexivity]).
      rewrite Q1, Q2, Q3, Q4. cbn [xorb andb negb].
      assert (X : (px h - px i) / (py h - py i) * (py p - py i) + px i == px h) by (setoid_replace (py p) with (py h) by lra; field; lra).
      rewrite (Qltb_eqv _ (px p) (px h) (px p)) by (exact X || reflexivity).
      assert (ON : on_edge p h i = false).
      { destruct (on_edge p h i) eqn:E; [|reflexivity]. exfalso. apply on_edge_iff in E as (t & Ht & E1 & E2).
        unfold lerp, vadd, vscale, vsub in E1, E2; cbn [px py] in E1, E2. assert (T : t == 0) by (clear - E2 I H Ht; nra).
        apply NH. split; [rewrite E1, T; ring|lra]. }
      rewrite ON. destruct (Qltb (px h) (px p)); reflexivity.
    - (* both above *)
      rewrite (side_up p h), (side_up p i) by assumption. unfold r_count, l_count.
      assert (Q1 : Qltb (py p) (py i) = true) by (apply Qltb_lt; exact I).
      assert (Q2 : Qltb (py p) (py h) = true) by (apply Qltb_lt; exact H).
      assert (Q3 : Qltb (py i) (py p) = false) by (destruct (Qltb_spec (py i) (py p)); [lra|reflexivity]).
      assert (Q4 : Qltb (py h) (py p) = false) by (destruct (Qltb_spec (py h) (py p)); [lra|reflexivity]).
      rewrite Q1, Q2, Q3, Q4. cbn [xorb andb]. destruct (on_edge p h i) eqn:E; [specialize (YS eq_refl); lra|reflexivity].
    - (* i on the level, h above *)
      rewrite (side_up p h), (side_level p i) by assumption. unfold r_count, l_count.
      assert (Q1 : Qltb (py p) (py i) = false) by (destruct (Qltb_spec (py p) (py i)); [lra|reflexivity]).
      assert (Q2 : Qltb (py p) (py h) = true) by (apply Qltb_lt; exact H).
      assert (Q3 : Qltb (py i) (py p) = false) by (destruct (Qltb_spec (py i) (py p)); [lra|reflexivity]).
      assert (Q4 : Qltb (py h) (py p) = false) by (destruct (Qltb_spec (py h) (py p)); [lra|reflexivity]).
      rewrite Q1, Q2, Q3, Q4. cbn [xorb andb negb].
      assert (X : (px h - px i) / (py h - py i) * (py p - py i) + px i == px i) by (setoid_replace (py p) with (py i) by lra; field; lra).
      rewrite (Qltb_eqv (px p) _ (px p) (px i)) by (exact X || reflexivity).
      assert (ON : on_edge p h i = false).
      { destruct (on_edge p h i) eqn:E; [|reflexivity]. exfalso. apply on_edge_iff in E as (t & Ht & E1 & E2).
        unfold lerp, vadd, vscale, vsub in E1, E2; cbn [px py] in E1, E2. assert (T : t == 1) by (clear - E2 I H Ht; nra).
        apply NI. split; [rewrite E1, T; ring|lra]. }
      rewrite ON. destruct (Qltb_spec (px p) (px i)); destruct (Qltb_spec (px i) (px p)); try reflexivity; try lra.
      exfalso. apply NI. split; lra.
    - (* both on the level *)
      rewrite (side_level p h), (side_level p i) by assumption. unfold r_count, l_count.
      assert (Q1 : Qltb (py p) (py i) = false) by (destruct (Qltb_spec (py p) (py i)); [lra|reflexivity]).
      assert (Q2 : Qltb (py p) (py h) = false) by (destruct (Qltb_spec (py p) (py h)); [lra|reflexivity]).
      assert (Q3 : Qltb (py i) (py p) = false) by (destruct (Qltb_spec (py i) (py p)); [lra|reflexivity]).
      assert (Q4 : Qltb (py h) (py p) = false) by (destruct (Qltb_spec (py h) (py p)); [lra|reflexivity]).
      rewrite Q1, Q2, Q3, Q4. cbn [xorb andb negb]. rewrite ?xorb_false_l.
      assert (NHx : ~ px p == px h) by (intro K; apply NH; split; lra).
      assert (NIx : ~ px p == px i) by (intro K; apply NI; split; lra).
      assert (ON : on_edge p h i = xorb (Qltb (px h) (px p)) (Qltb (px i) (px p))).
      { apply bool_iff. unfold on_edge. rewrite !andb_true_iff, Qeqb_eq, !Qleb_le.
        assert (Z : tri2 h i p == 0) by (unfold tri2, cross, vsub; cbn [px py]; setoid_replace (py p - py h) with 0 by lra; setoid_replace (py i - py h) with 0 by lra; ring).
        assert (YB : qmin (py h) (py i) <= py p /\ py p <= qmax (py h) (py i)) by (unfold qmin, qmax; repeat qcase; split; lra).
        unfold qmin, qmax.
        destruct (Qltb_spec (px h) (px p)); destruct (Qltb_spec (px i) (px p)); cbn [xorb negb]; split; try discriminate; try (intros _; repeat split; try apply YB; try exact Z; repeat qcase; lra);
        intros ((((_ & X1) & X2) & _) & _); exfalso; revert X1 X2; repeat qcase; intros; lra. }
      rewrite <- ON. destruct (on_edge p h i); reflexivity. }
  intros p h i NH NI. destruct (Qlt_le_dec (py h) (py i)) as [L|L]; [|apply U; assumption].
  rewrite r_count_sym, l_count_sym, on_edge_sym, (xorb_comm (side_value p h)). apply U; auto. lra.
Qed.

Lemma closed_chain_second : forall ps v, In v ps <-> exists h, In (h, v) (closed_chain ps).
Proof.
  intros [|a ps] v; [simpl; split; [tauto|intros [h []]]|]. unfold closed_chain.
  assert (G : forall l p, In v l <-> exists h, In (h, v) (chain p l)).
  { induction l as [|x l IH]; intro p; simpl; [split; [tauto|intros [h []]]|]. split.
    - intros [E|I]; [subst; exists p; left; reflexivity|]. apply (IH x) in I as [h I]. exists h; right; exact I.
    - intros [h [E|I]]; [left; congruence|]. right. apply (IH x). exists h; exact I. }
  apply G.
Qed.
Lemma odd_mod2 : forall n, (n mod 2)%nat = if Nat.odd n then 1%nat else 0%nat.
Proof.
  intro n. rewrite <- Nat.bit0_odd. rewrite <- Nat.bit0_mod. destruct (Nat.testbit n 0); reflexivity.
Qed.
Definition border_parity (p : pt) (ps : list pt) : bool := xsum (on_edge p) (closed_chain ps).
Lemma containment_char : forall eps p ps,
  (point_polygon_containment_or_on_border direct eps p ps = vertex <-> exists v, In v ps /\ p =p= v) /\
  ((forall v, In v ps -> ~ p =p= v) ->
    point_polygon_containment_or_on_border direct eps p ps =
      if border_parity p ps then border else if xsum (pip_flip p) (closed_chain ps) then interior else exterior).
Proof.
  intros eps p ps. unfold point_polygon_containment_or_on_border.
  pose proof (loop_counts eps p (closed_chain ps) (0, 0)%nat) as H.
  destruct (containment_loop direct eps p (closed_chain ps) (0, 0)%nat) as [[r l]|].
  - destruct H as (H1 & H2 & H3). cbn [fst snd] in H2, H3. rewrite xorb_false_l in H2, H3.
    assert (NV : forall v, In v ps -> ~ p =p= v) by (intros v I; apply closed_chain_second in I as [h I]; apply (H1 h v I)).
    assert (R : xsum (r_count p) (closed_chain ps) = xsum (pip_flip p) (closed_chain ps)) by (apply xsum_ext; intros; apply r_count_flip).
    assert (BP : xorb (xorb (xsum (r_count p) (closed_chain ps)) (xsum (l_count p) (closed_chain ps))) (border_parity p ps) = false).
    { unfold border_parity. rewrite <- !xsum_xor. rewrite <- (xsum_tele (side_value p) ps). apply xsum_ext. intros u v I.
      apply in_closed_chain in I as [i I]. apply polygon_edge_in in I as [Iu Iv]. apply edge_value; apply NV; assumption. }
    split.
    + split.
      * destruct (negb (Nat.eqb (r mod 2) (l mod 2))); [discriminate|]. destruct (Nat.eqb (r mod 2) 1); discriminate.
      * intros (v & I & E). exfalso. apply (NV v I E).
    + intros _. rewrite !odd_mod2. change (Nat.odd 0) with false in *. rewrite H2, H3, <- R.
      destruct (xsum (r_count p) (closed_chain ps)), (xsum (l_count p) (closed_chain ps)), (border_parity p ps); try discriminate BP; reflexivity.
  - destruct H as (h & i & I & E). assert (V : exists v, In v ps /\ p =p= v) by (exists i; split; [apply closed_chain_second; exists h; exact I|exact E]).
    split; [split; [intros _; exact V|reflexivity]|]. intro NV. exfalso. destruct V as (v & Iv & Ev). apply (NV v Iv Ev).
Qed.
Lemma border_parity_count : forall p ps (on : nat -> bool),
  (forall i u v, polygon_edge ps i u v -> (on i = true <-> on_segment u v p)) -> border_parity p ps = Nat.odd (count_below on (length ps)).
Proof.
  intros p ps on H. unfold border_parity. rewrite xsum_index, <- isum_odd. apply isum_ext. intros i Hi.
  specialize (H i _ _ (edge_at ps i Hi)). apply bool_iff. rewrite on_edge_iff. tauto.
Qed.
(** At most one edge through p. *)
Lemma border_parity_single : forall p ps,
  (forall i j A B C D, polygon_edge ps i A B -> polygon_edge ps j C D -> on_segment A B p -> on_segment C D p -> i = j) ->
  (border_parity p ps = true <-> on_polygon ps p).
Proof.
  intros p ps U. unfold border_parity. rewrite xsum_index.
  set (f := fun i => on_edge p (pnth ps i) (pnth ps (S i mod length ps))).
  assert (F : forall i, (i < length ps)%nat -> (f i = true <-> on_segment (pnth ps i) (pnth ps (S i mod length ps)) p)) by (intros; apply on_edge_iff).
  assert (ON : on_polygon ps p <-> exists i, (i < length ps)%nat /\ f i = true).
  { split.
    - intros (i & A & B & E & O). apply edge_pnth in E as (Hi & -> & ->). exists i. split; [exact Hi|]. apply F; assumption.
    - intros (i & Hi & E). exists i, (pnth ps i), (pnth ps (S i mod length ps)). split; [apply edge_at; exact Hi|apply F; assumption]. }
  rewrite ON.
  assert (UF : forall i j, (i < length ps)%nat -> (j < length ps)%nat -> f i = true -> f j = true -> i = j).
  { intros i j Hi Hj E1 E2. apply (U i j _ _ _ _ (edge_at ps i Hi) (edge_at ps j Hj)); apply F; assumption. }
  clearbody f. clear - UF. induction (length ps) as [|n IH]; [split; [discriminate|intros (i & Hi & _); lia]|].
  cbn [isum]. assert (UF' : forall i j, (i < n)%nat -> (j < n)%nat -> f i = true -> f j = true -> i = j) by (intros; apply UF; auto; lia).
  specialize (IH UF'). destruct (f n) eqn:E.
  - assert (Z : isum f n = false).
    { destruct (isum f n) eqn:Z; [|reflexivity]. exfalso. destruct IH as [IH _]. destruct (IH eq_refl) as (i & Hi & Ei).
      assert (i = n) by (apply UF; auto; lia). lia. }
    rewrite Z. split; [intros _; exists n; split; [lia|exact E]|reflexivity].
  - rewrite xorb_false_r, IH. split; intros (i & Hi & Ei); exists i; (split; [|exact Ei]).
    + lia.
    + destruct (Nat.eq_dec i n) as [->|Ne]; [congruence|lia].
Qed.
Lemma interior_needs_three : forall p ps, xsum (pip_flip p) (closed_chain ps) = true -> (3 <= length ps)%nat.
Proof.
  intros p [|a [|b [|c ps]]]; cbn [length]; try lia; unfold closed_chain; cbn [last chain xsum fst snd].
  - discriminate.
  - intro H. exfalso. rewrite xorb_false_r in H. unfold pip_flip in H. revert H. repeat qcase; try discriminate; lra.
  - intro H. rewrite (pip_flip_sym p b a), xorb_false_r, xorb_nilpotent in H. discriminate.
Qed.

(** ** Index and segment helpers *)

Lemma next_prev : forall n i, (i < n)%nat -> prev_index n (next_index n i) = i /\ next_index n (prev_index n i) = i.
Proof.
  intros n i H. unfold prev_index, next_index. split.
  - destruct (Nat.ltb_spec (i + 1) n).
    + destruct (Nat.ltb_spec 0 (i + 1)); lia.
    + destruct (Nat.ltb_spec 0 0); lia.
  - destruct (Nat.ltb_spec 0 i).
    + destruct (Nat.ltb_spec (i - 1 + 1) n); lia.
    + destruct (Nat.ltb_spec (n - 1 + 1) n); lia.
Qed.
Lemma next_is_mod : forall n i, (i < n)%nat -> next_index n i = (S i mod n)%nat.
Proof.
  intros n i H. unfold next_index. destruct (Nat.ltb_spec (i + 1) n).
  - rewrite Nat.mod_small by lia. lia.
  - replace (S i) with n by lia. rewrite Nat.mod_same by lia. reflexivity.
Qed.
Lemma segments_from_ok : forall ps k i, (2 <= length ps)%nat -> (i + k = length ps)%nat ->
  polygon_segments_from ps i (S i mod length ps) k = Some (map (fun j => (pnth ps j, pnth ps (S j mod length ps))) (seq i k)).
Proof.
  intros ps. induction k as [|k IH]; intros i L E; [reflexivity|]. cbn [polygon_segments_from].
  assert (M : (S i mod length ps < length ps)%nat) by (apply Nat.mod_upper_bound; lia).
  rewrite (nth_error_nth' ps (mkpt 0 0) (n := i)) by lia. rewrite (nth_error_nth' ps (mkpt 0 0) M).
  replace ((S i mod length ps + 1) mod length ps)%nat with (S (i + 1) mod length ps)%nat.
  - rewrite (IH (i + 1)%nat) by lia. rewrite Nat.add_1_r. reflexivity.
  - rewrite Nat.add_mod_idemp_l by lia. apply (f_equal (fun x => x mod length ps)%nat). lia.
Qed.
Lemma segment_range_ok : forall ps, (2 <= length ps)%nat ->
  polygon_as_segment_range ps = Some (map (fun j => (pnth ps j, pnth ps (S j mod length ps))) (seq 0 (length ps))).
Proof.
  intros ps L. unfold polygon_as_segment_range.
  assert (E : (1 = S 0 mod length ps)%nat) by (rewrite Nat.mod_small; lia). rewrite E at 1. apply segments_from_ok; lia.
Qed.
Lemma segment_range_edges : forall ps l, polygon_as_segment_range ps = Some l -> forall i, nth_error l i =
  match nth_error ps i, nth_error ps (S i mod length ps) with Some a, Some b => Some (a, b) | _, _ => None end.
Proof.
  intros ps l H i. destruct ps as [|a [|b ps]].
  - unfold polygon_as_segment_range in H; simpl in H. assert (l = []) by congruence. subst l. destruct i; reflexivity.
  - discriminate.
  - rewrite segment_range_ok in H by (simpl; lia). set (q := a :: b :: ps) in *. assert (L : (0 < length q)%nat) by (simpl; lia). clearbody q.
    assert (E : l = map (fun j => (pnth q j, pnth q (S j mod length q))) (seq 0 (length q))) by congruence. subst l. clear H.
    destruct (Nat.lt_ge_cases i (length q)) as [S|S].
    + rewrite nth_error_map. assert (E : nth_error (seq 0 (length q)) i = Some i).
      { rewrite (nth_error_nth' _ 0%nat) by (rewrite seq_length; exact S). rewrite seq_nth by exact S. reflexivity. }
      rewrite E. cbn [option_map]. rewrite (nth_error_nth' q (mkpt 0 0) S). rewrite (nth_error_nth' q (mkpt 0 0) (n := (Datatypes.S i mod length q)%nat)) by (apply Nat.mod_upper_bound; lia).
      reflexivity.
    + assert (E : nth_error q i = None) by (apply nth_error_None; exact S). rewrite E. apply nth_error_None. rewrite map_length, seq_length. exact S.
Qed.
Lemma polyline_range_edges : forall ps i A B, nth_error (polyline_as_segment_range ps) i = Some (A, B) <-> polyline_edge ps i A B.
Proof.
  intros [|a ps] i A B; [unfold polyline_edge; destruct i; simpl; (split; [discriminate|intros [? _]; discriminate])|].
  unfold polyline_as_segment_range, polyline_edge. cbn [nth_error].
  rewrite chain_nth. destruct (nth_error ps i) as [b|] eqn:E; [|split; [discriminate|intros [_ ?]; discriminate]].
  assert (L : (i < length ps)%nat) by (apply nth_error_Some; congruence).
  destruct i as [|i].
  - cbn [nth_error]; split; [intro H; split; congruence|intros [H1 H2]; congruence].
  - assert (E2 : nth_error (a :: ps) (S i) = Some (nth i ps a)) by (simpl; apply nth_error_nth'; lia).
    rewrite E2. split; [intro H; split; congruence|intros [H1 H2]; congruence].
Qed.
(** Equality up to an offset. *)
Lemma all_equal_ok : forall p1 p2 off k i, length p1 = length p2 -> (i + k = length p1)%nat ->
  exists b, all_equal_at direct p1 p2 off i k = Some b /\
    (b = true <-> forall j, (i <= j < i + k)%nat -> pnth p1 j =p= pnth p2 ((j + off) mod length p2)).
Proof.
  intros p1 p2 off. induction k as [|k IH]; intros i L E; cbn [all_equal_at].
  - exists true. split; [reflexivity|]. split; [intros _ j Hj; lia|reflexivity].
  - assert (M : ((i + off) mod length p2 < length p2)%nat) by (apply Nat.mod_upper_bound; lia).
    rewrite (nth_error_nth' p1 (mkpt 0 0) (n := i)) by lia. rewrite (nth_error_nth' p2 (mkpt 0 0) M).
    fold (pnth p1 i) (pnth p2 ((i + off) mod length p2)).
    destruct (point_equals direct (pnth p1 i) (pnth p2 ((i + off) mod length p2))) eqn:Q; cbn [negb].
    + apply point_equals_direct in Q. destruct (IH (i + 1)%nat L ltac:(lia)) as (b & Eb & H). exists b. split; [exact Eb|].
      rewrite H. split; intros K j Hj.
      * destruct (Nat.eq_dec j i) as [->|Ne]; [exact Q|apply K; lia].
      * apply K; lia.
    + exists false. split; [reflexivity|]. split; [discriminate|]. intro K. specialize (K i ltac:(lia)). apply point_equals_direct in K. congruence.
Qed.
Lemma polygons_equal_ok : forall p1 p2 off, exists b, polygons_equal direct p1 p2 off = Some b /\
  (b = true <-> length p1 = length p2 /\ forall j, (j < length p1)%nat -> pnth p1 j =p= pnth p2 ((j + off) mod length p2)).
Proof.
  intros p1 p2 off. unfold polygons_equal. destruct (Nat.eqb_spec (length p1) (length p2)) as [L|L]; cbn [negb].
  - destruct (all_equal_ok p1 p2 off (length p1) 0%nat L eq_refl) as (b & E & H). exists b. split; [exact E|]. rewrite H.
    split; [intro K; split; [exact L|intros; apply K; lia]|intros [_ K] j Hj; apply K; lia].
  - exists false. split; [reflexivity|]. split; [discriminate|intros [K _]; contradiction].
Qed.
Lemma sequences_equal_ok : forall p1 p2, point_sequences_equal direct p1 p2 = true <-> Forall2 pteq p1 p2.
Proof.
  intros p1. unfold point_sequences_equal. induction p1 as [|a p1 IH]; intros [|b p2]; simpl.
  - split; [constructor|reflexivity].
  - split; [discriminate|intro H; inversion H].
  - split; [discriminate|intro H; inversion H].
  - specialize (IH p2). rewrite !andb_true_iff in *. rewrite point_equals_direct. split.
    + intros (H1 & H2 & H3). constructor; [exact H2|]. apply IH. split; assumption.
    + intro H. inversion H; subst. apply IH in H5. tauto.
Qed.
Lemma find_point_ok : forall a ps i, match find_point direct a ps i with
  | Some j => (i <= j < i + length ps)%nat /\ a =p= pnth ps (j - i) /\ forall k, (k < j - i)%nat -> ~ a =p= pnth ps k
  | None => forall v, In v ps -> ~ a =p= v
  end.
Proof.
  intros a. induction ps as [|b ps IH]; intro i; cbn [find_point]; [intros v []|].
  destruct (point_equals direct a b) eqn:E.
  - apply point_equals_direct in E. replace (i - i)%nat with 0%nat by lia. split; [simpl; lia|]. split; [exact E|intros; lia].
  - assert (NE : ~ a =p= b) by (intro K; apply point_equals_direct in K; congruence).
    specialize (IH (i + 1)%nat). destruct (find_point direct a ps (i + 1)) as [j|].
    + destruct IH as (H1 & H2 & H3). replace (j - i)%nat with (S (j - (i + 1)))%nat by lia. split; [simpl; lia|]. split; [exact H2|].
      intros [|k] Hk; [exact NE|apply H3; lia].
    + intros v [<-|I]; [exact NE|apply IH, I].
Qed.
Lemma offset_ok : forall p1 p2 off, p1 <> [] -> length p1 = length p2 -> (off < length p1)%nat ->
  (forall j, (j < length p1)%nat -> pnth p1 j =p= pnth p2 ((j + off) mod length p2)) ->
  (forall i j, (i < j < length p2)%nat -> ~ pnth p2 i =p= pnth p2 j) ->
  polygon_polygon_offset direct p1 p2 = Some off.
Proof.
  intros [|a p1] p2 off NE L O H D; [contradiction|]. unfold polygon_polygon_offset.
  pose proof (H 0%nat ltac:(simpl; lia)) as H0. unfold pnth at 1 in H0. cbn [nth] in H0. rewrite Nat.mod_small in H0 by lia. cbn [Nat.add] in H0.
  pose proof (find_point_ok a p2 0%nat) as F. destruct (find_point direct a p2 0) as [j|].
  - destruct F as (F1 & F2 & F3). replace (j - 0)%nat with j in * by lia. f_equal.
    assert (S : forall i k, a =p= pnth p2 i -> a =p= pnth p2 k -> pnth p2 i =p= pnth p2 k) by (intros i k [A1 A2] [B1 B2]; split; lra).
    destruct (Nat.lt_trichotomy j off) as [C|[C|C]]; [|exact C|].
    + exfalso. apply (D j off); [lia|]. apply S; assumption.
    + exfalso. apply (F3 off C). exact H0.
  - exfalso. apply (F (pnth p2 off)); [apply nth_In; lia|exact H0].
Qed.
(** A vertex is reported concave unless it makes a strict left turn. *)
Lemma concave_ok : forall ps i A B C, (i < length ps)%nat ->
  nth_error ps ((i + length ps - 1) mod length ps) = Some A -> nth_error ps i = Some B -> nth_error ps (S i mod length ps) = Some C ->
  is_point_concave ps i = Some (negb (Qltb 0 (tri2 A B C))).
Proof.
  intros ps i A B C Hi HA HB HC. unfold is_point_concave. cbv zeta. rewrite next_is_mod by exact Hi.
  assert (E : prev_index (length ps) i = ((i + length ps - 1) mod length ps)%nat).
  { unfold prev_index. destruct (Nat.ltb_spec 0 i).
    - replace (i + length ps - 1)%nat with (i - 1 + 1 * length ps)%nat by lia. rewrite Nat.mod_add, Nat.mod_small by lia. reflexivity.
    - replace i with 0%nat by lia. rewrite Nat.mod_small by lia. lia. }
  rewrite E, HA, HB, HC. unfold Qgtb, tri2. reflexivity.
Qed.

(** ** The flip as a crossing of the half-open edge with the rightward ray *)

Lemma flip_crossing : forall A u v, pip_flip A u v = true <->
  (py A < py u /\ py v <= py A \/ py A < py v /\ py u <= py A) /\ (exists X, on_segment u v X /\ py X == py A /\ px A < px X).
Proof.
  assert (U : forall A u v, py u <= py A -> py A < py v ->
    (pip_flip A u v = true <-> exists X, on_segment u v X /\ py X == py A /\ px A < px X)).
  { intros A u v H1 H2. rewrite pip_flip_up, Qltb_lt by assumption. split.
    - intro T. destruct (level_param u v (py A) H1 H2) as (t & Ht & E). exists (lerp u v t).
      split; [exists t; split; [exact Ht|split; reflexivity]|]. split; [exact E|].
      rewrite lerp_px. rewrite lerp_py in E. unfold tri2, cross, vsub in T; cbn [px py] in T.
      assert (K : py A - py u == t * (py v - py u)) by lra. rewrite K in T. clear - T H1 H2. nra.
    - intros (X & (t & Ht & E1 & E2) & E & P). rewrite lerp_px in E1. rewrite lerp_py in E2.
      unfold tri2, cross, vsub; cbn [px py].
      assert (K : py A - py u == t * (py v - py u)) by lra. rewrite K. rewrite E1 in P. clear - P H1 H2. nra. }
  intros A u v. destruct (Qlt_le_dec (py A) (py u)) as [HU|HU]; destruct (Qlt_le_dec (py A) (py v)) as [HV|HV].
  - rewrite pip_flip_high by assumption. split; [discriminate|intros [K _]; lra].
  - rewrite pip_flip_sym, (U A v u) by assumption. split.
    + intros (X & S & R). split; [left; lra|]. exists X. split; [apply on_segment_swap, S|exact R].
    + intros (_ & X & S & R). exists X. split; [apply on_segment_swap, S|exact R].
  - rewrite (U A u v) by assumption. split; [intro K; split; [right; lra|exact K]|intros [_ K]; exact K].
  - rewrite pip_flip_low by assumption. split; [discriminate|intros [K _]; lra].
Qed.
Lemma pip_ray_parity : forall A ps (cr : nat -> bool), (3 <= length ps)%nat ->
  (forall i u v, polygon_edge ps i u v -> (cr i = true <->
    (py A < py u /\ py v <= py A \/ py A < py v /\ py u <= py A) /\ (exists X, on_segment u v X /\ py X == py A /\ px A < px X))) ->
  point_in_polygon A ps = Nat.odd (count_below cr (length ps)).
Proof.
  intros A ps cr L H. rewrite pip_xsum. destruct (Nat.ltb_spec (length ps) 3); [lia|]. cbn [negb andb].
  rewrite xsum_index, <- isum_odd. apply isum_ext. intros i Hi. apply bool_iff. rewrite flip_crossing.
  specialize (H i _ _ (edge_at ps i Hi)). tauto.
Qed.
