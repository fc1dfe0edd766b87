(** Proofs about comparison policies and point orders. *)
From Verif Require Import Base CmpModel CmpSpec.

Lemma qabs_compat : forall x y, x == y -> qabs x == qabs y.
Proof. intros x y H; unfold qabs; repeat qcase; lra. Qed.

Lemma qabs_swap : forall u v, qabs (u - v) == qabs (v - u).
Proof. intros u v; unfold qabs; repeat qcase; lra. Qed.

Lemma Qleb_compat : forall a b c d, a == b -> c == d -> Qleb a c = Qleb b d.
Proof. intros a b c d H1 H2; apply bool_iff; rewrite !Qleb_le; lra. Qed.
Lemma Qltb_compat : forall a b c d, a == b -> c == d -> Qltb a c = Qltb b d.
Proof. intros a b c d H1 H2; apply bool_iff; rewrite !Qltb_lt; lra. Qed.
Lemma Qeqb_compat : forall a b c d, a == b -> c == d -> Qeqb a c = Qeqb b d.
Proof. intros a b c d H1 H2; apply bool_iff; rewrite !Qeqb_eq; lra. Qed.

Lemma direct_coherent_l : coherent direct.
Proof.
  constructor; simpl; intros; try (unfold Qgtb; reflexivity).
  - destruct (Qeqb_spec u u); [reflexivity | exfalso; lra].
  - apply bool_iff; rewrite !Qeqb_eq; lra.
  - unfold Qgtb; destruct (Qltb_spec u v); destruct (Qltb_spec v u);
      destruct (Qeqb_spec u v); try (exfalso; lra); auto.
  - destruct (Qleb_spec u v); destruct (Qltb_spec u v); destruct (Qeqb_spec u v);
      try (exfalso; lra); auto.
  - unfold Qgeb, Qgtb; destruct (Qleb_spec v u); destruct (Qltb_spec v u); destruct (Qeqb_spec u v);
      try (exfalso; lra); auto.
  - apply Qltb_lt; assumption.
Qed.

Lemma bounded_coherent : forall (bd : Q -> Q -> Q),
  (forall u v, 0 <= bd u v) -> (forall u v, bd u v == bd v u) ->
  coherent (mkpolicy (fun u v => Qleb (qabs (u - v)) (bd u v))
           (fun u v => Qltb (u - v) (- bd u v))
           (fun u v => Qleb (u - v) (bd u v))
           (fun u v => Qgtb (u - v) (bd u v))
           (fun u v => Qgeb (u - v) (- bd u v))).
Proof.
  intros bd Hpos Hsym; constructor; simpl; intros;
    try (pose proof (Hpos u v) as Hp; pose proof (Hsym u v) as Hs);
    unfold qabs, Qgtb, Qgeb in *.
  - pose proof (Hpos u u) as Hp; repeat qcase; try reflexivity; exfalso; lra.
  - apply bool_iff; rewrite !Qleb_le; repeat qcase; lra.
  - repeat qcase; try (exfalso; lra); auto.
  - repeat qcase; try (exfalso; lra); auto.
  - repeat qcase; try (exfalso; lra); auto.
  - apply bool_iff; rewrite !Qltb_lt; lra.
  - apply Qltb_lt in H; lra.
Qed.

Lemma absolute_coherent_l : forall tol, 0 <= tol -> coherent (absolute tol).
Proof. intros tol H; apply (bounded_coherent (fun _ _ => tol)); intros; lra. Qed.

Lemma relative_coherent_l : forall tol, 0 <= tol -> coherent (relative tol).
Proof.
  intros tol H; apply (bounded_coherent (rel_bound tol)); intros; unfold rel_bound.
  - pose proof (qabs_spec u) as [Hu _]; pose proof (qabs_spec v) as [Hv _]; nra.
  - lra.
Qed.

Lemma safe_division_compat : forall nmin nmax a b c d, a == b -> c == d ->
  safe_division nmin nmax a c == safe_division nmin nmax b d.
Proof.
  intros nmin nmax a b c d H1 H2; unfold safe_division.
  assert (E1 : Qltb c 1 = Qltb d 1) by (apply Qltb_compat; lra).
  assert (E2 : Qgtb (a * 1) (c * nmax) = Qgtb (b * 1) (d * nmax))
    by (unfold Qgtb; apply Qltb_compat; rewrite ?H1, ?H2; lra).
  assert (E3 : Qeqb a 0 = Qeqb b 0) by (apply Qeqb_compat; lra).
  assert (E4 : Qgtb c 1 = Qgtb d 1) by (unfold Qgtb; apply Qltb_compat; lra).
  assert (E5 : Qltb (a * 1) (c * nmin) = Qltb (b * 1) (d * nmin))
    by (apply Qltb_compat; rewrite ?H1, ?H2; lra).
  rewrite E1, E2, E3, E4, E5.
  destruct (Qltb d 1 && Qgtb (b * 1) (d * nmax)); [lra|].
  destruct (Qeqb b 0 || Qgtb d 1 && Qltb (b * 1) (d * nmin)); [lra|].
  rewrite H1, H2; lra.
Qed.

Lemma fraction_eq_refl : forall nmin nmax f a u, 0 <= nmax -> fraction_equals nmin nmax f a u u = true.
Proof.
  intros nmin nmax f a u Hn; unfold fraction_equals.
  pose proof (qabs_spec f) as [Hf _]; pose proof (qabs_spec a) as [Ha _].
  destruct (Qeqb_spec u 0) as [E|E].
  - unfold equals_zero; apply Qleb_le.
    assert (qabs u == 0) by (unfold qabs; repeat qcase; lra). lra.
  - unfold equals_within_tolerance.
    assert (Hd : qabs (u - u) == 0) by (unfold qabs; repeat qcase; lra).
    assert (Hz : safe_division nmin nmax (qabs (u - u)) (qabs u) == 0).
    { unfold safe_division.
      pose proof (qabs_spec u) as [Hu _].
      destruct (Qgtb_spec (qabs (u - u) * 1) (qabs u * nmax)) as [G|G]; [exfalso; nra|].
      rewrite andb_false_r.
      destruct (Qeqb_spec (qabs (u - u)) 0) as [G'|G']; [reflexivity | contradiction]. }
    rewrite andb_true_iff, !Qleb_le; lra.
Qed.

Lemma fraction_eq_sym : forall nmin nmax f a u v,
  fraction_equals nmin nmax f a u v = fraction_equals nmin nmax f a v u.
Proof.
  intros nmin nmax f a u v; unfold fraction_equals.
  destruct (Qeqb_spec u 0) as [E|E]; destruct (Qeqb_spec v 0) as [E'|E']; try reflexivity.
  - unfold equals_zero; apply Qleb_compat; [|lra]. unfold qabs; repeat qcase; lra.
  - unfold equals_within_tolerance; cbv zeta. rewrite andb_comm; f_equal;
      (apply Qleb_compat; [|lra]); apply safe_division_compat; try apply qabs_swap; lra.
Qed.

Lemma fraction_coherent_l : forall nmin nmax f a, 0 <= nmax -> coherent (fraction nmin nmax f a).
Proof.
  intros nmin nmax f a Hn.
  assert (R : forall u v, u == v -> fraction_equals nmin nmax f a u v = true).
  { intros u v H. unfold fraction_equals.
    pose proof (fraction_eq_refl nmin nmax f a u Hn) as Hr; unfold fraction_equals in Hr.
    assert (E : Qeqb v 0 = Qeqb u 0) by (apply Qeqb_compat; lra).
    rewrite E; destruct (Qeqb u 0).
    - unfold equals_zero in *. rewrite <- Hr. apply Qleb_compat; [apply qabs_compat; lra|lra].
    - rewrite <- Hr; unfold equals_within_tolerance; cbv zeta. f_equal;
        (apply Qleb_compat; [|lra]); apply safe_division_compat; try apply qabs_compat; lra. }
  constructor; simpl; intros.
  - apply fraction_eq_refl; assumption.
  - apply fraction_eq_sym.
  - unfold Qgtb. destruct (Qltb_spec u v); destruct (Qltb_spec v u); try (exfalso; lra);
      destruct (fraction_equals nmin nmax f a u v) eqn:E; simpl; auto.
    rewrite R in E by lra; discriminate.
  - destruct (Qleb_spec u v); destruct (Qltb_spec u v); try (exfalso; lra);
      destruct (fraction_equals nmin nmax f a u v) eqn:E; simpl; auto.
    rewrite R in E by lra; discriminate.
  - unfold Qgeb, Qgtb. destruct (Qleb_spec v u); destruct (Qltb_spec v u); try (exfalso; lra);
      destruct (fraction_equals nmin nmax f a u v) eqn:E; simpl; auto.
    rewrite R in E by lra; discriminate.
  - unfold Qgtb; rewrite fraction_eq_sym; reflexivity.
  - apply andb_true_iff in H as [H _]; apply Qltb_lt; assumption.
Qed.

Lemma absolute_negative_refuted_l : forall tol u, tol < 0 -> equals (absolute tol) u u = false.
Proof.
  intros tol u H; simpl. destruct (Qleb_spec (qabs (u - u)) tol) as [G|G]; [|reflexivity].
  pose proof (qabs_spec (u - u)) as [Hp _]; exfalso; lra.
Qed.

Lemma absolute_spo : forall tol, 0 <= tol ->
  (forall u, less_than (absolute tol) u u = false) /\
  (forall u v, less_than (absolute tol) u v = true -> less_than (absolute tol) v u = false) /\
  (forall u v w, less_than (absolute tol) u v = true -> less_than (absolute tol) v w = true ->
     less_than (absolute tol) u w = true).
Proof.
  intros tol H; simpl; split; [|split].
  - intro u; qcase; [exfalso; lra | reflexivity].
  - intros u v; repeat qcase; intros; try reflexivity; try discriminate; exfalso; lra.
  - intros u v w; repeat qcase; intros; try reflexivity; try discriminate; exfalso; lra.
Qed.

Lemma absolute_eq_trans_iff : forall tol, 0 <= tol ->
  ((forall u v w, equals (absolute tol) u v = true -> equals (absolute tol) v w = true ->
      equals (absolute tol) u w = true) <-> tol == 0).
Proof.
  intros tol H; simpl; split.
  - intro T. specialize (T 0 tol (2 * tol)).
    rewrite !Qleb_le in T. unfold qabs in T.
    repeat qcase_in T; lra.
  - intros E u v w; rewrite !Qleb_le; unfold qabs; repeat qcase; lra.
Qed.

(** ** Lexicographic order *)

Lemma lex_direct_dict : forall a b, length a = length b ->
  (lexicographical direct a b = true <-> dict_lt a b).
Proof.
  induction a as [|x a IH]; intros [|y b] Hl; simpl in *; try discriminate.
  - split; [discriminate|]. intros (i & u & v & Hi & _). destruct i; discriminate.
  - injection Hl as Hl. destruct (Qltb_spec x y) as [Hlt|Hge].
    + split; auto. intros _. exists 0%nat, x, y; simpl; repeat split; auto.
      intros j u v Hj; lia.
    + destruct (Qeqb_spec x y) as [He|Hne].
      * rewrite (IH b Hl). split.
        -- intros (i & u & v & Hu & Hv & Huv & Hprev). exists (S i), u, v; simpl; repeat split; auto.
           intros [|j] u' v' Hj Hu' Hv'; simpl in *.
           ++ injection Hu' as <-; injection Hv' as <-; exact He.
           ++ apply (Hprev j); auto; lia.
        -- intros (i & u & v & Hu & Hv & Huv & Hprev). destruct i as [|i]; simpl in *.
           ++ injection Hu as ->; injection Hv as ->; exfalso; lra.
           ++ exists i, u, v; repeat split; auto. intros j u' v' Hj Hu' Hv'.
              apply (Hprev (S j)); simpl; auto; lia.
      * split; [discriminate|]. intros (i & u & v & Hu & Hv & Huv & Hprev). destruct i as [|i]; simpl in *.
        ++ injection Hu as ->; injection Hv as ->; exfalso; lra.
        ++ exfalso; apply Hne. apply (Hprev 0%nat); simpl; auto; lia.
Qed.

Lemma lex_direct_total : forall a b, length a = length b ->
  (lexicographical direct a b = true /\ ~ coords_eq a b /\ lexicographical direct b a = false) \/
  (lexicographical direct a b = false /\ coords_eq a b /\ lexicographical direct b a = false) \/
  (lexicographical direct a b = false /\ ~ coords_eq a b /\ lexicographical direct b a = true).
Proof.
  unfold coords_eq; induction a as [|x a IH]; intros [|y b] Hl; simpl in *; try discriminate.
  - right; left; repeat split; auto.
  - injection Hl as Hl; specialize (IH b Hl).
    destruct (Qltb_spec x y) as [H1|H1]; destruct (Qltb_spec y x) as [H2|H2]; try (exfalso; lra).
    + left. destruct (Qeqb_spec y x); [exfalso; lra|]. repeat split; auto.
      intro F; inversion F; subst; lra.
    + right; right. destruct (Qeqb_spec x y); [exfalso; lra|]. repeat split; auto.
      intro F; inversion F; subst; lra.
    + destruct (Qeqb_spec x y) as [E|E]; [|exfalso; lra].
      destruct (Qeqb_spec y x) as [E'|E']; [|exfalso; lra].
      destruct IH as [(A & B & C)|[(A & B & C)|(A & B & C)]]; rewrite A, C.
      * left; repeat split; auto. intro F; inversion F; subst; auto.
      * right; left; repeat split; auto.
      * right; right; repeat split; auto. intro F; inversion F; subst; auto.
Qed.

Lemma lex_direct_trans : forall a b c, length a = length b -> length b = length c ->
  lexicographical direct a b = true -> lexicographical direct b c = true ->
  lexicographical direct a c = true.
Proof.
  induction a as [|x a IH]; intros [|y b] [|z c] H1 H2; simpl in *; try discriminate.
  injection H1 as H1; injection H2 as H2.
  destruct (Qltb_spec x y) as [Hxy|Hxy].
  - intros _. destruct (Qltb_spec y z) as [Hyz|Hyz].
    + intros _. destruct (Qltb_spec x z); [reflexivity|exfalso; lra].
    + destruct (Qeqb_spec y z); [|discriminate]. intros _.
      destruct (Qltb_spec x z); [reflexivity|exfalso; lra].
  - destruct (Qeqb_spec x y); [|discriminate]. intro Hab.
    destruct (Qltb_spec y z) as [Hyz|Hyz].
    + intros _. destruct (Qltb_spec x z); [reflexivity|exfalso; lra].
    + destruct (Qeqb_spec y z); [|discriminate]. intro Hbc.
      destruct (Qltb_spec x z); [reflexivity|].
      destruct (Qeqb_spec x z); [|exfalso; lra]. apply (IH b c); auto.
Qed.

Lemma nseq_direct : forall a b, numeric_sequence_equals direct a b = true <-> coords_eq a b.
Proof.
  unfold coords_eq; induction a as [|x a IH]; intros [|y b]; simpl.
  - split; auto.
  - split; [discriminate|intro F; inversion F].
  - split; [discriminate|intro F; inversion F].
  - rewrite andb_true_iff, IH, Qeqb_eq. split.
    + intros [F E]; constructor; auto.
    + intro F; inversion F; auto.
Qed.

Lemma rev_lex2_is_lex : forall cmp x1 y1 x2 y2,
  coherent cmp ->
  reverse_lex2 cmp x1 y1 x2 y2 = lexicographical cmp [y1; x1] [y2; x2].
Proof.
  intros cmp x1 y1 x2 y2 C; unfold reverse_lex2; simpl.
  destruct (co_tri cmp C y1 y2) as [(A & B & D)|[(A & B & D)|(A & B & D)]]; rewrite A, B; simpl; auto.
  destruct (less_than cmp x1 x2); auto. destruct (equals cmp x1 x2); auto.
Qed.

Lemma rev_lex3_is_lex : forall cmp x1 y1 z1 x2 y2 z2,
  coherent cmp ->
  reverse_lex3 cmp x1 y1 z1 x2 y2 z2 = lexicographical cmp [z1; y1; x1] [z2; y2; x2].
Proof.
  intros cmp x1 y1 z1 x2 y2 z2 C; unfold reverse_lex3; simpl.
  destruct (co_tri cmp C z1 z2) as [(A & B & D)|[(A & B & D)|(A & B & D)]]; rewrite A, B; simpl; auto.
  destruct (co_tri cmp C y1 y2) as [(A' & B' & D')|[(A' & B' & D')|(A' & B' & D')]]; rewrite A', B'; simpl; auto.
  destruct (less_than cmp x1 x2); auto. destruct (equals cmp x1 x2); auto.
Qed.

Lemma variadic_lex : forall pairs,
  lexicographical_compare pairs = lexicographical direct (map fst pairs) (map snd pairs).
Proof.
  induction pairs as [|[t1 t2] rest IH]; [reflexivity|].
  destruct rest as [|p rest'].
  - simpl. destruct (Qltb t1 t2); auto. destruct (Qeqb t1 t2); auto.
  - change (lexicographical_compare ((t1, t2) :: p :: rest'))
      with (negb (Qltb t2 t1) && (Qltb t1 t2 || lexicographical_compare (p :: rest'))).
    rewrite IH. simpl map. simpl.
    destruct (Qltb_spec t1 t2); destruct (Qltb_spec t2 t1); try (exfalso; lra); simpl; auto;
      destruct (Qeqb_spec t1 t2); auto; exfalso; lra.
Qed.

Lemma tolerant_cycle : forall tol, 0 < tol -> exists p q r : coords,
  length p = 2%nat /\ length q = 2%nat /\ length r = 2%nat /\
  lexicographical (absolute tol) p q = true /\
  lexicographical (absolute tol) q r = true /\
  lexicographical (absolute tol) r p = true.
Proof.
  intros tol H.
  exists [0; 4 * tol], [2 * tol; 0], [tol; 2 * tol].
  simpl; repeat split; auto.
  - destruct (Qltb_spec (0 - 2 * tol) (- tol)); [reflexivity|exfalso; lra].
  - destruct (Qltb_spec (2 * tol - tol) (- tol)); [reflexivity|].
    destruct (Qleb_spec (qabs (2 * tol - tol)) tol) as [G|G].
    + destruct (Qltb_spec (0 - 2 * tol) (- tol)); [reflexivity|exfalso; lra].
    + exfalso; unfold qabs in G; qcase_in G; lra.
  - destruct (Qltb_spec (tol - 0) (- tol)); [reflexivity|].
    destruct (Qleb_spec (qabs (tol - 0)) tol) as [G|G].
    + destruct (Qltb_spec (2 * tol - 4 * tol) (- tol)); [reflexivity|exfalso; lra].
    + exfalso; unfold qabs in G; qcase_in G; lra.
Qed.

Lemma tolerant_not_weak : forall tol, 0 < tol -> exists p q r : coords,
  length p = 2%nat /\ length q = 2%nat /\ length r = 2%nat /\
  incomparable (lexicographical (absolute tol)) p q /\
  incomparable (lexicographical (absolute tol)) q r /\
  lexicographical (absolute tol) p r = true.
Proof.
  intros tol H. exists [0; 0], [tol; 0], [2 * tol; 0]; unfold incomparable.
  assert (Z : qabs (0 - 0) <= tol) by (unfold qabs; qcase; lra).
  simpl; repeat split; auto;
  repeat match goal with
  | |- context [Qltb ?a ?b] => destruct (Qltb_spec a b); try (exfalso; lra)
  | |- context [Qleb ?a ?b] => destruct (Qleb_spec a b)
  end; auto.
Qed.

(** ** Segment orders *)

Lemma segment_compare_ignores_end : forall cmp s1 e1 e1' s2,
  lexicographical_segment_compare cmp (s1, e1) s2 = lexicographical_segment_compare cmp (s1, e1') s2.
Proof. reflexivity. Qed.

Lemma lex_direct_irrefl : forall a, lexicographical direct a a = false.
Proof.
  intro a; destruct (lex_direct_total a a eq_refl) as [(A & B & C)|[(A & B & C)|(A & B & C)]]; auto;
  congruence.
Qed.

Lemma seg_lower_le_upper : forall n (s : cseg), length (fst s) = n -> length (snd s) = n ->
  forall p q, length p = n -> length q = n ->
  lexicographical direct p (seg_lower direct s) = true ->
  lexicographical direct (seg_upper direct s) q = true ->
  lexicographical direct p q = true.
Proof.
  intros n s H1 H2 p q Hp Hq; unfold seg_lower, seg_upper.
  destruct (lexicographical direct (fst s) (snd s)) eqn:E; intros A B.
  - apply (lex_direct_trans p (fst s) q); try congruence.
    apply (lex_direct_trans (fst s) (snd s) q); try congruence.
  - destruct (lex_direct_total (fst s) (snd s) ltac:(congruence)) as [(X & Y & Z)|[(X & Y & Z)|(X & Y & Z)]];
      try congruence.
    + (* equal end points *)
      assert (G : lexicographical direct p (fst s) = true).
      { rewrite lex_direct_dict in * by congruence.
        destruct A as (i & u & v & Hu & Hv & Huv & Hprev).
        destruct (nth_error (fst s) i) as [w|] eqn:Hw.
        - assert (Hwv : w == v).
          { clear - Y Hv Hw. revert i Hv Hw. induction Y as [|x y a b Hxy HY IH]; intros [|i] Hv Hw; simpl in *;
              try discriminate; [congruence|]. eapply IH; eauto. }
          exists i, u, w; repeat split; auto; [lra|]. intros j u' v' Hj Hu' Hv'.
          destruct (nth_error (snd s) j) as [w'|] eqn:Hw'.
          + assert (v' == w').
            { clear - Y Hv' Hw'. revert j Hv' Hw'. induction Y as [|x y a b Hxy HY IH]; intros [|j] Hv' Hw'; simpl in *;
              try discriminate; [congruence|]. eapply IH; eauto. }
            assert (u' == w') by (apply (Hprev j); auto). lra.
          + exfalso. apply nth_error_None in Hw'. assert (nth_error (fst s) j <> None) by congruence.
            apply nth_error_Some in H; lia.
        - exfalso. apply nth_error_None in Hw. assert (nth_error (snd s) i <> None) by congruence.
            apply nth_error_Some in H; lia. }
      apply (lex_direct_trans p (fst s) q); congruence.
    + apply (lex_direct_trans p (snd s) q); try congruence.
      apply (lex_direct_trans (snd s) (fst s) q); try congruence.
Qed.

Lemma interval_compare_unfold : forall a b,
  segment_interval_compare direct a b = lexicographical direct (seg_upper direct a) (seg_lower direct b).
Proof. intros a b; unfold segment_interval_compare, seg_upper, seg_lower; reflexivity. Qed.

Lemma seg_upper_length : forall n (s : cseg), length (fst s) = n -> length (snd s) = n -> length (seg_upper direct s) = n.
Proof. intros n s H1 H2; unfold seg_upper; destruct (lexicographical direct (fst s) (snd s)); auto. Qed.
Lemma seg_lower_length : forall n (s : cseg), length (fst s) = n -> length (snd s) = n -> length (seg_lower direct s) = n.
Proof. intros n s H1 H2; unfold seg_lower; destruct (lexicographical direct (fst s) (snd s)); auto. Qed.

Definition seg_dim (n : nat) (s : cseg) : Prop := length (fst s) = n /\ length (snd s) = n.

Lemma interval_compare_irrefl : forall n s, seg_dim n s -> segment_interval_compare direct s s = false.
Proof.
  intros n s [H1 H2]; rewrite interval_compare_unfold; unfold seg_upper, seg_lower.
  destruct (lexicographical direct (fst s) (snd s)) eqn:E.
  - destruct (lex_direct_total (fst s) (snd s) ltac:(congruence)) as [(X & Y & Z)|[(X & Y & Z)|(X & Y & Z)]]; congruence.
  - assumption.
Qed.

Lemma interval_compare_trans : forall n a b c, seg_dim n a -> seg_dim n b -> seg_dim n c ->
  segment_interval_compare direct a b = true -> segment_interval_compare direct b c = true ->
  segment_interval_compare direct a c = true.
Proof.
  intros n a b c [A1 A2] [B1 B2] [C1 C2]; rewrite !interval_compare_unfold; intros H1 H2.
  apply (seg_lower_le_upper n b B1 B2); auto using seg_upper_length, seg_lower_length.
Qed.

Definition seg_pt (x y : Q) : coords := [x; y].

(** ** Squared distance in any dimension *)

Lemma distance_low_dim : forall a b, length a = length b -> (1 <= length a <= 4)%nat ->
  exists d, point_point_distance_sqrd a b = Some d /\ d == euclid2 a b.
Proof.
  intros a b Hl Hd.
  destruct a as [|a0 [|a1 [|a2 [|a3 [|a4 a]]]]]; simpl in Hd; try lia;
  destruct b as [|b0 [|b1 [|b2 [|b3 [|b4 b]]]]]; simpl in Hl; try discriminate;
  eexists; (split; [reflexivity|]); simpl; lra.
Qed.

Lemma distance_eval_ignores : forall i a b a' b',
  (forall j, (j <= i)%nat -> nth_error a j = nth_error a' j) ->
  (forall j, (j <= i)%nat -> nth_error b j = nth_error b' j) ->
  distance_sqrd_eval a b i = distance_sqrd_eval a' b' i.
Proof.
  induction i as [|i IH]; intros a b a' b' Ha Hb.
  - simpl; unfold sqdiff; rewrite (Ha 0%nat), (Hb 0%nat) by lia; reflexivity.
  - assert (E : forall j, (j <= S i)%nat -> sqdiff a b j = sqdiff a' b' j).
    { intros j Hj; unfold sqdiff; rewrite (Ha j), (Hb j) by lia; reflexivity. }
    destruct i as [|[|[|i]]].
    + simpl; rewrite !E by lia; reflexivity.
    + simpl; rewrite !E by lia; reflexivity.
    + simpl; rewrite !E by lia; reflexivity.
    + change (distance_sqrd_eval a b (S (S (S (S i)))))
        with (oplus (sqdiff a b (S (S (S i)))) (distance_sqrd_eval a b (S (S (S i))))).
      change (distance_sqrd_eval a' b' (S (S (S (S i)))))
        with (oplus (sqdiff a' b' (S (S (S i)))) (distance_sqrd_eval a' b' (S (S (S i))))).
      rewrite E by lia. f_equal. apply IH; intros j Hj; auto.
Qed.

Lemma distance_ignores_last : forall a b x y x' y',
  length a = length b -> (4 <= length a)%nat ->
  point_point_distance_sqrd (a ++ [x]) (b ++ [y]) = point_point_distance_sqrd (a ++ [x']) (b ++ [y']).
Proof.
  intros a b x y x' y' Hl Hd. unfold point_point_distance_sqrd.
  rewrite !app_length; simpl length.
  replace (length a + 1 - 1)%nat with (length a) by lia.
  destruct (length a) as [|[|[|[|i]]]] eqn:El; try lia.
  change (distance_sqrd_eval (a ++ [x]) (b ++ [y]) (S (S (S (S i)))))
    with (oplus (sqdiff (a ++ [x]) (b ++ [y]) (S (S (S i)))) (distance_sqrd_eval (a ++ [x]) (b ++ [y]) (S (S (S i))))).
  change (distance_sqrd_eval (a ++ [x']) (b ++ [y']) (S (S (S (S i)))))
    with (oplus (sqdiff (a ++ [x']) (b ++ [y']) (S (S (S i)))) (distance_sqrd_eval (a ++ [x']) (b ++ [y']) (S (S (S i))))).
  assert (Ha : forall j, (j <= S (S (S i)))%nat -> nth_error (a ++ [x]) j = nth_error (a ++ [x']) j)
    by (intros j Hj; rewrite !nth_error_app1 by lia; reflexivity).
  assert (Hb : forall j, (j <= S (S (S i)))%nat -> nth_error (b ++ [y]) j = nth_error (b ++ [y']) j)
    by (intros j Hj; rewrite !nth_error_app1 by lia; reflexivity).
  f_equal.
  - unfold sqdiff; rewrite Ha, Hb by lia; reflexivity.
  - apply distance_eval_ignores; assumption.
Qed.

(** ** [lexicographical_segment_compare] orders segments by start point only *)

Lemma lex_direct_compat : forall a a' b b', coords_eq a a' -> coords_eq b b' ->
  lexicographical direct a b = lexicographical direct a' b'.
Proof.
  unfold coords_eq; intros a a' b b' Ha; revert b b'.
  induction Ha as [|x x' a a' Hx Ha IH]; intros b b' Hb; destruct Hb as [|y y' b b' Hy Hb]; simpl; auto.
  rewrite (IH b b' Hb).
  rewrite (Qltb_compat x x' y y'), (Qeqb_compat x x' y y') by assumption; reflexivity.
Qed.

Lemma coords_eq_refl : forall a, coords_eq a a.
Proof. unfold coords_eq; induction a; constructor; auto; lra. Qed.
Lemma coords_eq_sym : forall a b, coords_eq a b -> coords_eq b a.
Proof. unfold coords_eq; induction 1; constructor; auto; lra. Qed.
Lemma coords_eq_trans : forall a b c, coords_eq a b -> coords_eq b c -> coords_eq a c.
Proof.
  unfold coords_eq; intros a b c H; revert c; induction H; intros c G; inversion G; subst; constructor; auto; lra.
Qed.
Lemma nseq_eq_true : forall a b, coords_eq a b -> numeric_sequence_equals direct a b = true.
Proof. intros; apply nseq_direct; auto. Qed.
Lemma nseq_eq_false : forall a b, ~ coords_eq a b -> numeric_sequence_equals direct a b = false.
Proof.
  intros a b H; destruct (numeric_sequence_equals direct a b) eqn:E; auto.
  apply nseq_direct in E; contradiction.
Qed.

Lemma segment_compare_by_start : forall n s1 s2, seg_dim n s1 -> seg_dim n s2 ->
  lexicographical_segment_compare direct s1 s2 = lexicographical direct (fst s1) (fst s2).
Proof.
  intros n [a b] [c d] [Ha Hb] [Hc Hd]; simpl in *; unfold lexicographical_segment_compare; simpl fst; simpl snd.
  destruct (lex_direct_total a d ltac:(congruence)) as [(A1 & A2 & A3)|[(A1 & A2 & A3)|(A1 & A2 & A3)]];
  destruct (lex_direct_total c d ltac:(congruence)) as [(C1 & C2 & C3)|[(C1 & C2 & C3)|(C1 & C2 & C3)]];
  rewrite A1, C1.
  - rewrite (nseq_eq_true d d (coords_eq_refl d)) || idtac.
    rewrite lex_direct_irrefl, andb_false_r, orb_false_r; reflexivity.
  - rewrite A1. simpl. symmetry. rewrite (lex_direct_compat a a c d (coords_eq_refl a) C2); exact A1.
  - rewrite A1; simpl; symmetry; apply (lex_direct_trans a d c); congruence.
  - rewrite C3, (nseq_eq_false d c) by (intro G; apply C2, coords_eq_sym; exact G).
    simpl. symmetry. rewrite (lex_direct_compat a d c c A2 (coords_eq_refl c)); exact C3.
  - rewrite lex_direct_irrefl, (nseq_eq_true d d (coords_eq_refl d)); reflexivity.
  - rewrite lex_direct_irrefl, (nseq_eq_true d d (coords_eq_refl d)); reflexivity.
  - assert (X : lexicographical direct c a = true) by (apply (lex_direct_trans c d a); congruence).
    destruct (lex_direct_total c a ltac:(congruence)) as [(G1 & G2 & G3)|[(G1 & G2 & G3)|(G1 & G2 & G3)]]; try congruence.
    destruct (lex_direct_total d c ltac:(congruence)) as [(K1 & K2 & K3)|[(K1 & K2 & K3)|(K1 & K2 & K3)]]; try congruence.
    rewrite K1, (nseq_eq_false d c K2); simpl; congruence.
  - rewrite lex_direct_irrefl, (nseq_eq_true d d (coords_eq_refl d)); reflexivity.
  - rewrite lex_direct_irrefl, (nseq_eq_true d d (coords_eq_refl d)); reflexivity.
Qed.
