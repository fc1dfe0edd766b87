(** Property theorems: comparison policies and orders on points
    (C01, C02, C03, C04, C47, C48). *)
From Verif Require Import Base CmpModel CmpSpec CmpProof.

(** C01: every policy answers [<], [==], [>] coherently. *)
Theorem C01_direct_policy_coherent : coherent direct.
Proof. exact direct_coherent_l. Qed.

Theorem C01_absolute_policy_coherent : forall tol, 0 <= tol -> coherent (absolute tol).
Proof. exact absolute_coherent_l. Qed.

Theorem C01_relative_policy_coherent : forall tol, 0 <= tol -> coherent (relative tol).
Proof. exact relative_coherent_l. Qed.

Theorem C01_fraction_policy_coherent : forall nmin nmax ftol atol,
  0 <= nmax -> coherent (fraction nmin nmax ftol atol).
Proof. exact fraction_coherent_l. Qed.

(** C01: what equality within the tolerance means. *)
Lemma qabs_Qabs : forall v, qabs v == Qabs.Qabs v.
Proof.
  intro v. unfold qabs. destruct (Qltb_spec v 0).
  - rewrite Qabs.Qabs_neg by lra. reflexivity.
  - rewrite Qabs.Qabs_pos by lra. reflexivity.
Qed.
Theorem C01_absolute_policy_meaning : forall tol u v, equals (absolute tol) u v = true <-> Qabs.Qabs (u - v) <= tol.
Proof. intros tol u v. cbn [equals absolute]. rewrite Qleb_le, qabs_Qabs. tauto. Qed.
Theorem C01_relative_policy_meaning : forall tol u v,
  equals (relative tol) u v = true <-> Qabs.Qabs (u - v) <= tol * (Qabs.Qabs u + Qabs.Qabs v + 1).
Proof. intros tol u v. cbn [equals relative]. unfold rel_bound. rewrite Qleb_le, !qabs_Qabs. tauto. Qed.
Lemma safe_division_meaning : forall nmin nmax lhs rhs tol, 0 < rhs -> 0 <= lhs -> nmin <= tol -> 0 <= tol -> tol < nmax ->
  (safe_division nmin nmax lhs rhs <= tol <-> lhs <= tol * rhs).
Proof.
  intros nmin nmax lhs rhs tol R L N T M. unfold safe_division.
  destruct (Qltb rhs 1 && Qgtb (lhs * 1) (rhs * nmax)) eqn:E1.
  - apply andb_true_iff in E1. destruct E1 as [_ E1]. unfold Qgtb in E1. apply (proj1 (Qltb_lt _ _)) in E1. split; intro H; [lra|]. exfalso.
    assert (rhs * tol < rhs * nmax) by (apply Qmult_lt_l; assumption). lra.
  - destruct (Qeqb lhs 0 || (Qgtb rhs 1 && Qltb (lhs * 1) (rhs * nmin))) eqn:E2.
    + apply orb_true_iff in E2. split; intro H; [|lra]. destruct E2 as [E2|E2].
      * apply (proj1 (Qeqb_eq _ _)) in E2. rewrite E2. apply Qmult_le_0_compat; lra.
      * apply andb_true_iff in E2. destruct E2 as [_ E2]. apply (proj1 (Qltb_lt _ _)) in E2.
        assert (rhs * nmin <= rhs * tol) by (apply Qmult_le_l; assumption). lra.
    + split; intro H.
      * assert (K : lhs == lhs / rhs * rhs) by (field; intro Z; rewrite Z in R; apply (Qlt_irrefl 0); exact R). rewrite K. apply Qmult_le_r; assumption.
      * apply Qle_shift_div_r; assumption.
Qed.
(** With a fraction tolerance between the smallest and the largest number of the type two numbers other than
    zero are equal when they differ by at most that fraction of both; zero equals what is within the absolute
    tolerance of it. *)
Theorem C01_fraction_policy_meaning : forall nmin nmax ftol atol u v, nmin <= Qabs.Qabs ftol -> Qabs.Qabs ftol < nmax ->
  (equals (fraction nmin nmax ftol atol) u v = true <->
   (u == 0 /\ Qabs.Qabs v <= Qabs.Qabs atol) \/ (~ u == 0 /\ v == 0 /\ Qabs.Qabs u <= Qabs.Qabs atol) \/
   (~ u == 0 /\ ~ v == 0 /\ Qabs.Qabs (u - v) <= Qabs.Qabs ftol * Qabs.Qabs u /\ Qabs.Qabs (u - v) <= Qabs.Qabs ftol * Qabs.Qabs v)).
Proof.
  intros nmin nmax ftol atol u v N M. cbn [equals fraction]. unfold fraction_equals, equals_zero, equals_within_tolerance. cbv zeta.
  destruct (Qeqb_spec u 0) as [U|U]; [rewrite Qleb_le, !qabs_Qabs; tauto|]. destruct (Qeqb_spec v 0) as [V|V]; [rewrite Qleb_le, !qabs_Qabs; tauto|].
  assert (PU : 0 < qabs u) by (unfold qabs; qcase; lra). assert (PV : 0 < qabs v) by (unfold qabs; qcase; lra).
  assert (D : 0 <= qabs (u - v)) by (apply qabs_spec). pose proof (Qabs.Qabs_nonneg ftol) as T. rewrite <- !qabs_Qabs in *.
  rewrite andb_true_iff, !Qleb_le, !safe_division_meaning by assumption. tauto.
Qed.

(** The constructor accepts a negative tolerance; then nothing equals itself. *)
Theorem C01_negative_tolerance_refuted : forall tol u, tol < 0 -> equals (absolute tol) u u = false.
Proof. exact absolute_negative_refuted_l. Qed.

Example C01_witness : equals (absolute (1#10)) 1 (21#20) = true /\ less_than (absolute (1#10)) 1 2 = true /\
  equals (fraction (1#1000000) 1000000 (1#10) (1#10)) 10 (21#2) = true.
Proof. repeat split; vm_compute; reflexivity. Qed.

(** C02: strict [<] of the absolute tolerance policy is a strict partial order; its
    equality is transitive exactly when the tolerance is zero. *)
Theorem C02_tolerant_less_is_strict_partial_order : forall tol, 0 <= tol ->
  (forall u, less_than (absolute tol) u u = false) /\
  (forall u v, less_than (absolute tol) u v = true -> less_than (absolute tol) v u = false) /\
  (forall u v w, less_than (absolute tol) u v = true -> less_than (absolute tol) v w = true ->
     less_than (absolute tol) u w = true).
Proof. exact absolute_spo. Qed.

Theorem C02_tolerant_equality_transitive_iff_zero : forall tol, 0 <= tol ->
  ((forall u v w, equals (absolute tol) u v = true -> equals (absolute tol) v w = true ->
      equals (absolute tol) u w = true) <-> tol == 0).
Proof. exact absolute_eq_trans_iff. Qed.

Example C02_witness : less_than (absolute (1#2)) 0 1 = true /\ less_than (absolute (1#2)) 1 2 = true.
Proof. split; reflexivity. Qed.

(** C03: with exact comparison the lexicographic comparison of points is the
    dictionary order of the coordinates, a strict total order up to
    coordinatewise equality. *)
Theorem C03_lexicographical_is_dictionary_order : forall a b, length a = length b ->
  (lexicographical direct a b = true <-> dict_lt a b).
Proof. exact lex_direct_dict. Qed.

Theorem C03_lexicographical_trichotomy : forall a b, length a = length b ->
  (lexicographical direct a b = true /\ ~ coords_eq a b /\ lexicographical direct b a = false) \/
  (lexicographical direct a b = false /\ coords_eq a b /\ lexicographical direct b a = false) \/
  (lexicographical direct a b = false /\ ~ coords_eq a b /\ lexicographical direct b a = true).
Proof. exact lex_direct_total. Qed.

Theorem C03_lexicographical_transitive : forall n,
  irreflexive (fun a => length a = n) (lexicographical direct) /\
  transitive_on (fun a => length a = n) (lexicographical direct).
Proof.
  intro n; split; [intros a _; apply lex_direct_irrefl|].
  intros a b c Ha Hb Hc; apply lex_direct_trans; congruence.
Qed.

Theorem C03_point_equality : forall a b, numeric_sequence_equals direct a b = true <-> coords_eq a b.
Proof. exact nseq_direct. Qed.

Theorem C03_reverse_lexicographical_2d : forall cmp x1 y1 x2 y2, coherent cmp ->
  reverse_lex2 cmp x1 y1 x2 y2 = lexicographical cmp [y1; x1] [y2; x2].
Proof. exact rev_lex2_is_lex. Qed.

Theorem C03_reverse_lexicographical_3d : forall cmp x1 y1 z1 x2 y2 z2, coherent cmp ->
  reverse_lex3 cmp x1 y1 z1 x2 y2 z2 = lexicographical cmp [z1; y1; x1] [z2; y2; x2].
Proof. exact rev_lex3_is_lex. Qed.

Theorem C03_variadic_compare : forall pairs,
  lexicographical_compare pairs = true <-> dict_lt (map fst pairs) (map snd pairs).
Proof. intro pairs; rewrite variadic_lex; apply lex_direct_dict; rewrite !map_length; reflexivity. Qed.

Example C03_witness : lexicographical direct [1; 2; 3] [1; 2; 4] = true /\
  lexicographical_compare [(1, 1); (5, 2); (0, 9)] = false.
Proof. split; reflexivity. Qed.

(** C04: with a positive tolerance the same comparison is not even acyclic, for
    every tolerance, so it is not a valid ordering for sorted containers. *)
Theorem C04_tolerant_point_order_cycles : forall tol, 0 < tol -> exists p q r : coords,
  length p = 2%nat /\ length q = 2%nat /\ length r = 2%nat /\
  lexicographical (absolute tol) p q = true /\
  lexicographical (absolute tol) q r = true /\
  lexicographical (absolute tol) r p = true.
Proof. exact tolerant_cycle. Qed.

Theorem C04_tolerant_point_order_not_weak : forall tol, 0 < tol -> exists p q r : coords,
  length p = 2%nat /\ length q = 2%nat /\ length r = 2%nat /\
  incomparable (lexicographical (absolute tol)) p q /\
  incomparable (lexicographical (absolute tol)) q r /\
  lexicographical (absolute tol) p r = true.
Proof. exact tolerant_not_weak. Qed.

(** C47: squared distance between points of dimension one to four is the sum of
    squared coordinate differences; from dimension five on the last coordinate
    is never read. *)
Theorem C47_point_distance_dims_1_to_4 : forall a b, length a = length b -> (1 <= length a <= 4)%nat ->
  exists d, point_point_distance_sqrd a b = Some d /\ d == euclid2 a b.
Proof. exact distance_low_dim. Qed.

Theorem C47_point_distance_high_dim_ignores_last : forall a b x y x' y',
  length a = length b -> (4 <= length a)%nat ->
  point_point_distance_sqrd (a ++ [x]) (b ++ [y]) = point_point_distance_sqrd (a ++ [x']) (b ++ [y']).
Proof. exact distance_ignores_last. Qed.

Theorem C47_point_distance_refuted : exists a b, length a = 5%nat /\ length b = 5%nat /\
  point_point_distance_sqrd a b = Some 0 /\ euclid2 a b == 9.
Proof. exists [0; 0; 0; 0; 0], [0; 0; 0; 0; 3]; repeat split. Qed.

Example C47_witness : point_point_distance_sqrd [1; 2; 3] [4; 6; 3] = Some 25.
Proof. reflexivity. Qed.

(** C48: [segment_interval_compare] is a strict partial order on segments that
    places a segment before another exactly when it ends before the other
    begins; [lexicographical_segment_compare] orders segments by their first
    point alone, so it does not compare the segments as sets. *)
Theorem C48_segment_interval_compare_strict_order : forall n,
  (forall s, seg_dim n s -> segment_interval_compare direct s s = false) /\
  (forall a b c, seg_dim n a -> seg_dim n b -> seg_dim n c ->
     segment_interval_compare direct a b = true -> segment_interval_compare direct b c = true ->
     segment_interval_compare direct a c = true).
Proof. intro n; split; [apply interval_compare_irrefl | apply interval_compare_trans]. Qed.

Theorem C48_segment_interval_compare_meaning : forall n a b, seg_dim n a -> seg_dim n b ->
  (segment_interval_compare direct a b = true <-> dict_lt (seg_upper direct a) (seg_lower direct b)).
Proof.
  intros n a b [A1 A2] [B1 B2]; rewrite interval_compare_unfold; apply lex_direct_dict.
  rewrite (seg_upper_length n a), (seg_lower_length n b); auto.
Qed.

Theorem C48_segment_compare_uses_first_point_only : forall n s1 s2, seg_dim n s1 -> seg_dim n s2 ->
  lexicographical_segment_compare direct s1 s2 = lexicographical direct (fst s1) (fst s2).
Proof. exact segment_compare_by_start. Qed.

(** Reversing a segment changes its place in the order. *)
Theorem C48_segment_compare_refuted : exists a b c d : coords,
  lexicographical_segment_compare direct (a, b) (c, d) = true /\
  lexicographical_segment_compare direct (c, d) (b, a) = true.
Proof. exists [1; 0], [10; 0], [2; 0], [0; 0]; split; reflexivity. Qed.

Print Assumptions C01_fraction_policy_coherent.
Print Assumptions C48_segment_compare_uses_first_point_only.
