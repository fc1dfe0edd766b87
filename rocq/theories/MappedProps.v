(** C136: comparison by the policy of a type. *)
From Verif Require Import Base CmpModel CmpSpec CmpProof MappedModel MappedSpec.
From Coq Require Import List Bool PeanoNat Permutation Lqa.
Import ListNotations.
Local Open Scope Q_scope.

Lemma ntype_eqb_spec : forall a b, ntype_eqb a b = true <-> a = b.
Proof.
  intros a b. split; [|intros <-].
  - destruct a as [[| |]|u [| |] ], b as [[| |]|v [| |] ]; cbn; try discriminate; try reflexivity;
      rewrite ?andb_true_r, ?andb_false_r; try discriminate; intro H; apply Nat.eqb_eq in H; rewrite H; reflexivity.
  - destruct a as [[| |]|u [| |] ]; cbn; rewrite ?Nat.eqb_refl; reflexivity.
Qed.
Lemma resolve_meant : forall m t, meant_for m t (resolve m t).
Proof.
  intros m t. unfold meant_for, resolve. destruct (find (fun e => ntype_eqb (fst e) t) (m_map m)) as [e|] eqn:F.
  - left. apply find_some in F. destruct F as [I E]. apply ntype_eqb_spec in E. subst t. destruct e. exact I.
  - right. split; [|reflexivity]. intros d I. pose proof (find_none _ _ F _ I) as N. cbn in N. rewrite (proj2 (ntype_eqb_spec t t) eq_refl) in N. discriminate.
Qed.
Lemma meant_once : forall m t c d, distinct_keys m -> meant_for m t c -> meant_for m t d -> c = d.
Proof.
  intros m t c d N [C|[C1 C2] ] [D|[D1 D2] ]; try congruence; try (exfalso; eapply C1; eassumption); try (exfalso; eapply D1; eassumption).
  unfold distinct_keys in N. revert C D N. generalize (m_map m). induction l as [|e l IH]; intros C D N; [contradiction C|].
  cbn in N. inversion N as [|x y N1 N2]; subst. destruct C as [->|C], D as [D|D].
  - inversion D. reflexivity.
  - exfalso. apply N1. apply (in_map fst) in D. exact D.
  - subst e. exfalso. apply N1. apply (in_map fst) in C. exact C.
  - apply IH; assumption.
Qed.
Lemma comparable_unit : forall a b, are_comparable a b = true <-> unit_of a = unit_of b.
Proof.
  intros [r|u r] [s|v s]; cbn; rewrite ?Nat.eqb_eq; split; intro H; try reflexivity; auto.
Qed.

(** Numbers compare exactly when their units agree. *)
Theorem C136_comparable : forall m u v, (unit_of (fst u) = unit_of (fst v) <-> m_equals m u v <> None) /\
  (m_equals m u v = None <-> m_less_than m u v = None) /\ (m_equals m u v = None <-> m_greater_than m u v = None) /\ (m_equals m u v = None <-> m_equals m v u = None).
Proof.
  intros m u v. unfold m_equals, m_less_than, m_greater_than, mapped_compare. pose proof (comparable_unit (fst u) (fst v)) as A.
  assert (B : are_comparable (fst v) (fst u) = are_comparable (fst u) (fst v)).
  { destruct (fst u), (fst v); cbn; try reflexivity. apply Nat.eqb_sym. }
  rewrite B. destruct (are_comparable (fst u) (fst v)).
  - split; [|repeat split; discriminate]. split; intros _; [discriminate|apply A; reflexivity].
  - split; [|repeat split; reflexivity]. split; intro H; [apply A in H; discriminate|exfalso; apply H; reflexivity].
Qed.
(** Two numbers of one unit are compared by the policy meant for the type of the first, all five answers
    alike. *)
Theorem C136_chosen : forall m u v c, distinct_keys m -> meant_for m (fst u) c -> unit_of (fst u) = unit_of (fst v) -> answers_as m c u v.
Proof.
  intros m u v c N C E. apply comparable_unit in E. assert (R : resolve m (fst u) = c) by (apply (meant_once m (fst u)); [exact N|apply resolve_meant|exact C]).
  unfold answers_as, m_equals, m_less_than, m_less_than_or_equal, m_greater_than, m_greater_than_or_equal, mapped_compare. rewrite E, R. repeat split.
Qed.
(** The order of the registrations does not matter, nor do those of other types. *)
Theorem C136_registrations : forall m d l t c, distinct_keys m -> (Permutation l (m_map m) \/ (exists e, fst e <> t /\ l = e :: m_map m)) -> d = mkmapped (m_default m) l ->
  (meant_for m t c <-> meant_for d t c).
Proof.
  intros m d l t c N [P|(e & E & ->)] ->; unfold meant_for; cbn.
  - assert (I : forall x, In x l <-> In x (m_map m)) by (intro x; split; apply Permutation_in; [|apply Permutation_sym]; exact P).
    split; intros [H|[H1 H2] ]; [left; apply I, H|right; split; [|exact H2]; intros x Hx; apply (H1 x), I, Hx|left; apply I, H|right; split; [|exact H2]; intros x Hx; apply (H1 x), I, Hx].
  - split; intros [H|[H1 H2] ].
    + left. right. exact H.
    + right. split; [|exact H2]. intros x [Hx|Hx]; [|exact (H1 x Hx)]. subst e. apply E. reflexivity.
    + destruct H as [H|H]; [|left; exact H]. subst e. exfalso. apply E. reflexivity.
    + right. split; [|exact H2]. intros x Hx. apply (H1 x). right. exact Hx.
Qed.
(** On numbers of one type, or of types for which the same policy is meant, the answers fit together
    whenever those of the policy do. *)
Theorem C136_coherent : forall m s t c u v, distinct_keys m -> coherent c -> meant_for m s c -> meant_for m t c -> unit_of s = unit_of t ->
  let eq := m_equals m (s, u) (t, v) in let lt := m_less_than m (s, u) (t, v) in let gt := m_greater_than m (s, u) (t, v) in
  ((lt = Some true /\ eq = Some false /\ gt = Some false) \/ (lt = Some false /\ eq = Some true /\ gt = Some false) \/ (lt = Some false /\ eq = Some false /\ gt = Some true)) /\
  eq = m_equals m (t, v) (s, u) /\ gt = m_less_than m (t, v) (s, u) /\ (lt = Some true -> u < v) /\
  (m_less_than_or_equal m (s, u) (t, v) = Some true <-> lt = Some true \/ eq = Some true) /\ (m_greater_than_or_equal m (s, u) (t, v) = Some true <-> gt = Some true \/ eq = Some true).
Proof.
  intros m s t c u v N [A1 A2 A3 A4 A5 A6 A7] S T E eq lt gt.
  destruct (C136_chosen m (s, u) (t, v) c N S E) as (B1 & B2 & B3 & B4 & B5). destruct (C136_chosen m (t, v) (s, u) c N T (eq_sym E)) as (D1 & D2 & D3 & D4 & D5).
  unfold eq, lt, gt. rewrite B1, B2, B3, B4, B5, D1, D2. cbn. rewrite A4, A5. split; [|split; [|split; [|split; [|split] ] ] ].
  - destruct (A3 u v) as [(X & Y & Z)|[(X & Y & Z)|(X & Y & Z)] ]; rewrite X, Y, Z; intuition.
  - rewrite A2. reflexivity.
  - rewrite A6. reflexivity.
  - intro H. apply A7. inversion H. reflexivity.
  - destruct (less_than c u v), (equals c u v); cbn; intuition discriminate.
  - destruct (greater_than c u v), (equals c u v); cbn; intuition discriminate.
Qed.
(** Constructed from one tolerance with absolute policies throughout, it is the absolute policy. *)
Theorem C136_one_tolerance : forall types n u v, unit_of (fst u) = unit_of (fst v) ->
  answers_as (from_tolerance absolute (map (fun t => (t, absolute)) types) n) (absolute n) u v.
Proof.
  intros types n u v E. apply comparable_unit in E.
  assert (R : resolve (from_tolerance absolute (map (fun t => (t, absolute)) types) n) (fst u) = absolute n).
  { destruct (resolve_meant (from_tolerance absolute (map (fun t => (t, absolute)) types) n) (fst u)) as [H|[_ H] ]; [|exact H].
    cbn in H. rewrite map_map in H. apply in_map_iff in H. destruct H as (t & H & _). inversion H. reflexivity. }
  unfold answers_as, m_equals, m_less_than, m_less_than_or_equal, m_greater_than, m_greater_than_or_equal, mapped_compare. rewrite E, R. repeat split.
Qed.
(** and every type gets that tolerance whatever its kind of policy. *)
Theorem C136_tolerance_reaches_all : forall kd kinds n t c, meant_for (from_tolerance kd kinds n) t c ->
  (exists k, In (t, k) kinds /\ c = k n) \/ ((forall k, ~ In (t, k) kinds) /\ c = kd n).
Proof.
  intros kd kinds n t c [H|[H E] ]; cbn in *.
  - left. apply in_map_iff in H. destruct H as ([s k] & H & I). inversion H. subst. exists k. split; [exact I|reflexivity].
  - right. split; [|exact E]. intros k I. apply (H (k n)). apply in_map_iff. exists (t, k). split; [reflexivity|exact I].
Qed.
(** Two types of one unit with different policies: the answer depends on the operand written first, so a
    number is below another and at the same time equal to it. *)
Theorem C136_mixed_types_refuted : exists m u v, distinct_keys m /\ (forall t c, meant_for m t c -> coherent c) /\ unit_of (fst u) = unit_of (fst v) /\
  m_less_than m u v = Some true /\ m_greater_than m v u = Some false /\ m_equals m v u = Some true.
Proof.
  exists (mkmapped (absolute (1 # 1000)) [(Quantity 1 Rdouble, relative (1 # 10))]), (Quantity 1 Rint, 1), (Quantity 1 Rdouble, 11 # 10).
  split; [repeat constructor; cbn; intuition|]. split; [|repeat split; reflexivity].
  intros t c [H|[_ H] ].
  - destruct H as [H|[] ]. inversion H. apply relative_coherent_l. lra.
  - rewrite H. apply absolute_coherent_l. lra.
Qed.
Example C136_witness : let m := mkmapped (absolute (1 # 1000)) [(Quantity 1 Rdouble, relative (1 # 10))] in
  distinct_keys m /\ meant_for m (Quantity 1 Rdouble) (relative (1 # 10)) /\ meant_for m (Quantity 2 Rdouble) (absolute (1 # 1000)) /\
  m_equals m (Quantity 1 Rdouble, 1) (Quantity 1 Rdouble, 11 # 10) = Some true /\ m_equals m (Quantity 2 Rdouble, 1) (Quantity 2 Rdouble, 11 # 10) = Some false /\
  m_equals m (Quantity 1 Rdouble, 1) (Quantity 2 Rdouble, 1) = None.
Proof.
  split; [repeat constructor; cbn; intuition|]. split; [left; left; reflexivity|]. split; [right; split; [intros d [H|[] ]; discriminate H|reflexivity]|]. repeat split; reflexivity.
Qed.
Print Assumptions C136_coherent.
Print Assumptions C136_mixed_types_refuted.
