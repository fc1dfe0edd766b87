(** Properties of the curvature functions of polylines (C104, C105). *)
From Verif Require Import RBase CurveModel CurveSpec CurveProof.

(** C104: at an inner point whose two neighbours and itself are pairwise
    different, the curvature is plus or minus one over the radius of the circle
    through the three points: plus for a left turn, minus for a right turn, zero
    if they lie on a straight line. *)
Theorem C104_curvature_of_the_circle : forall pre a b c post, distinct3 a b c ->
  exists k, polyline_signed_curvature_at_index (pre ++ a :: b :: c :: post) (S (length pre)) = Some k /\
    circle_curvature a b c k.
Proof.
  intros pre a b c post D. rewrite at_index_inner, menger_some by exact D.
  eexists; split; [reflexivity|]. apply circle_curvature_ok; [exact D|]. apply menger_some; exact D.
Qed.

(** ... whichever circle through the three points is considered, and every
    three points not on a line have one. *)
Theorem C104_every_circle : forall pre a b c post O r, distinct3 a b c ->
  0 < r -> on_circle O r a -> on_circle O r b -> on_circle O r c ->
  (0 < turn a b c /\ polyline_signed_curvature_at_index (pre ++ a :: b :: c :: post) (S (length pre)) = Some (1 / r)) \/
  (turn a b c < 0 /\ polyline_signed_curvature_at_index (pre ++ a :: b :: c :: post) (S (length pre)) = Some (- (1 / r))).
Proof.
  intros pre a b c post O r D Hr H1 H2 H3. rewrite at_index_inner.
  destruct (menger_circle a b c O r D Hr H1 H2 H3) as (N & P & Q & _).
  destruct (Rtotal_order (turn a b c) 0) as [L|[L|L]]; [right|contradiction|left]; auto.
Qed.

(** C104: it is zero at the first and the last point and beyond, and undefined
    (a division by zero) exactly at the inner points where two of the three
    points coincide. *)
Theorem C104_defined : forall poly j,
  (polyline_signed_curvature_at_index poly j = None <->
   exists pre a b c post, poly = pre ++ a :: b :: c :: post /\ j = S (length pre) /\ ~ distinct3 a b c) /\
  (j = 0%nat \/ (length poly <= j + 1)%nat -> polyline_signed_curvature_at_index poly j = Some 0).
Proof.
  intros poly j. split.
  - split.
    + intro E. destruct (Nat.eq_dec j 0) as [->|N]; [destruct (at_index_end poly 0) as [F _]; [left; reflexivity|congruence]|].
      destruct (Nat.lt_ge_cases (j + 1) (length poly)) as [L|L];
        [|destruct (at_index_end poly j) as [F _]; [right; exact L|congruence]].
      destruct (split_at_inner poly j) as (pre & a & b & c & post & -> & ->); [lia|exact L|].
      exists pre, a, b, c, post. repeat split; auto. intro D. rewrite at_index_inner, menger_some in E by exact D. discriminate.
    + intros (pre & a & b & c & post & -> & -> & D). rewrite at_index_inner. apply menger_none; exact D.
  - intro H. apply at_index_end; exact H.
Qed.

Lemma rdist_d2 : forall a b, rdist a b = sqrt (rpd2 a b).
Proof. reflexivity. Qed.
Lemma rdist_sym : forall a b, rdist a b = rdist b a.
Proof. intros; rewrite !rdist_d2, rpd2_sym; reflexivity. Qed.

Lemma mean_term_value : forall f a b c k, distinct3 a b c -> menger f a b c = Some k -> mean_term f a b c = Some (bend a b c k).
Proof.
  intros f a b c k D E. unfold mean_term. rewrite E. f_equal. unfold bend. rewrite (rdist_sym a b), !rdist_d2. field.
Qed.

Definition kap (f : R -> R) (a b c : rp) : R := 2 * f (turn a b c) / sqrt (rpd2 b a * rpd2 b c * rpd2 a c).
Lemma menger_kap : forall f a b c, distinct3 a b c -> menger f a b c = Some (kap f a b c).
Proof. intros; apply menger_some; assumption. Qed.

(** C104: the totals are the sums of the bends over the inner points, with the
    signed curvature of the circle, respectively its size; they are defined
    exactly when every three consecutive points are pairwise different. *)
Theorem C104_totals : forall poly, distinct_triples poly ->
  exists kappa : rp -> rp -> rp -> R,
    (forall a b c, distinct3 a b c -> circle_curvature a b c (kappa a b c)) /\
    polyline_total_curvature poly = Some (over_triples (fun a b c => bend a b c (kappa a b c)) poly) /\
    polyline_total_absolute_curvature poly = Some (over_triples (fun a b c => bend a b c (Rabs (kappa a b c))) poly) /\
    (forall pre a b c post, poly = pre ++ a :: b :: c :: post ->
       polyline_total_curvature_over_index poly (S (length pre)) = Some (bend a b c (Rabs (kappa a b c)))).
Proof.
  intros poly D. exists (kap (fun x => x)).
  assert (A : forall a b c, distinct3 a b c -> kap Rabs a b c = Rabs (kap (fun x => x) a b c)).
  { intros a b c H. unfold kap. pose proof (menger_den a b c H) as P.
    unfold Rdiv. rewrite !Rabs_mult. rewrite (Rabs_pos_eq 2) by lra.
    rewrite (Rabs_pos_eq (/ sqrt _)); [reflexivity|]. left; apply Rinv_0_lt_compat; exact P. }
  split; [|split; [|split]].
  - intros a b c H. apply circle_curvature_ok; [exact H|]. apply menger_kap; exact H.
  - unfold polyline_total_curvature. rewrite total_ok. apply opt_sum_value; [|exact D].
    intros a b c H. apply mean_term_value; [exact H|apply menger_kap; exact H].
  - unfold polyline_total_absolute_curvature. rewrite total_ok. apply opt_sum_value; [|exact D].
    intros a b c H. rewrite (mean_term_value Rabs a b c (kap Rabs a b c) H (menger_kap _ _ _ _ H)). rewrite A by exact H. reflexivity.
  - intros pre a b c post E. assert (H : distinct3 a b c) by (apply (D pre a b c post E)). rewrite E, over_index_inner.
    rewrite (mean_term_value Rabs a b c (kap Rabs a b c) H (menger_kap _ _ _ _ H)). rewrite A by exact H. reflexivity.
Qed.

Theorem C104_totals_undefined : forall pre a b c post, ~ distinct3 a b c ->
  polyline_total_curvature (pre ++ a :: b :: c :: post) = None /\
  polyline_total_absolute_curvature (pre ++ a :: b :: c :: post) = None.
Proof.
  intros pre a b c post N. unfold polyline_total_curvature, polyline_total_absolute_curvature. rewrite !total_ok.
  split; apply opt_sum_none; try (exists pre, a, b, c, post; auto);
    intros x y z H; unfold mean_term; rewrite menger_none by exact H; reflexivity.
Qed.

Lemma distinct_rev : forall poly, distinct_triples poly -> distinct_triples (rev poly).
Proof.
  intros poly D pre a b c post E.
  assert (E2 : poly = rev post ++ c :: b :: a :: rev pre).
  { rewrite <- (rev_involutive poly), E. rewrite rev_app_distr. cbn [rev]. rewrite <- !app_assoc. reflexivity. }
  destruct (D _ _ _ _ _ E2) as (H1 & H2 & H3). repeat split; auto.
Qed.

Lemma kap_rev : forall f, f = (fun x => x) \/ f = Rabs -> forall a b c,
  kap f c b a = (if Rleb 0 (f (-1)) then 1 else -1) * kap f a b c.
Proof.
  intros f Hf a b c. unfold kap.
  replace (rpd2 b c * rpd2 b a * rpd2 c a) with (rpd2 b a * rpd2 b c * rpd2 a c) by (rewrite (rpd2_sym c a); ring).
  replace (turn c b a) with (- turn a b c) by (unfold turn; ring).
  destruct Hf as [-> | ->].
  - destruct (Rleb_spec 0 (-1)); [lra|]. unfold Rdiv. ring.
  - destruct (Rleb_spec 0 (Rabs (-1))) as [|N]; [|exfalso; apply N; apply Rabs_pos]. rewrite Rabs_Ropp. unfold Rdiv. ring.
Qed.

Lemma total_value : forall f poly, distinct_triples poly ->
  total_curvature_by f poly = Some (over_triples (fun a b c => bend a b c (kap f a b c)) poly).
Proof.
  intros f poly D. rewrite total_ok. apply opt_sum_value; [|exact D].
  intros a b c H. apply mean_term_value; [exact H|apply menger_kap; exact H].
Qed.

(** C104: walking the polyline backwards changes the sign of the total curvature
    and keeps the total absolute curvature. *)
Theorem C104_backwards : forall poly, distinct_triples poly ->
  exists t u, polyline_total_curvature poly = Some t /\ polyline_total_curvature (rev poly) = Some (- t) /\
    polyline_total_absolute_curvature poly = Some u /\ polyline_total_absolute_curvature (rev poly) = Some u.
Proof.
  intros poly D. unfold polyline_total_curvature, polyline_total_absolute_curvature.
  rewrite !total_value by (auto; apply distinct_rev; exact D).
  eexists; eexists; repeat split; f_equal.
  - rewrite (over_triples_rev _ (fun a b c => -1 * bend a b c (kap (fun x => x) a b c))).
    + rewrite over_triples_scale. ring.
    + intros a b c. rewrite (kap_rev (fun x => x) (or_introl eq_refl) c b a).
      destruct (Rleb_spec 0 (-1)); [lra|]. unfold bend. rewrite (rdist_sym a b), (rdist_sym b c). unfold Rdiv. ring.
  - apply over_triples_rev. intros a b c. rewrite (kap_rev Rabs (or_intror eq_refl) c b a).
    destruct (Rleb_spec 0 (Rabs (-1))) as [|N]; [|exfalso; apply N; apply Rabs_pos].
    unfold bend. rewrite (rdist_sym a b), (rdist_sym b c). unfold Rdiv. ring.
Qed.

Lemma moved_d2 : forall co si sh a b, co * co + si * si = 1 -> rpd2 (moved co si sh a) (moved co si sh b) = rpd2 a b.
Proof.
  intros co si sh a b H. unfold rpd2, moved; simpl.
  replace _ with ((co * co + si * si) * ((fst b - fst a) * (fst b - fst a) + (snd b - snd a) * (snd b - snd a))) by ring.
  rewrite H. ring.
Qed.
Lemma moved_turn : forall co si sh a b c, co * co + si * si = 1 ->
  turn (moved co si sh a) (moved co si sh b) (moved co si sh c) = turn a b c.
Proof.
  intros co si sh a b c H. unfold turn, moved; simpl.
  replace _ with ((co * co + si * si) * ((fst b - fst a) * (snd c - snd a) - (snd b - snd a) * (fst c - fst a))) by ring.
  rewrite H. ring.
Qed.
Lemma moved_inj : forall co si sh a b, co * co + si * si = 1 -> moved co si sh a = moved co si sh b -> a = b.
Proof. intros co si sh a b H E. apply rpd2_zero. rewrite <- (moved_d2 co si sh a b H). apply rpd2_zero; exact E. Qed.
Lemma distinct_moved : forall co si sh poly, co * co + si * si = 1 -> distinct_triples poly -> distinct_triples (map (moved co si sh) poly).
Proof.
  intros co si sh poly H D pre a b c post E.
  apply map_eq_app in E. destruct E as (l1 & l2 & -> & E1 & E2).
  destruct l2 as [|x [|y [|z l2]]]; try discriminate. injection E2 as <- <- <- E2.
  destruct (D l1 x y z l2 eq_refl) as (H1 & H2 & H3).
  repeat split; intro F; apply (moved_inj co si sh) in F; auto.
Qed.

(** C104: rotating and shifting the polyline changes neither total. *)
Theorem C104_motion : forall co si sh poly, co * co + si * si = 1 -> distinct_triples poly ->
  polyline_total_curvature (map (moved co si sh) poly) = polyline_total_curvature poly /\
  polyline_total_absolute_curvature (map (moved co si sh) poly) = polyline_total_absolute_curvature poly.
Proof.
  intros co si sh poly H D. unfold polyline_total_curvature, polyline_total_absolute_curvature.
  rewrite !total_value by (auto; apply distinct_moved; auto).
  split; f_equal; rewrite over_triples_map; apply over_triples_ext; intros a b c;
    unfold bend, kap; rewrite !rdist_d2, !moved_d2, moved_turn by exact H; reflexivity.
Qed.

(** C104: the total curvature is at most the total absolute curvature. *)
Theorem C104_bound : forall poly t u, polyline_total_curvature poly = Some t -> polyline_total_absolute_curvature poly = Some u ->
  Rabs t <= u.
Proof.
  intros poly t u. unfold polyline_total_curvature, polyline_total_absolute_curvature. rewrite !total_ok.
  revert t u. induction poly as [|a poly IH]; intros t u Ht Hu.
  - injection Ht as <-. injection Hu as <-. rewrite Rabs_R0. lra.
  - destruct poly as [|b [|c post]]; try (injection Ht as <-; injection Hu as <-; rewrite Rabs_R0; lra).
    rewrite opt_sum_cons in Ht, Hu.
    assert (Dec : distinct3 a b c \/ ~ distinct3 a b c).
    { unfold distinct3. destruct (Req_dec (rpd2 a b) 0) as [E|E]; rewrite rpd2_zero in E;
        destruct (Req_dec (rpd2 b c) 0) as [F|F]; rewrite rpd2_zero in F;
        destruct (Req_dec (rpd2 a c) 0) as [G|G]; rewrite rpd2_zero in G; tauto. }
    destruct Dec as [Hd|Hd].
    + rewrite (mean_term_value (fun x => x) a b c _ Hd (menger_kap _ _ _ _ Hd)) in Ht.
      rewrite (mean_term_value Rabs a b c _ Hd (menger_kap _ _ _ _ Hd)) in Hu.
      destruct (opt_sum (mean_term (fun x => x)) (b :: c :: post)) as [t'|]; [|discriminate].
      destruct (opt_sum (mean_term Rabs) (b :: c :: post)) as [u'|]; [|discriminate].
      injection Ht as <-. injection Hu as <-. specialize (IH t' u' eq_refl eq_refl).
      eapply Rle_trans; [apply Rabs_triang|]. apply Rplus_le_compat; [|exact IH].
      unfold bend. rewrite Rabs_mult. rewrite Rabs_pos_eq.
      * apply Rmult_le_compat_l.
        -- rewrite !rdist_d2. pose proof (sqrt_pos (rpd2 a b)). pose proof (sqrt_pos (rpd2 b c)). lra.
        -- unfold kap, Rdiv. rewrite !Rabs_mult, (Rabs_pos_eq 2) by lra.
           rewrite (Rabs_pos_eq (/ _)); [lra|]. left; apply Rinv_0_lt_compat, menger_den; exact Hd.
      * rewrite !rdist_d2. pose proof (sqrt_pos (rpd2 a b)). pose proof (sqrt_pos (rpd2 b c)). lra.
    + unfold mean_term in Ht. rewrite menger_none in Ht by exact Hd. discriminate.
Qed.

(** ** Inflection points and cutting (C105) *)

Lemma app_same : forall {A : Type} (p q : list A) x y, p ++ x = q ++ y -> length p = length q -> p = q /\ x = y.
Proof.
  intros A. induction p as [|a p IH]; intros [|b q] x y E L; try discriminate; [auto|].
  injection E as -> E. injection L as L. destruct (IH q x y E L) as [-> ->]. auto.
Qed.

Lemma sign_at : forall poly i, distinct_triples poly ->
  exists k, polyline_signed_curvature_at_index poly i = Some k /\ (rsign k = (-1)%Z <-> right_turn_at poly i) /\
    (rsign k = 1%Z <-> ~ right_turn_at poly i).
Proof.
  intros poly i D.
  assert (S2 : forall k, rsign k = 1%Z \/ rsign k = (-1)%Z) by (intro k; unfold rsign; destruct (Rleb 0 k); auto).
  assert (K : exists k, polyline_signed_curvature_at_index poly i = Some k /\ (rsign k = (-1)%Z <-> right_turn_at poly i)).
  { destruct (Nat.eq_dec i 0) as [->|N].
    { exists 0. split; [apply at_index_end; left; reflexivity|]. unfold rsign. destruct (Rleb_spec 0 0); [|lra].
      split; [discriminate|]. intros (pre & a & b & c & post & _ & E & _). discriminate. }
    destruct (Nat.lt_ge_cases (i + 1) (length poly)) as [L|L].
    - destruct (split_at_inner poly i) as (pre & a & b & c & post & E & E2); [lia|exact L|].
      assert (H : distinct3 a b c) by (apply (D _ _ _ _ _ E)).
      exists (kap (fun x => x) a b c). rewrite E, E2. split; [rewrite at_index_inner; apply menger_kap; exact H|].
      assert (Sg : rsign (kap (fun x => x) a b c) = (-1)%Z <-> turn a b c < 0).
      { unfold rsign, kap. pose proof (Rinv_0_lt_compat _ (menger_den a b c H)) as P. unfold Rdiv.
        set (d := / sqrt (rpd2 b a * rpd2 b c * rpd2 a c)) in *.
        destruct (Rleb_spec 0 (2 * turn a b c * d)) as [F|F]; split; intro G; try discriminate; try reflexivity; nra. }
      rewrite Sg. split.
      + intro T. exists pre, a, b, c, post. auto.
      + intros (pre' & a' & b' & c' & post' & F & F2 & T). injection F2 as F2.
        destruct (app_same _ _ _ _ F F2) as [_ G]. injection G as <- <- <- _. exact T.
    - exists 0. split; [apply at_index_end; right; exact L|]. unfold rsign. destruct (Rleb_spec 0 0); [|lra].
      split; [discriminate|]. intros (pre & a & b & c & post & E & E2 & _). rewrite E, app_length in L. simpl in L. lia. }
  destruct K as (k & E & I). exists k. split; [exact E|]. split; [exact I|]. rewrite <- I.
  destruct (S2 k) as [F|F]; rewrite F; split; intro G; try reflexivity; try discriminate; try congruence.
Qed.

(** The flags of both inflection loops. *)
Fixpoint inflection_flags (poly : list rp) (n i : nat) (c : Z) : option (list bool) :=
  match n with
  | O => Some []
  | S n' =>
      match polyline_signed_curvature_at_index poly i with
      | None => None
      | Some k =>
          match inflection_flags poly n' (S i) (rsign k) with
          | None => None
          | Some fl => Some (negb (Z.eqb (rsign k) c) :: fl)
          end
      end
  end.

Lemma inflection_loop_flags : forall poly n i c res,
  inflection_loop poly n i c res = option_map (fun fl => res ++ flagged i fl) (inflection_flags poly n i c).
Proof.
  intros poly. induction n as [|n IH]; intros i c res; simpl; [rewrite app_nil_r; reflexivity|].
  destruct (polyline_signed_curvature_at_index poly i) as [k|]; [|reflexivity].
  destruct (Z.eqb_spec (rsign k) c) as [E|E].
  - rewrite IH, E. destruct (inflection_flags poly n (S i) c); reflexivity.
  - rewrite IH. destruct (inflection_flags poly n (S i) (rsign k)); simpl; [|reflexivity]. rewrite <- app_assoc. reflexivity.
Qed.

Lemma split_inflection_flags : forall poly n i c cur res,
  split_inflection_loop poly n i c cur res = option_map (fun fl => cut_loop poly fl i cur res) (inflection_flags poly n i c).
Proof.
  intros poly. induction n as [|n IH]; intros i c cur res; simpl; [reflexivity|].
  destruct (polyline_signed_curvature_at_index poly i) as [k|]; [|reflexivity].
  destruct (Z.eqb_spec (rsign k) c) as [E|E].
  - rewrite IH, E. destruct (inflection_flags poly n (S i) c); reflexivity.
  - destruct (Nat.ltb 1 (length (cur ++ [rpoint poly i]))) eqn:L; rewrite IH;
      destruct (inflection_flags poly n (S i) (rsign k)); simpl; rewrite ?L; reflexivity.
Qed.

Lemma flags_length : forall poly n i c fl, inflection_flags poly n i c = Some fl -> length fl = n.
Proof.
  intros poly. induction n as [|n IH]; intros i c fl E; simpl in E; [injection E as <-; reflexivity|].
  destruct (polyline_signed_curvature_at_index poly i); [|discriminate].
  destruct (inflection_flags poly n (S i) (rsign r)) eqn:F; [|discriminate]. injection E as <-. simpl. f_equal. eapply IH; exact F.
Qed.

Lemma flags_ok : forall poly n i c, distinct_triples poly -> (1 <= i)%nat ->
  (c = (-1)%Z <-> right_turn_at poly (i - 1)) -> (c = 1%Z <-> ~ right_turn_at poly (i - 1)) ->
  exists fl, inflection_flags poly n i c = Some fl /\
    forall m, (m < n)%nat -> (nth_error fl m = Some true <-> ~ (right_turn_at poly (i + m - 1) <-> right_turn_at poly (i + m))).
Proof.
  intros poly n. induction n as [|n IH]; intros i c D Hi C1 C2; [exists []; split; [reflexivity|intros; lia]|].
  simpl. destruct (sign_at poly i D) as (k & E & S1 & S2). rewrite E.
  destruct (IH (S i) (rsign k)) as (fl & F & G); [exact D|lia| | |].
  { replace (S i - 1)%nat with i by lia. exact S1. }
  { replace (S i - 1)%nat with i by lia. exact S2. }
  rewrite F. eexists; split; [reflexivity|]. intros [|m] Hm.
  - simpl. replace (i + 0 - 1)%nat with (i - 1)%nat by lia. replace (i + 0)%nat with i by lia.
    assert (V : rsign k = 1%Z \/ rsign k = (-1)%Z) by (unfold rsign; destruct (Rleb 0 k); auto).
    assert (W : c = 1%Z \/ c = (-1)%Z).
    { destruct (sign_at poly (i - 1) D) as (k' & _ & T1 & T2).
      assert (V' : rsign k' = 1%Z \/ rsign k' = (-1)%Z) by (unfold rsign; destruct (Rleb 0 k'); auto).
      destruct V' as [V'|V']; [left; apply C2, T2, V'|right; apply C1, T1, V']. }
    destruct (Z.eqb_spec (rsign k) c) as [Q|Q]; simpl.
    + split; [discriminate|]. intro H. exfalso. apply H. rewrite <- C1, <- S1, Q. tauto.
    + split; [|reflexivity]. intros _ H. apply Q. rewrite <- C1, <- S1 in H.
      destruct V as [V|V], W as [W|W]; rewrite V, W in *; try reflexivity; destruct H as [H1 H2]; [specialize (H1 eq_refl)|specialize (H2 eq_refl)]; discriminate.
  - simpl. rewrite G by lia. replace (S i + m - 1)%nat with (i + S m - 1)%nat by lia. replace (S i + m)%nat with (i + S m)%nat by lia. tauto.
Qed.

(** C105: the inflection points are, in increasing order, the indices where
    turning right begins or ends; the first and last point count as not turning
    right. *)
Theorem C105_inflection_points : forall poly, distinct_triples poly ->
  exists js, inflection_points poly = Some js /\ increasing js /\
    (forall i, In i js <-> (1 <= i < length poly)%nat /\ ~ (right_turn_at poly (i - 1) <-> right_turn_at poly i)).
Proof.
  intros poly D. unfold inflection_points.
  destruct (sign_at poly 0 D) as (k & E & S1 & S2). rewrite E.
  destruct (flags_ok poly (length poly - 1) 1 (rsign k) D) as (fl & F & G); [lia|exact S1|exact S2|].
  rewrite inflection_loop_flags, F. simpl. eexists; split; [reflexivity|]. split; [apply flagged_increasing|].
  pose proof (flags_length _ _ _ _ _ F) as L.
  intro i. rewrite flagged_nth. split.
  - intros [H1 H2]. assert (B : (i - 1 < length fl)%nat) by (apply nth_error_Some; congruence).
    split; [lia|]. apply G in H2; [|lia]. replace (1 + (i - 1) - 1)%nat with (i - 1)%nat in H2 by lia.
    replace (1 + (i - 1))%nat with i in H2 by lia. exact H2.
  - intros [H1 H2]. split; [lia|]. apply G; [lia|]. replace (1 + (i - 1) - 1)%nat with (i - 1)%nat by lia.
    replace (1 + (i - 1))%nat with i by lia. exact H2.
Qed.

(** C105: a polyline that never turns right has none; one that always turns right
    is given two, its second and its last point, although it does not inflect. *)
Theorem C105_never_right : forall poly, distinct_triples poly -> (forall i, ~ right_turn_at poly i) -> inflection_points poly = Some [].
Proof.
  intros poly D N. destruct (C105_inflection_points poly D) as (js & E & _ & I). rewrite E. f_equal.
  destruct js as [|j js]; [reflexivity|]. exfalso. destruct (proj1 (I j) (or_introl eq_refl)) as [_ H]. apply H.
  split; intro R; exfalso; eapply N; exact R.
Qed.

Theorem C105_always_right_refuted : forall poly, distinct_triples poly -> (3 <= length poly)%nat ->
  (forall i, (1 <= i < length poly - 1)%nat -> right_turn_at poly i) ->
  exists js, inflection_points poly = Some js /\ forall i, In i js <-> (i = 1 \/ i = length poly - 1)%nat.
Proof.
  intros poly D L R. destruct (C105_inflection_points poly D) as (js & E & _ & I). exists js. split; [exact E|].
  assert (Z0 : ~ right_turn_at poly 0) by (intros (pre & a & b & c & post & _ & F & _); discriminate).
  assert (Z1 : ~ right_turn_at poly (length poly - 1)).
  { intros (pre & a & b & c & post & F & F2 & _). rewrite F, app_length in F2. simpl in F2. lia. }
  intro i. rewrite I. split.
  - intros [H1 H2]. destruct (Nat.eq_dec i 1); [left; assumption|]. destruct (Nat.eq_dec i (length poly - 1)); [right; assumption|].
    exfalso. apply H2. split; intros _; apply R; lia.
  - intros [-> | ->].
    + split; [lia|]. simpl. intro F. apply Z0. apply F. apply R. lia.
    + split; [lia|]. intro F. apply Z1. apply F. apply R. lia.
Qed.

(** C105: cutting at the inflection points gives, for two or more points, the
    parts between consecutive inflection points (the last point is no cut). *)
Theorem C105_split_at_inflections : forall poly js, (2 <= length poly)%nat -> inflection_points poly = Some js ->
  exists cuts, split_polyline_by_inflection_points poly = Some (parts poly (0%nat :: cuts ++ [(length poly - 1)%nat])) /\
    increasing (0%nat :: cuts ++ [(length poly - 1)%nat]) /\
    (forall i, In i cuts <-> In i js /\ (i < length poly - 1)%nat).
Proof.
  intros poly js L E. unfold inflection_points in E. unfold split_polyline_by_inflection_points.
  destruct poly as [|p poly]; [simpl in L; lia|].
  destruct (polyline_signed_curvature_at_index (p :: poly) 0) as [k|]; [|discriminate].
  rewrite inflection_loop_flags in E. rewrite split_inflection_flags.
  destruct (inflection_flags (p :: poly) (length (p :: poly) - 1) 1 (rsign k)) as [fl|] eqn:F; [|discriminate].
  cbn [option_map app] in *. injection E as <-.
  pose proof (flags_length _ _ _ _ _ F) as FL.
  exists (filter (fun k => Nat.ltb k (length (p :: poly) - 1)) (flagged 1 fl)).
  pose proof (cut_all (p :: poly) fl) as C. change (rpoint (p :: poly) 0) with p in C.
  rewrite C by (auto; simpl; lia).
  destruct (Nat.eqb_spec 0 (length (p :: poly) - 1)) as [Z|Z]; [lia|].
  split; [reflexivity|]. split.
  - apply increasing_cons. split.
    + intros b Hb. apply in_app_or in Hb. destruct Hb as [Hb|[<-|[]]]; [|lia].
      apply filter_In in Hb. destruct Hb as [Hb _]. apply flagged_range in Hb. lia.
    + pose proof (increasing_filter (fun k => Nat.ltb k (length (p :: poly) - 1)) _ (flagged_increasing fl 1)) as H.
      assert (B : forall b, In b (filter (fun k => Nat.ltb k (length (p :: poly) - 1)) (flagged 1 fl)) -> (b < length (p :: poly) - 1)%nat).
      { intros b Hb. apply filter_In in Hb. destruct Hb as [_ Hb]. apply Nat.ltb_lt in Hb. exact Hb. }
      revert H B. generalize (filter (fun k => Nat.ltb k (length (p :: poly) - 1)) (flagged 1 fl)) as l.
      generalize (length (p :: poly) - 1)%nat as m. clear. intros m l. induction l as [|a l IH]; intros H B; [exact I|].
      cbn [app]. apply increasing_cons in H. destruct H as [H1 H2]. apply increasing_cons. split.
      * intros b Hb. apply in_app_or in Hb. destruct Hb as [Hb|[<-|[]]]; [auto|]. apply B. left; reflexivity.
      * apply IH; [exact H2|]. intros b Hb. apply B. right; exact Hb.
  - intro i. rewrite filter_In. rewrite Nat.ltb_lt. tauto.
Qed.

(** The flags of the cutting by total curvature. *)
Fixpoint total_flags (poly : list rp) (ksplit : R) (n i : nat) (ktot : R) : option (list bool) :=
  match n with
  | O => Some []
  | S n' =>
      match polyline_total_curvature_over_index poly i with
      | None => None
      | Some k =>
          match total_flags poly ksplit n' (S i) (if Rltb ksplit (ktot + k) then 0 else ktot + k) with
          | None => None
          | Some fl => Some (Rltb ksplit (ktot + k) :: fl)
          end
      end
  end.

Lemma split_total_flags : forall poly ks n i kt cur res,
  split_total_loop poly ks n i kt cur res = option_map (fun fl => cut_loop poly fl i cur res) (total_flags poly ks n i kt).
Proof.
  intros poly ks. induction n as [|n IH]; intros i kt cur res; simpl; [reflexivity|].
  destruct (polyline_total_curvature_over_index poly i) as [k|]; [|reflexivity].
  destruct (Rltb ks (kt + k)).
  - destruct (Nat.ltb 1 (length (cur ++ [rpoint poly i]))) eqn:L; rewrite IH;
      destruct (total_flags poly ks n (S i) 0); simpl; rewrite ?L; reflexivity.
  - rewrite IH. destruct (total_flags poly ks n (S i) (kt + k)); reflexivity.
Qed.

Lemma sum_bends_snoc : forall K a m, (a <= m)%nat -> sum_bends K a (S m) = sum_bends K a m + K (S m).
Proof.
  intros K a m H. unfold sum_bends. replace (S m - a)%nat with (S (m - a)) by lia. rewrite seq_S, map_app, fold_right_app.
  replace (S a + (m - a))%nat with (S m) by lia. cbn [map fold_right].
  generalize (map K (seq (S a) (m - a))) as l. induction l as [|x l IH]; simpl; [ring|]. rewrite IH. ring.
Qed.
Lemma sum_bends_nil : forall K a, sum_bends K a a = 0.
Proof. intros; unfold sum_bends. replace (a - a)%nat with 0%nat by lia. reflexivity. Qed.

Lemma total_flags_ok : forall poly ks K n i a kt, (forall j, polyline_total_curvature_over_index poly j = Some (K j)) ->
  (i + n = length poly)%nat -> (a < i)%nat -> kt = sum_bends K a (i - 1) ->
  (forall m, (a < m < i)%nat -> sum_bends K a m <= ks) -> (a < length poly - 1)%nat ->
  exists fl, total_flags poly ks n i kt = Some fl /\ length fl = n /\
    cut_rule K ks (length poly - 1) a (filter (fun k => Nat.ltb k (length poly - 1)) (flagged i fl) ++ [(length poly - 1)%nat]).
Proof.
  intros poly ks K n. induction n as [|n IH]; intros i a kt HK L A E B Al.
  - exists []. split; [reflexivity|]. split; [reflexivity|]. simpl. split; [|split; [lia|exact I]]. intros m Hm. apply B. lia.
  - cbn [total_flags]. rewrite HK.
    assert (E2 : kt + K i = sum_bends K a i).
    { rewrite E. replace i with (S (i - 1)) at 2 3 by lia. rewrite sum_bends_snoc by lia. reflexivity. }
    rewrite E2. destruct (Rltb_spec ks (sum_bends K a i)) as [T|T].
    + destruct (Nat.eq_dec i (length poly - 1)) as [Ei|Ni].
      * assert (n = 0%nat) by lia. subst n. simpl. exists [true]. split; [reflexivity|]. split; [reflexivity|].
        simpl. destruct (Nat.ltb_spec i (length poly - 1)); [lia|]. simpl. split; [|split; [lia|exact I]].
        intros m Hm. apply B. lia.
      * destruct (IH (S i) i 0 HK) as (fl & F & FL & C); try lia.
        { replace (S i - 1)%nat with i by lia. rewrite sum_bends_nil. reflexivity. }
        rewrite F. exists (true :: fl). split; [reflexivity|]. split; [simpl; lia|].
        cbn [flagged filter]. destruct (Nat.ltb_spec i (length poly - 1)); [|lia].
        cbn [app cut_rule]. split; [exact B|]. split; [intros _; exact T|exact C].
    + destruct (IH (S i) a (sum_bends K a i) HK) as (fl & F & FL & C); try lia.
      { f_equal. lia. }
      { intros m Hm. destruct (Nat.eq_dec m i) as [->|]; [lra|apply B; lia]. }
      rewrite F. exists (false :: fl). split; [reflexivity|]. split; [simpl; lia|]. exact C.
Qed.

(** C105: cutting by total curvature gives, for two or more points, the parts
    between increasing cuts; within a part the bends add up to more than the
    limit only at its last point, and they do unless it is the last part. *)
Theorem C105_split_by_total : forall poly limit, (2 <= length poly)%nat -> distinct_triples poly ->
  exists K cuts, (forall j, polyline_total_curvature_over_index poly j = Some (K j)) /\
    split_by_total_curvature poly limit = Some (parts poly (0%nat :: cuts ++ [(length poly - 1)%nat])) /\
    increasing (0%nat :: cuts ++ [(length poly - 1)%nat]) /\
    cut_rule K limit (length poly - 1) 0 (cuts ++ [(length poly - 1)%nat]).
Proof.
  intros poly limit L D.
  assert (HK : forall j, exists k, polyline_total_curvature_over_index poly j = Some k).
  { intro j. destruct (Nat.eq_dec j 0) as [->|N]; [exists 0; apply at_index_end; auto|].
    destruct (Nat.lt_ge_cases (j + 1) (length poly)) as [J|J]; [|exists 0; apply at_index_end; auto].
    destruct (split_at_inner poly j) as (pre & a & b & c & post & E & E2); [lia|exact J|].
    rewrite E2. rewrite E. rewrite over_index_inner. assert (H : distinct3 a b c) by (apply (D _ _ _ _ _ E)).
    rewrite (mean_term_value Rabs a b c _ H (menger_kap _ _ _ _ H)). eexists; reflexivity. }
  exists (fun j => match polyline_total_curvature_over_index poly j with Some k => k | None => 0 end).
  set (K := fun j => match polyline_total_curvature_over_index poly j with Some k => k | None => 0 end).
  assert (HK2 : forall j, polyline_total_curvature_over_index poly j = Some (K j)).
  { intro j. unfold K. destruct (HK j) as [k ->]. reflexivity. }
  destruct (total_flags_ok poly limit K (length poly - 1) 1 0 0 HK2) as (fl & F & FL & C); try lia.
  { simpl. rewrite sum_bends_nil. reflexivity. }
  exists (filter (fun k => Nat.ltb k (length poly - 1)) (flagged 1 fl)). split; [exact HK2|].
  split; [|split; [|exact C]].
  - destruct poly as [|p poly]; [simpl in L; lia|].
    unfold split_by_total_curvature. rewrite split_total_flags, F. cbn [option_map]. f_equal.
    change p with (rpoint (p :: poly) 0) at 2. rewrite cut_all by (auto; simpl; lia).
    destruct (Nat.eqb_spec 0 (length (p :: poly) - 1)) as [Z|Z]; [lia|]. reflexivity.
  - apply increasing_cons. split.
    + intros b Hb. apply in_app_or in Hb. destruct Hb as [Hb|[<-|[]]]; [|lia].
      apply filter_In in Hb. destruct Hb as [Hb _]. apply flagged_range in Hb. lia.
    + pose proof (increasing_filter (fun k => Nat.ltb k (length poly - 1)) _ (flagged_increasing fl 1)) as H.
      assert (B : forall b, In b (filter (fun k => Nat.ltb k (length poly - 1)) (flagged 1 fl)) -> (b < length poly - 1)%nat).
      { intros b Hb. apply filter_In in Hb. destruct Hb as [_ Hb]. apply Nat.ltb_lt in Hb. exact Hb. }
      revert H B. generalize (filter (fun k => Nat.ltb k (length poly - 1)) (flagged 1 fl)) as l.
      generalize (length poly - 1)%nat as m. clear. intros m l. induction l as [|a l IH]; intros H B; [exact I|].
      cbn [app]. apply increasing_cons in H. destruct H as [H1 H2]. apply increasing_cons. split.
      * intros b Hb. apply in_app_or in Hb. destruct Hb as [Hb|[<-|[]]]; [auto|]. apply B. left; reflexivity.
      * apply IH; [exact H2|]. intros b Hb. apply B. right; exact Hb.
Qed.

(** A zigzag: left turn, right turn, left turn, right turn. *)
Definition zigzag : list rp := [(0, 0); (1, 0); (1, 1); (2, 1); (2, 2)].
Example C104_witness : distinct_triples zigzag /\ turn (0, 0) (1, 0) (1, 1) = 1 /\
  on_circle (1/2, 1/2) (sqrt (1/2)) (0, 0) /\ on_circle (1/2, 1/2) (sqrt (1/2)) (1, 0) /\ on_circle (1/2, 1/2) (sqrt (1/2)) (1, 1).
Proof.
  split; [|unfold turn, on_circle, rdist; simpl; split; [ring|]; repeat split; f_equal; field].
  intros pre a b c post E. unfold zigzag in E. unfold distinct3.
  destruct pre as [|p1 [|p2 [|p3 [|p4 [|p5 pre]]]]]; simpl in E;
    first [discriminate | (injection E; intros; subst; repeat split; intro F; injection F; lra) | (exfalso; apply (f_equal (@length rp)) in E; simpl in E; rewrite ?app_length in E; simpl in E; lia)].
Qed.
Example C105_witness : (2 <= length zigzag)%nat /\
  exists js, inflection_points zigzag = Some js /\ In 2%nat js /\ In 3%nat js /\ ~ In 1%nat js.
Proof.
  split; [simpl; lia|]. destruct (C105_inflection_points zigzag (proj1 C104_witness)) as (js & E & _ & I).
  exists js. split; [exact E|].
  assert (R : forall i, right_turn_at zigzag i <-> i = 2%nat).
  { intro i. split.
    - intros (pre & a & b & c & post & F & -> & T). unfold zigzag in F.
      destruct pre as [|p1 [|p2 [|p3 [|p4 [|p5 pre]]]]]; simpl in F;
        first [discriminate | (injection F; intros; subst; unfold turn in T; simpl in T; (reflexivity || (exfalso; lra)))
              | (exfalso; apply (f_equal (@length rp)) in F; simpl in F; rewrite ?app_length in F; simpl in F; lia)].
    - intros ->. exists [(0, 0)], (1, 0), (1, 1), (2, 1), [(2, 2)]. repeat split; try reflexivity. unfold turn; simpl; lra. }
  rewrite !I, !R. simpl. lia.
Qed.

Print Assumptions C104_curvature_of_the_circle.
Print Assumptions C104_every_circle.
Print Assumptions C104_defined.
Print Assumptions C104_totals.
Print Assumptions C104_totals_undefined.
Print Assumptions C104_backwards.
Print Assumptions C104_motion.
Print Assumptions C104_bound.
Print Assumptions C105_inflection_points.
Print Assumptions C105_never_right.
Print Assumptions C105_always_right_refuted.
Print Assumptions C105_split_at_inflections.
Print Assumptions C105_split_by_total.
