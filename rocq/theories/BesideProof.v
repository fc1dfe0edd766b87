(** The side of a polyline: proofs. *)
From Verif Require Import Base CmpModel OrientModel OrientSpec OrientProof DistModel DistSpec DistProof PolygonSpec BesideModel BesideSpec.
From Coq Require Import Lia.

Lemma get_orientation_side : forall A B p, line_side A B p (get_orientation direct A B p).
Proof.
  intros A B p. unfold get_orientation, get_orientation_v, orientation, line_side, tri2, cross. cbn [less_than greater_than direct].
  set (u := px (vsub B A) * py (vsub p A)). set (v := py (vsub B A) * px (vsub p A)).
  destruct (Qltb_spec u v); [cbn; lra|]. destruct (Qgtb_spec u v); cbn; lra.
Qed.
Lemma line_side_unique : forall A B p o o', line_side A B p o -> line_side A B p o' -> o = o'.
Proof. intros A B p o o'. unfold line_side. destruct o, o'; intros H1 H2; try reflexivity; exfalso; lra. Qed.

(** ** The nearest side *)
Section Nearest.
Variables (p : pt) (ps : list pt).
Definition best_inv (n : nat) (best : option (Q * nat)) : Prop :=
  match best with
  | None => n = 0%nat
  | Some (d, i) => (i < n)%nat /\ (exists A B, polyline_edge ps i A B /\ d = point_segment_distance_sqrd p A B) /\
      forall k A B, (k < n)%nat -> polyline_edge ps k A B -> d <= point_segment_distance_sqrd p A B /\ ((k < i)%nat -> d < point_segment_distance_sqrd p A B)
  end.
Lemma nearest_from : forall rest pre best, ps = pre ++ rest -> best_inv (length pre) best ->
  best_inv (length pre + (length rest - 1)) (fold_left (fun best e =>
    let d2 := point_segment_distance_sqrd p (fst (snd e)) (snd (snd e)) in
    if less_inf d2 (option_map fst best) then Some (d2, fst e) else best) (polyline_edges_from (length pre) rest) best).
Proof.
  induction rest as [|a rest IH]; intros pre best E H; [cbn; rewrite Nat.add_0_r; exact H|].
  destruct rest as [|b rest]; [cbn; rewrite Nat.add_0_r; exact H|].
  cbn [polyline_edges_from fold_left]. replace (length pre + (length (a :: b :: rest) - 1))%nat with (length (pre ++ [a]) + (length (b :: rest) - 1))%nat by (rewrite app_length; cbn; lia).
  replace (S (length pre)) with (length (pre ++ [a])) by (rewrite app_length; cbn; lia). apply IH; [rewrite <- app_assoc; exact E|].
  assert (Eab : polyline_edge ps (length pre) a b).
  { split; rewrite E; [rewrite nth_error_app2, Nat.sub_diag by lia; reflexivity|]. rewrite nth_error_app2 by lia. replace (S (length pre) - length pre)%nat with 1%nat by lia. reflexivity. }
  cbn [fst snd]. set (d2 := point_segment_distance_sqrd p a b). rewrite app_length. cbn [length]. rewrite Nat.add_1_r.
  assert (Uniq : forall A B, polyline_edge ps (length pre) A B -> A = a /\ B = b) by (intros A B [H1 H2]; destruct Eab as [H3 H4]; split; congruence).
  destruct best as [[d i]|]; cbn [less_inf option_map fst].
  - destruct H as (H1 & H2 & H3). destruct (Qltb_spec d2 d) as [L|L].
    + split; [lia|]. split; [exists a, b; split; [exact Eab|reflexivity]|]. intros k A B Hk Ek. destruct (Nat.eq_dec k (length pre)) as [->|N].
      * destruct (Uniq A B Ek) as [-> ->]. unfold d2. split; [lra|lia].
      * destruct (H3 k A B ltac:(lia) Ek) as [L1 _]. split; [lra|]. intros _. lra.
    + split; [lia|]. split; [exact H2|]. intros k A B Hk Ek. destruct (Nat.eq_dec k (length pre)) as [->|N]; [destruct (Uniq A B Ek) as [-> ->]; split; [exact L|lia]|]. apply (H3 k A B ltac:(lia) Ek).
  - cbn in H. split; [lia|]. split; [exists a, b; split; [exact Eab|reflexivity]|]. intros k A B Hk Ek. assert (k = length pre) as -> by lia. destruct (Uniq A B Ek) as [-> ->]. unfold d2. split; [lra|lia].
Qed.
Lemma nearest_ok : (2 <= length ps)%nat -> exists d i A B, nearest_side p ps = Some (d, i) /\ polyline_edge ps i A B /\ d = point_segment_distance_sqrd p A B /\
  forall k A' B', polyline_edge ps k A' B' -> d <= point_segment_distance_sqrd p A' B' /\ ((k < i)%nat -> d < point_segment_distance_sqrd p A' B').
Proof.
  intro L. assert (H := nearest_from ps [] None eq_refl eq_refl). cbn [length app Nat.add] in H. fold (polyline_edges ps) in H. fold (nearest_side p ps) in H.
  destruct (nearest_side p ps) as [[d i]|]; [|cbn in H; lia]. destruct H as (H1 & (A & B & H2 & H3) & H4). exists d, i, A, B. split; [reflexivity|]. split; [exact H2|]. split; [exact H3|].
  intros k A' B' Ek. apply (H4 k A' B'); [|exact Ek]. destruct Ek as [_ Ek]. assert (S k < length ps)%nat by (apply nth_error_Some; congruence). lia.
Qed.
End Nearest.

(** ** Corners *)
Lemma wedge : forall lo hi w, nonzero w -> 0 < cross lo hi -> dot w lo <= 0 -> dot w hi <= 0 -> ~ (0 <= cross lo w /\ 0 <= cross w hi).
Proof.
  intros [lx ly] [hx hy] [wx wy] N C D1 D2 [H1 H2]. unfold cross, dot, nonzero in *; cbn in *.
  set (al := wx * hy - wy * hx) in *. set (be := lx * wy - ly * wx) in *. set (c := lx * hy - ly * hx) in *.
  assert (E1 : c * wx == al * lx + be * hx) by (unfold c, al, be; ring). assert (E2 : c * wy == al * ly + be * hy) by (unfold c, al, be; ring).
  assert (E : c * (wx * wx + wy * wy) == al * (wx * lx + wy * ly) + be * (wx * hx + wy * hy)).
  { setoid_replace (c * (wx * wx + wy * wy)) with (c * wx * wx + c * wy * wy) by ring. rewrite E1, E2. ring. }
  assert (0 <= al * - (wx * lx + wy * ly)) by (apply Qmult_le_0_compat; lra). assert (0 <= be * - (wx * hx + wy * hy)) by (apply Qmult_le_0_compat; lra).
  assert (P : 0 < wx * wx + wy * wy).
  { pose proof (sq_nonneg wx). pose proof (sq_nonneg wy). destruct (Qeq_dec (wx * wx + wy * wy) 0) as [Z|Z]; [|lra]. exfalso. apply N. split; apply sq_zero; lra. }
  assert (0 < c * (wx * wx + wy * wy)) by (apply Qmult_lt_0_compat; assumption). lra.
Qed.
Lemma not_between : forall lo hi w, nonzero w -> 0 < cross lo hi -> dot w lo <= 0 -> dot w hi <= 0 -> is_vector_between direct lo hi w false = false.
Proof.
  intros lo hi w N C D1 D2. assert (W := wedge lo hi w N C D1 D2). unfold is_vector_between. cbn [equals greater_than_or_equal greater_than direct].
  destruct (Qeqb (cross w hi) 0 && Qgeb (dot hi w) 0); [reflexivity|]. destruct (Qeqb (cross lo w) 0 && Qgeb (dot lo w) 0); [reflexivity|].
  destruct (Qeqb_spec (cross lo hi) 0) as [Z|_]; [lra|]. cbn [andb]. destruct (Qgeb_spec (cross lo w * cross lo hi) 0) as [G|G].
  - assert (G' : 0 <= cross lo w) by (set (x := cross lo w) in *; set (c := cross lo hi) in *; clearbody x c; nra). destruct (Qgtb_spec (cross w hi) 0) as [K|K]; [exfalso; apply W; split; lra|reflexivity].
  - assert (G' : cross lo w < 0) by (set (x := cross lo w) in *; set (c := cross lo hi) in *; clearbody x c; nra). destruct (Qgtb_spec (cross lo w) 0) as [K|K]; [lra|reflexivity].
Qed.
(** Around a corner: an end that is nearest. *)
Lemma tri2_corner : forall A B C p, tri2 A B p == cross (vsub p B) (vsub A B) /\ tri2 B C p == cross (vsub C B) (vsub p B) /\ tri2 A B C == cross (vsub C B) (vsub A B).
Proof. intros. unfold tri2, cross, vsub; cbn. repeat split; ring. Qed.
Lemma corner_outer : forall A B C p, nonzero (vsub p B) -> dot (vsub p B) (vsub A B) <= 0 -> dot (vsub p B) (vsub C B) <= 0 ->
  (0 < tri2 A B C -> ~ (0 < tri2 A B p /\ 0 < tri2 B C p)) /\ (tri2 A B C < 0 -> 0 < tri2 A B p \/ 0 < tri2 B C p).
Proof.
  intros A B C p N D1 D2. destruct (tri2_corner A B C p) as (E1 & E2 & E3). rewrite E1, E2, E3. split; intro T.
  - intros [H1 H2]. apply (wedge (vsub C B) (vsub A B) (vsub p B) N T D2 D1). split; lra.
  - assert (T' : 0 < cross (vsub A B) (vsub C B)) by (assert (cross (vsub A B) (vsub C B) == - cross (vsub C B) (vsub A B)) by (unfold cross; ring); lra).
    assert (W := wedge (vsub A B) (vsub C B) (vsub p B) N T' D1 D2).
    assert (F1 : cross (vsub A B) (vsub p B) == - cross (vsub p B) (vsub A B)) by (unfold cross; ring). assert (F2 : cross (vsub p B) (vsub C B) == - cross (vsub C B) (vsub p B)) by (unfold cross; ring).
    rewrite F1, F2 in W. destruct (Qlt_le_dec 0 (cross (vsub p B) (vsub A B))) as [L|L]; [left; exact L|]. destruct (Qlt_le_dec 0 (cross (vsub C B) (vsub p B))) as [L2|L2]; [right; exact L2|].
    exfalso. apply W. split; lra.
Qed.
(** The nearest point of a segment is its end. *)
Lemma nearest_end : forall p B C, (forall X, on_segment B C X -> dist2 p B <= dist2 p X) -> dot (vsub p B) (vsub C B) <= 0.
Proof.
  intros p B C H. destruct (Qlt_le_dec 0 (dot (vsub p B) (vsub C B))) as [L|L]; [exfalso|exact L]. set (e := dot (vsub p B) (vsub C B)) in *. set (f := dot (vsub C B) (vsub C B)).
  assert (F : 0 <= f) by (unfold f, dot; pose proof (sq_nonneg (px (vsub C B))); pose proof (sq_nonneg (py (vsub C B))); lra).
  assert (D : forall t, dist2 p (lerp B C t) == dist2 p B - 2 * t * e + t * t * f) by (intro t; unfold e, f, dist2, lerp, dot, vadd, vscale, vsub; cbn; ring).
  set (t := e / (e + f)). assert (Ht : t * (e + f) == e) by (unfold t; field; lra). assert (T0 : 0 < t) by (unfold t; apply Qlt_shift_div_l; lra). assert (T1 : t <= 1) by (unfold t; apply Qle_shift_div_r; lra).
  specialize (H (lerp B C t) ltac:(exists t; split; [lra|apply pteq_refl])). rewrite D in H. clear D. clearbody t f e. assert (G : t * t * f == t * (e - t * e)) by (assert (G : t * f == e - t * e) by lra; rewrite <- G; ring). assert (0 < t * e) by (apply Qmult_lt_0_compat; assumption). assert (0 <= t * (t * e)) by (apply Qmult_le_0_compat; lra). lra.
Qed.
Lemma on_segment_rev : forall A B X, on_segment A B X -> on_segment B A X.
Proof. intros A B X (t & Ht & [E1 E2]). exists (1 - t). split; [lra|]. unfold lerp, vadd, vscale, vsub in *; cbn in *. split; cbn; lra. Qed.

Section Main.
Variables (p : pt) (ps : list pt).
Hypothesis L2 : (2 <= length ps)%nat.
Hypothesis HE : forall i A B, polyline_edge ps i A B -> ~ A =p= B.

Lemma nearest_on_side : forall i A B c X, polyline_edge ps i A B -> nearest_on ps p c -> on_segment A B X -> dist2 p c <= dist2 p X.
Proof. intros i A B c X E [_ H] HX. apply H. exists i, A, B. split; assumption. Qed.
Lemma nearest_corner : forall i A B C, polyline_edge ps i A B -> polyline_edge ps (S i) B C -> nearest_on ps p B ->
  dot (vsub p B) (vsub A B) <= 0 /\ dot (vsub p B) (vsub C B) <= 0.
Proof.
  intros i A B C E1 E2 N. split; apply nearest_end; intros X HX.
  - apply (nearest_on_side i A B B X E1 N). apply on_segment_rev, HX.
  - apply (nearest_on_side (S i) B C B X E2 N HX).
Qed.
Lemma nonzero_apart : forall B, ~ p =p= B -> nonzero (vsub p B).
Proof. intros B N [E1 E2]. apply N. unfold vsub in *; cbn in *. split; lra. Qed.

Lemma dist2_zero : forall a b, dist2 a b == 0 -> a =p= b.
Proof. intros a b H. unfold dist2, dot in H. pose proof (sq_nonneg (px (vsub b a))). pose proof (sq_nonneg (py (vsub b a))). assert (px (vsub b a) == 0) by (apply sq_zero; lra). assert (py (vsub b a) == 0) by (apply sq_zero; lra). unfold vsub in *; cbn in *. split; lra. Qed.
Lemma dist2_self : forall a b, a =p= b -> dist2 a b == 0.
Proof. intros a b [E1 E2]. unfold dist2, dot, vsub; cbn. rewrite E1, E2. ring. Qed.

Lemma orientation_ok : exists o, point_polyline_orientation direct p ps = Some o /\
  (on_polyline ps p -> o = oriented_collinear) /\
  (~ on_polyline ps p -> exists i A B c, polyline_edge ps i A B /\ on_segment A B c /\ nearest_on ps p c /\
    ((inside_segment A B c /\ line_side A B p o) \/
     (c = B /\ (forall C, polyline_edge ps (S i) B C -> corner_side A B C p o) /\ (length ps = S (S i) -> line_side A B p o)) \/
     (c = A /\ i = 0%nat /\ (length ps = 2%nat \/ dot (vsub p A) (vsub B A) == 0 -> line_side A B p o)))).
Proof.
  destruct (nearest_ok p ps L2) as (d & i & A & B & R & E & Ed & Hd). unfold point_polyline_orientation. rewrite R. unfold point_polyline_orientation_at.
  destruct (Nat.leb_spec (length ps) 1) as [G|_]; [lia|]. cbn [greater_than direct].
  destruct (closest_seg_ok p A B) as (C1 & C2 & C3). cbv zeta in *. set (c := point_segment_closest_point_seg p A B) in *.
  assert (Near : nearest_on ps p c).
  { split; [exists i, A, B; split; assumption|]. intros X (k & A' & B' & Ek & HX). destruct (Hd k A' B' Ek) as [Lk _]. destruct (point_segment_least p A' B') as [_ L]. specialize (L X HX). rewrite <- C2, <- Ed. lra. }
  assert (d0 : d == dist2 p c) by (rewrite Ed; exact C2).
  assert (dn : 0 <= d) by (rewrite d0; unfold dist2, dot; pose proof (sq_nonneg (px (vsub c p))); pose proof (sq_nonneg (py (vsub c p))); lra).
  destruct (Qgtb_spec d 0) as [P|P].
  2:{ exists oriented_collinear. split; [reflexivity|]. split; [reflexivity|]. intro N. exfalso. apply N. exists i, A, B. split; [exact E|].
      assert (Z : dist2 p c == 0) by lra. apply dist2_zero in Z. destruct C1 as (t & Ht & Et). exists t. split; [exact Ht|]. eapply pteq_trans; [exact Z|exact Et]. }
  assert (Off : ~ on_polyline ps p).
  { intro O. destruct Near as [_ Near]. specialize (Near p O). rewrite (dist2_self p p (pteq_refl p)) in Near. lra. }
  destruct E as [EA EB]. rewrite EA. replace (i + 1)%nat with (S i) by lia. rewrite EB.
  assert (E : polyline_edge ps i A B) by (split; assumption).
  destruct (proj2 (seg_point_unique p A B) (HE i A B E)) as (c' & t & Ec). rewrite Ec. destruct (closest_param_ok p A B c' t Ec) as (K1 & K2 & K3 & K4 & K5).
  assert (Near' : nearest_on ps p c' /\ on_segment A B c').
  { split; [|destruct C1 as (u & Hu & Eu); exists u; split; [exact Hu|eapply pteq_trans; [exact K1|exact Eu]]]. split.
    - exists i, A, B. split; [exact E|]. destruct C1 as (u & Hu & Eu); exists u; split; [exact Hu|eapply pteq_trans; [exact K1|exact Eu]].
    - intros X HX. rewrite (dist2_compat p c' p c (pteq_refl p) K1). apply Near, HX. }
  destruct Near' as [Near' On']. assert (pc : ~ p =p= c').
  { intro Z. rewrite (dist2_compat p c p c' (pteq_refl p) (pteq_sym _ _ K1)) in d0. rewrite (dist2_self p c' Z) in d0. lra. }
  (* the first point of a later side is never the nearest point *)
  assert (Later : (0 < i)%nat -> ~ t <= 0).
  { intros Hi Ht. destruct i as [|h]; [lia|]. rewrite (K3 Ht) in *. destruct (nth_error ps h) as [ph|] eqn:Eh; [|apply nth_error_None in Eh; assert (S h < length ps)%nat by (apply nth_error_Some; congruence); lia].
    assert (Eh' : polyline_edge ps h ph A) by (split; assumption). destruct (Hd h ph A Eh') as [_ Lh]. specialize (Lh ltac:(lia)). destruct (point_segment_least p ph A) as [_ L]. specialize (L A (proj2 (on_segment_ends ph A))).
    assert (dist2 p c == dist2 p A) by (apply dist2_compat; [apply pteq_refl|apply pteq_sym, K1]). lra. }
  assert (At : t <= 0 -> dot (vsub p A) (vsub B A) == 0 -> t == 0).
  { intros Ht Hz. unfold point_segment_closest_point_and_param in Ec. destruct (Qeqb_spec (dot (vsub B A) (vsub B A)) 0) as [Z|Z]; [discriminate|].
    injection Ec as _ <-. rewrite Hz. field. exact Z. }
  destruct (Qltb_spec 0 t) as [T0|T0].
  - destruct (Qltb_spec t 1) as [T1|T1]; cbn [andb].
    + exists (get_orientation direct A B p). split; [reflexivity|]. split; [intro; contradiction|]. intros _. exists i, A, B, c'. split; [exact E|]. split; [exact On'|]. split; [exact Near'|]. left.
      split; [exists t; split; [lra|apply K2; lra]|apply get_orientation_side].
    + cbn [equals direct]. destruct (Qeqb_spec t 0) as [Z|_]; [lra|]. rewrite (K4 T1) in *.
      destruct (nth_error ps (i + 2)) as [C|] eqn:EC.
      * assert (E' : polyline_edge ps (S i) B C) by (split; [exact EB|replace (S (S i)) with (i + 2)%nat by lia; exact EC]).
        destruct (nearest_corner i A B C E E' Near') as [D1 D2]. assert (NZ := nonzero_apart B pc). destruct (corner_outer A B C p NZ D1 D2) as [O1 O2]. destruct (tri2_corner A B C p) as (_ & _ & F3).
        assert (LS := get_orientation_side A B C). assert (Unq : forall C', polyline_edge ps (S i) B C' -> C' = C) by (intros C' [_ H]; replace (S (S i)) with (i + 2)%nat in H by lia; congruence).
        assert (Len : length ps <> S (S i)) by (assert (i + 2 < length ps)%nat by (apply nth_error_Some; congruence); lia).
        destruct (get_orientation direct A B C); cbn in LS.
        -- rewrite not_between; [|exact NZ| |exact D1|exact D2].
           2:{ assert (cross (vsub A B) (vsub C B) == - cross (vsub C B) (vsub A B)) by (unfold cross; ring). lra. }
           exists oriented_left. split; [reflexivity|]. split; [intro; contradiction|]. intros _. exists i, A, B, B. split; [exact E|]. split; [exact On'|]. split; [exact Near'|]. right; left.
           split; [reflexivity|]. split; [|intro; contradiction]. intros C' EC'. rewrite (Unq C' EC'). repeat split; intro T; [lra|left; split; [reflexivity|apply O2, T]|lra].
        -- exists (get_orientation direct A B p). split; [reflexivity|]. split; [intro; contradiction|]. intros _. exists i, A, B, B. split; [exact E|]. split; [exact On'|]. split; [exact Near'|]. right; left.
           split; [reflexivity|]. split; [|intro; contradiction]. intros C' EC'. rewrite (Unq C' EC'). repeat split; intro T; [lra|lra|apply get_orientation_side].
        -- rewrite not_between; [|exact NZ|lra|exact D2|exact D1].
           exists oriented_right. split; [reflexivity|]. split; [intro; contradiction|]. intros _. exists i, A, B, B. split; [exact E|]. split; [exact On'|]. split; [exact Near'|]. right; left.
           split; [reflexivity|]. split; [|intro; contradiction]. intros C' EC'. rewrite (Unq C' EC'). repeat split; intro T; [right; split; [reflexivity|apply O1, T]|lra|lra].
      * exists (get_orientation direct A B p). split; [reflexivity|]. split; [intro; contradiction|]. intros _. exists i, A, B, B. split; [exact E|]. split; [exact On'|]. split; [exact Near'|]. right; left.
        split; [reflexivity|]. split; [|intros _; apply get_orientation_side]. intros C [_ EC']. replace (S (S i)) with (i + 2)%nat in EC' by lia. congruence.
  - cbn [andb equals direct]. destruct i as [|h]; [|exfalso; apply (Later ltac:(lia)); lra]. rewrite (K3 T0) in *. destruct (Qeqb_spec t 0) as [Z|Z].
    + exists (get_orientation direct A B p). split; [reflexivity|]. split; [intro; contradiction|]. intros _. exists 0%nat, A, B, A. split; [exact E|]. split; [exact On'|]. split; [exact Near'|]. right; right.
      split; [reflexivity|]. split; [reflexivity|]. intros _. apply get_orientation_side.
    + destruct (nth_error ps (0 + 2)) as [C|] eqn:EC.
      * assert (Lk : (0 + 2 < length ps)%nat) by (apply nth_error_Some; congruence).
        assert (Res : forall o, exists o', Some o = Some o' /\ (on_polyline ps p -> o' = oriented_collinear) /\ (~ on_polyline ps p -> exists i A B c, polyline_edge ps i A B /\ on_segment A B c /\ nearest_on ps p c /\
    ((inside_segment A B c /\ line_side A B p o') \/
     (c = B /\ (forall C, polyline_edge ps (S i) B C -> corner_side A B C p o') /\ (length ps = S (S i) -> line_side A B p o')) \/
     (c = A /\ i = 0%nat /\ (length ps = 2%nat \/ dot (vsub p A) (vsub B A) == 0 -> line_side A B p o'))))).
        { intro o. exists o. split; [reflexivity|]. split; [intro; contradiction|]. intros _. exists 0%nat, A, B, A. split; [exact E|]. split; [exact On'|]. split; [exact Near'|]. right; right.
          split; [reflexivity|]. split; [reflexivity|]. intros [H|H]; [lia|]. exfalso. apply Z, At; [lra|exact H]. }
        destruct (get_orientation direct A B C); apply Res.
      * exists (get_orientation direct A B p). split; [reflexivity|]. split; [intro; contradiction|]. intros _. exists 0%nat, A, B, A. split; [exact E|]. split; [exact On'|]. split; [exact Near'|]. right; right.
        split; [reflexivity|]. split; [reflexivity|]. intros _. apply get_orientation_side.
Qed.
End Main.

(** The overload that takes the side: the foot of the perpendicular is the first point of the side. *)
Lemma orientation_at_start : forall p ps d h Z A B, (forall i A B, polyline_edge ps i A B -> ~ A =p= B) ->
  polyline_edge ps h Z A -> polyline_edge ps (S h) A B -> 0 < d -> ~ p =p= A -> nearest_on ps p A -> dot (vsub p A) (vsub B A) == 0 ->
  exists o, point_polyline_orientation_at direct p ps d (S h) = Some o /\ (~ tri2 Z A B == 0 -> corner_side Z A B p o) /\ (tri2 Z A B == 0 -> line_side A B p o).
Proof.
  intros p ps d h Z A B HE E1 E2 P pA Near Hz. unfold point_polyline_orientation_at.
  destruct (nearest_corner p ps h Z A B E1 E2 Near) as [D1 D2]. assert (NZ := nonzero_apart p A pA). destruct (corner_outer Z A B p NZ D1 D2) as [O1 O2]. destruct (tri2_corner Z A B p) as (_ & F2 & F3).
  assert (NE := HE (S h) A B E2). destruct E1 as [EZ EA], E2 as [_ EB].
  destruct (Nat.leb_spec (length ps) 1) as [G|_]; [assert (S h < length ps)%nat by (apply nth_error_Some; congruence); lia|]. cbn [greater_than direct]. destruct (Qgtb_spec d 0) as [_|G]; [|lra].
  rewrite EA. replace (S h + 1)%nat with (S (S h)) by lia. rewrite EB. destruct (proj2 (seg_point_unique p A B) NE) as (c' & t & Ec). rewrite Ec.
  assert (Ht : t == 0).
  { unfold point_segment_closest_point_and_param in Ec. destruct (Qeqb_spec (dot (vsub B A) (vsub B A)) 0) as [Y|Y]; [discriminate|]. injection Ec as _ <-. rewrite Hz. field. exact Y. }
  destruct (Qltb_spec 0 t) as [T|_]; [lra|]. cbn [andb equals direct]. destruct (Qeqb_spec t 0) as [_|T]; [|lra]. rewrite EZ.
  assert (LS := get_orientation_side Z A B). destruct (get_orientation direct Z A B); cbn in LS.
  - rewrite not_between; [|exact NZ| |exact D1|exact D2].
    2:{ assert (cross (vsub Z A) (vsub B A) == - cross (vsub B A) (vsub Z A)) by (unfold cross; ring). lra. }
    exists oriented_left. split; [reflexivity|]. split; [|intro T; lra]. intros _. repeat split; intro T; [lra|left; split; [reflexivity|apply O2, T]|lra].
  - exists (get_orientation direct A B p). split; [reflexivity|]. split; [intro T; lra|]. intros _. apply get_orientation_side.
  - rewrite not_between; [|exact NZ|lra|exact D2|exact D1].
    exists oriented_right. split; [reflexivity|]. split; [|intro T; lra]. intros _. repeat split; intro T; [right; split; [reflexivity|apply O1, T]|lra|lra].
Qed.
