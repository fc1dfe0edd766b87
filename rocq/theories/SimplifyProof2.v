From Verif Require Import Base CmpModel OrientModel OrientSpec DistSpec PolygonModel PolygonSpec PolygonProof SimplifyModel SimplifySpec SimplifyProof.

Lemma apart_direct : forall a b, apart direct a b = true <-> ~ a =p= b.
Proof.
  intros a b. unfold apart. cbn [direct greater_than]. unfold Qgtb.
  assert (D : dist2 a b == (px b - px a) * (px b - px a) + (py b - py a) * (py b - py a)) by (unfold dist2, dot, vsub; cbn [px py]; ring).
  pose proof (sq_nonneg (px b - px a)) as S1. pose proof (sq_nonneg (py b - py a)) as S2.
  destruct (Qltb_spec 0 (dist2 a b)) as [H|H].
  - split; [|reflexivity || (intros _; reflexivity)]. intros _ [Ex Ey]. rewrite D, Ex, Ey in H. lra.
  - split; [discriminate|]. intro N. exfalso. apply N.
    assert (Z1 : (px b - px a) * (px b - px a) == 0) by lra. assert (Z2 : (py b - py a) * (py b - py a) == 0) by lra.
    apply sq_zero in Z1. apply sq_zero in Z2. split; lra.
Qed.
Lemma apart_false : forall a b, apart direct a b = false -> a =p= b.
Proof.
  intros a b H. destruct (Qeq_dec (px a) (px b)) as [X|X]; [destruct (Qeq_dec (py a) (py b)) as [Y|Y]; [split; assumption|]|];
    exfalso; assert (K : apart direct a b = true) by (apply apart_direct; intros [? ?]; contradiction); congruence.
Qed.

(** ** Any policy *)
Lemma coalesce_loop_any : forall cmp bs a rest, exists a' rest',
  fold_left (coalesce_step cmp) bs (a :: rest) = a' :: rest' /\ last (a' :: rest') a' = last (a :: rest) a /\
  subsequence (rev (a' :: rest')) (rev (a :: rest) ++ bs).
Proof.
  intros cmp. induction bs as [|b bs IH]; intros a rest.
  - exists a, rest. split; [reflexivity|]. split; [reflexivity|]. rewrite app_nil_r. apply sub_refl.
  - cbn [fold_left]. unfold coalesce_step at 2. destruct (apart cmp a b).
    + destruct (IH b (a :: rest)) as (a' & rest' & E & F & S). exists a', rest'. split; [exact E|]. split; [rewrite F, !last_cons; reflexivity|].
      apply (sub_trans _ _ _ _ S). cbn [rev]. rewrite <- !app_assoc. cbn [app]. apply sub_refl.
    + destruct (IH a rest) as (a' & rest' & E & F & S). exists a', rest'. split; [exact E|]. split; [exact F|].
      apply (sub_trans _ _ _ _ S). apply sub_app; [apply sub_refl|]. constructor. apply sub_refl.
Qed.
Lemma coalesce_polyline_any : forall cmp ps d, let r := coalesce_adjacent_points_polyline cmp ps in
  subsequence r ps /\ hd d r = hd d ps.
Proof.
  intros cmp ps d. unfold coalesce_adjacent_points_polyline. destruct ps as [|p0 [|p1 [|p2 rest]]]; try (split; [apply sub_refl|reflexivity]).
  destruct (coalesce_loop_any cmp (p1 :: p2 :: rest) p0 []) as (a & l & E & F & S). cbv zeta. rewrite E. split; [exact S|].
  rewrite hd_rev, last_cons. rewrite last_cons in F. rewrite F. reflexivity.
Qed.
Lemma coalesce_polygon_loop_any : forall cmp front bs a rest, exists a' rest',
  coalesce_polygon_loop cmp front (a :: rest) bs = a' :: rest' /\ last (a' :: rest') a' = last (a :: rest) a /\
  subsequence (rev (a' :: rest')) (rev (a :: rest) ++ bs).
Proof.
  intros cmp front. induction bs as [|b bs IH]; intros a rest.
  - exists a, rest. split; [reflexivity|]. split; [reflexivity|]. rewrite app_nil_r. apply sub_refl.
  - cbn [coalesce_polygon_loop]. cbv zeta.
    destruct (apart cmp a b); [destruct ((match bs with [] => false | _ => true end) || apart cmp b front)|].
    + destruct (IH b (a :: rest)) as (a' & rest' & E & F & S). exists a', rest'. split; [exact E|]. split; [rewrite F, !last_cons; reflexivity|].
      apply (sub_trans _ _ _ _ S). cbn [rev]. rewrite <- !app_assoc. cbn [app]. apply sub_refl.
    + destruct (IH a rest) as (a' & rest' & E & F & S). exists a', rest'. split; [exact E|]. split; [exact F|].
      apply (sub_trans _ _ _ _ S). apply sub_app; [apply sub_refl|]. constructor. apply sub_refl.
    + destruct (IH a rest) as (a' & rest' & E & F & S). exists a', rest'. split; [exact E|]. split; [exact F|].
      apply (sub_trans _ _ _ _ S). apply sub_app; [apply sub_refl|]. constructor. apply sub_refl.
Qed.
Lemma coalesce_polygon_any : forall cmp ps d, let r := coalesce_adjacent_points_polygon cmp ps in
  subsequence r ps /\ hd d r = hd d ps.
Proof.
  intros cmp ps d. unfold coalesce_adjacent_points_polygon. destruct ps as [|p0 [|p1 [|p2 [|p3 rest]]]]; try (split; [apply sub_refl|reflexivity]).
  destruct (coalesce_polygon_loop_any cmp p0 (p1 :: p2 :: p3 :: rest) p0 []) as (a & l & E & F & S). cbv zeta. rewrite E. split; [exact S|].
  rewrite hd_rev, last_cons. rewrite last_cons in F. rewrite F. reflexivity.
Qed.

(** ** Repeated vertices, direct comparison *)
Lemma norep_snoc : forall a rest b, no_repeated_vertex (rev (a :: rest)) -> ~ a =p= b -> no_repeated_vertex (rev (b :: a :: rest)).
Proof.
  intros a rest b H N i A B H1 H2. cbn [rev] in H1, H2. rewrite <- app_assoc in H1, H2. cbn [app] in H1, H2.
  set (n := length (rev rest)). destruct (Nat.lt_trichotomy i n) as [L|[L|L]].
  - apply (H i A B); cbn [rev].
    + change [a; b] with ([a] ++ [b]) in H1. rewrite app_assoc, nth_error_app1 in H1 by (rewrite app_length; cbn [length]; fold n; lia). exact H1.
    + change [a; b] with ([a] ++ [b]) in H2. rewrite app_assoc, nth_error_app1 in H2 by (rewrite app_length; cbn [length]; fold n; lia). exact H2.
  - subst i. rewrite nth_error_app2 in H1, H2 by (fold n; lia). fold n in H1, H2. rewrite Nat.sub_diag in H1.
    replace (S n - n)%nat with 1%nat in H2 by lia. cbn in H1, H2. assert (a = A) by congruence. assert (b = B) by congruence. subst. exact N.
  - exfalso. assert (nth_error (rev rest ++ [a; b]) (S i) = None) by (apply nth_error_None; rewrite app_length; cbn [length]; fold n; lia). congruence.
Qed.
Lemma norep_single : forall a, no_repeated_vertex (rev [a]).
Proof. intros a i A B H1 H2. destruct i as [|i]; [discriminate|destruct i; discriminate]. Qed.

Lemma seg_equal : forall a b c X, a =p= b -> (on_segment b c X <-> on_segment a c X).
Proof.
  intros a b c X [Ex Ey]. unfold on_segment, lerp, pteq, vadd, vscale, vsub; cbn [px py].
  split; intros (t & T & H1 & H2); exists t; (split; [exact T|]); rewrite H1, H2, Ex, Ey; split; reflexivity.
Qed.
Lemma seg_point : forall a b X, a =p= b -> (on_segment a b X -> X =p= a).
Proof.
  intros a b X [Ex Ey] (t & T & H1 & H2). unfold lerp, vadd, vscale, vsub in *; cbn [px py] in *. split; [rewrite H1, Ex; ring|rewrite H2, Ey; ring].
Qed.
Definition covers (ps : list pt) (X : pt) : Prop := (exists v, In v ps /\ X =p= v) \/ on_path ps X.
Lemma covers_drop : forall l1 a b l2 X, a =p= b -> (covers (l1 ++ a :: b :: l2) X <-> covers (l1 ++ a :: l2) X).
Proof.
  intros l1 a b l2 X E. unfold covers. rewrite (on_path_app l1 a (b :: l2)), (on_path_app l1 a l2).
  change (on_path (a :: b :: l2) X) with (on_segment a b X \/ on_path (b :: l2) X).
  assert (V : (exists v, In v (l1 ++ a :: b :: l2) /\ X =p= v) <-> (exists v, In v (l1 ++ a :: l2) /\ X =p= v)).
  { split; intros (v & I & Ev); apply in_app_or in I.
    - destruct I as [I|[I|[I|I]]]; [exists v|exists a|exists a|exists v]; (split; [apply in_or_app; cbn; tauto|]); try assumption.
      + subst v. exact Ev.
      + subst v. destruct E as [E1 E2], Ev as [E3 E4]. split; lra.
    - exists v. split; [apply in_or_app; cbn in *; tauto|exact Ev]. }
  assert (P : on_path (b :: l2) X <-> on_path (a :: l2) X).
  { destruct l2 as [|c l2]; [reflexivity|]. change (on_segment b c X \/ on_path (c :: l2) X <-> on_segment a c X \/ on_path (c :: l2) X).
    rewrite (seg_equal a b c X E). reflexivity. }
  rewrite V, P. split; [|tauto].
  intros [H|[H|[H|H]]]; try tauto. left. exists a. split; [apply in_or_app; cbn; tauto|]. apply (seg_point a b X E H).
Qed.
Lemma covers_touches : forall ps X, touches ps X <-> covers ps X.
Proof. intros. unfold touches, covers. rewrite on_path_polyline. reflexivity. Qed.

Lemma coalesce_loop_ok : forall bs a rest, no_repeated_vertex (rev (a :: rest)) ->
  let acc := fold_left (coalesce_step direct) bs (a :: rest) in
  no_repeated_vertex (rev acc) /\ hd a acc =p= last bs a /\ forall X, covers (rev acc) X <-> covers (rev (a :: rest) ++ bs) X.
Proof.
  induction bs as [|b bs IH]; intros a rest N.
  - cbn [fold_left]. split; [exact N|]. split; [cbn; split; reflexivity|]. intro X. rewrite app_nil_r. reflexivity.
  - cbv zeta in *. cbn [fold_left]. assert (K : coalesce_step direct (a :: rest) b = if apart direct a b then b :: a :: rest else a :: rest) by reflexivity.
    rewrite K. clear K. destruct (apart direct a b) eqn:E.
    + apply apart_direct in E. destruct (IH b (a :: rest) (norep_snoc a rest b N E)) as (A & B & C). split; [exact A|]. split.
      * rewrite last_cons. destruct (coalesce_loop_any direct bs b (a :: rest)) as (a' & r' & EE & _). rewrite EE in *. exact B.
      * intro X. rewrite C. cbn [rev]. rewrite <- !app_assoc. cbn [app]. reflexivity.
    + apply apart_false in E. destruct (IH a rest N) as (A & B & C). split; [exact A|]. split.
      * rewrite last_cons. destruct bs as [|c bs]; [cbn [fold_left hd last] in *; exact E|]. rewrite !last_cons in *. exact B.
      * intro X. rewrite C. cbn [rev]. rewrite <- !app_assoc. cbn [app]. symmetry. apply covers_drop, E.
Qed.
Lemma coalesce_polyline_ok : forall ps d, (3 <= length ps)%nat -> let r := coalesce_adjacent_points_polyline direct ps in
  no_repeated_vertex r /\ last r d =p= last ps d /\ forall X, touches r X <-> touches ps X.
Proof.
  intros ps d L. destruct ps as [|p0 [|p1 [|p2 rest]]]; try (cbn in L; lia).
  destruct (coalesce_loop_ok (p1 :: p2 :: rest) p0 [] (norep_single p0)) as (A & B & C).
  cbv zeta. unfold coalesce_adjacent_points_polyline. split; [exact A|]. split.
  - rewrite last_rev. destruct (coalesce_loop_any direct (p1 :: p2 :: rest) p0 []) as (a' & r' & EE & _). rewrite EE in *.
    rewrite (last_cons (p1 :: p2 :: rest) p0 d). exact B.
  - intro X. rewrite !covers_touches. apply C.
Qed.

(** Polygon: successive vertices differ, the area is kept. *)
Lemma tri2_same12 : forall a b c, a =p= b -> tri2 a b c == 0.
Proof. intros a b c [X Y]. unfold tri2, cross, vsub; cbn [px py]. rewrite X, Y. ring. Qed.
Lemma tri2_same23 : forall a b c, b =p= c -> tri2 a b c == 0.
Proof. intros a b c [X Y]. unfold tri2, cross, vsub; cbn [px py]. rewrite X, Y. ring. Qed.
Lemma area2_drop_end : forall l a b, a =p= b -> area2 (l ++ [a; b]) == area2 (l ++ [a]).
Proof.
  intros [|f l] a b E.
  - cbn [app]. unfold area2, closed_chain. cbn. destruct E as [X Y]. unfold cross. rewrite X, Y. ring.
  - cbn [app]. rewrite area2_drop_last. rewrite (tri2_same12 a b f E). ring.
Qed.
Lemma coalesce_polygon_loop_ok : forall front bs a rest, no_repeated_vertex (rev (a :: rest)) -> last (a :: rest) front = front ->
  let acc := coalesce_polygon_loop direct front (a :: rest) bs in
  no_repeated_vertex (rev acc) /\ area2 (rev acc) == area2 (rev (a :: rest) ++ bs).
Proof.
  intros front. induction bs as [|b bs IH]; intros a rest N F.
  - cbn [coalesce_polygon_loop]. cbv zeta. split; [exact N|]. rewrite app_nil_r. reflexivity.
  - cbn [coalesce_polygon_loop]. cbv zeta.
    destruct (apart direct a b) eqn:E.
    + apply apart_direct in E. pose proof (norep_snoc a rest b N E) as N'.
      destruct bs as [|c bs]; cbn [orb].
      * destruct (apart direct b front) eqn:E2; cbn [coalesce_polygon_loop].
        -- split; [exact N'|]. cbn [rev]. rewrite <- !app_assoc. reflexivity.
        -- split; [exact N|]. apply apart_false in E2. cbn [rev]. rewrite <- !app_assoc. cbn [app].
           destruct (rev rest) as [|f l] eqn:R.
           ++ assert (rest = []) by (rewrite <- (rev_involutive rest), R; reflexivity). subst rest. cbn [last] in F. subst a.
              exfalso. apply E. destruct E2 as [E3 E4]. split; lra.
           ++ assert (f = front).
              { assert (R2 : rest = rev l ++ [f]) by (rewrite <- (rev_involutive rest), R; reflexivity).
                rewrite <- F, R2. change (a :: rev l ++ [f]) with ((a :: rev l) ++ [f]). rewrite last_app by discriminate. reflexivity. }
              subst f. cbn [app]. rewrite (area2_drop_last front l a b), (tri2_same23 a b front E2). ring.
      * destruct (IH b (a :: rest) N') as [A B]; [rewrite <- F at 2; rewrite !last_cons; reflexivity|].
        split; [exact A|]. rewrite B. cbn [rev]. rewrite <- !app_assoc. reflexivity.
    + apply apart_false in E. destruct (IH a rest N F) as [A B]. split; [exact A|]. rewrite B. cbn [rev]. rewrite <- !app_assoc. cbn [app].
      destruct bs as [|c bs].
      * symmetry. apply area2_drop_end, E.
      * rewrite area2_drop, (tri2_same12 a b c E). ring.
Qed.
Lemma coalesce_polygon_ok : forall ps, (4 <= length ps)%nat -> let r := coalesce_adjacent_points_polygon direct ps in
  no_repeated_vertex r /\ area2 r == area2 ps.
Proof.
  intros ps L. destruct ps as [|p0 [|p1 [|p2 [|p3 rest]]]]; try (cbn in L; lia).
  destruct (coalesce_polygon_loop_ok p0 (p1 :: p2 :: p3 :: rest) p0 [] (norep_single p0) eq_refl) as [A B].
  cbv zeta. unfold coalesce_adjacent_points_polygon. split; [exact A|]. rewrite B. reflexivity.
Qed.
Lemma coalesce_polygon_area2 : forall ps, area2 (coalesce_adjacent_points_polygon direct ps) == area2 ps.
Proof.
  intro ps. destruct (Nat.le_gt_cases 4 (length ps)) as [L|L]; [apply coalesce_polygon_ok, L|].
  destruct ps as [|p0 [|p1 [|p2 [|p3 rest]]]]; try reflexivity. cbn in L; lia.
Qed.

(** ** Identified indices *)
Lemma identify_adjacent_ge : forall cmp front bs a i j, In j (identify_adjacent_loop cmp front a i bs) -> (i <= j)%nat.
Proof.
  intros cmp front. induction bs as [|b bs IH]; intros a i j H; [contradiction|]. cbn [identify_adjacent_loop] in H.
  destruct (apart cmp a b && _); [apply IH in H; lia|]. destruct H as [H|H]; [lia|apply IH in H; lia].
Qed.
Lemma existsb_nat : forall j l, existsb (Nat.eqb j) l = true <-> In j l.
Proof.
  intros j l. rewrite existsb_exists. split; [intros (x & I & E); apply Nat.eqb_eq in E; subst; exact I|].
  intro I. exists j. split; [exact I|apply Nat.eqb_refl].
Qed.
Lemma combine_seq_ge : forall (l : list pt) i e, In e (combine (seq i (length l)) l) -> (i <= fst e)%nat.
Proof.
  intros l i [j x] H. apply in_combine_l in H. apply in_seq in H. cbn. lia.
Qed.
Lemma identify_adjacent_loop_ok : forall cmp front bs a rest i,
  rev (coalesce_polygon_loop cmp front (a :: rest) bs) =
  rev (a :: rest) ++ map snd (filter (fun e => negb (existsb (Nat.eqb (fst e)) (identify_adjacent_loop cmp front a i bs))) (combine (seq i (length bs)) bs)).
Proof.
  intros cmp front. induction bs as [|b bs IH]; intros a rest i; [cbn; rewrite app_nil_r; reflexivity|].
  cbn [coalesce_polygon_loop identify_adjacent_loop length seq combine filter]. cbv zeta.
  set (more := match bs with [] => false | _ => true end).
  destruct (apart cmp a b && (more || apart cmp b front)) eqn:E.
  - apply andb_true_iff in E. destruct E as [E1 E2]. rewrite E1, E2. rewrite (IH b (a :: rest) (S i)).
    cbn [fst]. assert (NI : existsb (Nat.eqb i) (identify_adjacent_loop cmp front b (S i) bs) = false).
    { destruct (existsb _ _) eqn:X; [|reflexivity]. apply existsb_nat in X. apply identify_adjacent_ge in X. lia. }
    rewrite NI. cbn [negb map snd]. cbn [rev]. rewrite <- !app_assoc. reflexivity.
  - assert (K : (if apart cmp a b then if more || apart cmp b front then b :: a :: rest else a :: rest else a :: rest) = a :: rest).
    { destruct (apart cmp a b); [|reflexivity]. cbn [andb] in E. rewrite E. reflexivity. }
    rewrite K. rewrite (IH a rest (S i)). cbn [fst existsb]. rewrite Nat.eqb_refl. cbn [orb negb]. f_equal. f_equal.
    apply filter_ext_in. intros e I. apply combine_seq_ge in I. f_equal.
    destruct (Nat.eqb_spec (fst e) i); [lia|]. reflexivity.
Qed.
Lemma without_nil : forall (l : list pt), without_indices [] l = l.
Proof.
  intro l. unfold without_indices. cbn [existsb negb].
  assert (H : forall i, map snd (filter (fun _ : nat * pt => true) (combine (seq i (length l)) l)) = l).
  { induction l as [|x l IH]; intro i; [reflexivity|]. cbn. f_equal. apply IH. }
  apply H.
Qed.
Lemma identify_adjacent_ok : forall cmp ps,
  without_indices (identify_adjacent_points_polygon cmp ps) ps = coalesce_adjacent_points_polygon cmp ps.
Proof.
  intros cmp ps. destruct ps as [|p0 [|p1 [|p2 [|p3 rest]]]]; try apply without_nil.
  unfold coalesce_adjacent_points_polygon, identify_adjacent_points_polygon.
  set (bs := p1 :: p2 :: p3 :: rest). rewrite (identify_adjacent_loop_ok cmp p0 bs p0 [] 1).
  unfold without_indices. cbn [length seq combine filter fst].
  assert (NI : existsb (Nat.eqb 0) (identify_adjacent_loop cmp p0 p0 1 bs) = false).
  { destruct (existsb _ _) eqn:X; [|reflexivity]. apply existsb_nat in X. apply identify_adjacent_ge in X. lia. }
  rewrite NI. reflexivity.
Qed.
Lemma identify_collinear_count_loop : forall cmp front cs b a rest i,
  (length (collinear_polygon_loop cmp front (b :: a :: rest) cs) + length (identify_collinear_loop cmp front (b :: a :: rest) i cs) = S (S (length rest)) + length cs)%nat.
Proof.
  intros cmp front. induction cs as [|c cs IH]; intros b a rest i; [cbn; lia|].
  cbn [collinear_polygon_loop identify_collinear_loop]. cbv zeta.
  destruct (is_collinear cmp a b c); cbn [negb].
  - cbn [length]. pose proof (IH c a rest (S i)). lia.
  - destruct ((match cs with [] => false | _ => true end) || negb (is_collinear cmp b c front)).
    + pose proof (IH c b (a :: rest) (S i)). cbn [length] in *. lia.
    + pose proof (IH b a rest (S i)). cbn [length] in *. lia.
Qed.
Lemma identify_collinear_count : forall cmp ps,
  (length (remove_collinear_points_polygon cmp ps) + length (identify_collinear_points_polygon cmp ps) = length ps)%nat.
Proof.
  intros cmp ps. destruct ps as [|p0 [|p1 [|p2 [|p3 rest]]]]; try (cbn; lia).
  unfold remove_collinear_points_polygon, identify_collinear_points_polygon. rewrite rev_length, identify_collinear_count_loop. cbn. lia.
Qed.
