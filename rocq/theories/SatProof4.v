(** Moving triangles. *)
From Verif Require Import Base CmpModel OrientModel OrientSpec OrientProof DistModel DistSpec DistProof BoxIntModel BoxIntSpec PolygonModel PolygonSpec PolygonProof PolygonConvexProof SatModel SatSpec SatProof SatProof2 SatProof3.

Definition conv (p : list pt) : Prop := (3 <= length p)%nat /\ (convex_cw p \/ convex_ccw p).
Definition no_gap (d : pt) (p q : list pt) : Prop :=
  (exists a b, In a p /\ In b q /\ dot d a <= dot d b) /\ (exists a b, In a p /\ In b q /\ dot d b <= dot d a).
Definition normals (p : list pt) : list pt := map (fun e => left_normal (vsub (snd e) (fst e))) (edges_into p).

Lemma overlap_gap : forall d p q, overlap p q -> no_gap d p q.
Proof.
  intros d p q (x & Xp & Xq).
  assert (V : forall r, in_hull r x -> forall e, exists v, In v r /\ dot e x <= dot e v).
  { intros r R e. apply (hull_vertex (dot e)); [| |exact R].
    - intros. unfold dot, vadd, vscale. cbn [px py]. ring.
    - intros u w [E1 E2]. unfold dot. rewrite E1, E2. reflexivity. }
  destruct (V p Xp d) as (a1 & Ia1 & A1). destruct (V p Xp (vneg d)) as (a2 & Ia2 & A2). destruct (V q Xq d) as (b1 & Ib1 & B1). destruct (V q Xq (vneg d)) as (b2 & Ib2 & B2).
  unfold no_gap, dot, vneg in *. cbn [px py] in *. split; [exists a2, b1|exists a1, b2]; repeat split; try assumption; lra.
Qed.
Lemma no_gap_sym : forall d p q, no_gap d p q -> no_gap d q p.
Proof. intros d p q [(a & b & A & B & H) (a' & b' & A' & B' & H')]. split; [exists b', a'|exists b, a]; auto. Qed.
(** The edges of the counterclockwise version of a polygon. *)
Lemma conv_ccw : forall p, conv p -> exists p', convex_ccw p' /\ length p' = length p /\ (forall v, In v p' <-> In v p) /\ (forall x, in_hull p' x <-> in_hull p x) /\
  forall i, (i < length p)%nat -> exists d, In d (normals p) /\ ((forall v, dot d v - dot d (pnth p' i) == tri2 (pnth p' i) (pnth p' (S i mod length p)) v) \/ (forall v, dot d v - dot d (pnth p' i) == - tri2 (pnth p' i) (pnth p' (S i mod length p)) v)).
Proof.
  intros p [L [C|C]].
  - exists (rev p). split; [apply cw_rev, C|]. split; [apply rev_length|]. split; [intro v; rewrite <- in_rev; tauto|]. split; [apply hull_rev|].
    intros i I. pose proof (rev_edge p i I) as E. exists (left_normal (vsub (pnth (rev p) i) (pnth (rev p) (S i mod length p)))). split.
    + unfold normals. apply in_map_iff. exists (pnth (rev p) (S i mod length p), pnth (rev p) i). split; [reflexivity|exact E].
    + right. intro v. unfold dot, left_normal, vsub, tri2, cross, vsub. cbn [px py]. ring.
  - exists p. split; [exact C|]. split; [reflexivity|]. split; [tauto|]. split; [tauto|].
    intros i I. exists (left_normal (vsub (pnth p (S i mod length p)) (pnth p i))). split.
    + unfold normals. apply in_map_iff. exists (pnth p i, pnth p (S i mod length p)). split; [reflexivity|]. unfold edges_into. apply in_map_iff. exists (S i mod length p)%nat.
      assert (M : (S i mod length p < length p)%nat) by (apply Nat.mod_upper_bound; lia). split; [|apply in_seq; lia]. unfold pnth, get_point. f_equal. f_equal.
      destruct (Nat.eq_dec (S i) (length p)) as [E|E]; [rewrite E, Nat.mod_same by lia; rewrite Nat.mod_small; lia|]. rewrite (Nat.mod_small (S i)) by lia.
      replace (S i + length p - 1)%nat with (i + 1 * length p)%nat by lia. rewrite Nat.mod_add by lia. apply Nat.mod_small. lia.
    + left. intro v. unfold dot, left_normal, vsub, tri2, cross, vsub. cbn [px py]. ring.
Qed.
Lemma conv_overlap : forall p q, conv p -> conv q -> (overlap p q <-> Forall (fun d => no_gap d p q) (normals p ++ normals q)).
Proof.
  intros p q Cp Cq. split.
  - intro O. apply Forall_forall. intros d _. apply overlap_gap, O.
  - intro F. rewrite Forall_forall in F. destruct (conv_ccw p Cp) as (p' & P1 & P2 & P3 & P4 & P5). destruct (conv_ccw q Cq) as (q' & Q1 & Q2 & Q3 & Q4 & Q5).
    destruct Cp as [Lp _]. destruct Cq as [Lq _].
    assert (O : overlap p' q').
    { apply separating_axis; [assumption|assumption|lia|lia| |].
      - rewrite P2. intros i I. destruct (P5 i I) as (d & D & K). destruct (F d) as [(a & b & A & B & H) (a' & b' & A' & B' & H')]; [apply in_or_app; left; exact D|].
        assert (T : forall v, In v p -> 0 <= tri2 (pnth p' i) (pnth p' (S i mod length p)) v).
        { intros v V. apply P3, (In_nth p' v (mkpt 0 0)) in V. destruct V as (k & Hk & <-). rewrite <- P2. apply (convex_vertex_left p' i k); [assumption|lia|lia|lia]. }
        destruct K as [K|K]; [exists b|exists b']; (split; [apply Q3; assumption|]); [specialize (T a A)|specialize (T a' A')]; pose proof (K a); pose proof (K b); pose proof (K a'); pose proof (K b'); lra.
      - rewrite Q2. intros i I. destruct (Q5 i I) as (d & D & K). destruct (F d) as [(a & b & A & B & H) (a' & b' & A' & B' & H')]; [apply in_or_app; right; exact D|].
        assert (T : forall v, In v q -> 0 <= tri2 (pnth q' i) (pnth q' (S i mod length q)) v).
        { intros v V. apply Q3, (In_nth q' v (mkpt 0 0)) in V. destruct V as (k & Hk & <-). rewrite <- Q2. apply (convex_vertex_left q' i k); [assumption|lia|lia|lia]. }
        destruct K as [K|K]; [exists a'|exists a]; (split; [apply P3; assumption|]); [specialize (T b' B')|specialize (T b B)]; pose proof (K a); pose proof (K b); pose proof (K a'); pose proof (K b'); lra. }
    destruct O as (x & X1 & X2). exists x. split; [apply P4, X1|apply Q4, X2].
Qed.

(** ** Moved polygons *)
Lemma tri2_move : forall t v A B C, tri2 (vadd A (vscale t v)) (vadd B (vscale t v)) (vadd C (vscale t v)) == tri2 A B C.
Proof. intros. unfold tri2, cross, vsub, vadd, vscale. cbn [px py]. ring. Qed.
Lemma conv_move : forall t v p, conv p -> conv (move t v p).
Proof.
  intros t v p [L C]. unfold conv, move. rewrite map_length. split; [exact L|]. destruct C as [C|C]; [left|right].
  - intros i j k X Y Z O E1 E2 E3. rewrite nth_error_map in E1, E2, E3.
    destruct (nth_error p i) eqn:F1; [|discriminate]. destruct (nth_error p j) eqn:F2; [|discriminate]. destruct (nth_error p k) eqn:F3; [|discriminate].
    inversion E1; inversion E2; inversion E3; subst. rewrite tri2_move. exact (C i j k _ _ _ O F1 F2 F3).
  - intros i j k X Y Z O E1 E2 E3. rewrite nth_error_map in E1, E2, E3.
    destruct (nth_error p i) eqn:F1; [|discriminate]. destruct (nth_error p j) eqn:F2; [|discriminate]. destruct (nth_error p k) eqn:F3; [|discriminate].
    inversion E1; inversion E2; inversion E3; subst. rewrite tri2_move. exact (C i j k _ _ _ O F1 F2 F3).
Qed.
Lemma normals_move : forall t v p, (0 < length p)%nat -> forall P : pt -> Prop, (forall d d', d =p= d' -> P d -> P d') -> (Forall P (normals (move t v p)) <-> Forall P (normals p)).
Proof.
  intros t v p L P PR.
  assert (N : forall i, (i < length p)%nat -> get_point (move t v p) i = vadd (get_point p i) (vscale t v)).
  { intros i I. unfold get_point, move. rewrite (nth_indep _ _ (vadd (mkpt 0 0) (vscale t v))) by (rewrite map_length; exact I). exact (map_nth (fun p0 => vadd p0 (vscale t v)) p (mkpt 0 0) i). }
  unfold normals, edges_into. rewrite !map_map, !Forall_map. cbn [fst snd]. assert (ML : length (move t v p) = length p) by apply map_length. rewrite !ML.
  rewrite !Forall_forall. split; intros H i I; specialize (H i I); cbv beta in *; apply in_seq in I.
  - rewrite !N in H by (try apply Nat.mod_upper_bound; lia). refine (PR _ _ _ H). split; unfold left_normal, vsub, vadd, vscale; cbn [px py]; ring.
  - rewrite !N by (try apply Nat.mod_upper_bound; lia). refine (PR _ _ _ H). split; unfold left_normal, vsub, vadd, vscale; cbn [px py]; ring.
Qed.
Lemma no_gap_eq : forall p q d d', d =p= d' -> no_gap d p q -> no_gap d' p q.
Proof.
  intros p q d d' [E1 E2] [(a & b & A & B & H) (a' & b' & A' & B' & H')]. assert (D : forall v, dot d v == dot d' v) by (intro v; unfold dot; rewrite E1, E2; reflexivity).
  rewrite !D in H, H'. split; [exists a, b|exists a', b']; auto.
Qed.
Lemma moved_overlap : forall t v1 p v2 q, conv p -> conv q ->
  (overlap (move t v1 p) (move t v2 q) <-> Forall (fun d => no_gap d (move t v1 p) (move t v2 q)) (normals p ++ normals q)).
Proof.
  intros t v1 p v2 q Cp Cq. rewrite conv_overlap by (apply conv_move; assumption). rewrite !Forall_app.
  destruct Cp as [Lp _]. destruct Cq as [Lq _]. rewrite !normals_move; try lia; try (apply no_gap_eq). tauto.
Qed.

(** The interval of a polygon. *)
Lemma interval_ok : forall fuel p d, finds_extremes fuel p -> exists lo hi, compute_interval direct fuel p d = Some (lo, hi) /\
  (exists v, In v p /\ dot d v = lo) /\ (exists v, In v p /\ dot d v = hi) /\ forall v, In v p -> lo <= dot d v <= hi.
Proof.
  intros fuel p d F. unfold compute_interval. destruct (F (vneg d)) as (i & -> & I1 & I2). destruct (F d) as (j & -> & J1 & J2).
  exists (dot d (get_point p i)), (dot d (get_point p j)). split; [reflexivity|]. split; [exists (get_point p i); split; [apply nth_In, I1|reflexivity]|]. split; [exists (get_point p j); split; [apply nth_In, J1|reflexivity]|].
  intros v V. specialize (I2 v V). specialize (J2 v V). fold (get_point p i) in I2. fold (get_point p j) in J2. unfold dot, vneg in *. cbn [px py] in *. lra.
Qed.
Lemma moving_loop_axes : forall fuel p q v1 v2 tmax, finds_extremes fuel p -> finds_extremes fuel q -> forall edges s,
  exists l, Forall ax_ok l /\ (forall t, Forall (ax_meet t) l <-> Forall (fun d => no_gap d (move t v1 p) (move t v2 q)) (map (fun e => left_normal (vsub (snd e) (fst e))) edges)) /\
    moving_loop direct fuel edges p q (vsub v2 v1) tmax s = Some (axes tmax l s).
Proof.
  intros fuel p q v1 v2 tmax Fp Fq. induction edges as [|[q1 q0] edges IH]; intro s.
  - exists []. split; [constructor|]. split; [intro t; split; constructor|reflexivity].
  - cbn [moving_loop map fst snd]. set (d := left_normal (vsub q0 q1)). destruct (interval_ok fuel p d Fp) as (lo1 & hi1 & -> & (a1 & A1 & EA1) & (b1 & B1 & EB1) & R1).
    destruct (interval_ok fuel q d Fq) as (lo2 & hi2 & -> & (a2 & A2 & EA2) & (b2 & B2 & EB2) & R2).
    assert (MEET : forall t, ax_meet t (dot d (vsub v2 v1), lo1, hi1, lo2, hi2) <-> no_gap d (move t v1 p) (move t v2 q)).
    { intro t. cbn [ax_meet]. assert (SP : dot d (vsub v2 v1) * t == t * dot d v2 - t * dot d v1) by (unfold dot, vsub; cbn [px py]; ring).
      assert (MV : forall x v, dot d (vadd x (vscale t v)) == dot d x + t * dot d v) by (intros; unfold dot, vadd, vscale; cbn [px py]; ring).
      assert (INM : forall v r x, In x r -> In (vadd x (vscale t v)) (move t v r)) by (intros v r x; apply in_map with (f := fun p0 => vadd p0 (vscale t v))).
      split.
      - intros [H1 H2]. split.
        + exists (vadd a1 (vscale t v1)), (vadd b2 (vscale t v2)). split; [apply INM, A1|split; [apply INM, B2|]]. rewrite !MV. rewrite EA1, EB2. lra.
        + exists (vadd b1 (vscale t v1)), (vadd a2 (vscale t v2)). split; [apply INM, B1|split; [apply INM, A2|]]. rewrite !MV. rewrite EB1, EA2. lra.
      - intros [(x & y & X & Y & H) (x' & y' & X' & Y' & H')]. unfold move in X, Y, X', Y'. apply in_map_iff in X, Y, X', Y'.
        destruct X as (x0 & <- & X), Y as (y0 & <- & Y), X' as (x1 & <- & X'), Y' as (y1 & <- & Y'). rewrite !MV in H, H'. specialize (R1 x0 X) as R11. specialize (R1 x1 X') as R12. specialize (R2 y0 Y) as R21. specialize (R2 y1 Y') as R22. lra. }
    destruct (no_intersect tmax (dot d (vsub v2 v1)) lo1 hi1 lo2 hi2 s) as [s'|] eqn:NI.
    + destruct (IH s') as (l & L1 & L2 & L3). exists ((dot d (vsub v2 v1), lo1, hi1, lo2, hi2) :: l). split; [constructor; [|exact L1]|split].
      * cbn [ax_ok]. pose proof (R1 a1 A1) as Q1. pose proof (R2 a2 A2) as Q2. lra.
      * intro t. rewrite !Forall_cons_iff, L2, MEET. tauto.
      * cbn [axes]. rewrite NI. exact L3.
    + destruct (IH s) as (l & L1 & L2 & L3). exists ((dot d (vsub v2 v1), lo1, hi1, lo2, hi2) :: l). split; [constructor; [|exact L1]|split].
      * cbn [ax_ok]. pose proof (R1 a1 A1) as Q1. pose proof (R2 a2 A2) as Q2. lra.
      * intro t. rewrite !Forall_cons_iff, L2, MEET. tauto.
      * cbn [axes]. rewrite NI. reflexivity.
Qed.
Lemma axes_app : forall tmax l1 l2 s, axes tmax (l1 ++ l2) s = match axes tmax l1 s with Some s' => axes tmax l2 s' | None => None end.
Proof. intros tmax. induction l1 as [|[[[[sp a] b] c] d] l1 IH]; intros l2 s; [reflexivity|]. cbn [axes app]. destruct (no_intersect tmax sp a b c d s); [apply IH|reflexivity]. Qed.
Lemma moving_convex_ok : forall fuel p v1 q v2 tmax, conv p -> conv q -> finds_extremes fuel p -> finds_extremes fuel q -> 0 <= tmax ->
  match moving_convex_polygons_intersection direct fuel p v1 q v2 tmax with
  | Some (Some (tfirst, tlast)) => 0 <= tfirst <= tmax /\ no_later tfirst tlast /\
      forall t, 0 <= t -> (tfirst <= t /\ no_later t tlast <-> overlap (move t v1 p) (move t v2 q))
  | Some None => forall t, 0 <= t <= tmax -> ~ overlap (move t v1 p) (move t v2 q)
  | None => False
  end.
Proof.
  intros fuel p v1 q v2 tmax Cp Cq Fp Fq TM. unfold moving_convex_polygons_intersection. cbv zeta.
  destruct (moving_loop_axes fuel p q v1 v2 tmax Fp Fq (edges_into p) (0, None)) as (l1 & A1 & M1 & ->).
  assert (LIVE : live tmax (0, None)) by (split; [cbn [fst]; lra|exact I]).
  assert (E : exists l2, Forall ax_ok l2 /\ (forall t, Forall (ax_meet t) l2 <-> Forall (fun d => no_gap d (move t v1 p) (move t v2 q)) (normals q)) /\
    match axes tmax l1 (0, None) with Some s => moving_loop direct fuel (edges_into q) p q (vsub v2 v1) tmax s | None => Some None end = Some (axes tmax (l1 ++ l2) (0, None))).
  { destruct (axes tmax l1 (0, None)) as [s|] eqn:AX.
    - destruct (moving_loop_axes fuel p q v1 v2 tmax Fp Fq (edges_into q) s) as (l2 & A2 & M2 & E2). exists l2. split; [exact A2|]. split; [exact M2|]. rewrite axes_app, AX. exact E2.
    - destruct (moving_loop_axes fuel p q v1 v2 tmax Fp Fq (edges_into q) (0, None)) as (l2 & A2 & M2 & E2). exists l2. split; [exact A2|]. split; [exact M2|]. rewrite axes_app, AX. reflexivity. }
  destruct E as (l2 & A2 & M2 & E).
  replace (match axes tmax l1 (0, None) with Some s => moving_loop direct fuel (edges_into q) p q (vsub v2 v1) tmax s | None => Some (axes tmax l1 (0, None)) end)
    with (match axes tmax l1 (0, None) with Some s => moving_loop direct fuel (edges_into q) p q (vsub v2 v1) tmax s | None => Some None end) by (destruct (axes tmax l1 (0, None)); reflexivity).
  rewrite E. pose proof (axes_ok tmax (l1 ++ l2) (0, None) LIVE (proj2 (Forall_app _ _ _) (conj A1 A2))) as AX.
  assert (MEET : forall t, overlap (move t v1 p) (move t v2 q) <-> Forall (ax_meet t) (l1 ++ l2)).
  { intro t. rewrite (moved_overlap t v1 p v2 q Cp Cq). rewrite !Forall_app, M1, M2. reflexivity. }
  destruct (axes tmax (l1 ++ l2) (0, None)) as [[tf tl]|].
  - destruct AX as [[L1 L2] AX]. cbn [fst snd] in *. split; [exact L1|split; [exact L2|]]. intros t T. rewrite MEET. specialize (AX t T). unfold window in AX. cbn [fst snd no_later] in AX. rewrite AX. tauto.
  - intros t T. rewrite MEET. apply AX; [exact T|]. split; [apply T|exact I].
Qed.
Lemma triangle_conv : forall a b c, ~ tri2 a b c == 0 -> conv [a; b; c].
Proof.
  intros a b c N. split; [cbn; lia|]. assert (D : tri2 a b c < 0 \/ 0 < tri2 a b c) by (destruct (Qlt_le_dec (tri2 a b c) 0); [left; assumption|right; lra]).
  assert (K : forall i j k A B C, (i < j < k)%nat -> nth_error [a; b; c] i = Some A -> nth_error [a; b; c] j = Some B -> nth_error [a; b; c] k = Some C -> A = a /\ B = b /\ C = c).
  { intros i j k A B C O E1 E2 E3. destruct k as [|[|[|k]]]; [lia|lia| |destruct k; discriminate]. assert (i = 0%nat /\ j = 1%nat) as [-> ->] by lia. cbn in *. repeat split; congruence. }
  destruct D as [D|D]; [left|right]; intros i j k A B C O E1 E2 E3; destruct (K i j k A B C O E1 E2 E3) as (-> & -> & ->); exact D.
Qed.
Lemma triangle_extremes : forall a b c k, finds_extremes (S (S (S (S k)))) [a; b; c].
Proof. intros a b c k d. apply extreme_triangle. Qed.
