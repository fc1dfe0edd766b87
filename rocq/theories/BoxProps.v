(** Property theorems: boxes, bounds and distances to boxes
    (C06, C07, C08, C09). *)
From Verif Require Import Base CmpModel BoxModel BoxSpec BoxProof.

(** C06: exact box predicates mean what their names say, in every dimension. *)
Theorem C06_point_in_box : forall n b p, valid_box (S n) b -> length p = S n ->
  (intersects_point direct b p = true <-> in_aabb b p).
Proof. exact intersects_point_iff. Qed.

Theorem C06_boxes_intersect_iff_common_point : forall n a b, valid_box (S n) a -> valid_box (S n) b ->
  (intersects_box direct a b = true <-> exists p, in_aabb a p /\ in_aabb b p).
Proof. exact intersects_box_iff. Qed.

Theorem C06_contains_iff_subset : forall n a b, valid_box (S n) a -> valid_box (S n) b ->
  (contains_box direct a b = true <-> forall p, in_aabb b p -> in_aabb a p).
Proof. exact contains_box_iff. Qed.

(** [expand] gives the least box containing both. *)
Theorem C06_expand_is_least_upper_bound : forall n a b, valid_box n a -> valid_box n b ->
  valid_box n (expand_box a b) /\
  (forall p, in_aabb a p \/ in_aabb b p -> in_aabb (expand_box a b) p) /\
  (forall c, valid_box n c -> (forall p, in_aabb a p \/ in_aabb b p -> in_aabb c p) ->
     forall p, in_aabb (expand_box a b) p -> in_aabb c p).
Proof. exact expand_box_spec. Qed.

(** The indexed corners of a planar box are its four vertices, counter-clockwise
    from the lower left one. *)
Theorem C06_corners : forall lo hi : pt, px lo < px hi -> py lo < py hi ->
  (forall i, (i < 4)%nat -> exists c, box_corner (lo, hi) i = Some c /\
     (px c = px lo \/ px c = px hi) /\ (py c = py lo \/ py c = py hi)) /\
  (forall i, (4 <= i)%nat -> box_corner (lo, hi) i = None) /\
  (forall i a b c, (i < 4)%nat -> box_corner (lo, hi) i = Some a ->
     box_corner (lo, hi) (Nat.modulo (i + 1) 4) = Some b -> box_corner (lo, hi) (Nat.modulo (i + 2) 4) = Some c ->
     0 < cross (vsub b a) (vsub c b)).
Proof.
  intros lo hi Hx Hy; split; [|split].
  - intros i Hi; destruct i as [|[|[|[|i]]]]; try lia; eexists; (split; [reflexivity|]); simpl; auto.
  - intros i Hi; destruct i as [|[|[|[|i]]]]; try lia; reflexivity.
  - intros i a b c Hi; destruct i as [|[|[|[|i]]]]; try lia; simpl; intros E1 E2 E3;
    injection E1 as <-; injection E2 as <-; injection E3 as <-; unfold cross, vsub; simpl; nra.
Qed.

Example C06_witness :
  valid_box 2 (mkaabb [0; 0] [4; 3]) /\ valid_box 2 (mkaabb [1; 1] [2; 2]) /\
  contains_box direct (mkaabb [0; 0] [4; 3]) (mkaabb [1; 1] [2; 2]) = true /\
  intersects_box direct (mkaabb [0; 0] [4; 3]) (mkaabb [4; 3] [9; 9]) = true /\
  intersects_box direct (mkaabb [0; 0] [4; 3]) (mkaabb [5; 0] [9; 9]) = false.
Proof. repeat split; simpl; auto; repeat constructor; vm_compute; discriminate. Qed.

(** C07: bounds of a non-empty point sequence are tight.  [HI] and [LO] are the
    largest and smallest value of the coordinate type. *)
Theorem C07_bounds_tight : forall HI LO dim ps, ps <> [] ->
  (forall p, In p ps -> length p = dim /\ forall x, In x p -> LO <= x <= HI) ->
  length (get_bounds direct HI LO dim ps) = dim /\ tight_bounds ps (get_bounds direct HI LO dim ps).
Proof.
  intros HI LO dim ps Hne Hd.
  assert (Hlen : length (get_bounds direct HI LO dim ps) = dim).
  { unfold get_bounds. clear Hne Hd. assert (G : forall b, length (fold_left (fun b p => upd_bounds direct p b) ps b) = length b).
    { induction ps as [|p ps IH]; intro b; simpl; auto. rewrite IH, upd_bounds_length; reflexivity. }
    rewrite G, repeat_length; reflexivity. }
  split; [exact Hlen|].
  intros i mn mx Hi.
  assert (Hid : (i < dim)%nat) by (rewrite <- Hlen; apply nth_error_Some; congruence).
  rewrite get_bounds_axis in Hi by (auto; intros p Hp; apply Hd; auto).
  injection Hi as Hi.
  assert (Hr : forall v, In v (column i ps) -> LO <= v <= HI).
  { intros v Hv; unfold column in Hv; apply in_map_iff in Hv as (p & <- & Hp).
    destruct (Hd p Hp) as [L B]. apply B. unfold coord; apply nth_In; lia. }
  pose proof (axis_fold_inv HI LO (column i ps) [] (HI, LO) (or_introl (conj eq_refl eq_refl)) Hr) as Inv.
  simpl in Inv; rewrite Hi in Inv. destruct Inv as [[E _]|(_ & H1 & H2 & H3)].
  - destruct ps; [congruence|discriminate].
  - repeat split; auto; apply H3; auto.
Qed.

(** With a tolerance the reported box may miss points, but never by more than the
    tolerance. *)
Theorem C07_tolerant_bounds_miss_at_most_tolerance : forall tol HI LO dim ps i mn mx, 0 <= tol ->
  (forall p, In p ps -> length p = dim) -> (i < dim)%nat ->
  nth_error (get_bounds (absolute tol) HI LO dim ps) i = Some (mn, mx) ->
  forall p, In p ps -> mn - tol <= coord i p <= mx + tol.
Proof.
  intros tol HI LO dim ps i mn mx Ht Hd Hi H p Hp.
  rewrite get_bounds_axis in H by auto. injection H as H.
  pose proof (axis_fold_tol tol (column i ps) (HI, LO) Ht) as (_ & _ & G).
  rewrite H in G; simpl in G. apply G. unfold column; apply in_map; exact Hp.
Qed.
Theorem C07_tolerant_bounds_refuted : forall tol, 0 < tol -> exists ps p mn mx HI LO,
  In p ps /\ nth_error (get_bounds (absolute tol) HI LO 2 ps) 0 = Some (mn, mx) /\ coord 0 p < mn.
Proof.
  intros tol H. exists [[0; 0]; [- tol; 0]], [- tol; 0], 0, 0, (2 * tol), (- (2 * tol)).
  simpl; split; [auto|]. unfold upd_axis; simpl.
  split; [|unfold coord; simpl; lra]. 
  destruct (Qltb_spec (0 - 2 * tol) (- tol)); [|exfalso; lra].
  destruct (Qgtb_spec (0 - - (2 * tol)) tol); [|exfalso; lra]. simpl.
  destruct (Qltb_spec (- tol - 0) (- tol)); [exfalso; lra|].
  destruct (Qgtb_spec (- tol - 0) tol); [exfalso; lra|]. reflexivity.
Qed.

(** The sub-range overload includes both end indices. *)
Theorem C07_bounds_of_range : forall HI LO dim ps i j b, (i <= j)%nat ->
  (forall p, In p ps -> length p = dim /\ forall x, In x p -> LO <= x <= HI) ->
  get_bounds_range direct HI LO dim ps i j = Some b ->
  tight_bounds (firstn (S j - i) (skipn i ps)) b /\
  (forall k p, (i <= k <= j)%nat -> nth_error ps k = Some p -> In p (firstn (S j - i) (skipn i ps))).
Proof.
  intros HI LO dim ps i j b Hij Hd; unfold get_bounds_range.
  destruct (Nat.ltb_spec j i); [lia|]. destruct (Nat.ltb_spec j (length ps)); [|intro E; discriminate E].
  intro E.
  assert (Eb : get_bounds direct HI LO dim (firstn (S j - i) (skipn i ps)) = b) by congruence.
  subst b; clear E. split.
  - apply C07_bounds_tight.
    + intro E. assert (G : length (firstn (S j - i) (skipn i ps)) = 0%nat) by (rewrite E; reflexivity).
      rewrite firstn_length, skipn_length in G; lia.
    + intros p Hp. apply Hd.
      assert (Hp' : In p (skipn i ps)).
      { rewrite <- (firstn_skipn (S j - i) (skipn i ps)); apply in_or_app; auto. }
      rewrite <- (firstn_skipn i ps); apply in_or_app; auto.
  - intros k p Hk Hp.
    assert (G : nth_error (firstn (S j - i) (skipn i ps)) (k - i) = Some p).
    { rewrite <- Hp. clear - Hk H0.
      assert (A : forall (A : Type) (l : list A) n m, (m < n)%nat -> nth_error (firstn n l) m = nth_error l m).
      { clear; intros A l n; revert l; induction n; intros [|x l] [|m] Hm; simpl; auto; try lia. apply IHn; lia. }
      assert (B : forall (A : Type) (l : list A) n m, nth_error (skipn n l) m = nth_error l (n + m)).
      { clear; intros A l n; revert l; induction n; intros l m; simpl; auto.
        destruct l; simpl; auto. destruct m; reflexivity. }
      rewrite A by lia. rewrite B. f_equal; lia. }
    eapply nth_error_In; exact G.
Qed.

(** The box of a segment is the tight box of its two end points. *)
Theorem C07_segment_box : forall s e, length s = length e ->
  let b := make_aabb_segment direct s e in
  length (low b) = length s /\ length (high b) = length s /\
  forall i, (i < length s)%nat -> coord i (low b) == qmin (coord i s) (coord i e) /\
                                 coord i (high b) == qmax (coord i s) (coord i e).
Proof.
  assert (L1 : forall p lo, length (nsb_low direct p lo) = length lo).
  { induction p; intros [|l lo]; simpl; auto. }
  assert (L2 : forall p lo, length (nsb_high direct p lo) = length lo).
  { induction p; intros [|l lo]; simpl; auto. }
  assert (N1 : forall p lo i, length p = length lo -> (i < length lo)%nat ->
    coord i (nsb_low direct p lo) = (if Qltb (coord i p) (coord i lo) then coord i p else coord i lo)).
  { induction p as [|x p IH]; intros [|l lo] [|i] H Hi; simpl in *; try lia; auto.
    unfold coord in *; simpl; apply IH; lia. }
  assert (N2 : forall p hi i, length p = length hi -> (i < length hi)%nat ->
    coord i (nsb_high direct p hi) = (if Qgtb (coord i p) (coord i hi) then coord i p else coord i hi)).
  { induction p as [|x p IH]; intros [|l lo] [|i] H Hi; simpl in *; try lia; auto.
    unfold coord in *; simpl; apply IH; lia. }
  intros s e H; simpl; rewrite !L1, !L2; repeat split.
  - rewrite N1 by (rewrite ?L1; lia). rewrite N1 by lia.
    destruct (Qltb_spec (coord i s) (coord i s)); [exfalso; lra|]. unfold qmin; repeat qcase; lra.
  - rewrite N2 by (rewrite ?L2; lia). rewrite N2 by lia.
    destruct (Qgtb_spec (coord i s) (coord i s)); [exfalso; lra|]. unfold qmax; repeat qcase; lra.
Qed.

Example C07_witness : get_bounds direct 1000 (-1000) 2 [[1; 5]; [3; -2]; [2; 2]] = [(1, 3); (-2, 5)].
Proof. reflexivity. Qed.

(** C08: distance from a point to a box, and the closest point. *)
Theorem C08_point_box_distance : forall p b, ok2 b ->
  least_dist2 p (in2 b) (point_aabb_distance_sqrd p b) /\
  in2 b (point_aabb_closest_point p b) /\
  dist2 p (point_aabb_closest_point p b) == point_aabb_distance_sqrd p b.
Proof.
  intros p b H; destruct (point_aabb_closest_ok p b H) as (A & B & C).
  repeat split; try apply A; auto; try lra. eexists; split; [exact A|lra].
Qed.

Theorem C08_point_box_distance_3d : forall p b, ok3 b ->
  least_dist2_3 p (in3 b) (point_aabb_distance_sqrd3 p b) /\
  in3 b (point_aabb_closest_point3 p b) /\
  dist2_3 p (point_aabb_closest_point3 p b) == point_aabb_distance_sqrd3 p b.
Proof.
  intros p b H; destruct (point_aabb_closest_ok3 p b H) as (A & B & C).
  repeat split; try apply A; auto; try lra. eexists; split; [exact A|lra].
Qed.

(** The distance is zero exactly inside. *)
Theorem C08_point_box_distance_zero_iff_inside : forall p b, ok2 b ->
  (point_aabb_distance_sqrd p b == 0 <-> in2 b p).
Proof.
  intros p b H; destruct (point_aabb_closest_ok p b H) as (A & B & C); split.
  - intro E. rewrite B, dist2_expand in E.
    assert (E1 : px (point_aabb_closest_point p b) - px p == 0).
    { apply sq_zero. pose proof (sq_nonneg (px (point_aabb_closest_point p b) - px p)).
      pose proof (sq_nonneg (py (point_aabb_closest_point p b) - py p)). lra. }
    assert (E2 : py (point_aabb_closest_point p b) - py p == 0).
    { apply sq_zero. pose proof (sq_nonneg (px (point_aabb_closest_point p b) - px p)).
      pose proof (sq_nonneg (py (point_aabb_closest_point p b) - py p)). lra. }
    unfold in2 in *; lra.
  - intro Hin. specialize (C p Hin). rewrite dist2_expand in C.
    assert (0 <= point_aabb_distance_sqrd p b).
    { rewrite B, dist2_expand. pose proof (sq_nonneg (px (point_aabb_closest_point p b) - px p)).
      pose proof (sq_nonneg (py (point_aabb_closest_point p b) - py p)). lra. }
    lra.
Qed.

Example C08_witness : ok2 (mkbox2 (mkpt 0 0) (mkpt 2 2)) /\
  point_aabb_distance_sqrd (mkpt 5 6) (mkbox2 (mkpt 0 0) (mkpt 2 2)) == 25.
Proof. split; [split; simpl; lra | vm_compute; reflexivity]. Qed.

(** C09: distance between two boxes. *)
Theorem C09_box_box_distance : forall a b, ok2 a -> ok2 b ->
  least_dist2_sets (in2 a) (in2 b) (aabb_aabb_distance_sqrd a b).
Proof. exact aabb_aabb_least. Qed.

Theorem C09_box_box_distance_symmetric_zero : forall a b, ok2 a -> ok2 b ->
  aabb_aabb_distance_sqrd a b == aabb_aabb_distance_sqrd b a /\
  (aabb_aabb_distance_sqrd a b == 0 <-> exists p, in2 a p /\ in2 b p).
Proof. exact aabb_aabb_symmetric_zero. Qed.

(** The three-dimensional overload subtracts a y coordinate from a z coordinate. *)
Theorem C09_box_box_distance_3d_refuted : exists a b, ok3 a /\ ok3 b /\
  aabb_aabb_distance_sqrd3 a b == 0 /\ forall p q, in3 a p -> in3 b q -> 100 <= dist2_3 p q.
Proof.
  exists (mkbox3 (mkpt3 0 0 10) (mkpt3 1 1 11)), (mkbox3 (mkpt3 0 0 (-1)) (mkpt3 1 1 0)).
  repeat split; try (vm_compute; discriminate); try (vm_compute; reflexivity).
  intros p q (P1 & P2 & P3) (Q1 & Q2 & Q3); simpl in *. rewrite dist2_3_expand.
  pose proof (sq_nonneg (x3 q - x3 p)); pose proof (sq_nonneg (y3 q - y3 p)). nra.
Qed.

(** That happens when the second box is below the first; otherwise the distance is right. *)
Theorem C09_box_box_distance_3d : forall a b, ok3 a -> ok3 b ->
  (z3 (lb3 a) <= z3 (ub3 b) ->
     (exists p q, in3 a p /\ in3 b q /\ dist2_3 p q == aabb_aabb_distance_sqrd3 a b) /\
     forall p q, in3 a p -> in3 b q -> aabb_aabb_distance_sqrd3 a b <= dist2_3 p q) /\
  (z3 (ub3 b) < z3 (lb3 a) ->
     aabb_aabb_distance_sqrd3 a b ==
     aabb_aabb_distance_sqrd (mkbox2 (mkpt (x3 (lb3 a)) (y3 (lb3 a))) (mkpt (x3 (ub3 a)) (y3 (ub3 a)))) (mkbox2 (mkpt (x3 (lb3 b)) (y3 (lb3 b))) (mkpt (x3 (ub3 b)) (y3 (ub3 b)))) +
     (z3 (ub3 b) - y3 (lb3 a)) * (z3 (ub3 b) - y3 (lb3 a))).
Proof.
  intros a b (A1 & A2 & A3) (B1 & B2 & B3). split; intro Z.
  - assert (E : aabb_aabb_distance_sqrd3 a b ==
      gap2 (x3 (lb3 a)) (x3 (ub3 a)) (x3 (lb3 b)) (x3 (ub3 b)) + gap2 (y3 (lb3 a)) (y3 (ub3 a)) (y3 (lb3 b)) (y3 (ub3 b)) + gap2 (z3 (lb3 a)) (z3 (ub3 a)) (z3 (lb3 b)) (z3 (ub3 b))).
    { unfold aabb_aabb_distance_sqrd3, gap2; cbv zeta. destruct (Qltb_spec (z3 (ub3 b)) (z3 (lb3 a))); [lra|]. repeat qcase; lra. }
    destruct (gap2_spec _ _ _ _ A1 B1) as ((u & v & Hu & Hv & Euv) & Hx).
    destruct (gap2_spec _ _ _ _ A2 B2) as ((w & z & Hw & Hz & Ewz) & Hy).
    destruct (gap2_spec _ _ _ _ A3 B3) as ((s & t & Hs & Ht & Est) & Hg).
    split.
    + exists (mkpt3 u w s), (mkpt3 v z t); unfold in3; simpl; repeat split; try lra. rewrite dist2_3_expand, E; simpl; lra.
    + intros p q (P1 & P2 & P3) (Q1 & Q2 & Q3). rewrite dist2_3_expand, E.
      specialize (Hx _ _ P1 Q1); specialize (Hy _ _ P2 Q2); specialize (Hg _ _ P3 Q3); lra.
  - unfold aabb_aabb_distance_sqrd3, aabb_aabb_distance_sqrd; cbv zeta; cbn [lb2 ub2 px py]. destruct (Qltb_spec (z3 (ub3 b)) (z3 (lb3 a))); [|lra]. repeat qcase; lra.
Qed.

Example C09_witness : aabb_aabb_distance_sqrd (mkbox2 (mkpt 0 0) (mkpt 1 1)) (mkbox2 (mkpt 4 5) (mkpt 6 6)) == 25.
Proof. vm_compute; reflexivity. Qed.

Print Assumptions C06_contains_iff_subset.
Print Assumptions C07_bounds_tight.
Print Assumptions C08_point_box_distance_3d.
Print Assumptions C09_box_box_distance.
