(** C128: the small helpers. *)
From Verif Require Import Base CmpModel CmpSpec CmpProof OrientSpec PolygonProof HandyModel HandySpec.

Lemma minmax_cases : forall a b mn mx, minmax a b = (mn, mx) -> (mn = a /\ mx = b /\ a <= b) \/ (mn = b /\ mx = a /\ b <= a).
Proof.
  unfold minmax; intros a b mn mx H. destruct (Qltb_spec b a); inversion H; subst; [right|left]; repeat split; try reflexivity; lra.
Qed.

Lemma minmax_between : forall a b, fst (minmax a b) <= snd (minmax a b) /\
  forall x, (a <= x <= b \/ b <= x <= a) <-> fst (minmax a b) <= x <= snd (minmax a b).
Proof.
  intros a b; unfold minmax; destruct (Qltb_spec b a); cbn [fst snd]; split; try lra; intros x; split; intros; try lra;
    first [left; lra | right; lra].
Qed.

(** The bounding box test of two diagonals is exact: it answers true when the two closed boxes have
    a common point, and false otherwise. *)
Theorem C128_boxes : forall p1 p2 p3 p4,
  bounding_box_intersection direct p1 p2 p3 p4 = true <->
  exists X, in_diagonal_box p1 p2 X /\ in_diagonal_box p3 p4 X.
Proof.
  intros. unfold bounding_box_intersection, in_diagonal_box; cbn [greater_than_or_equal direct].
  pose proof (minmax_between (px p1) (px p2)) as B1; pose proof (minmax_between (py p1) (py p2)) as B2.
  pose proof (minmax_between (px p3) (px p4)) as B3; pose proof (minmax_between (py p3) (py p4)) as B4.
  destruct (minmax (px p1) (px p2)) as [xmin1 xmax1], (minmax (py p1) (py p2)) as [ymin1 ymax1].
  destruct (minmax (px p3) (px p4)) as [xmin2 xmax2], (minmax (py p3) (py p4)) as [ymin2 ymax2].
  cbn [fst snd] in *. destruct B1 as [O1 B1], B2 as [O2 B2], B3 as [O3 B3], B4 as [O4 B4]. unfold Qgeb.
  split.
  - rewrite !andb_true_iff. intros [[[H1 H2] H3] H4].
    apply (proj1 (Qleb_le _ _)) in H1, H2, H3, H4.
    exists (mkpt (if Qltb xmin1 xmin2 then xmin2 else xmin1) (if Qltb ymin1 ymin2 then ymin2 else ymin1)); cbn [px py].
    repeat split; [apply B1|apply B2|apply B3|apply B4];
      destruct (Qltb_spec xmin1 xmin2), (Qltb_spec ymin1 ymin2); lra.
  - intros (X & [HX1 HY1] & [HX2 HY2]). apply B1 in HX1; apply B2 in HY1; apply B3 in HX2; apply B4 in HY2.
    rewrite !andb_true_iff; repeat split; apply (proj2 (Qleb_le _ _)); lra.
Qed.

(** So two segments with a common point always pass the test, under any policy that calls a number
    at least another one whenever it is. *)
Theorem C128_segments_pass : forall cmp p1 p2 p3 p4 X,
  (forall a b, b <= a -> greater_than_or_equal cmp a b = true) ->
  on_segment p1 p2 X -> on_segment p3 p4 X -> bounding_box_intersection cmp p1 p2 p3 p4 = true.
Proof.
  intros cmp p1 p2 p3 p4 X Hc (t & Ht & [Hx Hy]) (s & Hs & [Hx' Hy']).
  unfold bounding_box_intersection.
  destruct (minmax (px p1) (px p2)) as [xmin1 xmax1] eqn:E1; destruct (minmax (py p1) (py p2)) as [ymin1 ymax1] eqn:E2.
  destruct (minmax (px p3) (px p4)) as [xmin2 xmax2] eqn:E3; destruct (minmax (py p3) (py p4)) as [ymin2 ymax2] eqn:E4.
  apply minmax_cases in E1, E2, E3, E4.
  unfold lerp, vadd, vscale, vsub in *; cbn [px py] in *.
  assert (K : forall a b mn mx u, (mn = a /\ mx = b /\ a <= b) \/ (mn = b /\ mx = a /\ b <= a) -> 0 <= u <= 1 ->
                mn <= a + u * (b - a) <= mx).
  { intros a b mn mx u [(-> & -> & H)|(-> & -> & H)] Hu; split; nra. }
  pose proof (K _ _ _ _ t E1 Ht) as X1; pose proof (K _ _ _ _ t E2 Ht) as Y1.
  pose proof (K _ _ _ _ s E3 Hs) as X2; pose proof (K _ _ _ _ s E4 Hs) as Y2.
  rewrite !Hc; try reflexivity; lra.
Qed.

Lemma dc_value : forall o a b, length a = length o -> length b = length o -> (1 <= length o <= 4)%nat ->
  exists x y, distance_compare direct o a b = Some (Qltb x y) /\ x == euclid2 o a /\ y == euclid2 o b.
Proof.
  intros o a b Ha Hb Hd. unfold distance_compare.
  destruct (distance_low_dim o a (eq_sym Ha) Hd) as (x & -> & Hx).
  destruct (distance_low_dim o b (eq_sym Hb) Hd) as (y & -> & Hy).
  exists x, y; auto.
Qed.

(** Up to dimension four [distance_compare] answers whether the first point is nearer to the fixed
    point than the second, and orders points as the standard library asks. *)
Theorem C128_distance_order : forall o, (1 <= length o <= 4)%nat ->
  (forall a b, length a = length o -> length b = length o ->
     exists r, distance_compare direct o a b = Some r /\ (r = true <-> euclid2 o a < euclid2 o b)) /\
  strict_weak (fun a => length a = length o)
    (fun a b => match distance_compare direct o a b with Some r => r | None => false end).
Proof.
  intros o Hd. split; [|split; [|split]].
  - intros a b Ha Hb. destruct (dc_value o a b Ha Hb Hd) as (x & y & -> & Hx & Hy).
    eexists; split; [reflexivity|]. destruct (Qltb_spec x y); split; intros; try reflexivity; try discriminate; lra.
  - intros a Ha. destruct (dc_value o a a Ha Ha Hd) as (x & y & -> & Hx & Hy). destruct (Qltb_spec x y); [lra|reflexivity].
  - intros a b c Ha Hb Hc.
    destruct (dc_value o a b Ha Hb Hd) as (x & y & -> & Hx & Hy), (dc_value o b c Hb Hc Hd) as (x' & y' & -> & Hx' & Hy'),
      (dc_value o a c Ha Hc Hd) as (x2 & y2 & -> & Hx2 & Hy2).
    destruct (Qltb_spec x y), (Qltb_spec x' y'), (Qltb_spec x2 y2); intros; try discriminate; try reflexivity; lra.
  - intros a b c Ha Hb Hc.
    destruct (dc_value o a b Ha Hb Hd) as (x & y & -> & Hx & Hy), (dc_value o b c Hb Hc Hd) as (x' & y' & -> & Hx' & Hy'),
      (dc_value o a c Ha Hc Hd) as (x2 & y2 & -> & Hx2 & Hy2), (dc_value o b a Hb Ha Hd) as (x3' & y3' & -> & Hx3 & Hy3),
      (dc_value o c b Hc Hb Hd) as (x4 & y4 & -> & Hx4 & Hy4), (dc_value o c a Hc Ha Hd) as (x5 & y5 & -> & Hx5 & Hy5).
    destruct (Qltb_spec x y), (Qltb_spec x' y'), (Qltb_spec x2 y2), (Qltb_spec x3' y3'), (Qltb_spec x4 y4), (Qltb_spec x5 y5);
      intros; try discriminate; try (split; reflexivity); lra.
Qed.

(** From dimension five on the nearer point need not be found nearer. *)
Theorem C128_distance_order_refuted : exists o a b, length o = 5%nat /\ length a = 5%nat /\ length b = 5%nat /\
  euclid2 o a < euclid2 o b /\ distance_compare direct o a b = Some false.
Proof. exists [0;0;0;0;0], [0;0;0;0;1], [0;0;0;0;2]. repeat split; reflexivity. Qed.
(** Under a tolerance it is no order that sorting may use: a is nearer than c, yet b is neither nearer nor
    farther than either. *)
Theorem C128_distance_tolerance_refuted : exists tol o a b c, 0 < tol /\ length o = 1%nat /\
  distance_compare (absolute tol) o a b = Some false /\ distance_compare (absolute tol) o b a = Some false /\
  distance_compare (absolute tol) o b c = Some false /\ distance_compare (absolute tol) o c b = Some false /\
  distance_compare (absolute tol) o a c = Some true.
Proof. exists 3, [0], [0], [3#2], [2]. repeat split; reflexivity. Qed.

(** [coordinate_less_compare], offered for sorting coordinates "by less than order", sorts them the
    other way round: whatever is sorted by it has its greatest coordinate first. *)
Theorem C128_coordinate_order_refuted :
  (forall l, sorted_by (coordinate_less_compare direct) l -> sorted_by (fun a b => Qltb b a) l) /\
  (forall a b, coordinate_less_compare direct a b = true <-> b < a) /\
  (sorted_by (coordinate_less_compare direct) [3; 2; 1] /\ ~ sorted_by (coordinate_less_compare direct) [1; 2; 3]).
Proof.
  split; [|split].
  - intros l H; exact H.
  - intros a b. unfold coordinate_less_compare; cbn [less_than direct]. destruct (Qltb_spec b a); split; intros K; first [reflexivity | assumption | discriminate K | exfalso; lra].
  - split.
    + repeat split; simpl; intros b Hb; repeat (destruct Hb as [<-|Hb]; [reflexivity|]); destruct Hb.
    + intros [H _]. specialize (H 2 (or_introl eq_refl)). cbv in H. discriminate.
Qed.

(** Comparing pairs by one component keeps a strict weak order one. *)
Theorem C128_pairs : forall (A B : Type) (lt1 : A -> A -> bool) (lt2 : B -> B -> bool),
  (strict_weak (fun _ => True) lt1 -> strict_weak (fun _ => True) (@pair_first_compare A B lt1)) /\
  (strict_weak (fun _ => True) lt2 -> strict_weak (fun _ => True) (@pair_second_compare A B lt2)) /\
  (forall a b c d, @pair_first_compare A B lt1 (a, b) (c, d) = lt1 a c) /\
  (forall a b c d, @pair_second_compare A B lt2 (a, b) (c, d) = lt2 b d).
Proof.
  intros A B lt1 lt2. split; [|split; [|split; reflexivity]]; intros (H1 & H2 & H3); split; [|split| |split].
  - intros a _; exact (H1 (fst a) I).
  - intros a b c _ _ _; exact (H2 (fst a) (fst b) (fst c) I I I).
  - intros a b c _ _ _; exact (H3 (fst a) (fst b) (fst c) I I I).
  - intros a _; exact (H1 (snd a) I).
  - intros a b c _ _ _; exact (H2 (snd a) (snd b) (snd c) I I I).
  - intros a b c _ _ _; exact (H3 (snd a) (snd b) (snd c) I I I).
Qed.

Lemma skipn_cons_nth : forall (P : Type) (l : list P) i, (i < length l)%nat -> exists a, nth_error l i = Some a /\ skipn i l = a :: skipn (S i) l.
Proof.
  induction l as [|x l IH]; simpl; intros [|i] H; try lia; [exists x; auto|]. apply IH; lia.
Qed.

Lemma ring_loop_ok : forall (P : Type) (a0 : P) rest, (1 <= length rest)%nat ->
  forall n i j segs, (i + n = S (length rest))%nat -> (n <> 0 -> j = (S i) mod (S (length rest)))%nat ->
  ring_loop (a0 :: rest) n i j segs = Some (segs ++ combine (skipn i (a0 :: rest)) (skipn i (rest ++ [a0]))).
Proof.
  intros P a0 rest Hr. set (ring := a0 :: rest). assert (HL : length ring = S (length rest)) by reflexivity.
  assert (HL2 : length (rest ++ [a0]) = S (length rest)) by (rewrite app_length; simpl; lia).
  induction n as [|n IH]; intros i j segs Hi Hj.
  - cbn [ring_loop]. rewrite (skipn_all2 ring) by lia. simpl; rewrite app_nil_r; reflexivity.
  - cbn [ring_loop]. specialize (Hj ltac:(lia)).
    destruct (skipn_cons_nth _ ring i) as (a & Ha & Hsa); [lia|].
    destruct (skipn_cons_nth _ (rest ++ [a0]) i) as (b & Hb & Hsb); [lia|].
    assert (Hjb : nth_error ring j = Some b).
    { destruct (Nat.eq_dec i (length rest)) as [->|Hne].
      - rewrite Hj, Nat.mod_same by lia. rewrite nth_error_app2, Nat.sub_diag in Hb by lia. exact Hb.
      - rewrite Hj, Nat.mod_small by lia. rewrite nth_error_app1 in Hb by lia. exact Hb. }
    rewrite Ha, Hjb, Hsa, Hsb. rewrite IH; [|lia|].
    + cbn [combine]. rewrite <- app_assoc; reflexivity.
    + intros Hn. rewrite HL, Hj. destruct (Nat.eq_dec i (length rest)); [lia|].
      rewrite (Nat.mod_small (S i)) by lia. f_equal; lia.
Qed.

Lemma ring_range : forall (P : Type) (ring : list P) segs, length ring <> 1%nat ->
  ring_loop ring (length ring) 0 1 segs = Some (segs ++ ring_sides ring).
Proof.
  intros P [|a0 [|a1 rest]] segs H; [simpl; rewrite app_nil_r; reflexivity|exfalso; apply H; reflexivity|].
  unfold ring_sides. rewrite ring_loop_ok; [reflexivity|simpl; lia|simpl; lia|].
  intros _. rewrite Nat.mod_small; simpl; lia.
Qed.

(** The range of a polygon with holes is the sides of the outer ring followed by the sides of each
    hole, each once and in order; no ring may be a single point. *)
Theorem C128_segment_range : forall (P : Type) (outer : list P) holes,
  (forall ring, In ring (outer :: holes) -> length ring <> 1%nat) ->
  polygon_with_holes_as_segment_range outer holes = Some (ring_sides outer ++ flat_map ring_sides holes).
Proof.
  intros P outer holes H. unfold polygon_with_holes_as_segment_range.
  rewrite ring_range by (apply H; left; reflexivity). cbn [app].
  assert (Hh : forall ring, In ring holes -> length ring <> 1%nat) by (intros; apply H; right; assumption). clear H.
  generalize (ring_sides outer). induction holes as [|h holes IH]; intros s.
  - simpl. rewrite app_nil_r; reflexivity.
  - cbn [holes_loop flat_map]. rewrite ring_range by (apply Hh; left; reflexivity).
    rewrite IH by (intros; apply Hh; right; assumption). rewrite app_assoc; reflexivity.
Qed.

(** A ring that is a single point is read past its end. *)
Theorem C128_segment_range_refuted : forall (P : Type) (outer : list P) holes ring,
  In ring (outer :: holes) -> length ring = 1%nat -> polygon_with_holes_as_segment_range outer holes = None.
Proof.
  intros P outer holes ring Hin Hl.
  assert (H1 : forall segs, ring_loop ring (length ring) 0 1 segs = None).
  { intros; destruct ring as [|a [|b r]]; try discriminate. reflexivity. }
  assert (Hh : In ring holes -> forall s, holes_loop holes s = None).
  { clear Hin. induction holes as [|h holes IH]; intros Hin s; [destruct Hin|]. cbn [holes_loop].
    destruct Hin as [->|Hin]; [rewrite H1; reflexivity|].
    destruct (ring_loop h (length h) 0 1 s); [apply IH; exact Hin|reflexivity]. }
  unfold polygon_with_holes_as_segment_range. destruct Hin as [->|Hin].
  - rewrite H1; reflexivity.
  - destruct (ring_loop outer (length outer) 0 1 []); [apply Hh; exact Hin|reflexivity].
Qed.

Example C128_witness :
  bounding_box_intersection direct (mkpt 0 2) (mkpt 2 0) (mkpt 3 3) (mkpt 1 1) = true /\
  bounding_box_intersection direct (mkpt 0 0) (mkpt 1 1) (mkpt 2 0) (mkpt 3 1) = false /\
  distance_compare direct [0; 0] [1; 1] [2; 0] = Some true /\
  @pair_first_compare Q Q Qltb (1, 5) (2, 3) = true /\ @pair_second_compare Q Q Qltb (1, 5) (2, 3) = false /\
  polygon_with_holes_as_segment_range [1; 2; 3]%nat [[4; 5]%nat] = Some [(1, 2); (2, 3); (3, 1); (4, 5); (5, 4)]%nat /\
  polygon_with_holes_as_segment_range [1; 2; 3]%nat [[4]%nat] = None.
Proof. repeat split. Qed.

Print Assumptions C128_boxes.
Print Assumptions C128_segments_pass.
Print Assumptions C128_distance_order.
Print Assumptions C128_distance_order_refuted.
Print Assumptions C128_distance_tolerance_refuted.
Print Assumptions C128_coordinate_order_refuted.
Print Assumptions C128_pairs.
Print Assumptions C128_segment_range.
Print Assumptions C128_segment_range_refuted.
