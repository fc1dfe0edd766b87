(** Proofs about convex polygons. *)
From Coq Require Import ArithRing Psatz Permutation.
From Verif Require Import Base CmpModel OrientModel OrientSpec OrientProof DistModel DistSpec DistProof PolygonModel PolygonSpec PolygonProof.

(** ** Convex polygons *)

Lemma pnth_error : forall ps i, (i < length ps)%nat -> nth_error ps i = Some (pnth ps i).
Proof. intros ps i H. apply nth_error_nth'. exact H. Qed.
Lemma pnth_In : forall ps i, (i < length ps)%nat -> In (pnth ps i) ps.
Proof. intros ps i H. apply nth_In. exact H. Qed.
Lemma convex_pnth : forall ps i j k, convex_ccw ps -> (i < j < k)%nat -> (k < length ps)%nat -> 0 < tri2 (pnth ps i) (pnth ps j) (pnth ps k).
Proof. intros ps i j k C O K. apply (C i j k); auto; apply pnth_error; lia. Qed.
Lemma convex_cyc : forall ps i j k, convex_ccw ps -> (i < j < k)%nat -> (k <= length ps)%nat -> (k = length ps -> (0 < i)%nat) ->
  0 < tri2 (pnth ps i) (pnth ps j) (pnth ps (k mod length ps)).
Proof.
  intros ps i j k C O K Z. destruct (Nat.eq_dec k (length ps)) as [E|E].
  - rewrite E, Nat.mod_same by lia. specialize (Z E).
    assert (P : 0 < tri2 (pnth ps 0) (pnth ps i) (pnth ps j)) by (apply convex_pnth; [exact C|lia|lia]).
    pose proof (tri2_cyc (pnth ps 0) (pnth ps i) (pnth ps j)). lra.
  - rewrite Nat.mod_small by lia. apply convex_pnth; auto; lia.
Qed.
Lemma tri2_AA : forall A B, tri2 A B A == 0.
Proof. intros. unfold tri2, cross, vsub; cbn [px py]. ring. Qed.
Lemma tri2_AB : forall A B, tri2 A B B == 0.
Proof. intros. unfold tri2, cross, vsub; cbn [px py]. ring. Qed.
(** Every vertex other than the ends of an edge is strictly left of it. *)
Lemma convex_edge_vertex : forall ps i k, convex_ccw ps -> (3 <= length ps)%nat -> (i < length ps)%nat -> (k < length ps)%nat ->
  k <> i -> k <> (S i mod length ps)%nat -> 0 < tri2 (pnth ps i) (pnth ps (S i mod length ps)) (pnth ps k).
Proof.
  intros ps i k C L Hi Hk N1 N2. destruct (Nat.eq_dec (S i) (length ps)) as [E|E].
  - rewrite E, Nat.mod_same in * by lia.
    assert (P : 0 < tri2 (pnth ps 0) (pnth ps k) (pnth ps i)) by (apply convex_pnth; [exact C|lia|lia]).
    pose proof (tri2_cyc (pnth ps i) (pnth ps 0) (pnth ps k)). lra.
  - rewrite Nat.mod_small in * by lia. destruct (Nat.lt_ge_cases k i) as [S'|S'].
    + assert (P : 0 < tri2 (pnth ps k) (pnth ps i) (pnth ps (S i))) by (apply convex_pnth; [exact C|lia|lia]).
      pose proof (tri2_cyc (pnth ps k) (pnth ps i) (pnth ps (S i))). lra.
    + apply convex_pnth; [exact C|lia|lia].
Qed.
Lemma convex_vertex_left : forall ps i k, convex_ccw ps -> (3 <= length ps)%nat -> (i < length ps)%nat -> (k < length ps)%nat ->
  0 <= tri2 (pnth ps i) (pnth ps (S i mod length ps)) (pnth ps k).
Proof.
  intros ps i k C L Hi Hk. destruct (Nat.eq_dec k i) as [->|N1]; [rewrite tri2_AA; lra|].
  destruct (Nat.eq_dec k (S i mod length ps)) as [->|N2]; [rewrite tri2_AB; lra|].
  apply Qlt_le_weak, convex_edge_vertex; auto.
Qed.
Lemma tri2_comb : forall u v A B C a b c, a + b + c == 1 ->
  tri2 u v (vadd (vscale a A) (vadd (vscale b B) (vscale c C))) == a * tri2 u v A + b * tri2 u v B + c * tri2 u v C.
Proof.
  intros u v A B C a b c H. unfold tri2, cross, vadd, vscale, vsub; cbn [px py].
  setoid_replace a with (1 - b - c) by lra. ring.
Qed.
Lemma hull_left : forall ps p i, convex_ccw ps -> (3 <= length ps)%nat -> in_hull ps p -> (i < length ps)%nat ->
  0 <= tri2 (pnth ps i) (pnth ps (S i mod length ps)) p.
Proof.
  intros ps p i Cv L (A & B & C & IA & IB & IC & a & b & c & Ha & Hb & Hc & S & E) Hi.
  rewrite (tri2_pteq _ _ _ _ E), tri2_comb by exact S.
  assert (V : forall X, In X ps -> 0 <= tri2 (pnth ps i) (pnth ps (Datatypes.S i mod length ps)) X).
  { intros X HX. apply (In_nth ps X (mkpt 0 0)) in HX as (k & Hk & EX). rewrite <- EX.
    apply (convex_vertex_left ps i k); auto. }
  pose proof (V A IA) as VA. pose proof (V B IB) as VB. pose proof (V C IC) as VC.
  set (x := tri2 _ _ A) in *. set (y := tri2 _ _ B) in *. set (z := tri2 _ _ C) in *. clearbody x y z.
  clear - Ha Hb Hc VA VB VC. assert (0 <= a * x) by nra. assert (0 <= b * y) by nra. assert (0 <= c * z) by nra. lra.
Qed.
Lemma orientation_right_tri2 : forall A B p, is_right (get_orientation direct A B p) = Qltb (tri2 A B p) 0.
Proof.
  intros A B p. destruct (orientation_direct A B p) as (O1 & O2 & O3). fold (tri2 A B p) in *.
  destruct (Qltb_spec (tri2 A B p) 0) as [H|H].
  - apply O2 in H. rewrite H. reflexivity.
  - destruct (get_orientation direct A B p) eqn:E; try reflexivity. assert (tri2 A B p < 0) by (apply O2; reflexivity). lra.
Qed.
Lemma orientation_left_tri2 : forall A B p, is_left (get_orientation direct A B p) = Qltb 0 (tri2 A B p).
Proof.
  intros A B p. destruct (orientation_direct A B p) as (O1 & O2 & O3). fold (tri2 A B p) in *.
  destruct (Qltb_spec 0 (tri2 A B p)) as [H|H].
  - apply O1 in H. rewrite H. reflexivity.
  - destruct (get_orientation direct A B p) eqn:E; try reflexivity. assert (0 < tri2 A B p) by (apply O1; reflexivity). lra.
Qed.
Definition left_of_all (ps : list pt) (p : pt) : Prop :=
  forall i, (i < length ps)%nat -> 0 <= tri2 (pnth ps i) (pnth ps (S i mod length ps)) p.
Lemma subpolygon_ok : forall p ps, convex_ccw ps -> (3 <= length ps)%nat ->
  forall fuel i0 J, (i0 < J <= length ps)%nat -> (J = length ps -> (0 < i0)%nat) -> (J - i0 <= fuel)%nat ->
  exists b, point_in_subpolygon direct fuel p ps i0 (J mod length ps) = Some b /\
    (left_of_all ps p -> b = true) /\
    (b = true -> tri2 (pnth ps i0) (pnth ps (J mod length ps)) p <= 0 ->
     ((J - i0)%nat = 1%nat -> tri2 (pnth ps i0) (pnth ps (J mod length ps)) p < 0) -> in_hull ps p).
Proof.
  intros p ps Cv L. set (n := length ps) in *. induction fuel as [|fuel IH]; intros i0 J HJ HZ HF; [lia|].
  cbn [point_in_subpolygon]. cbv zeta. fold n.
  assert (J1 : (J mod n < n)%nat) by (apply Nat.mod_upper_bound; lia).
  rewrite (pnth_error ps i0), (pnth_error ps (J mod n)) by (fold n; lia).
  assert (G : ((J mod n + n - i0) mod n = J - i0)%nat).
  { destruct (Nat.eq_dec J n) as [E|E].
    - specialize (HZ E). rewrite E, Nat.mod_same by lia. rewrite Nat.mod_small by lia. lia.
    - rewrite (Nat.mod_small J n) by lia. replace (J + n - i0)%nat with (J - i0 + 1 * n)%nat by lia.
      rewrite Nat.mod_add, Nat.mod_small by lia. reflexivity. }
  rewrite G. destruct (Nat.eqb_spec (J - i0) 1) as [G1|G1].
  - eexists; split; [reflexivity|].
    assert (R : (match get_orientation direct (pnth ps i0) (pnth ps (J mod n)) p with oriented_right => false | _ => true end)
                = negb (Qltb (tri2 (pnth ps i0) (pnth ps (J mod n)) p) 0)).
    { rewrite <- orientation_right_tri2. destruct (get_orientation direct (pnth ps i0) (pnth ps (J mod n)) p); reflexivity. }
    rewrite R. split.
    + intro H. specialize (H i0). replace (S i0) with J in H by lia. fold n in H.
      destruct (Qltb_spec (tri2 (pnth ps i0) (pnth ps (J mod n)) p) 0) as [X|X]; [|reflexivity].
      assert (0 <= tri2 (pnth ps i0) (pnth ps (J mod n)) p) by (apply H; lia). lra.
    + intros B _ S. specialize (S G1). apply Qltb_lt in S. rewrite S in B. discriminate.
  - assert (M : get_middle_index i0 (J mod n) n = ((i0 + J) / 2)%nat).
    { unfold get_middle_index. destruct (Nat.eq_dec J n) as [E|E].
      - specialize (HZ E). rewrite E, Nat.mod_same by lia. destruct (Nat.ltb_spec i0 0); [lia|].
        rewrite Nat.add_0_r. apply Nat.mod_small. apply Nat.div_lt_upper_bound; lia.
      - rewrite (Nat.mod_small J n) by lia. destruct (Nat.ltb_spec i0 J); [|lia].
        apply Nat.mod_small. apply Nat.div_lt_upper_bound; lia. }
    rewrite M. set (mid := ((i0 + J) / 2)%nat).
    assert (M1 : (i0 < mid)%nat) by (unfold mid; apply Nat.div_le_lower_bound; lia).
    assert (M2 : (mid < J)%nat) by (unfold mid; apply Nat.div_lt_upper_bound; lia).
    clearbody mid. rewrite (pnth_error ps mid) by (fold n; lia).
    assert (T : 0 < tri2 (pnth ps i0) (pnth ps mid) (pnth ps (J mod n))) by (apply convex_cyc; [exact Cv|lia|fold n; lia|exact HZ]).
    assert (OR : is_right (get_orientation direct (pnth ps i0) (pnth ps mid) p) = Qltb (tri2 (pnth ps i0) (pnth ps mid) p) 0) by apply orientation_right_tri2.
    destruct (Qltb_spec (tri2 (pnth ps i0) (pnth ps mid) p) 0) as [R|R].
    + destruct (get_orientation direct (pnth ps i0) (pnth ps mid) p); cbn [is_right] in OR; try discriminate OR.
      destruct (IH i0 mid) as (b & Eb & H1 & H2); [lia|lia|lia|]. rewrite (Nat.mod_small mid n) in * by lia.
      exists b. split; [exact Eb|]. split; [exact H1|]. intros B _ _. apply H2; [exact B|lra|intros _; exact R].
    + assert (RW : (match get_orientation direct (pnth ps i0) (pnth ps mid) p with
              | oriented_right => point_in_subpolygon direct fuel p ps i0 mid
              | _ => point_in_subpolygon direct fuel p ps mid (J mod n) end) = point_in_subpolygon direct fuel p ps mid (J mod n)).
      { destruct (get_orientation direct (pnth ps i0) (pnth ps mid) p); cbn [is_right] in OR; try discriminate OR; reflexivity. }
      rewrite RW. destruct (IH mid J) as (b & Eb & H1 & H2); [lia|lia|lia|].
      exists b. split; [exact Eb|]. split; [exact H1|]. intros B Hw _.
      destruct (Qlt_le_dec (tri2 (pnth ps mid) (pnth ps (J mod n)) p) 0) as [N|N].
      * apply H2; [exact B|lra|intros _; exact N].
      * exists (pnth ps i0), (pnth ps mid), (pnth ps (J mod n)).
        repeat split; try (apply pnth_In; fold n; lia).
        apply in_triangle_iff; [exact T|]. repeat split; [exact R|exact N|]. rewrite tri2_swap. lra.
Qed.
Lemma convex_polygon_ok : forall p ps, convex_ccw ps -> (3 <= length ps)%nat ->
  exists b, point_in_convex_polygon direct p ps = Some b /\ (left_of_all ps p -> b = true) /\ (b = true -> in_hull ps p).
Proof.
  intros p ps Cv L. unfold point_in_convex_polygon. set (n := length ps) in *.
  replace (n + 1)%nat with (S n) by lia. cbn [point_in_subpolygon]. cbv zeta. fold n.
  rewrite (pnth_error ps 0) by (fold n; lia).
  replace (0 + n - 0)%nat with n by lia. rewrite Nat.mod_same by lia. cbn [Nat.eqb].
  assert (M : get_middle_index 0 0 n = (n / 2)%nat).
  { unfold get_middle_index. cbn [Nat.ltb Nat.leb]. replace (0 + 0 + n)%nat with n by lia. apply Nat.mod_small. apply Nat.div_lt; lia. }
  rewrite M. set (mid := (n / 2)%nat).
  assert (M1 : (1 <= mid)%nat) by (unfold mid; apply Nat.div_le_lower_bound; lia).
  assert (M2 : (mid < n - 1)%nat) by (unfold mid; apply Nat.div_lt_upper_bound; lia).
  clearbody mid. rewrite (pnth_error ps mid) by (fold n; lia).
  assert (OR : is_right (get_orientation direct (pnth ps 0) (pnth ps mid) p) = Qltb (tri2 (pnth ps 0) (pnth ps mid) p) 0) by apply orientation_right_tri2.
  destruct (Qltb_spec (tri2 (pnth ps 0) (pnth ps mid) p) 0) as [R|R].
  - destruct (get_orientation direct (pnth ps 0) (pnth ps mid) p); cbn [is_right] in OR; try discriminate OR.
    destruct (subpolygon_ok p ps Cv L n 0%nat mid) as (b & Eb & H1 & H2); fold n; try lia. fold n in Eb, H2.
    rewrite (Nat.mod_small mid n) in * by lia. exists b. split; [exact Eb|]. split; [exact H1|].
    intro B. apply H2; [exact B|lra|intros _; exact R].
  - assert (RW : (match get_orientation direct (pnth ps 0) (pnth ps mid) p with
            | oriented_right => point_in_subpolygon direct n p ps 0 mid
            | _ => point_in_subpolygon direct n p ps mid 0 end) = point_in_subpolygon direct n p ps mid 0).
    { destruct (get_orientation direct (pnth ps 0) (pnth ps mid) p); cbn [is_right] in OR; try discriminate OR; reflexivity. }
    rewrite RW. destruct (subpolygon_ok p ps Cv L n mid n) as (b & Eb & H1 & H2); fold n; try lia. fold n in Eb, H2.
    rewrite Nat.mod_same in * by lia. exists b. split; [exact Eb|]. split; [exact H1|].
    intro B. apply H2; [exact B| |lia]. rewrite tri2_swap. lra.
Qed.
Lemma convex_polygon_exact : forall p ps, convex_ccw ps -> (3 <= length ps)%nat ->
  exists b, point_in_convex_polygon direct p ps = Some b /\ (b = true <-> in_hull ps p).
Proof.
  intros p ps Cv L. destruct (convex_polygon_ok p ps Cv L) as (b & E & H1 & H2). exists b. split; [exact E|].
  split; [exact H2|]. intro H. apply H1. intros i Hi. apply hull_left; assumption.
Qed.
Lemma left_of_all_hull : forall ps p, convex_ccw ps -> (3 <= length ps)%nat -> (in_hull ps p <-> left_of_all ps p).
Proof.
  intros ps p Cv L. split; [intros H i Hi; apply hull_left; assumption|].
  intro H. destruct (convex_polygon_ok p ps Cv L) as (b & _ & H1 & H2). apply H2, H1, H.
Qed.
Lemma quadrilateral_exact : forall p v0 v1 v2 v3, convex_ccw [v0; v1; v2; v3] ->
  (point_in_convex_quadrilateral direct p v0 v1 v2 v3 = true <-> in_hull [v0; v1; v2; v3] p).
Proof.
  intros p v0 v1 v2 v3 Cv. assert (L : (3 <= length [v0; v1; v2; v3])%nat) by (simpl; lia).
  assert (T1 : 0 < tri2 v0 v1 v2) by (apply (Cv 0 1 2)%nat; auto).
  assert (T2 : 0 < tri2 v0 v2 v3) by (apply (Cv 0 2 3)%nat; auto).
  unfold point_in_convex_quadrilateral. rewrite orientation_left_tri2, !orientation_right_tri2.
  split.
  - destruct (Qltb_spec 0 (tri2 v0 v2 p)) as [H|H]; cbn [negb].
    + destruct (Qltb_spec (tri2 v2 v3 p) 0); [discriminate|]. destruct (Qltb_spec (tri2 v3 v0 p) 0); [discriminate|]. intros _.
      exists v0, v2, v3. repeat split; try (simpl; tauto). apply in_triangle_iff; [exact T2|]. repeat split; lra.
    + destruct (Qltb_spec (tri2 v0 v1 p) 0); [discriminate|]. destruct (Qltb_spec (tri2 v1 v2 p) 0); [discriminate|]. intros _.
      exists v0, v1, v2. repeat split; try (simpl; tauto). apply in_triangle_iff; [exact T1|]. repeat split; try lra.
      rewrite tri2_swap. lra.
  - intro H. pose proof (hull_left _ p 0 Cv L H) as E0. pose proof (hull_left _ p 1 Cv L H) as E1.
    pose proof (hull_left _ p 2 Cv L H) as E2. pose proof (hull_left _ p 3 Cv L H) as E3. unfold pnth in *; simpl in E0, E1, E2, E3.
    specialize (E0 ltac:(lia)). specialize (E1 ltac:(lia)). specialize (E2 ltac:(lia)). specialize (E3 ltac:(lia)).
    destruct (Qltb 0 (tri2 v0 v2 p)); cbn [negb].
    + destruct (Qltb_spec (tri2 v2 v3 p) 0); [lra|]. destruct (Qltb_spec (tri2 v3 v0 p) 0); [lra|]. reflexivity.
    + destruct (Qltb_spec (tri2 v0 v1 p) 0); [lra|]. destruct (Qltb_spec (tri2 v1 v2 p) 0); [lra|]. reflexivity.
Qed.

(** ** Crossing count against convex polygons *)

Lemma list_bound : forall ps : list pt, exists K, 0 <= K /\ forall v, In v ps -> - K < px v /\ px v < K /\ - K < py v /\ py v < K.
Proof.
  induction ps as [|a ps (K & HK & IH)]; [exists 0; split; [lra|intros v []]|].
  exists (K + qabs (px a) + qabs (py a) + 1).
  assert (A1 : - qabs (px a) <= px a /\ px a <= qabs (px a) /\ 0 <= qabs (px a)) by (unfold qabs; qcase; lra).
  assert (A2 : - qabs (py a) <= py a /\ py a <= qabs (py a) /\ 0 <= qabs (py a)) by (unfold qabs; qcase; lra).
  split; [lra|]. intros v [E|I]; [subst v; repeat split; lra|]. specialize (IH v I). repeat split; lra.
Qed.
Lemma exceed : forall a d K, 0 < d -> exists M, 0 <= M /\ K < a + M * d.
Proof.
  intros a d K H. exists ((qabs (K - a) + 1) / d).
  assert (A : 0 <= qabs (K - a) /\ K - a <= qabs (K - a)) by (unfold qabs; qcase; lra).
  split; [apply Qle_shift_div_l; lra|].
  setoid_replace ((qabs (K - a) + 1) / d * d) with (qabs (K - a) + 1) by (field; lra). lra.
Qed.
(** Moving far enough along a nonzero direction leaves the bounding box. *)
Lemma far_point : forall ps p d, nonzero d -> exists M, 0 <= M /\ outside_box ps (vadd p (vscale M d)).
Proof.
  intros ps p d N. destruct (list_bound ps) as (K & HK & B). unfold outside_box, vadd, vscale; cbn [px py].
  destruct (Qlt_le_dec 0 (px d)) as [X|X].
  { destruct (exceed (px p) (px d) K X) as (M & HM & E). exists M. split; [exact HM|]. left. intros v I. specialize (B v I). lra. }
  destruct (Qlt_le_dec (px d) 0) as [X'|X'].
  { destruct (exceed (- px p) (- px d) K ltac:(lra)) as (M & HM & E). exists M. split; [exact HM|]. right; left. intros v I. specialize (B v I). lra. }
  destruct (Qlt_le_dec 0 (py d)) as [Y|Y].
  { destruct (exceed (py p) (py d) K Y) as (M & HM & E). exists M. split; [exact HM|]. right; right; left. intros v I. specialize (B v I). lra. }
  destruct (Qlt_le_dec (py d) 0) as [Y'|Y'].
  { destruct (exceed (- py p) (- py d) K ltac:(lra)) as (M & HM & E). exists M. split; [exact HM|]. right; right; right. intros v I. specialize (B v I). lra. }
  exfalso. apply N. split; lra.
Qed.
Lemma tri2_on_segment : forall u v A B X, on_segment A B X -> exists t, 0 <= t <= 1 /\ tri2 u v X == tri2 u v A + t * (tri2 u v B - tri2 u v A).
Proof. intros u v A B X (t & Ht & E). exists t. split; [exact Ht|]. rewrite (tri2_pteq _ _ _ _ E). apply tri2_lerp. Qed.
(** A segment strictly right of an edge of a convex polygon misses the polygon. *)
Lemma right_misses : forall ps i p q, convex_ccw ps -> (3 <= length ps)%nat -> (i < length ps)%nat ->
  tri2 (pnth ps i) (pnth ps (S i mod length ps)) p < 0 -> tri2 (pnth ps i) (pnth ps (S i mod length ps)) q < 0 ->
  forall j u v, polygon_edge ps j u v -> misses p q u v.
Proof.
  intros ps i p q Cv L Hi Hp Hq j u v E X H1 H2.
  apply (tri2_on_segment (pnth ps i) (pnth ps (S i mod length ps))) in H1 as (t & Ht & E1).
  apply (tri2_on_segment (pnth ps i) (pnth ps (S i mod length ps))) in H2 as (s & Hs & E2).
  assert (VL : forall w, In w ps -> 0 <= tri2 (pnth ps i) (pnth ps (S i mod length ps)) w).
  { intros w Hw. apply (In_nth ps w (mkpt 0 0)) in Hw as (k & Hk & EX). rewrite <- EX. apply (convex_vertex_left ps i k); auto. }
  apply polygon_edge_in in E as [Iu Iv]. apply VL in Iu. apply VL in Iv. rewrite E1 in E2.
  set (a := tri2 _ _ p) in *. set (b := tri2 _ _ q) in *. set (c := tri2 _ _ u) in *. set (d := tri2 _ _ v) in *. clearbody a b c d.
  clear - Ht Hs Hp Hq Iu Iv E2.
  assert (a + t * (b - a) < 0) by (destruct (Qlt_le_dec a b); nra).
  assert (0 <= c + s * (d - c)) by (destruct (Qlt_le_dec c d); nra). lra.
Qed.
Lemma pip_convex_outside : forall ps p, convex_ccw ps -> (3 <= length ps)%nat -> ~ in_hull ps p -> point_in_polygon p ps = false.
Proof.
  intros ps p Cv L NH.
  assert (X : exists i, (i < length ps)%nat /\ tri2 (pnth ps i) (pnth ps (S i mod length ps)) p < 0).
  { assert (D : forall n, (n <= length ps)%nat -> (exists i, (i < n)%nat /\ tri2 (pnth ps i) (pnth ps (S i mod length ps)) p < 0) \/
        (forall i, (i < n)%nat -> 0 <= tri2 (pnth ps i) (pnth ps (S i mod length ps)) p)).
    { induction n as [|n IH]; intro Hn; [right; intros; lia|]. destruct IH as [(i & Hi & E)|IH]; [lia|left; exists i; split; [lia|exact E]|].
      destruct (Qlt_le_dec (tri2 (pnth ps n) (pnth ps (S n mod length ps)) p) 0) as [N|N].
      - left. exists n. split; [lia|exact N].
      - right. intros i Hi. destruct (Nat.eq_dec i n) as [->|Ne]; [exact N|apply IH; lia]. }
    destruct (D (length ps) (le_n _)) as [E|E]; [exact E|]. exfalso. apply NH. apply left_of_all_hull; assumption. }
  destruct X as (i & Hi & N).
  set (A := pnth ps i) in *. set (B := pnth ps (S i mod length ps)) in *.
  set (d := mkpt (py B - py A) (- (px B - px A))).
  assert (ND : nonzero d).
  { intros [E1 E2]. unfold d in E1, E2; cbn [px py] in E1, E2.
    assert (Z : tri2 A B p == 0) by (unfold tri2, cross, vsub; cbn [px py]; setoid_replace (px B - px A) with 0 by lra; setoid_replace (py B - py A) with 0 by lra; ring). lra. }
  destruct (far_point ps p d ND) as (M & HM & O).
  rewrite <- (pip_outside_box _ ps O). apply pip_same_component.
  apply (right_misses ps i); auto. fold A B.
  assert (E : tri2 A B (vadd p (vscale M d)) == tri2 A B p - M * ((px B - px A) * (px B - px A) + (py B - py A) * (py B - py A)))
    by (unfold d, tri2, cross, vsub, vadd, vscale; cbn [px py]; ring).
  rewrite E. pose proof (sq_nonneg (px B - px A)). pose proof (sq_nonneg (py B - py A)).
  set (q := (px B - px A) * (px B - px A) + (py B - py A) * (py B - py A)) in *. assert (0 <= q) by (unfold q; lra). clearbody q. clear - N HM H1.
  assert (0 <= M * q) by nra. lra.
Qed.
(** Two points strictly inside: the segment between them misses the border. *)
Lemma inside_misses : forall ps p q, strictly_inside ps p -> strictly_inside ps q -> forall j u v, polygon_edge ps j u v -> misses p q u v.
Proof.
  intros ps p q Hp Hq j u v E X H1 H2.
  apply (tri2_on_segment u v) in H1 as (t & Ht & E1). apply (tri2_on_segment u v) in H2 as (s & Hs & E2).
  rewrite tri2_AA, tri2_AB in E2. specialize (Hp j u v E). specialize (Hq j u v E). rewrite E1 in E2.
  set (a := tri2 u v p) in *. set (b := tri2 u v q) in *. clearbody a b. clear - Hp Hq Ht E2.
  assert (0 < a + t * (b - a)) by (destruct (Qlt_le_dec a b); nra). lra.
Qed.
Lemma small_step : forall (f g : nat -> Q) n, (forall i, (1 <= i < n)%nat -> 0 < f i) ->
  exists e, 0 < e /\ forall i, (1 <= i < n)%nat -> 0 < f i + e * g i /\ 0 < f i - e * g i.
Proof.
  intros f g n H.
  assert (X : exists e, 0 < e /\ forall i, (1 <= i < n)%nat -> e * qabs (g i) < f i).
  { induction n as [|n IH]; [exists 1; split; [lra|intros; lia]|].
    destruct IH as (e & He & IH); [intros; apply H; lia|].
    destruct (Nat.eq_dec n 0) as [->|Nz]; [exists e; split; [exact He|intros; lia]|].
    assert (G : 0 <= qabs (g n)) by (unfold qabs; qcase; lra). assert (F : 0 < f n) by (apply H; lia).
    set (d := f n / (qabs (g n) + 1)).
    assert (D : 0 < d) by (apply Qlt_shift_div_l; lra).
    assert (DG : d * qabs (g n) < f n).
    { assert (E : d * (qabs (g n) + 1) == f n) by (unfold d; field; lra). nra. }
    exists (qmin e d). destruct (Qlt_le_dec e d) as [Q|Q].
    - assert (E : qmin e d = e) by (unfold qmin; qcase; lra || reflexivity). rewrite E. split; [exact He|].
      intros i Hi. destruct (Nat.eq_dec i n) as [->|Ne]; [clear - Q DG G; nra|apply IH; lia].
    - assert (E : qmin e d == d) by (unfold qmin; qcase; lra). rewrite E. split; [exact D|].
      intros i Hi. rewrite E. destruct (Nat.eq_dec i n) as [->|Ne]; [exact DG|].
      assert (I : e * qabs (g i) < f i) by (apply IH; lia). assert (0 <= qabs (g i)) by (unfold qabs; qcase; lra). clear - I Q H0. nra. }
  destruct X as (e & He & X). exists e. split; [exact He|]. intros i Hi. specialize (X i Hi).
  assert (A : - qabs (g i) <= g i <= qabs (g i)) by (unfold qabs; qcase; lra). clear - He X A. split; nra.
Qed.
Lemma pip_convex_inside : forall ps p, convex_ccw ps -> (3 <= length ps)%nat -> strictly_inside ps p -> point_in_polygon p ps = true.
Proof.
  intros ps p Cv L SI. set (n := length ps) in *.
  set (A := pnth ps 0). set (B := pnth ps 1).
  set (m := lerp A B (1 # 2)). set (d := mkpt (- (py B - py A)) (px B - px A)).
  set (ef := fun i X => tri2 (pnth ps i) (pnth ps (S i mod n)) X).
  assert (EF : forall i e, ef i (vadd m (vscale e d)) == ef i m + e * (ef i (vadd m d) - ef i m))
    by (intros i e; unfold ef, tri2, cross, vsub, vadd, vscale; cbn [px py]; ring).
  assert (FM : forall i, (1 <= i < n)%nat -> 0 < ef i m).
  { intros i Hi. unfold ef, m. rewrite tri2_lerp.
    assert (VA : 0 <= tri2 (pnth ps i) (pnth ps (S i mod n)) A) by (apply convex_vertex_left; auto; lia).
    assert (VB : 0 <= tri2 (pnth ps i) (pnth ps (S i mod n)) B) by (apply convex_vertex_left; auto; lia).
    destruct (Nat.eq_dec (S i mod n) 0) as [E|E].
    - assert (NB : (1 <> i)%nat). { intro; subst i. rewrite Nat.mod_small in E by lia. lia. }
      assert (0 < tri2 (pnth ps i) (pnth ps (S i mod n)) B) by (apply convex_edge_vertex; auto; fold n; lia). lra.
    - assert (0 < tri2 (pnth ps i) (pnth ps (S i mod n)) A) by (apply convex_edge_vertex; auto; fold n; lia). lra. }
  destruct (small_step (fun i => ef i m) (fun i => ef i (vadd m d) - ef i m) n FM) as (e & He & SM).
  set (q := vadd m (vscale e d)). set (r := vadd m (vscale (- e) d)).
  assert (EQ : forall i, (1 <= i < n)%nat -> 0 < ef i q /\ 0 < ef i r).
  { intros i Hi. unfold q, r. rewrite !EF. destruct (SM i Hi). split; lra. }
  set (w := (px B - px A) * (px B - px A) + (py B - py A) * (py B - py A)).
  assert (W : 0 < w).
  { assert (T : 0 < tri2 A B (pnth ps 2)) by (apply convex_pnth; auto; lia).
    assert (0 <= w) by (unfold w; pose proof (sq_nonneg (px B - px A)); pose proof (sq_nonneg (py B - py A)); lra).
    destruct (Qlt_le_dec 0 w) as [P|P]; [exact P|]. exfalso.
    assert (Z : w == 0) by lra. unfold w in Z.
    pose proof (sq_nonneg (px B - px A)) as S1; pose proof (sq_nonneg (py B - py A)) as S2.
    assert (X : px B - px A == 0) by (apply sq_zero; lra). assert (Y : py B - py A == 0) by (apply sq_zero; lra).
    unfold tri2, cross, vsub in T; cbn [px py] in T. rewrite X, Y in T. lra. }
  assert (Q0 : tri2 A B q == e * w) by (unfold q, m, d, w, tri2, cross, lerp, vsub, vadd, vscale; cbn [px py]; ring).
  assert (R0 : tri2 A B r == - (e * w)) by (unfold r, m, d, w, tri2, cross, lerp, vsub, vadd, vscale; cbn [px py]; ring).
  assert (P0 : 0 < e * w) by (clear - He W; nra).
  assert (N1 : (1 mod n = 1)%nat) by (apply Nat.mod_small; lia).
  assert (SQ : strictly_inside ps q).
  { intros i u v E. apply edge_pnth in E as (Hi & -> & ->). fold n in Hi. destruct (Nat.eq_dec i 0) as [->|Nz].
    - fold n. rewrite N1. fold A B. lra.
    - destruct (EQ i ltac:(lia)) as [E1 _]. exact E1. }
  rewrite (pip_same_component p q ps (inside_misses ps p q SI SQ)).
  assert (RF : point_in_polygon r ps = false).
  { apply pip_convex_outside; auto. intro H. pose proof (hull_left ps r 0 Cv L H) as X. fold n in X. rewrite N1 in X. fold A B in X.
    specialize (X ltac:(lia)). lra. }
  pose proof (crossing_parity_index q r ps (fun i => Nat.eqb i 0) L) as CP.
  assert (HC : forall i u v, polygon_edge ps i u v -> if Nat.eqb i 0 then crosses q r u v else misses q r u v).
  { intros i u v E. apply edge_pnth in E as (Hi & -> & ->). fold n in Hi |- *. destruct (Nat.eqb_spec i 0) as [->|Nz].
    - rewrite N1. fold A B. split.
      + assert (E1 : tri2 q r A == - (e * w)) by (unfold q, r, m, d, w, tri2, cross, lerp, vsub, vadd, vscale; cbn [px py]; ring).
        assert (E2 : tri2 q r B == e * w) by (unfold q, r, m, d, w, tri2, cross, lerp, vsub, vadd, vscale; cbn [px py]; ring).
        rewrite E1, E2. clear - P0. nra.
      + rewrite Q0, R0. clear - P0. nra.
    - intros X H1 H2. apply (tri2_on_segment (pnth ps i) (pnth ps (S i mod n))) in H1 as (t & Ht & E1).
      apply (tri2_on_segment (pnth ps i) (pnth ps (S i mod n))) in H2 as (s & Hs & E2). rewrite tri2_AA, tri2_AB in E2.
      destruct (EQ i ltac:(lia)) as [F1 F2]. unfold ef in F1, F2. rewrite E1 in E2.
      set (a := tri2 (pnth ps i) (pnth ps (S i mod n)) q) in *. set (b := tri2 (pnth ps i) (pnth ps (S i mod n)) r) in *. clearbody a b. clear - F1 F2 Ht E2.
      assert (0 < a + t * (b - a)) by (destruct (Qlt_le_dec a b); nra). lra. }
  specialize (CP HC). rewrite RF, xorb_false_r in CP. rewrite CP. fold n.
  assert (CN : count_below (fun i => Nat.eqb i 0) n = 1%nat); [|rewrite CN; reflexivity].
  assert (L' : exists k, n = S k) by (exists (n - 1)%nat; lia). destruct L' as [k ->]. clear. unfold count_below. simpl.
  f_equal. rewrite <- seq_shift. induction (seq 0 k) as [|x l IH]; [reflexivity|exact IH].
Qed.
