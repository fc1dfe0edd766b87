From Verif Require Import Base CmpModel CmpProof OrientModel OrientSpec.

Lemma nz_dot : forall v, nonzero v -> 0 < dot v v.
Proof.
  intros [x y] H; unfold nonzero, dot in *; simpl in *.
  pose proof (sq_nonneg x); pose proof (sq_nonneg y).
  destruct (Qeq_dec x 0) as [Ex|Ex].
  - destruct (Qeq_dec y 0) as [Ey|Ey]; [exfalso; apply H; split; assumption|].
    assert (~ y * y == 0) by (intro G; apply Ey, sq_zero; exact G). lra.
  - assert (~ x * x == 0) by (intro G; apply Ex, sq_zero; exact G). lra.
Qed.

Lemma orientation_direct : forall A B C,
  (get_orientation direct A B C = oriented_left <-> 0 < cross (vsub B A) (vsub C A)) /\
  (get_orientation direct A B C = oriented_right <-> cross (vsub B A) (vsub C A) < 0) /\
  (get_orientation direct A B C = oriented_collinear <-> cross (vsub B A) (vsub C A) == 0).
Proof.
  intros A B C; unfold get_orientation, get_orientation_v, orientation, cross; simpl.
  set (u := (px B - px A) * (py C - py A)); set (v := (py B - py A) * (px C - px A)).
  destruct (Qltb_spec u v); [|destruct (Qgtb_spec u v)];
    (split; [|split]); split; intro G; try discriminate; try reflexivity; try lra; exfalso; lra.
Qed.

Lemma orientation_direct_v : forall A B,
  (get_orientation_v direct A B = oriented_left <-> 0 < cross A B) /\
  (get_orientation_v direct A B = oriented_right <-> cross A B < 0) /\
  (get_orientation_v direct A B = oriented_collinear <-> cross A B == 0).
Proof.
  intros A B; unfold get_orientation_v, orientation, cross; simpl.
  set (u := px A * py B); set (v := py A * px B).
  destruct (Qltb_spec u v); [|destruct (Qgtb_spec u v)];
    (split; [|split]); split; intro G; try discriminate; try reflexivity; try lra; exfalso; lra.
Qed.

(** Decomposition of a point along a line and its normal. *)
Lemma decompose : forall A B C, nonzero (vsub B A) ->
  let n := dot (vsub B A) (vsub B A) in
  C =p= vadd (lerp A B (dot (vsub B A) (vsub C A) / n))
             (vscale (cross (vsub B A) (vsub C A) / n) (left_normal (vsub B A))).
Proof.
  intros [ax ay] [bx by_] [cx cy] H n. pose proof (nz_dot _ H) as Hn. fold n in Hn.
  unfold n, pteq, lerp, vadd, vscale, left_normal, vsub, dot, cross in *; simpl in *.
  set (u := bx - ax) in *; set (v := by_ - ay) in *.
  split; field; lra.
Qed.

Lemma cross_offset : forall A B C k, offset_from_line A B C k ->
  cross (vsub B A) (vsub C A) == k * dot (vsub B A) (vsub B A).
Proof.
  intros A B C k (t & Hx & Hy); unfold lerp, vadd, vscale, left_normal, vsub, cross, dot in *; simpl in *.
  rewrite Hx, Hy; ring.
Qed.

Lemma offset_exists : forall A B C, nonzero (vsub B A) ->
  offset_from_line A B C (cross (vsub B A) (vsub C A) / dot (vsub B A) (vsub B A)).
Proof. intros A B C H. exists (dot (vsub B A) (vsub C A) / dot (vsub B A) (vsub B A)). apply decompose; assumption. Qed.

Lemma orientation_sides : forall A B C, nonzero (vsub B A) ->
  (get_orientation direct A B C = oriented_left <-> left_of A B C) /\
  (get_orientation direct A B C = oriented_right <-> right_of A B C) /\
  (get_orientation direct A B C = oriented_collinear <-> on_line A B C).
Proof.
  intros A B C H. pose proof (nz_dot _ H) as Hn.
  pose proof (offset_exists A B C H) as Hoff.
  destruct (orientation_direct A B C) as (O1 & O2 & O3).
  set (d := cross (vsub B A) (vsub C A)) in *. set (n := dot (vsub B A) (vsub B A)) in *.
  assert (E : d / n * n == d) by (field; lra).
  split; [|split].
  - rewrite O1; split.
    + intro Hd. exists (d / n); split; [|exact Hoff]. apply Qlt_shift_div_l; lra.
    + intros (k & Hk & Ho). apply cross_offset in Ho. fold d n in Ho. nra.
  - rewrite O2; split.
    + intro Hd. exists (d / n); split; [|exact Hoff]. apply Qlt_shift_div_r; lra.
    + intros (k & Hk & Ho). apply cross_offset in Ho. fold d n in Ho. nra.
  - rewrite O3; split.
    + intro Hd. destruct Hoff as (t & Hx & Hy). exists t.
      assert (Z : d / n == 0) by (rewrite Hd; field; lra).
      unfold lerp, vadd, vscale, left_normal, vsub in *; simpl in *.
      rewrite Z in Hx, Hy. split; simpl; lra.
    + intros (t & Hx & Hy). unfold d, lerp, vadd, vscale, vsub, cross in *; simpl in *.
      rewrite Hx, Hy; ring.
Qed.

Lemma cross_cyc : forall A B C, cross (vsub B A) (vsub C A) == cross (vsub C B) (vsub A B).
Proof. intros; unfold cross, vsub; simpl; ring. Qed.
Lemma cross_swap : forall A B C, cross (vsub C A) (vsub B A) == - cross (vsub B A) (vsub C A).
Proof. intros; unfold cross, vsub; simpl; ring. Qed.

Lemma orient_eq_of_cross : forall A B C D E F,
  cross (vsub B A) (vsub C A) == cross (vsub E D) (vsub F D) ->
  get_orientation direct A B C = get_orientation direct D E F.
Proof.
  intros A B C D E F H.
  destruct (orientation_direct A B C) as (O1 & O2 & O3).
  destruct (orientation_direct D E F) as (P1 & P2 & P3).
  destruct (get_orientation direct A B C).
  - symmetry; apply P2. rewrite <- H; apply O2; reflexivity.
  - symmetry; apply P3. rewrite <- H; apply O3; reflexivity.
  - symmetry; apply P1. rewrite <- H; apply O1; reflexivity.
Qed.

Lemma orientation_laws : forall A B C v,
  get_orientation direct B C A = get_orientation direct A B C /\
  get_orientation direct A C B = opposite_orientation (get_orientation direct A B C) /\
  get_orientation direct (vadd A v) (vadd B v) (vadd C v) = get_orientation direct A B C.
Proof.
  intros A B C v; split; [|split].
  - apply orient_eq_of_cross. unfold cross, vsub; simpl; ring.
  - destruct (orientation_direct A B C) as (O1 & O2 & O3).
    destruct (orientation_direct A C B) as (P1 & P2 & P3).
    pose proof (cross_swap A B C) as S.
    destruct (get_orientation direct A B C); simpl.
    + apply P1. rewrite S. assert (cross (vsub B A) (vsub C A) < 0) by (apply O2; reflexivity). lra.
    + apply P3. rewrite S. assert (cross (vsub B A) (vsub C A) == 0) by (apply O3; reflexivity). lra.
    + apply P2. rewrite S. assert (0 < cross (vsub B A) (vsub C A)) by (apply O1; reflexivity). lra.
  - apply orient_eq_of_cross. unfold cross, vsub, vadd; simpl; ring.
Qed.

Lemma orientation_interiority : forall p q r t,
  get_orientation direct t q r = oriented_left -> get_orientation direct p t r = oriented_left ->
  get_orientation direct p q t = oriented_left -> get_orientation direct p q r = oriented_left.
Proof.
  intros p q r t H1 H2 H3.
  apply orientation_direct in H1; apply orientation_direct in H2; apply orientation_direct in H3.
  apply orientation_direct.
  assert (E : cross (vsub q p) (vsub r p) ==
    cross (vsub q t) (vsub r t) + cross (vsub t p) (vsub r p) + cross (vsub q p) (vsub t p))
    by (unfold cross, vsub; simpl; ring).
  lra.
Qed.

Lemma orientation_transitivity : forall t s p q r,
  get_orientation direct t s p = oriented_left -> get_orientation direct t s q = oriented_left ->
  get_orientation direct t s r = oriented_left -> get_orientation direct t p q = oriented_left ->
  get_orientation direct t q r = oriented_left -> get_orientation direct t p r = oriented_left.
Proof.
  intros t s p q r H1 H2 H3 H4 H5.
  apply orientation_direct in H1; apply orientation_direct in H2; apply orientation_direct in H3;
  apply orientation_direct in H4; apply orientation_direct in H5; apply orientation_direct.
  assert (E : cross (vsub s t) (vsub q t) * cross (vsub p t) (vsub r t) ==
     cross (vsub s t) (vsub p t) * cross (vsub q t) (vsub r t) + cross (vsub s t) (vsub r t) * cross (vsub p t) (vsub q t))
    by (unfold cross, vsub; simpl; ring).
  set (a := cross (vsub s t) (vsub q t)) in *; set (b := cross (vsub p t) (vsub r t)) in *.
  set (c := cross (vsub s t) (vsub p t)) in *; set (d := cross (vsub q t) (vsub r t)) in *.
  set (e := cross (vsub s t) (vsub r t)) in *; set (f := cross (vsub p t) (vsub q t)) in *.
  destruct (Qlt_le_dec 0 b) as [|Hb]; [assumption|exfalso].
  assert (0 < c * d) by nra. assert (0 < e * f) by nra. nra.
Qed.

(** ** Betweenness *)

Lemma collinear_direct : forall A B C, is_collinear direct A B C = true <-> cross (vsub B A) (vsub C A) == 0.
Proof. intros; unfold is_collinear; simpl; apply Qeqb_eq. Qed.

Lemma collinear_param : forall A B C, nonzero (vsub B A) -> cross (vsub B A) (vsub C A) == 0 ->
  exists t, C =p= lerp A B t.
Proof. intros A B C H E. apply orientation_sides; auto. apply orientation_direct; exact E. Qed.

Lemma lerp_cross : forall A B C t, C =p= lerp A B t -> cross (vsub B A) (vsub C A) == 0.
Proof.
  intros A B C t [Hx Hy]; unfold lerp, vadd, vscale, vsub, cross in *; simpl in *. rewrite Hx, Hy; ring.
Qed.

Lemma between_1d : forall a b t, ~ a == b -> 
  (((a <= a + t * (b - a) /\ a + t * (b - a) <= b) \/ (a + t * (b - a) <= a /\ b <= a + t * (b - a))) <-> 0 <= t <= 1) /\
  (((a < a + t * (b - a) /\ a + t * (b - a) < b) \/ (a + t * (b - a) < a /\ b < a + t * (b - a))) <-> 0 < t < 1).
Proof.
  intros a b t H. destruct (Qlt_le_dec a b) as [L|L].
  - split; split; intro G; try (destruct G as [[G1 G2]|[G1 G2]]; split; nra); left; split; nra.
  - assert (L' : b < a) by (destruct (Qlt_le_dec b a); [assumption|exfalso; apply H; lra]).
    split; split; intro G; try (destruct G as [[G1 G2]|[G1 G2]]; split; nra); right; split; nra.
Qed.

Lemma is_between_true : forall A B C, nonzero (vsub B A) ->
  (is_between direct A B C true = true <-> on_segment A B C).
Proof.
  intros A B C H; unfold is_between; rewrite andb_true_iff, collinear_direct.
  unfold is_collinear_point_between; simpl.
  split.
  - intros [Hc Hb]. destruct (collinear_param A B C H Hc) as (t & Hx & Hy).
    exists t; split; [|split; assumption].
    unfold lerp, vadd, vscale, vsub in Hx, Hy; simpl in Hx, Hy.
    destruct (Qeqb_spec (px A) (px B)) as [Ev|Ev]; simpl in Hb;
      rewrite orb_true_iff, !andb_true_iff in Hb; unfold Qgeb in Hb; rewrite !Qleb_le in Hb.
    + assert (Hne : ~ py A == py B).
      { intro G; apply H; unfold vsub; simpl; split; lra. }
      apply (between_1d _ _ t Hne). rewrite Hy in Hb. lra.
    + apply (between_1d _ _ t Ev). rewrite Hx in Hb. lra.
  - intros (t & Ht & HC). split; [apply (lerp_cross _ _ _ t HC)|].
    destruct HC as [Hx Hy]. unfold lerp, vadd, vscale, vsub in Hx, Hy; simpl in Hx, Hy.
    destruct (Qeqb_spec (px A) (px B)) as [Ev|Ev]; simpl;
      rewrite orb_true_iff, !andb_true_iff; unfold Qgeb; rewrite !Qleb_le.
    + assert (Hne : ~ py A == py B).
      { intro G; apply H; unfold vsub; simpl; split; lra. }
      apply (between_1d _ _ t Hne) in Ht. rewrite Hy; lra.
    + apply (between_1d _ _ t Ev) in Ht. rewrite Hx; lra.
Qed.

Lemma is_between_false : forall A B C, nonzero (vsub B A) ->
  (is_between direct A B C false = true <-> inside_segment A B C).
Proof.
  intros A B C H; unfold is_between; rewrite andb_true_iff, collinear_direct.
  unfold is_collinear_point_between; simpl.
  split.
  - intros [Hc Hb]. destruct (collinear_param A B C H Hc) as (t & Hx & Hy).
    exists t; split; [|split; assumption].
    unfold lerp, vadd, vscale, vsub in Hx, Hy; simpl in Hx, Hy.
    destruct (Qeqb_spec (px A) (px B)) as [Ev|Ev]; simpl in Hb;
      rewrite orb_true_iff, !andb_true_iff in Hb; unfold Qgtb in Hb; rewrite !Qltb_lt in Hb.
    + assert (Hne : ~ py A == py B).
      { intro G; apply H; unfold vsub; simpl; split; lra. }
      apply (between_1d _ _ t Hne). rewrite Hy in Hb. lra.
    + apply (between_1d _ _ t Ev). rewrite Hx in Hb. lra.
  - intros (t & Ht & HC). split; [apply (lerp_cross _ _ _ t HC)|].
    destruct HC as [Hx Hy]. unfold lerp, vadd, vscale, vsub in Hx, Hy; simpl in Hx, Hy.
    destruct (Qeqb_spec (px A) (px B)) as [Ev|Ev]; simpl;
      rewrite orb_true_iff, !andb_true_iff; unfold Qgtb; rewrite !Qltb_lt.
    + assert (Hne : ~ py A == py B).
      { intro G; apply H; unfold vsub; simpl; split; lra. }
      apply (between_1d _ _ t Hne) in Ht. rewrite Hy; lra.
    + apply (between_1d _ _ t Ev) in Ht. rewrite Hx; lra.
Qed.

Lemma is_between_degenerate : forall A C,
  (is_between direct A A C true = true <-> py C == py A) /\ is_between direct A A C false = false.
Proof.
  intros A C; unfold is_between, is_collinear_point_between, is_collinear; simpl.
  assert (E : Qeqb (cross (vsub A A) (vsub C A)) 0 = true)
    by (apply Qeqb_eq; unfold cross, vsub; simpl; ring).
  rewrite E; simpl.
  destruct (Qeqb_spec (px A) (px A)) as [Ex|Ex]; [simpl|exfalso; apply Ex; lra].
  split.
  - rewrite orb_true_iff, !andb_true_iff; unfold Qgeb; rewrite !Qleb_le; lra.
  - unfold Qgtb. destruct (Qltb_spec (py A) (py C)); destruct (Qltb_spec (py C) (py A)); try reflexivity; exfalso; lra.
Qed.

(** ** Angular order *)

Lemma lagrange : forall u v, cross u v * cross u v + dot u v * dot u v == dot u u * dot v v.
Proof. intros; unfold cross, dot; ring. Qed.

Lemma cross_dot_nonzero : forall r v, nonzero r -> nonzero v -> cross r v == 0 -> ~ dot r v == 0.
Proof.
  intros r v Hr Hv Hc Hd. pose proof (lagrange r v) as L. rewrite Hc, Hd in L.
  pose proof (nz_dot _ Hr); pose proof (nz_dot _ Hv). nra.
Qed.

Lemma dot_sym : forall u v, dot u v == dot v u.
Proof. intros; unfold dot; ring. Qed.
Lemma cross_anti : forall u v, cross u v == - cross v u.
Proof. intros; unfold cross; ring. Qed.

(** r.r * cross u v = dot r u * cross r v - cross r u * dot r v *)
Lemma frame_cross : forall r u v, dot r r * cross u v == dot r u * cross r v - cross r u * dot r v.
Proof. intros; unfold cross, dot; ring. Qed.
Lemma frame_dot : forall r u v, dot r r * dot u v == dot r u * dot r v + cross r u * cross r v.
Proof. intros; unfold cross, dot; ring. Qed.


Lemma vector_angle_compare_ok : forall r u v, nonzero r -> nonzero u -> nonzero v ->
  (vector_angle_compare direct r u v = true <-> angle_lt r u v).
Proof.
  intros r u v Hr Hu Hv. pose proof (nz_dot _ Hr) as Hrr.
  pose proof (frame_cross r u v) as F.
  pose proof (cross_dot_nonzero r u Hr Hu) as NU. pose proof (cross_dot_nonzero r v Hr Hv) as NV.
  assert (D1 : dot v r == dot r v) by apply dot_sym.
  assert (D2 : dot u r == dot r u) by apply dot_sym.
  unfold vector_angle_compare, angle_lt, sector; simpl. unfold Qgeb, Qgtb.
  set (a := cross r u) in *; set (b := cross r v) in *; set (c := cross u v) in *;
  set (p := dot r u) in *; set (q := dot r v) in *; set (n := dot r r) in *.
  destruct (Qeqb_spec b 0) as [Eb|Eb]; destruct (Qleb_spec 0 (dot v r)) as [Ev|Ev]; simpl.
  - (* v along r *)
    destruct (Qltb_spec 0 b); [exfalso; lra|]. destruct (Qltb_spec b 0); [exfalso; lra|].
    destruct (Qltb_spec q 0); [exfalso; lra|].
    split; [discriminate|]. intros [G|[G1 G2]]; [lia|].
    destruct (Qltb_spec 0 a); [discriminate|]. destruct (Qltb_spec a 0); [discriminate|].
    exfalso. assert (Ha : a == 0) by lra. rewrite Eb, Ha in F. nra.
  - destruct (Qeqb_spec a 0) as [Ea|Ea]; destruct (Qleb_spec 0 (dot u r)) as [Eu|Eu]; simpl.
    + destruct (Qltb_spec 0 b); [exfalso; lra|]. destruct (Qltb_spec b 0); [exfalso; lra|].
      destruct (Qltb_spec q 0); [|exfalso; lra].
      destruct (Qltb_spec 0 a); [exfalso; lra|]. destruct (Qltb_spec a 0); [exfalso; lra|].
      destruct (Qltb_spec p 0); [exfalso; lra|]. split; auto; intro; left; lia.
    + (* both opposite *)
      destruct (Qltb_spec 0 b); [exfalso; lra|]. destruct (Qltb_spec b 0); [exfalso; lra|].
      destruct (Qltb_spec q 0); [|exfalso; lra].
      destruct (Qltb_spec 0 a); [exfalso; lra|]. destruct (Qltb_spec a 0); [exfalso; lra|].
      destruct (Qltb_spec p 0); [|exfalso; lra].
      assert (c == 0) by (rewrite Ea, Eb in F; nra).
      destruct (Qleb_spec 0 (a * b)); [|exfalso; nra].
      rewrite Qltb_lt. split; [intro; exfalso; lra|]. intros [G|[_ G]]; [lia|exfalso; lra].
    + destruct (Qltb_spec 0 b); [exfalso; lra|]. destruct (Qltb_spec b 0); [exfalso; lra|].
      destruct (Qltb_spec q 0); [|exfalso; lra].
      destruct (Qleb_spec 0 (a * b)); [|exfalso; assert (a * b == 0) by (rewrite Eb; ring); lra].
      rewrite Qltb_lt.
      destruct (Qltb_spec 0 a); [|destruct (Qltb_spec a 0); [|exfalso; lra]].
      * split; [intro; left; lia|]. intros _. rewrite Eb in F. nra.
      * split; [intro G; exfalso; rewrite Eb in F; nra|]. intros [G|[G _]]; [lia|discriminate].
    + destruct (Qltb_spec 0 b); [exfalso; lra|]. destruct (Qltb_spec b 0); [exfalso; lra|].
      destruct (Qltb_spec q 0); [|exfalso; lra].
      destruct (Qleb_spec 0 (a * b)); [|exfalso; assert (a * b == 0) by (rewrite Eb; ring); lra].
      rewrite Qltb_lt.
      destruct (Qltb_spec 0 a); [|destruct (Qltb_spec a 0); [|exfalso; lra]].
      * split; [intro; left; lia|]. intros _. rewrite Eb in F. nra.
      * split; [intro G; exfalso; rewrite Eb in F; nra|]. intros [G|[G _]]; [lia|discriminate].
  - destruct (Qeqb_spec a 0) as [Ea|Ea]; destruct (Qleb_spec 0 (dot u r)) as [Eu|Eu]; simpl.
    + destruct (Qltb_spec 0 a); [exfalso; lra|]. destruct (Qltb_spec a 0); [exfalso; lra|].
      destruct (Qltb_spec p 0); [exfalso; lra|].
      destruct (Qltb_spec 0 b); [|destruct (Qltb_spec b 0); [|exfalso; lra]]; split; auto; intro; left; lia.
    + destruct (Qleb_spec 0 (a * b)); [|exfalso; assert (a * b == 0) by (rewrite Ea; ring); lra].
      destruct (Qltb_spec 0 a); [exfalso; lra|]. destruct (Qltb_spec a 0); [exfalso; lra|].
      destruct (Qltb_spec p 0); [|exfalso; lra].
      rewrite Qltb_lt. rewrite Ea in F.
      destruct (Qltb_spec 0 b); [|destruct (Qltb_spec b 0); [|exfalso; lra]].
      * split; [intro; exfalso; nra|]. intros [G|[G _]]; [lia|discriminate].
      * split; [intro; left; lia|]. intros _. nra.
    + destruct (Qltb_spec 0 a); [|destruct (Qltb_spec a 0); [|exfalso; lra]];
      (destruct (Qltb_spec 0 b); [|destruct (Qltb_spec b 0); [|exfalso; lra]]);
      destruct (Qleb_spec 0 (a * b)); try (exfalso; nra); try rewrite Qltb_lt;
      split; intro G; try reflexivity; try discriminate; try (right; split; [reflexivity|assumption]); try (left; lia); try lra;
      try (destruct G as [G|[G1 G2]]; [lia|try discriminate; try assumption]); exfalso; lra.
    + destruct (Qltb_spec 0 a); [|destruct (Qltb_spec a 0); [|exfalso; lra]];
      (destruct (Qltb_spec 0 b); [|destruct (Qltb_spec b 0); [|exfalso; lra]]);
      destruct (Qleb_spec 0 (a * b)); try (exfalso; nra); try rewrite Qltb_lt;
      split; intro G; try reflexivity; try discriminate; try (right; split; [reflexivity|assumption]); try (left; lia); try lra;
      try (destruct G as [G|[G1 G2]]; [lia|try discriminate; try assumption]); exfalso; lra.
  - destruct (Qeqb_spec a 0) as [Ea|Ea]; destruct (Qleb_spec 0 (dot u r)) as [Eu|Eu]; simpl.
    + destruct (Qltb_spec 0 a); [exfalso; lra|]. destruct (Qltb_spec a 0); [exfalso; lra|].
      destruct (Qltb_spec p 0); [exfalso; lra|].
      destruct (Qltb_spec 0 b); [|destruct (Qltb_spec b 0); [|exfalso; lra]]; split; auto; intro; left; lia.
    + destruct (Qleb_spec 0 (a * b)); [|exfalso; assert (a * b == 0) by (rewrite Ea; ring); lra].
      destruct (Qltb_spec 0 a); [exfalso; lra|]. destruct (Qltb_spec a 0); [exfalso; lra|].
      destruct (Qltb_spec p 0); [|exfalso; lra].
      rewrite Qltb_lt. rewrite Ea in F.
      destruct (Qltb_spec 0 b); [|destruct (Qltb_spec b 0); [|exfalso; lra]].
      * split; [intro; exfalso; nra|]. intros [G|[G _]]; [lia|discriminate].
      * split; [intro; left; lia|]. intros _. nra.
    + destruct (Qltb_spec 0 a); [|destruct (Qltb_spec a 0); [|exfalso; lra]];
      (destruct (Qltb_spec 0 b); [|destruct (Qltb_spec b 0); [|exfalso; lra]]);
      destruct (Qleb_spec 0 (a * b)); try (exfalso; nra); try rewrite Qltb_lt;
      split; intro G; try reflexivity; try discriminate; try (right; split; [reflexivity|assumption]); try (left; lia); try lra;
      try (destruct G as [G|[G1 G2]]; [lia|try discriminate; try assumption]); exfalso; lra.
    + destruct (Qltb_spec 0 a); [|destruct (Qltb_spec a 0); [|exfalso; lra]];
      (destruct (Qltb_spec 0 b); [|destruct (Qltb_spec b 0); [|exfalso; lra]]);
      destruct (Qleb_spec 0 (a * b)); try (exfalso; nra); try rewrite Qltb_lt;
      split; intro G; try reflexivity; try discriminate; try (right; split; [reflexivity|assumption]); try (left; lia); try lra;
      try (destruct G as [G|[G1 G2]]; [lia|try discriminate; try assumption]); exfalso; lra.
Qed.

Lemma sector_cases : forall r v, nonzero r -> nonzero v ->
  (sector r v = 0%nat /\ cross r v == 0 /\ 0 < dot r v) \/
  (sector r v = 1%nat /\ 0 < cross r v) \/
  (sector r v = 2%nat /\ cross r v == 0 /\ dot r v < 0) \/
  (sector r v = 3%nat /\ cross r v < 0).
Proof.
  intros r v Hr Hv. pose proof (cross_dot_nonzero r v Hr Hv) as N. unfold sector.
  destruct (Qltb_spec 0 (cross r v)); auto.
  destruct (Qltb_spec (cross r v) 0); auto.
  assert (E : cross r v == 0) by lra. specialize (N E).
  destruct (Qltb_spec (dot r v) 0); [right; right; left|left]; repeat split; auto; lra.
Qed.

Lemma plucker : forall r u v w, cross r v * cross u w == cross r u * cross v w + cross r w * cross u v.
Proof. intros; unfold cross; ring. Qed.

Lemma angle_lt_irrefl : forall r u, ~ angle_lt r u u.
Proof. intros r u [H|[_ H]]; [lia|]. unfold cross in H; lra. Qed.

Lemma same_sector_cross0 : forall r u v, nonzero r -> cross r u == 0 -> cross r v == 0 -> cross u v == 0.
Proof.
  intros r u v Hr Hu Hv. pose proof (nz_dot _ Hr). pose proof (frame_cross r u v) as F.
  rewrite Hu, Hv in F. nra.
Qed.

Lemma angle_lt_trans : forall r u v w, nonzero r -> nonzero u -> nonzero v -> nonzero w ->
  angle_lt r u v -> angle_lt r v w -> angle_lt r u w.
Proof.
  intros r u v w Hr Hu Hv Hw [H1|[H1 H1']] [H2|[H2 H2']]; try (left; lia).
  right; split; [congruence|].
  pose proof (plucker r u v w) as P.
  destruct (sector_cases r u Hr Hu) as [(S1&A1&_)|[(S1&A1)|[(S1&A1&_)|(S1&A1)]]];
  destruct (sector_cases r v Hr Hv) as [(S2&A2&_)|[(S2&A2)|[(S2&A2&_)|(S2&A2)]]];
  destruct (sector_cases r w Hr Hw) as [(S3&A3&_)|[(S3&A3)|[(S3&A3&_)|(S3&A3)]]]; try congruence.
  - pose proof (same_sector_cross0 r u v Hr A1 A2); lra.
  - set (a := cross r u) in *; set (b := cross r v) in *; set (c := cross r w) in *;
    set (x := cross u v) in *; set (y := cross v w) in *; set (z := cross u w) in *.
    assert (0 < a * y) by nra. assert (0 < c * x) by nra.
    destruct (Qlt_le_dec 0 z); [assumption|exfalso; nra].
  - pose proof (same_sector_cross0 r u v Hr A1 A2); lra.
  - set (a := cross r u) in *; set (b := cross r v) in *; set (c := cross r w) in *;
    set (x := cross u v) in *; set (y := cross v w) in *; set (z := cross u w) in *.
    assert (a * y < 0) by nra. assert (c * x < 0) by nra.
    destruct (Qlt_le_dec 0 z); [assumption|exfalso; nra].
Qed.

Lemma same_direction_iff : forall u v, nonzero u -> nonzero v ->
  (same_direction u v <-> cross u v == 0 /\ 0 < dot u v).
Proof.
  intros u v Hu Hv. pose proof (nz_dot _ Hu) as Hn. split.
  - intros (k & Hk & Hx & Hy); unfold vscale in *; simpl in *. split.
    + unfold cross; rewrite Hx, Hy; ring.
    + assert (E : dot u v == k * dot u u) by (unfold dot; rewrite Hx, Hy; ring). rewrite E; nra.
  - intros [Hc Hd]. exists (dot u v / dot u u). split; [apply Qlt_shift_div_l; lra|].
    unfold cross, dot, vscale, pteq in *; simpl in *.
    set (a := px u) in *; set (b := py u) in *; set (c := px v) in *; set (d := py v) in *.
    assert (Hn' : ~ a * a + b * b == 0) by lra.
    split.
    + assert (E : (a * c + b * d) / (a * a + b * b) * a == c + b * (a * d - b * c) / (a * a + b * b)) by (field; exact Hn').
      rewrite E, Hc. field; exact Hn'.
    + assert (E : (a * c + b * d) / (a * a + b * b) * b == d - a * (a * d - b * c) / (a * a + b * b)) by (field; exact Hn').
      rewrite E, Hc. field; exact Hn'.
Qed.

Lemma parallel_frame : forall r u v, cross u v == 0 ->
  cross r v * (dot r r * dot u v) == cross r u * (dot r v * dot r v + cross r v * cross r v) /\
  dot r v * (dot r r * dot u v) == dot r u * (dot r v * dot r v + cross r v * cross r v).
Proof.
  intros r u v Hc. pose proof (frame_dot r u v) as FD. pose proof (frame_cross r u v) as FC.
  rewrite Hc in FC.
  set (n := dot r r) in *; set (a := cross r u) in *; set (b := cross r v) in *;
  set (p := dot r u) in *; set (q := dot r v) in *; set (d := dot u v) in *.
  assert (PB : p * b == a * q) by lra. split; rewrite FD.
  - assert (E0 : b * (p * q + a * b) == q * (p * b) + a * b * b) by ring. rewrite E0, PB; ring.
  - assert (E0 : q * (p * q + a * b) == p * q * q + b * (a * q)) by ring. rewrite E0, <- PB; ring.
Qed.

(** Two parallel vectors point the same way iff they agree in sign against a
    frame. *)
Lemma same_sign : forall a b m x, 0 < m -> b * x == a * m -> (0 < x /\ (0 < a /\ 0 < b \/ a < 0 /\ b < 0 \/ a == 0 /\ b == 0)) \/
   (x < 0 /\ (0 < a /\ b < 0 \/ a < 0 /\ 0 < b \/ a == 0 /\ b == 0)) \/ (x == 0 /\ a == 0).
Proof.
  intros a b m x Hm E.
  assert (S : a < 0 \/ a == 0 \/ 0 < a) by (destruct (Qlt_le_dec a 0); [auto|destruct (Qlt_le_dec 0 a); [auto|right; left; lra]]).
  assert (T : x < 0 \/ x == 0 \/ 0 < x) by (destruct (Qlt_le_dec x 0); [auto|destruct (Qlt_le_dec 0 x); [auto|right; left; lra]]).
  assert (U : b < 0 \/ b == 0 \/ 0 < b) by (destruct (Qlt_le_dec b 0); [auto|destruct (Qlt_le_dec 0 b); [auto|right; left; lra]]).
  destruct S as [S|[S|S]]; destruct T as [T|[T|T]]; destruct U as [U|[U|U]];
    try (left; split; [assumption|]; auto; fail);
    try (right; left; split; [assumption|]; auto; fail);
    try (right; right; split; assumption); exfalso; nra.
Qed.

Lemma angle_incomparable : forall r u v, nonzero r -> nonzero u -> nonzero v ->
  ((~ angle_lt r u v /\ ~ angle_lt r v u) <-> same_direction u v).
Proof.
  intros r u v Hr Hu Hv. rewrite (same_direction_iff u v Hu Hv).
  pose proof (nz_dot _ Hr) as Hn. pose proof (nz_dot _ Hv) as Hnv.
  assert (M : 0 < dot r v * dot r v + cross r v * cross r v).
  { pose proof (frame_dot r v v) as FD. rewrite <- FD. apply Qmult_lt_0_compat; assumption. }
  assert (PA : cross u v == 0 -> (0 < dot u v <-> sector r u = sector r v)).
  { intro Hc. destruct (parallel_frame r u v Hc) as [P1 P2].
    apply same_sign in P1; [|exact M]. apply same_sign in P2; [|exact M].
    destruct (sector_cases r u Hr Hu) as [(S1&A1&B1)|[(S1&A1)|[(S1&A1&B1)|(S1&A1)]]];
    destruct (sector_cases r v Hr Hv) as [(S2&A2&B2)|[(S2&A2)|[(S2&A2&B2)|(S2&A2)]]]; rewrite S1, S2;
    (split; intro G; [|]); try reflexivity; try discriminate; try (exfalso; assert (0 < dot r r * dot u v) by (apply Qmult_lt_0_compat; assumption); lra);
    (assert (0 < dot r r * dot u v) by lra; destruct (Qlt_le_dec 0 (dot u v)); [assumption|exfalso; nra]). }
  assert (CA : cross v u == - cross u v) by (unfold cross; ring).
  assert (Z : sector r u = sector r v -> ~ 0 < cross u v -> ~ 0 < cross v u -> cross u v == 0).
  { intros _ G1 G2. apply Qnot_lt_le in G1; apply Qnot_lt_le in G2. lra. }
  unfold angle_lt. split.
  - intros [G1 G2].
    assert (E : sector r u = sector r v) by (assert (~ (sector r u < sector r v)%nat) by tauto; assert (~ (sector r v < sector r u)%nat) by tauto; lia).
    assert (C : cross u v == 0) by (apply Z; [exact E| |]; intro K; [apply G1|apply G2]; right; auto).
    split; [exact C|]. apply PA; assumption.
  - intros [C D]. apply (PA C) in D. rewrite D. split; intros [K|[_ K]]; try lia; lra.
Qed.

Lemma is_vector_between_unfold : forall a b c incl,
  is_vector_between direct a b c incl =
    (if Qeqb (cross c b) 0 && Qgeb (dot b c) 0 then incl
     else if Qeqb (cross a c) 0 && Qgeb (dot a c) 0 then incl
     else vector_angle_compare direct a c b).
Proof.
  intros a b c incl; unfold is_vector_between, vector_angle_compare; simpl.
  destruct (Qeqb (cross c b) 0 && Qgeb (dot b c) 0); auto.
  destruct (Qeqb (cross a c) 0 && Qgeb (dot a c) 0) eqn:E; auto.
  destruct (Qeqb (cross a b) 0 && Qgeb (dot b a) 0); auto.
  assert (E' : Qeqb (cross a c) 0 && Qgeb (dot c a) 0 = false).
  { rewrite <- E. f_equal. unfold Qgeb; apply Qleb_compat; [lra|apply dot_sym]. }
  rewrite E'; reflexivity.
Qed.

Lemma along_iff : forall u v, nonzero u -> nonzero v ->
  (Qeqb (cross u v) 0 && Qgeb (dot u v) 0 = true <-> same_direction u v).
Proof.
  intros u v Hu Hv. rewrite same_direction_iff by assumption.
  rewrite andb_true_iff, Qeqb_eq; unfold Qgeb; rewrite Qleb_le.
  pose proof (cross_dot_nonzero u v Hu Hv). split.
  - intros [H1 H2]. split; auto. specialize (H H1). lra.
  - intros [H1 H2]. split; auto. lra.
Qed.

Lemma same_direction_sym : forall u v, same_direction u v -> same_direction v u.
Proof.
  intros u v (k & Hk & Hx & Hy). exists (/ k). split; [apply Qinv_lt_0_compat; exact Hk|].
  unfold vscale in *; simpl in *. split; simpl; [rewrite Hx|rewrite Hy]; field; lra.
Qed.

Lemma is_vector_between_ok : forall a b c incl, nonzero a -> nonzero b -> nonzero c ->
  (is_vector_between direct a b c incl = true <->
   ((same_direction c a \/ same_direction c b) /\ incl = true) \/
   (~ same_direction c a /\ ~ same_direction c b /\ angle_lt a c b)).
Proof.
  intros a b c incl Ha Hb Hc. rewrite is_vector_between_unfold.
  assert (E1 : Qeqb (cross c b) 0 && Qgeb (dot b c) 0 = Qeqb (cross c b) 0 && Qgeb (dot c b) 0).
  { f_equal. unfold Qgeb; apply Qleb_compat; [lra|apply dot_sym]. }
  rewrite E1.
  destruct (Qeqb (cross c b) 0 && Qgeb (dot c b) 0) eqn:Ecb.
  - assert (S : same_direction c b) by (apply along_iff; auto). split.
    + intros ->; left; auto.
    + intros [[_ H]|(_ & H & _)]; [exact H|contradiction].
  - assert (S : ~ same_direction c b) by (intro G; apply along_iff in G; auto; congruence).
    destruct (Qeqb (cross a c) 0 && Qgeb (dot a c) 0) eqn:Eac.
    + assert (S' : same_direction a c) by (apply along_iff; auto). apply same_direction_sym in S'. split.
      * intros ->; left; auto.
      * intros [[_ H]|(H & _ & _)]; [exact H|contradiction].
    + assert (S' : ~ same_direction c a).
      { intro G; apply same_direction_sym in G; apply along_iff in G; auto; congruence. }
      rewrite vector_angle_compare_ok by assumption. split.
      * intro H; right; auto.
      * intros [[[H|H] _]|(_ & _ & H)]; try contradiction; exact H.
Qed.

(** ** Lines as functions *)

Lemma y_of_x_ok : forall s e x, ~ px s == px e ->
  exists y, y_of_x s e x = Some y /\ on_line s e (mkpt x y) /\
            forall y', on_line s e (mkpt x y') -> y' == y.
Proof.
  intros s e x H; unfold y_of_x, get_slope.
  destruct (Qeqb_spec (px e - px s) 0) as [E|E]; [exfalso; apply H; lra|].
  eexists; split; [reflexivity|]. split.
  - exists ((x - px s) / (px e - px s)). unfold lerp, vadd, vscale, vsub, pteq; simpl. split; field; exact E.
  - intros y' (t & Hx & Hy). unfold lerp, vadd, vscale, vsub in *; simpl in *.
    assert (Et : t == (x - px s) / (px e - px s)) by (rewrite Hx; field; exact E).
    rewrite Hy, Et; field; exact E.
Qed.
Lemma x_of_y_ok : forall s e y, ~ px s == px e -> ~ py s == py e ->
  exists x, x_of_y s e y = Some x /\ on_line s e (mkpt x y) /\
            forall x', on_line s e (mkpt x' y) -> x' == x.
Proof.
  intros s e y H H'; unfold x_of_y, get_slope.
  destruct (Qeqb_spec (px e - px s) 0) as [E|E]; [exfalso; apply H; lra|].
  assert (E' : ~ py e - py s == 0) by (intro G; apply H'; lra).
  destruct (Qeqb_spec ((py e - py s) / (px e - px s)) 0) as [F|F].
  { exfalso; apply E'. assert (G : (py e - py s) / (px e - px s) * (px e - px s) == 0) by (rewrite F; ring).
    rewrite <- G; field; exact E. }
  eexists; split; [reflexivity|]. split.
  - exists ((y - py s) / (py e - py s)). unfold lerp, vadd, vscale, vsub, pteq; simpl. split; field; auto.
  - intros x' (t & Hx & Hy). unfold lerp, vadd, vscale, vsub in *; simpl in *.
    assert (Et : t == (y - py s) / (py e - py s)) by (rewrite Hy; field; exact E').
    rewrite Hx, Et; field; auto.
Qed.

(** ** pseudo_angle *)

Lemma pseudo_angle_some : forall v, nonzero v -> exists a, pseudo_angle v = Some a /\ 0 <= a < 4.
Proof.
  intros [x y] H; unfold pseudo_angle, nonzero in *; simpl in *.
  pose proof (qabs_spec x) as (X1 & X2 & X3 & X4). pose proof (qabs_spec y) as (Y1 & Y2 & Y3 & Y4).
  set (ax := qabs x) in *; set (ay := qabs y) in *.
  destruct (Qeqb_spec (ax + ay) 0) as [E|E]; [exfalso; apply H; split; lra|].
  eexists; split; [reflexivity|].
  assert (D : 0 < ax + ay) by lra.
  assert (R1 : x / (ax + ay) <= 1) by (apply Qle_shift_div_r; lra).
  assert (R2 : -1 <= x / (ax + ay)) by (apply Qle_shift_div_l; lra).
  set (q := x / (ax + ay)) in *.
  assert (M : qabs (1 - q) == 1 - q) by (unfold qabs; qcase; lra).
  destruct (Qltb_spec y 0) as [Hy|Hy]; [|lra].
  assert (R3 : q < 1).
  { unfold q. apply Qlt_shift_div_r; [exact D|]. lra. }
  lra.
Qed.

Lemma pseudo_angle_val : forall v a, pseudo_angle v = Some a ->
  let d := qabs (px v) + qabs (py v) in
  0 < d /\ (py v < 0 -> (a - 3) * d == px v) /\ (0 <= py v -> (1 - a) * d == px v).
Proof.
  intros [x y] a; unfold pseudo_angle; simpl.
  pose proof (qabs_spec x) as (X1 & X2 & X3 & X4). pose proof (qabs_spec y) as (Y1 & Y2 & Y3 & Y4).
  set (ax := qabs x) in *; set (ay := qabs y) in *.
  destruct (Qeqb_spec (ax + ay) 0) as [E|E]; [discriminate|].
  intro H. assert (D : 0 < ax + ay) by lra.
  assert (R1 : x / (ax + ay) <= 1) by (apply Qle_shift_div_r; lra).
  assert (EQ : x / (ax + ay) * (ax + ay) == x) by (field; lra).
  set (q := x / (ax + ay)) in *.
  assert (M : qabs (1 - q) == 1 - q) by (unfold qabs; qcase; lra).
  assert (Ha : a = (if Qltb y 0 then 4 + (if Qltb y 0 then - qabs (1 - q) else qabs (1 - q)) else if Qltb y 0 then - qabs (1 - q) else qabs (1 - q)))
    by congruence.
  clear H. repeat split; try assumption; intro Hy; rewrite Ha;
  destruct (Qltb_spec y 0); try (exfalso; lra); rewrite M, <- EQ; ring.
Qed.

Lemma Qlt_mul_cancel : forall a b d e, 0 < d -> 0 < e -> (a < b <-> a * d * e < b * d * e).
Proof. intros a b d e Hd He. assert (0 < d * e) by nra. split; intro H0; nra. Qed.

Lemma qabs_neg : forall x, x < 0 -> qabs x == - x.
Proof. intros x H; unfold qabs; qcase; lra. Qed.
Lemma qabs_nonneg : forall x, 0 <= x -> qabs x == x.
Proof. intros x H; unfold qabs; qcase; lra. Qed.
Lemma mul_pp : forall a b, 0 <= a -> 0 <= b -> 0 <= a * b.
Proof. intros; nra. Qed.
Lemma mul_np : forall a b, a <= 0 -> 0 <= b -> a * b <= 0.
Proof. intros; nra. Qed.
Lemma mul_spp : forall a b, 0 < a -> 0 < b -> 0 < a * b.
Proof. intros; nra. Qed.
Lemma mul_snp : forall a b, a < 0 -> 0 < b -> a * b < 0.
Proof. intros; nra. Qed.

(** The order of the quotients x/(|x|+y) above the axis is the cross product. *)
Lemma quot_cross : forall x y z w, 0 <= y -> 0 <= w -> (0 < y \/ 0 < w) ->
  (z * (qabs x + y) < x * (qabs z + w) <->
   0 < x * w - y * z \/ (0 < x /\ z < 0)).
Proof.
  intros x y z w Hy Hw Hyw.
  destruct (Qlt_le_dec x 0) as [Gx|Gx]; [rewrite (qabs_neg x Gx)|rewrite (qabs_nonneg x Gx)];
  (destruct (Qlt_le_dec z 0) as [Gz|Gz]; [rewrite (qabs_neg z Gz)|rewrite (qabs_nonneg z Gz)]).
  - split; [intro; left; lra|intros [G|G]; lra].
  - pose proof (mul_np x w ltac:(lra) Hw). pose proof (mul_pp y z Hy Gz).
    pose proof (mul_np x z ltac:(lra) Gz). split; [intro; exfalso; lra|intros [G|G]; lra].
  - pose proof (mul_pp x w Gx Hw). pose proof (mul_np z y ltac:(lra) Hy).
    pose proof (mul_np z x ltac:(lra) Gx).
    split.
    + intro G. destruct (Qlt_le_dec 0 x); [right; auto|]. left.
      assert (E : x == 0) by lra. rewrite E in *. lra.
    + intros [G|[G _]]; [lra|]. pose proof (mul_snp z x Gz G). lra.
  - split; [intro; left; lra|intros [G|G]; lra].
Qed.

Lemma pseudo_angle_order : forall u v a b, pseudo_angle u = Some a -> pseudo_angle v = Some b ->
  (a < b <-> angle_lt (mkpt 1 0) u v).
Proof.
  intros u v a b Hu Hv.
  assert (NU : nonzero u).
  { intros [G1 G2]. apply pseudo_angle_val in Hu as [D _]. unfold qabs in D; repeat qcase_in D; lra. }
  assert (NV : nonzero v).
  { intros [G1 G2]. apply pseudo_angle_val in Hv as [D _]. unfold qabs in D; repeat qcase_in D; lra. }
  destruct (pseudo_angle_some u NU) as (a' & Ea & RA). rewrite Hu in Ea; injection Ea as <-.
  destruct (pseudo_angle_some v NV) as (b' & Eb & RB). rewrite Hv in Eb; injection Eb as <-.
  apply pseudo_angle_val in Hu as (DU & U1 & U2). apply pseudo_angle_val in Hv as (DV & V1 & V2).
  assert (R0 : nonzero (mkpt 1 0)) by (intros [G _]; simpl in G; lra).
  destruct u as [x y]; destruct v as [z w]; simpl in *.
  unfold angle_lt, sector, cross, dot; simpl.
  set (dx := qabs x + qabs y) in *; set (dz := qabs z + qabs w) in *.
  assert (CY : 1 * y - 0 * x == y) by ring. assert (CW : 1 * w - 0 * z == w) by ring.
  assert (DXx : 1 * x + 0 * y == x) by ring. assert (DZz : 1 * z + 0 * w == z) by ring.
  rewrite (Qltb_compat 0 0 _ _ (Qeq_refl 0) CY), (Qltb_compat _ _ 0 0 CY (Qeq_refl 0)), (Qltb_compat _ _ 0 0 DXx (Qeq_refl 0)).
  rewrite (Qltb_compat 0 0 _ _ (Qeq_refl 0) CW), (Qltb_compat _ _ 0 0 CW (Qeq_refl 0)), (Qltb_compat _ _ 0 0 DZz (Qeq_refl 0)).
  clear CY CW DXx DZz.
  pose proof (qabs_spec x) as (X1 & X2 & X3 & X4). pose proof (qabs_spec y) as (Y1 & Y2 & Y3 & Y4).
  pose proof (qabs_spec z) as (Z1 & Z2 & Z3 & Z4). pose proof (qabs_spec w) as (W1 & W2 & W3 & W4).
  assert (BU : (y < 0 -> 2 < a) /\ (0 <= y -> a <= 2)).
  { split; intro G.
    - specialize (U1 G). destruct (Qlt_le_dec 2 a); [assumption|exfalso]. 
      assert ((a - 3) * dx <= - dx) by nra. unfold dx in *; lra.
    - specialize (U2 G). destruct (Qlt_le_dec 2 a); [exfalso|assumption].
      assert ((1 - a) * dx < - dx) by nra. unfold dx in *; lra. }
  assert (BV : (w < 0 -> 2 < b) /\ (0 <= w -> b <= 2)).
  { split; intro G.
    - specialize (V1 G). destruct (Qlt_le_dec 2 b); [assumption|exfalso]. 
      assert ((b - 3) * dz <= - dz) by nra. unfold dz in *; lra.
    - specialize (V2 G). destruct (Qlt_le_dec 2 b); [exfalso|assumption].
      assert ((1 - b) * dz < - dz) by nra. unfold dz in *; lra. }
  destruct BU as [BU1 BU2]; destruct BV as [BV1 BV2].
  (* general comparison of the two quotients *)
  assert (KEY : (y < 0 -> w < 0 -> (a < b <-> x * dz < z * dx)) /\
                (0 <= y -> 0 <= w -> (a < b <-> z * dx < x * dz))).
  { split; intros G1 G2.
    - specialize (U1 G1); specialize (V1 G2). rewrite (Qlt_mul_cancel a b dx dz DU DV).
      rewrite <- U1, <- V1. split; intro; lra.
    - specialize (U2 G1); specialize (V2 G2). rewrite (Qlt_mul_cancel a b dx dz DU DV).
      rewrite <- U2, <- V2. split; intro; lra. }
  destruct KEY as [K1 K2].
  assert (SY : y < 0 -> qabs y == - y) by apply qabs_neg.
  assert (SY' : 0 <= y -> qabs y == y) by apply qabs_nonneg.
  assert (SW : w < 0 -> qabs w == - w) by apply qabs_neg.
  assert (SW' : 0 <= w -> qabs w == w) by apply qabs_nonneg.
  clear U1 U2 V1 V2 X2 Y2 Z2 W2.
  assert (X0 : y == 0 -> 0 <= x -> 0 < x).
  { intros G1 G2. destruct (Qlt_le_dec 0 x); [assumption|exfalso; apply NU; simpl; split; lra]. }
  assert (Z0 : w == 0 -> 0 <= z -> 0 < z).
  { intros G1 G2. destruct (Qlt_le_dec 0 z); [assumption|exfalso; apply NV; simpl; split; lra]. }
  unfold dx, dz in K1, K2; clear dx dz DU DV X1 X3 X4 Z1 Z3 Z4 Y1 Y3 Y4 W1 W3 W4.
  destruct (Qltb_spec 0 y) as [Hy|Hy]; [|destruct (Qltb_spec y 0) as [Hy'|Hy']];
  (destruct (Qltb_spec 0 w) as [Hw|Hw]; [|destruct (Qltb_spec w 0) as [Hw'|Hw']]).
  - rewrite (K2 ltac:(lra) ltac:(lra)), (SY' ltac:(lra)), (SW' ltac:(lra)), quot_cross by lra.
    split; [intros [G|[G1 G2]]; right; split; auto|intros [G|[_ G]]; [lia|auto]].
    pose proof (mul_spp x w G1 Hw). pose proof (mul_snp z y G2 Hy). lra.
  - split; [intro; left; lia|]. intros _. specialize (BU2 ltac:(lra)); specialize (BV1 Hw'). lra.
  - assert (Ew : w == 0) by lra.
    rewrite (K2 ltac:(lra) ltac:(lra)), (SY' ltac:(lra)), (SW' ltac:(lra)), quot_cross by lra.
    destruct (Qltb_spec z 0) as [Hz|Hz].
    + split; [intro; left; lia|]. intros _. left. rewrite Ew. pose proof (mul_snp z y Hz Hy). lra.
    + split; [|intros [G|[G _]]; [lia|discriminate]]. intros [G|[_ G]]; [exfalso|lra].
      rewrite Ew in G. pose proof (mul_pp y z ltac:(lra) Hz). lra.
  - split; [|intros [G|[G _]]; [lia|discriminate]]. intro. exfalso.
    specialize (BU1 Hy'); specialize (BV2 ltac:(lra)); lra.
  - rewrite (K1 Hy' Hw'), (SY Hy'), (SW Hw').
    assert (E : x * (qabs z + - w) < z * (qabs x + - y) <-> x * w - y * z > 0 \/ (x < 0 /\ 0 < z)).
    { pose proof (quot_cross z (- w) x (- y) ltac:(lra) ltac:(lra) ltac:(lra)) as Q. rewrite Q.
      split; intros [G|[G1 G2]]; auto; left; lra. }
    rewrite E. clear E.
    split; [intros [G|[G1 G2]]; right; split; auto|intros [G|[_ G]]; [lia|left; exact G]].
    pose proof (mul_spp (-x) (-w) ltac:(lra) ltac:(lra)). pose proof (mul_snp y z Hy' G2). lra.
  - specialize (BU1 Hy'); specialize (BV2 ltac:(lra)).
    destruct (Qltb_spec z 0); (split; [intro; exfalso; lra|intros [G|[G _]]; [lia|discriminate]]).
  - assert (Ey : y == 0) by lra.
    rewrite (K2 ltac:(lra) ltac:(lra)), (SY' ltac:(lra)), (SW' ltac:(lra)), quot_cross by lra.
    destruct (Qltb_spec x 0) as [Hx|Hx].
    + split; [|intros [G|[G _]]; [lia|discriminate]]. intros [G|[G _]]; [exfalso|lra].
      rewrite Ey in G. pose proof (mul_snp x w Hx Hw). lra.
    + split; [intro; left; lia|]. intros _. left. rewrite Ey.
      pose proof (mul_spp x w (X0 Ey Hx) Hw). lra.
  - specialize (BU2 ltac:(lra)); specialize (BV1 Hw').
    destruct (Qltb_spec x 0); (split; [intro; left; lia|intros _; lra]).
  - assert (Ew : w == 0) by lra. assert (Ey : y == 0) by lra.
    rewrite (K2 ltac:(lra) ltac:(lra)), (SY' ltac:(lra)), (SW' ltac:(lra)).
    assert (RW : z * (qabs x + y) < x * (qabs z + w) <-> z * qabs x < x * qabs z) by (rewrite Ew, Ey; split; intro; lra).
    rewrite RW.
    assert (ZC : ~ 0 < x * w - y * z) by (rewrite Ew, Ey; lra).
    destruct (Qltb_spec x 0) as [Hx|Hx]; destruct (Qltb_spec z 0) as [Hz|Hz].
    + rewrite (qabs_neg x Hx), (qabs_neg z Hz). split; [intro G; exfalso; lra|]. intros [G|[_ G]]; [lia|contradiction].
    + rewrite (qabs_neg x Hx), (qabs_nonneg z Hz). pose proof (mul_np x z ltac:(lra) Hz).
      split; [intro G; exfalso; lra|]. intros [G|[G _]]; [lia|discriminate].
    + rewrite (qabs_nonneg x Hx), (qabs_neg z Hz). split; [intro; left; lia|]. intros _.
      pose proof (mul_snp z x Hz (X0 Ey Hx)). lra.
    + rewrite (qabs_nonneg x Hx), (qabs_nonneg z Hz). split; [intro G; exfalso; lra|]. intros [G|[_ G]]; [lia|contradiction].
Qed.

(** ** oriented_intersection *)

(** Two segments with the ends of the first strictly on either side of the line of
    the second share a point iff the ends of the second are not strictly on the
    same side of the first. *)
Lemma straddle : forall p1 p2 p3 p4,
  let d1 := cross (vsub p4 p3) (vsub p1 p3) in let d2 := cross (vsub p4 p3) (vsub p2 p3) in
  let d3 := cross (vsub p2 p1) (vsub p3 p1) in let d4 := cross (vsub p2 p1) (vsub p4 p1) in
  (0 < d1 /\ d2 < 0 \/ d1 < 0 /\ 0 < d2) ->
  ((exists X, on_segment p1 p2 X /\ on_segment p3 p4 X) <-> d3 * d4 <= 0).
Proof.
  intros p1 p2 p3 p4 d1 d2 d3 d4 H.
  assert (R : d4 - d3 == d1 - d2) by (unfold d1, d2, d3, d4, cross, vsub; simpl; ring).
  split.
  - intros (X & (t & Ht & Xx & Xy) & (u & Hu & Yx & Yy)).
    unfold lerp, vadd, vscale, vsub in *; simpl in *.
    assert (E : (1 - u) * d3 + u * d4 == 0).
    { unfold d3, d4, cross, vsub; simpl.
      setoid_replace ((1 - u) * ((px p2 - px p1) * (py p3 - py p1) - (py p2 - py p1) * (px p3 - px p1)) +
        u * ((px p2 - px p1) * (py p4 - py p1) - (py p2 - py p1) * (px p4 - px p1)))
      with ((px p2 - px p1) * ((py p3 + u * (py p4 - py p3)) - py p1) - (py p2 - py p1) * ((px p3 + u * (px p4 - px p3)) - px p1)) by ring.
      rewrite <- Yx, <- Yy, Xx, Xy. ring. }
    clearbody d1 d2 d3 d4. clear - E Hu.
    destruct (Qlt_le_dec 0 (d3 * d4)); [exfalso|assumption].
    assert (C : d3 * ((1 - u) * d3 + u * d4) == 0) by (rewrite E; ring).
    assert (C' : d4 * ((1 - u) * d3 + u * d4) == 0) by (rewrite E; ring).
    pose proof (sq_nonneg d3). pose proof (sq_nonneg d4).
    assert (0 <= (1 - u) * (d3 * d3)) by nra. assert (0 <= u * (d4 * d4)) by nra. nra.
  - intro H34.
    assert (N : ~ d1 - d2 == 0) by lra.
    assert (T : 0 <= d1 / (d1 - d2) <= 1).
    { destruct H as [[H1 H2]|[H1 H2]].
      - split; [apply Qle_shift_div_l; lra|apply Qle_shift_div_r; lra].
      - assert (E : d1 / (d1 - d2) == (- d1) / (d2 - d1)) by (field; lra). rewrite E.
        split; [apply Qle_shift_div_l; lra|apply Qle_shift_div_r; lra]. }
    assert (U : 0 <= d3 / (d3 - d4) <= 1).
    { assert (C34 : (0 <= d3 /\ d4 <= 0) \/ (d3 <= 0 /\ 0 <= d4)).
      { clearbody d1 d2 d3 d4. destruct (Qlt_le_dec 0 d3); destruct (Qlt_le_dec 0 d4);
          [exfalso; nra|left; split; lra|right; split; lra|].
        destruct (Qlt_le_dec d3 0); [|left; split; lra].
          destruct (Qlt_le_dec d4 0); [exfalso; nra|right; split; lra]. }
      destruct C34 as [[H3 H4]|[H3 H4]].
      - split; [apply Qle_shift_div_l; lra|apply Qle_shift_div_r; lra].
      - assert (E : d3 / (d3 - d4) == (- d3) / (d4 - d3)) by (field; lra). rewrite E.
        split; [apply Qle_shift_div_l; lra|apply Qle_shift_div_r; lra]. }
    exists (lerp p1 p2 (d1 / (d1 - d2))). split.
    + exists (d1 / (d1 - d2)); split; [exact T|apply pteq_refl].
    + exists (d3 / (d3 - d4)); split; [exact U|].
      assert (N' : ~ d3 - d4 == 0) by lra.
      unfold d1, d2, d3, d4, lerp, vadd, vscale, vsub, cross, pteq in *; simpl in *.
      split; field; split; assumption.
Qed.

Lemma orientation_value_cases : forall A B C,
  let o := orientation_value (get_orientation direct A B C) in
  let d := cross (vsub B A) (vsub C A) in
  (o = 1%Z /\ 0 < d) \/ (o = 0%Z /\ d == 0) \/ (o = (-1)%Z /\ d < 0).
Proof.
  intros A B C. destruct (orientation_direct A B C) as (O1 & O2 & O3). simpl.
  destruct (get_orientation direct A B C); simpl.
  - right; right; split; auto; apply O2; reflexivity.
  - right; left; split; auto; apply O3; reflexivity.
  - left; split; auto; apply O1; reflexivity.
Qed.

Lemma oriented_else_not_lr : forall b3 b4 b1 b2 e13 e24 e14 e23 r,
  (if b3 && b4 then oi_overlapping
    else if b1 && b2 then oi_overlapping
      else if b3 && b2 then oi_overlapping
      else if b3 && b1 then oi_overlapping
      else if b4 && b2 then oi_overlapping
      else if b4 && b1 then oi_overlapping
      else if (e13 && e24) || (e14 && e23) then oi_overlapping
        else if e13 then oi_endpoint
        else if e14 then oi_endpoint
        else if e23 then oi_endpoint
        else if e24 then oi_endpoint
        else oi_non_crossing) = r -> r <> oi_left_right /\ r <> oi_right_left.
Proof.
  intros [] [] [] [] [] [] [] [] r E; subst r; simpl; split; discriminate.
Qed.

Lemma oriented_cross_iff : forall p1 p2 p3 p4,
  (oriented_intersection direct p1 p2 p3 p4 = oi_left_right <->
   0 < cross (vsub p4 p3) (vsub p1 p3) /\ cross (vsub p4 p3) (vsub p2 p3) < 0 /\
   exists X, on_segment p1 p2 X /\ on_segment p3 p4 X) /\
  (oriented_intersection direct p1 p2 p3 p4 = oi_right_left <->
   cross (vsub p4 p3) (vsub p1 p3) < 0 /\ 0 < cross (vsub p4 p3) (vsub p2 p3) /\
   exists X, on_segment p1 p2 X /\ on_segment p3 p4 X).
Proof.
  intros p1 p2 p3 p4. unfold oriented_intersection.
  pose proof (straddle p1 p2 p3 p4) as ST. cbv zeta in ST.
  pose proof (orientation_value_cases p3 p4 p1) as O1. pose proof (orientation_value_cases p3 p4 p2) as O2.
  pose proof (orientation_value_cases p1 p2 p3) as O3. pose proof (orientation_value_cases p1 p2 p4) as O4.
  cbv zeta in O1, O2, O3, O4.
  set (o1 := orientation_value (get_orientation direct p3 p4 p1)) in *.
  set (o2 := orientation_value (get_orientation direct p3 p4 p2)) in *.
  set (o3 := orientation_value (get_orientation direct p1 p2 p3)) in *.
  set (o4 := orientation_value (get_orientation direct p1 p2 p4)) in *.
  set (d1 := cross (vsub p4 p3) (vsub p1 p3)) in *. set (d2 := cross (vsub p4 p3) (vsub p2 p3)) in *.
  set (d3 := cross (vsub p2 p1) (vsub p3 p1)) in *. set (d4 := cross (vsub p2 p1) (vsub p4 p1)) in *.
  assert (P34 : (Z.leb (o3 * o4) 0 = true <-> d3 * d4 <= 0)).
  { clear - O3 O4. clearbody o3 o4 d3 d4.
    destruct O3 as [[-> G3]|[[-> G3]|[-> G3]]]; destruct O4 as [[-> G4]|[[-> G4]|[-> G4]]];
      simpl; split; intro K; try reflexivity; try discriminate; try (rewrite ?G3, ?G4; lra); nra. }
  clearbody o3 o4 d3 d4.
  destruct (negb (Z.eqb o1 0) && negb (Z.eqb o2 0)) eqn:NZ.
  - cbv zeta.
    destruct O1 as [[E1 G1]|[[E1 G1]|[E1 G1]]]; destruct O2 as [[E2 G2]|[[E2 G2]|[E2 G2]]];
      rewrite E1, E2 in *; simpl in *; try discriminate NZ;
      try (split; split; intro K; [discriminate K|exfalso; lra|discriminate K|exfalso; lra]).
    + rewrite <- P34 in ST. destruct (Z.leb (o3 * o4) 0).
      * split; split; intro K; try discriminate K; try reflexivity; try (exfalso; lra).
        repeat split; auto. apply ST; auto.
      * split; split; intro K; try discriminate K; try (exfalso; lra).
        destruct K as (_ & _ & K). apply ST in K; [discriminate K|auto].
    + rewrite <- P34 in ST. destruct (Z.leb (o3 * o4) 0).
      * split; split; intro K; try discriminate K; try reflexivity; try (exfalso; lra).
        repeat split; auto. apply ST; auto.
      * split; split; intro K; try discriminate K; try (exfalso; lra).
        destruct K as (_ & _ & K). apply ST in K; [discriminate K|auto].
  - cbv zeta.
    assert (Z0 : d1 == 0 \/ d2 == 0).
    { destruct O1 as [[E1 G1]|[[E1 G1]|[E1 G1]]]; destruct O2 as [[E2 G2]|[[E2 G2]|[E2 G2]]];
      rewrite E1, E2 in NZ; simpl in NZ; try discriminate NZ; auto. }
    match goal with |- (?t = _ <-> _) /\ _ => destruct (oriented_else_not_lr _ _ _ _ _ _ _ _ t eq_refl) as [N1 N2] end.
    split; split; intro K; try (exfalso; lra); try contradiction.
Qed.

Lemma opposite_sides_line : forall A B P Q0, 0 < cross (vsub B A) (vsub P A) -> cross (vsub B A) (vsub Q0 A) < 0 -> nonzero (vsub B A).
Proof. intros A B P Q0 H1 H2 [G1 G2]. unfold cross in *; rewrite G1, G2 in *; lra. Qed.

Lemma oriented_cross_sides : forall p1 p2 p3 p4, nonzero (vsub p4 p3) ->
  (oriented_intersection direct p1 p2 p3 p4 = oi_left_right <->
   left_of p3 p4 p1 /\ right_of p3 p4 p2 /\ exists X, on_segment p1 p2 X /\ on_segment p3 p4 X) /\
  (oriented_intersection direct p1 p2 p3 p4 = oi_right_left <->
   right_of p3 p4 p1 /\ left_of p3 p4 p2 /\ exists X, on_segment p1 p2 X /\ on_segment p3 p4 X).
Proof.
  intros p1 p2 p3 p4 H. destruct (oriented_cross_iff p1 p2 p3 p4) as [A B].
  destruct (orientation_sides p3 p4 p1 H) as (S1 & S2 & _). destruct (orientation_sides p3 p4 p2 H) as (T1 & T2 & _).
  destruct (orientation_direct p3 p4 p1) as (O1 & O2 & _). destruct (orientation_direct p3 p4 p2) as (P1 & P2 & _).
  rewrite A, B, <- S1, <- S2, <- T1, <- T2, O1, O2, P1, P2. split; reflexivity.
Qed.
