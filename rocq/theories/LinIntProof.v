From Verif Require Import Base CmpModel CmpProof OrientModel OrientSpec OrientProof DistModel LinIntModel LinIntSpec.

(** ** Parameters on a line *)

Lemma nz_vsub : forall A B, nonzero (vsub B A) <-> ~ A =p= B.
Proof.
  intros [ax ay] [bx by_]; unfold nonzero, vsub, pteq; simpl. split; intros H [H1 H2]; apply H; split; lra.
Qed.

Lemma lerp_inj : forall A B x y, nonzero (vsub B A) -> lerp A B x =p= lerp A B y -> x == y.
Proof.
  intros [ax ay] [bx by_] x y H [E1 E2]; unfold lerp, vadd, vscale, vsub in *; simpl in *.
  assert (P1 : (x - y) * (bx - ax) == 0) by lra. assert (P2 : (x - y) * (by_ - ay) == 0) by lra.
  destruct (Qeq_dec x y) as [E|E]; [exact E|exfalso]. apply H; simpl.
  apply Qmult_integral in P1. apply Qmult_integral in P2. split; [destruct P1|destruct P2]; try assumption; exfalso; apply E; lra.
Qed.

Lemma lerp_compat : forall A B t t', t == t' -> lerp A B t =p= lerp A B t'.
Proof. intros A B t t' E; split; unfold lerp, vadd, vscale; simpl; rewrite E; ring. Qed.

Lemma lerp_compat_pt : forall A B A' B' t, A =p= A' -> B =p= B' -> lerp A B t =p= lerp A' B' t.
Proof. intros A B A' B' t [E1 E2] [E3 E4]; split; unfold lerp, vadd, vscale, vsub; simpl; rewrite ?E1, ?E2, ?E3, ?E4; ring. Qed.

Lemma lerp_lerp : forall A B c d t, lerp (lerp A B c) (lerp A B d) t =p= lerp A B (c + t * (d - c)).
Proof. intros; split; unfold lerp, vadd, vscale, vsub; simpl; ring. Qed.

Lemma on_segment_compat : forall A B A' B' X X', A =p= A' -> B =p= B' -> X =p= X' -> on_segment A B X -> on_segment A' B' X'.
Proof.
  intros A B A' B' X X' EA EB EX (t & Ht & E). exists t; split; [exact Ht|].
  eapply pteq_trans; [apply pteq_sym; exact EX|]. eapply pteq_trans; [exact E|]. apply lerp_compat_pt; assumption.
Qed.

(** Between in one dimension, in either order. *)
Definition btw (c d x : Q) : Prop := c <= x <= d \/ d <= x <= c.

Lemma btw_param : forall c d x, btw c d x -> exists t, 0 <= t <= 1 /\ x == c + t * (d - c).
Proof.
  intros c d x H. destruct (Qeq_dec c d) as [E|E].
  - exists 0; split; [lra|]. destruct H; lra.
  - exists ((x - c) / (d - c)). assert (N : ~ d - c == 0) by lra. split; [|field; exact N].
    assert (E1 : (x - c) / (d - c) * (d - c) == x - c) by (field; exact N).
    set (q := (x - c) / (d - c)) in *. clearbody q. destruct H as [H|H]; split; nra.
Qed.
Lemma param_btw : forall c d t, 0 <= t <= 1 -> btw c d (c + t * (d - c)).
Proof. intros c d t H. destruct (Qlt_le_dec c d); [left|right]; split; nra. Qed.

Lemma on_segment_line : forall A B C D c d X, C =p= lerp A B c -> D =p= lerp A B d ->
  (on_segment C D X <-> exists x, btw c d x /\ X =p= lerp A B x).
Proof.
  intros A B C D c d X EC ED. split.
  - intros (t & Ht & E). exists (c + t * (d - c)). split; [apply param_btw; exact Ht|].
    eapply pteq_trans; [exact E|]. eapply pteq_trans; [apply lerp_compat_pt; [exact EC|exact ED]|]. apply lerp_lerp.
  - intros (x & Hx & E). destruct (btw_param c d x Hx) as (t & Ht & Et). exists t; split; [exact Ht|].
    eapply pteq_trans; [exact E|]. eapply pteq_trans; [apply lerp_compat; exact Et|].
    eapply pteq_trans; [apply pteq_sym, lerp_lerp|]. apply lerp_compat_pt; apply pteq_sym; assumption.
Qed.

Lemma on_segment_line_pt : forall A B C D c d x, nonzero (vsub B A) -> C =p= lerp A B c -> D =p= lerp A B d ->
  forall X, X =p= lerp A B x -> (on_segment C D X <-> btw c d x).
Proof.
  intros A B C D c d x N EC ED X EX. rewrite (on_segment_line A B C D c d X EC ED). split.
  - intros (y & Hy & E). assert (x == y) by (apply (lerp_inj A B); [exact N|]; eapply pteq_trans; [apply pteq_sym; exact EX|exact E]).
    unfold btw in *; destruct Hy; [left|right]; lra.
  - intro H; exists x; split; assumption.
Qed.

Lemma lerp_0 : forall A B, A =p= lerp A B 0.
Proof. intros; split; unfold lerp, vadd, vscale; simpl; ring. Qed.
Lemma lerp_1 : forall A B, B =p= lerp A B 1.
Proof. intros; split; unfold lerp, vadd, vscale, vsub; simpl; ring. Qed.

Lemma pt_equals_direct : forall a b, pt_equals direct a b = true <-> a =p= b.
Proof.
  intros a b; unfold pt_equals; simpl. unfold pteq.
  destruct (Qeqb_spec (px a) (px b)); destruct (Qeqb_spec (py a) (py b)); simpl; split; intuition; discriminate.
Qed.

(** ** The parallel case *)

Lemma xdenom_cross : forall A B C D, xdenom A B C D == - cross (vsub B A) (vsub D C).
Proof. intros; unfold xdenom, cross, vsub; simpl; ring. Qed.

(** If AB and CD are parallel and not degenerate and C is on line AB, so is D. *)
Lemma par_params : forall A B C D, nonzero (vsub B A) -> nonzero (vsub D C) -> cross (vsub B A) (vsub D C) == 0 ->
  cross (vsub B A) (vsub C A) == 0 -> exists c d, C =p= lerp A B c /\ D =p= lerp A B d /\ ~ c == d.
Proof.
  intros A B C D N1 N2 E1 E2.
  destruct (collinear_param A B C N1 E2) as (c & Ec).
  destruct (collinear_param A B D N1) as (d & Ed).
  { assert (E : cross (vsub B A) (vsub D A) == cross (vsub B A) (vsub D C) + cross (vsub B A) (vsub C A))
      by (unfold cross, vsub; simpl; ring). rewrite E, E1, E2; ring. }
  exists c, d; split; [exact Ec|]. split; [exact Ed|]. intro E.
  apply N2. destruct Ec as [C1 C2], Ed as [D1 D2]. unfold vsub; simpl. rewrite C1, C2, D1, D2.
  unfold lerp, vadd, vscale, vsub; simpl. rewrite E. split; ring.
Qed.

Lemma btw_dec : forall c d x, btw c d x \/ ~ btw c d x.
Proof.
  intros c d x; unfold btw. destruct (Qlt_le_dec x c); destruct (Qlt_le_dec d x); destruct (Qlt_le_dec x d); destruct (Qlt_le_dec c x);
    try (left; left; split; lra); try (left; right; split; lra); right; intros [G|G]; lra.
Qed.

Lemma lerp_btw_common : forall A B C D c d, nonzero (vsub B A) -> C =p= lerp A B c -> D =p= lerp A B d ->
  forall u v, (forall x, 0 <= x <= 1 /\ btw c d x <-> btw u v x) ->
  forall X Y, X =p= lerp A B u -> Y =p= lerp A B v ->
  is_segment_set (both (on_segment A B) (on_segment C D)) X Y.
Proof.
  intros A B C D c d N EC ED u v H X Y EX EY Z. unfold both.
  rewrite (on_segment_line A B X Y u v Z EX EY). split.
  - intros [(x & Hx & E) H2]. exists x; split; [|exact E]. apply H. split; [exact Hx|].
    apply (on_segment_line_pt A B C D c d x N EC ED Z E). exact H2.
  - intros (x & Hx & E). apply H in Hx as [H1 H2]. split; [exists x; auto|].
    apply (on_segment_line_pt A B C D c d x N EC ED Z E). exact H2.
Qed.

Lemma parallel_ok : forall A B C D, nonzero (vsub B A) -> nonzero (vsub D C) -> cross (vsub B A) (vsub D C) == 0 ->
  (parallel_intersection direct A B C D = (e_non_crossing, []) /\ is_empty_set (both (on_segment A B) (on_segment C D))) \/
  (exists X Y, parallel_intersection direct A B C D = (e_overlapping, [X; Y]) /\
     is_segment_set (both (on_segment A B) (on_segment C D)) X Y).
Proof.
  intros A B C D N1 N2 EP. unfold parallel_intersection.
  destruct (is_collinear direct A B C) eqn:EC; simpl negb; cbv iota.
  2:{ left; split; [reflexivity|]. intros Z [(x & _ & E1) (y & _ & E2)].
      apply not_true_iff_false in EC. apply EC. apply collinear_direct.
      pose proof (lerp_cross _ _ _ _ E1) as F1.
      assert (F2 : cross (vsub B A) (vsub Z C) == 0).
      { destruct E2 as [G1 G2]. unfold lerp, vadd, vscale, vsub, cross in *; simpl in *. rewrite G1, G2.
        transitivity (y * ((px B - px A) * (py D - py C) - (py B - py A) * (px D - px C))); [ring|]. rewrite EP; ring. }
      assert (E : cross (vsub B A) (vsub C A) == cross (vsub B A) (vsub Z A) - cross (vsub B A) (vsub Z C))
        by (unfold cross, vsub; simpl; ring). rewrite E, F1, F2; ring. }
  apply collinear_direct in EC.
  destruct (par_params A B C D N1 N2 EP EC) as (c & d & Ec & Ed & Ncd).
  assert (HC : is_between direct A B C true = true <-> 0 <= c <= 1).
  { rewrite is_between_true by exact N1. rewrite (on_segment_line_pt A B A B 0 1 c N1 (lerp_0 A B) (lerp_1 A B) C Ec).
    unfold btw; split; [intros [G|G]|intro G; left]; lra. }
  assert (HD : is_between direct A B D true = true <-> 0 <= d <= 1).
  { rewrite is_between_true by exact N1. rewrite (on_segment_line_pt A B A B 0 1 d N1 (lerp_0 A B) (lerp_1 A B) D Ed).
    unfold btw; split; [intros [G|G]|intro G; left]; lra. }
  assert (HA : is_between direct C D A true = true <-> btw c d 0).
  { rewrite is_between_true by exact N2. apply (on_segment_line_pt A B C D c d 0 N1 Ec Ed A (lerp_0 A B)). }
  assert (HB : is_between direct C D B true = true <-> btw c d 1).
  { rewrite is_between_true by exact N2. apply (on_segment_line_pt A B C D c d 1 N1 Ec Ed B (lerp_1 A B)). }
  assert (EAC : pt_equals direct A C = true -> c == 0).
  { rewrite pt_equals_direct; intro G. symmetry. apply (lerp_inj A B); [exact N1|].
    eapply pteq_trans; [apply pteq_sym, lerp_0|]. eapply pteq_trans; [exact G|exact Ec]. }
  assert (EAD : pt_equals direct A D = true -> d == 0).
  { rewrite pt_equals_direct; intro G. symmetry. apply (lerp_inj A B); [exact N1|].
    eapply pteq_trans; [apply pteq_sym, lerp_0|]. eapply pteq_trans; [exact G|exact Ed]. }
  assert (EBC : pt_equals direct B C = true -> c == 1).
  { rewrite pt_equals_direct; intro G. symmetry. apply (lerp_inj A B); [exact N1|].
    eapply pteq_trans; [apply pteq_sym, lerp_1|]. eapply pteq_trans; [exact G|exact Ec]. }
  assert (EBD : pt_equals direct B D = true -> d == 1).
  { rewrite pt_equals_direct; intro G. symmetry. apply (lerp_inj A B); [exact N1|].
    eapply pteq_trans; [apply pteq_sym, lerp_1|]. eapply pteq_trans; [exact G|exact Ed]. }
  pose proof (lerp_btw_common A B C D c d N1 Ec Ed) as SEG.
  destruct (is_between direct A B C true) eqn:BC; destruct (is_between direct A B D true) eqn:BD; simpl andb; cbv iota.
  - right; exists C, D; split; [reflexivity|]. apply (SEG c d); try assumption.
    pose proof (proj1 HC eq_refl); pose proof (proj1 HD eq_refl). intro x; unfold btw; split; [tauto|].
    intros [G|G]; (split; [lra|auto]).
  - pose proof (proj1 HC eq_refl) as F1. assert (F2 : ~ 0 <= d <= 1) by (intro G; apply HD in G; discriminate).
    destruct (is_between direct C D A true) eqn:BA; destruct (is_between direct C D B true) eqn:BB; simpl andb; cbv iota.
    + right; exists A, B; split; [reflexivity|]. apply (SEG 0 1); try apply lerp_0; try apply lerp_1.
      pose proof (proj1 HA eq_refl) as G1; pose proof (proj1 HB eq_refl) as G2. intro x; unfold btw in *.
      split; [intros [G _]; left; exact G|intros [G|G]; [split; [exact G|]|exfalso; lra]].
      destruct G1 as [G1|G1]; destruct G2 as [G2|G2]; try (exfalso; lra); [left; lra|right; lra].
    + assert (GB : ~ btw c d 1) by (intro G; apply HB in G; discriminate). pose proof (proj1 HA eq_refl) as G1.
      right; exists C, A; split; [reflexivity|]. apply (SEG c 0); try assumption; try apply lerp_0.
      intro x; unfold btw in *. split.
      * intros [[? ?] [G|G]]; [destruct (Qlt_le_dec d 0); [right|]|]; try (right; lra).
        assert (1 < d) by (destruct (Qlt_le_dec 1 d); [assumption|exfalso; apply F2; lra]). exfalso; apply GB; left; lra.
      * intros [G|G]; (split; [lra|]); destruct (Qlt_le_dec d 0); try (right; lra);
          (assert (1 < d) by (destruct (Qlt_le_dec 1 d); [assumption|exfalso; apply F2; lra])); exfalso; apply GB; left; lra.
    + assert (GA : ~ btw c d 0) by (intro G; apply HA in G; discriminate). pose proof (proj1 HB eq_refl) as G1.
      right; exists C, B; split; [reflexivity|]. apply (SEG c 1); try assumption; try apply lerp_1.
      assert (DD : 1 < d).
      { destruct (Qlt_le_dec 1 d); [assumption|exfalso]. apply F2. split; [|lra].
        destruct (Qlt_le_dec d 0); [exfalso; apply GA; right; lra|lra]. }
      intro x; unfold btw in *. split.
      * intros [[? ?] [G|G]]; left; lra.
      * intros [G|G]; (split; [lra|left; lra]).
    + exfalso. assert (GA : ~ btw c d 0) by (intro G; apply HA in G; discriminate).
      assert (GB : ~ btw c d 1) by (intro G; apply HB in G; discriminate).
      unfold btw in *. destruct (Qlt_le_dec d 0); [apply GA; right; lra|].
      destruct (Qlt_le_dec 1 d); [apply GB; left; lra|apply F2; lra].
  - pose proof (proj1 HD eq_refl) as F1. assert (F2 : ~ 0 <= c <= 1) by (intro G; apply HC in G; discriminate).
    destruct (is_between direct C D A true) eqn:BA; destruct (is_between direct C D B true) eqn:BB; simpl andb; cbv iota.
    + right; exists A, B; split; [reflexivity|]. apply (SEG 0 1); try apply lerp_0; try apply lerp_1.
      pose proof (proj1 HA eq_refl) as G1; pose proof (proj1 HB eq_refl) as G2. intro x; unfold btw in *.
      split; [intros [G _]; left; exact G|intros [G|G]; [split; [exact G|]|exfalso; lra]].
      destruct G1 as [G1|G1]; destruct G2 as [G2|G2]; try (exfalso; lra); [left; lra|right; lra].
    + assert (GB : ~ btw c d 1) by (intro G; apply HB in G; discriminate). pose proof (proj1 HA eq_refl) as G1.
      right; exists D, A; split; [reflexivity|]. apply (SEG d 0); try assumption; try apply lerp_0.
      assert (DD : c < 0).
      { destruct (Qlt_le_dec c 0); [assumption|exfalso]. apply F2. split; [assumption|].
        destruct (Qlt_le_dec 1 c); [exfalso; apply GB; right; lra|lra]. }
      intro x; unfold btw in *. split.
      * intros [[? ?] [G|G]]; right; lra.
      * intros [G|G]; (split; [lra|left; lra]).
    + assert (GA : ~ btw c d 0) by (intro G; apply HA in G; discriminate). pose proof (proj1 HB eq_refl) as G1.
      right; exists D, B; split; [reflexivity|]. apply (SEG d 1); try assumption; try apply lerp_1.
      assert (DD : 1 < c).
      { destruct (Qlt_le_dec 1 c); [assumption|exfalso]. apply F2. split; [|assumption].
        destruct (Qlt_le_dec c 0); [exfalso; apply GA; left; lra|lra]. }
      intro x; unfold btw in *. split.
      * intros [[? ?] [G|G]]; left; lra.
      * intros [G|G]; (split; [lra|right; lra]).
    + exfalso. assert (GA : ~ btw c d 0) by (intro G; apply HA in G; discriminate).
      assert (GB : ~ btw c d 1) by (intro G; apply HB in G; discriminate).
      unfold btw in *. destruct (Qlt_le_dec c 0); [apply GA; left; lra|].
      destruct (Qlt_le_dec 1 c); [apply GB; right; lra|apply F2; lra].
  - assert (F1 : ~ 0 <= c <= 1) by (intro G; apply HC in G; discriminate).
    assert (F2 : ~ 0 <= d <= 1) by (intro G; apply HD in G; discriminate).
    assert (Z1 : pt_equals direct A C = false) by (apply not_true_iff_false; intro G; apply EAC in G; apply F1; lra).
    assert (Z2 : pt_equals direct A D = false) by (apply not_true_iff_false; intro G; apply EAD in G; apply F2; lra).
    assert (Z3 : pt_equals direct B C = false) by (apply not_true_iff_false; intro G; apply EBC in G; apply F1; lra).
    assert (Z4 : pt_equals direct B D = false) by (apply not_true_iff_false; intro G; apply EBD in G; apply F2; lra).
    rewrite Z1, Z2, Z3, Z4.
    destruct (is_between direct C D A true) eqn:BA; destruct (is_between direct C D B true) eqn:BB; simpl; cbv iota.
    + right; exists A, B; split; [reflexivity|]. apply (SEG 0 1); try apply lerp_0; try apply lerp_1.
      pose proof (proj1 HA eq_refl) as G1; pose proof (proj1 HB eq_refl) as G2. intro x; unfold btw in *.
      split; [intros [G _]; left; exact G|intros [G|G]; [split; [exact G|]|exfalso; lra]].
      destruct G1 as [G1|G1]; destruct G2 as [G2|G2]; try (exfalso; lra); [left; lra|right; lra].
    + left; split; [reflexivity|]. intros Z [(x & Hx & EX) H2].
      apply (on_segment_line_pt A B C D c d x N1 Ec Ed Z EX) in H2.
      assert (GB : ~ btw c d 1) by (intro G; apply HB in G; discriminate). unfold btw in *.
      destruct (Qlt_le_dec c 0); [destruct (Qlt_le_dec 1 d); [apply GB; left; lra|]|];
      destruct (Qlt_le_dec d 0); [| |destruct (Qlt_le_dec 1 c); [apply GB; right; lra|]|]; try (destruct H2; lra);
      try (apply F1; lra); try (apply F2; lra).
    + left; split; [reflexivity|]. intros Z [(x & Hx & EX) H2].
      apply (on_segment_line_pt A B C D c d x N1 Ec Ed Z EX) in H2.
      assert (GA : ~ btw c d 0) by (intro G; apply HA in G; discriminate). unfold btw in *.
      destruct (Qlt_le_dec c 0).
      * destruct (Qlt_le_dec d 0); [destruct H2; lra|]. apply GA; left; lra.
      * destruct (Qlt_le_dec d 0); [apply GA; right; lra|].
        destruct (Qlt_le_dec 1 c); [|apply F1; lra]. destruct (Qlt_le_dec 1 d); [|apply F2; lra]. destruct H2; lra.
    + left; split; [reflexivity|]. intros Z [(x & Hx & EX) H2].
      apply (on_segment_line_pt A B C D c d x N1 Ec Ed Z EX) in H2.
      assert (GA : ~ btw c d 0) by (intro G; apply HA in G; discriminate). unfold btw in *.
      destruct (Qlt_le_dec c 0).
      * destruct (Qlt_le_dec d 0); [destruct H2; lra|]. apply GA; left; lra.
      * destruct (Qlt_le_dec d 0); [apply GA; right; lra|].
        destruct (Qlt_le_dec 1 c); [|apply F1; lra]. destruct (Qlt_le_dec 1 d); [|apply F2; lra]. destruct H2; lra.
Qed.

(** ** The non-parallel case *)

Lemma cross_solve : forall A B C D, ~ xdenom A B C D == 0 ->
  let s := xnum_s A B C D / xdenom A B C D in
  let t := xnum_t A B C D / xdenom A B C D in
  lerp A B s =p= lerp C D t /\
  forall s' t', lerp A B s' =p= lerp C D t' -> s' == s /\ t' == t.
Proof.
  intros [ax ay] [bx by_] [cx cy] [dx dy] N s t.
  unfold s, t, xnum_s, xnum_t, xdenom in *; simpl in *. clear s t. split.
  - split; unfold lerp, vadd, vscale, vsub; simpl; field; exact N.
  - intros s' t' [E1 E2]; unfold lerp, vadd, vscale, vsub in *; simpl in *.
    set (den := ax * (dy - cy) + bx * (cy - dy) + dx * (by_ - ay) + cx * (ay - by_)) in *.
    assert (P1 : s' * den == ax * (dy - cy) + cx * (ay - dy) + dx * (cy - ay)).
    { assert (P : s' * den == - ((ax + s' * (bx - ax) - ax) * (dy - cy) - (ay + s' * (by_ - ay) - ay) * (dx - cx))) by (unfold den; ring).
      rewrite P, E1, E2. ring. }
    assert (P2 : t' * den == - (ax * (cy - by_) + bx * (ay - cy) + cx * (by_ - ay))).
    { assert (P : t' * den == (cx + t' * (dx - cx) - cx) * (by_ - ay) - (cy + t' * (dy - cy) - cy) * (bx - ax)) by (unfold den; ring).
      rewrite P, <- E1, <- E2. ring. }
    split; [rewrite <- P1|rewrite <- P2]; field; exact N.
Qed.

Lemma qdiv_opt_some : forall x y, ~ y == 0 -> qdiv_opt x y = Some (x / y).
Proof. intros x y H; unfold qdiv_opt. destruct (Qeqb_spec y 0); [contradiction|reflexivity]. Qed.

Lemma div_zero_iff : forall x y, ~ y == 0 -> (x / y == 0 <-> x == 0).
Proof.
  intros x y H. split; intro E.
  - assert (G : x == x / y * y) by (field; exact H). rewrite E in G. rewrite G; ring.
  - rewrite E. field; exact H.
Qed.
Lemma div_one_iff : forall x y, ~ y == 0 -> (x / y == 1 <-> x == y).
Proof.
  intros x y H. split; intro E.
  - assert (G : x == x / y * y) by (field; exact H). rewrite E in G. rewrite G; ring.
  - rewrite E. field; exact H.
Qed.

Definition inside01 (s : Q) := 0 < s < 1.
Definition in01 (s : Q) := 0 <= s <= 1.

(** All outcomes of the non-parallel branch, in terms of the parameters. *)
Lemma crossing_branch : forall A B C D, ~ xdenom A B C D == 0 -> exists s t,
  lerp A B s =p= lerp C D t /\
  (forall s' t', lerp A B s' =p= lerp C D t' -> s' == s /\ t' == t) /\
  ((in01 s /\ in01 t /\ inside01 s /\ inside01 t /\ segment_segment_intersection direct A B C D = Some (e_crossing, [lerp A B s])) \/
   (in01 s /\ in01 t /\ ~ (inside01 s /\ inside01 t) /\ segment_segment_intersection direct A B C D = Some (e_endpoint, [lerp A B s])) \/
   (~ (in01 s /\ in01 t) /\ segment_segment_intersection direct A B C D = Some (e_non_crossing, []))).
Proof.
  intros A B C D N. destruct (cross_solve A B C D N) as [E U]. cbv zeta in *.
  exists (xnum_s A B C D / xdenom A B C D), (xnum_t A B C D / xdenom A B C D).
  split; [exact E|]. split; [exact U|]. clear E U.
  unfold segment_segment_intersection; simpl.
  pose proof (div_zero_iff (xnum_s A B C D) _ N) as S0. pose proof (div_one_iff (xnum_s A B C D) _ N) as S1.
  pose proof (div_zero_iff (xnum_t A B C D) _ N) as T0. pose proof (div_one_iff (xnum_t A B C D) _ N) as T1.
  rewrite !qdiv_opt_some by exact N.
  destruct (Qeqb_spec (xdenom A B C D) 0); [contradiction|].
  set (s := xnum_s A B C D / xdenom A B C D) in *. set (t := xnum_t A B C D / xdenom A B C D) in *.
  set (den := xdenom A B C D) in *. set (ns := xnum_s A B C D) in *. set (nt := xnum_t A B C D) in *.
  change (vadd A (vscale s (vsub B A))) with (lerp A B s). clearbody s t den ns nt. unfold inside01, in01.
  assert (B1 : Qltb 0 s && Qltb s 1 && Qltb 0 t && Qltb t 1 = true <-> 0 < s < 1 /\ 0 < t < 1)
    by (rewrite !andb_true_iff, !Qltb_lt; tauto).
  assert (B2 : Qgtb 0 s || Qgtb s 1 || Qgtb 0 t || Qgtb t 1 = true <-> ~ (0 <= s <= 1 /\ 0 <= t <= 1)).
  { unfold Qgtb. rewrite !orb_true_iff, !Qltb_lt. split; [intros [[[G|G]|G]|G]; lra|]. intro G.
    destruct (Qlt_le_dec s 0); [auto|]. destruct (Qlt_le_dec 1 s); [auto|]. destruct (Qlt_le_dec t 0); [auto|].
    destruct (Qlt_le_dec 1 t); [auto|]. exfalso; apply G; lra. }
  destruct (Qltb 0 s && Qltb s 1 && Qltb 0 t && Qltb t 1).
  - left. destruct (proj1 B1 eq_refl) as [G1 G2]. repeat split; lra.
  - assert (NI : ~ (0 < s < 1 /\ 0 < t < 1)) by (intro G; apply B1 in G; discriminate).
    destruct (Qgtb 0 s || Qgtb s 1 || Qgtb 0 t || Qgtb t 1).
    + right; right. split; [apply B2; reflexivity|reflexivity].
    + assert (IN : 0 <= s <= 1 /\ 0 <= t <= 1).
      { split; split; (destruct (Qlt_le_dec s 0); [exfalso; assert (false = true) by (apply B2; lra); discriminate|]);
        (destruct (Qlt_le_dec 1 s); [exfalso; assert (false = true) by (apply B2; lra); discriminate|]);
        (destruct (Qlt_le_dec t 0); [exfalso; assert (false = true) by (apply B2; lra); discriminate|]);
        (destruct (Qlt_le_dec 1 t); [exfalso; assert (false = true) by (apply B2; lra); discriminate|]); lra. }
      right; left. destruct IN as [I1 I2]. split; [exact I1|]. split; [exact I2|]. split; [exact NI|]. clear B1 B2.
      assert (Z : s == 0 \/ s == 1 \/ t == 0 \/ t == 1) by
        (destruct (Qeq_dec s 0); [auto|]; destruct (Qeq_dec s 1); [auto|]; destruct (Qeq_dec t 0); [auto|];
         destruct (Qeq_dec t 1); [auto|]; exfalso; lra).
      assert (Y : (Qeqb ns 0 || Qeqb ns den) = true \/ (Qeqb nt 0 || Qeqb nt den) = true).
      { rewrite !orb_true_iff, !Qeqb_eq. destruct S0, S1, T0, T1. destruct Z as [Z|[Z|[Z|Z]]]; auto. }
      destruct (Qeqb ns 0 || Qeqb ns den); destruct (Qeqb nt 0 || Qeqb nt den); try reflexivity.
      destruct Y; discriminate.
Qed.

Lemma in01_on : forall A B s, in01 s -> on_segment A B (lerp A B s).
Proof. intros A B s H; exists s; split; [exact H|apply pteq_refl]. Qed.

Lemma single_from_params : forall A B C D s t, lerp A B s =p= lerp C D t ->
  (forall s' t', lerp A B s' =p= lerp C D t' -> s' == s /\ t' == t) -> in01 s -> in01 t ->
  is_single_point (both (on_segment A B) (on_segment C D)) (lerp A B s).
Proof.
  intros A B C D s t E U Hs Ht Z; split.
  - intros [(s' & _ & E1) (t' & _ & E2)]. destruct (U s' t') as [U1 _].
    + eapply pteq_trans; [apply pteq_sym; exact E1|exact E2].
    + eapply pteq_trans; [exact E1|]. apply lerp_compat; exact U1.
  - intro EZ. split; [exists s; auto|]. exists t; split; [exact Ht|]. eapply pteq_trans; [exact EZ|exact E].
Qed.

Lemma parallel_cross : forall u v, nonzero u -> nonzero v -> (parallel u v <-> cross u v == 0).
Proof.
  intros [ux uy] [vx vy] NU NV; unfold parallel, nonzero, cross, vscale, pteq in *; simpl in *. split.
  - intros (a & b & N & E1 & E2).
    destruct (Qeq_dec a 0) as [Ea|Ea].
    + destruct (Qeq_dec b 0) as [Eb|Eb]; [exfalso; apply N; auto|]. exfalso; apply NV.
      rewrite Ea in E1, E2. split; [apply Qmult_integral_l with b|apply Qmult_integral_l with b]; try assumption; lra.
    + assert (G : a * (ux * vy - uy * vx) == 0).
      { transitivity (a * ux * vy - a * uy * vx); [ring|]. rewrite E1, E2; ring. }
      apply Qmult_integral in G as [G|G]; [contradiction|exact G].
  - intro E. destruct (Qeq_dec vx 0) as [E1|E1].
    + exists vy, uy. split; [|split; lra]. intros [G1 G2]. apply NV; auto.
    + exists vx, ux. split; [|split; lra]. intros [G1 G2]. contradiction.
Qed.

Lemma segseg_ok : forall A B C D, nonzero (vsub B A) -> nonzero (vsub D C) -> exists ty pts,
  segment_segment_intersection direct A B C D = Some (ty, pts) /\
  let common := both (on_segment A B) (on_segment C D) in
  match ty with
  | e_invalid_intersection => False
  | e_non_crossing => pts = [] /\ is_empty_set common
  | e_crossing => exists X, pts = [X] /\ is_single_point common X /\ inside_segment A B X /\ inside_segment C D X
  | e_endpoint => exists X, pts = [X] /\ is_single_point common X /\ (X =p= A \/ X =p= B \/ X =p= C \/ X =p= D) /\
      ~ parallel (vsub B A) (vsub D C)
  | e_overlapping => exists X Y, pts = [X; Y] /\ is_segment_set common X Y /\ parallel (vsub B A) (vsub D C)
  end.
Proof.
  intros A B C D N1 N2. destruct (Qeq_dec (xdenom A B C D) 0) as [E|E].
  - assert (EP : cross (vsub B A) (vsub D C) == 0) by (rewrite xdenom_cross in E; lra).
    destruct (parallel_ok A B C D N1 N2 EP) as [[R H]|(X & Y & R & H)].
    + exists e_non_crossing, []. split; [|auto]. unfold segment_segment_intersection; simpl.
      destruct (Qeqb_spec (xdenom A B C D) 0); [|contradiction]. rewrite R; reflexivity.
    + exists e_overlapping, [X; Y]. split.
      * unfold segment_segment_intersection; simpl. destruct (Qeqb_spec (xdenom A B C D) 0); [|contradiction]. rewrite R; reflexivity.
      * exists X, Y. split; [reflexivity|]. split; [exact H|]. apply parallel_cross; assumption.
  - assert (NP : ~ parallel (vsub B A) (vsub D C)).
    { rewrite parallel_cross by assumption. intro G. apply E. rewrite xdenom_cross, G; reflexivity. }
    destruct (crossing_branch A B C D E) as (s & t & EQ & U & [(H1 & H2 & H3 & H4 & R)|[(H1 & H2 & H3 & R)|(H1 & R)]]).
    + exists e_crossing, [lerp A B s]. split; [exact R|]. exists (lerp A B s). split; [reflexivity|].
      split; [eapply single_from_params; eauto|]. split; [exists s; split; [exact H3|apply pteq_refl]|exists t; split; [exact H4|exact EQ]].
    + exists e_endpoint, [lerp A B s]. split; [exact R|]. exists (lerp A B s). split; [reflexivity|].
      split; [eapply single_from_params; eauto|]. split; [|exact NP].
      unfold in01, inside01 in *.
      assert (Z : s == 0 \/ s == 1 \/ t == 0 \/ t == 1) by
        (destruct (Qeq_dec s 0); [auto|]; destruct (Qeq_dec s 1); [auto|]; destruct (Qeq_dec t 0); [auto|];
         destruct (Qeq_dec t 1); [auto|]; exfalso; lra).
      destruct Z as [Z|[Z|[Z|Z]]].
      * left. eapply pteq_trans; [apply lerp_compat; exact Z|]. apply pteq_sym, lerp_0.
      * right; left. eapply pteq_trans; [apply lerp_compat; exact Z|]. apply pteq_sym, lerp_1.
      * right; right; left. eapply pteq_trans; [exact EQ|]. eapply pteq_trans; [apply lerp_compat; exact Z|]. apply pteq_sym, lerp_0.
      * right; right; right. eapply pteq_trans; [exact EQ|]. eapply pteq_trans; [apply lerp_compat; exact Z|]. apply pteq_sym, lerp_1.
    + exists e_non_crossing, []. split; [exact R|]. split; [reflexivity|].
      intros Z [(s' & Hs' & E1) (t' & Ht' & E2)]. destruct (U s' t') as [U1 U2].
      { eapply pteq_trans; [apply pteq_sym; exact E1|exact E2]. }
      apply H1; unfold in01; split; lra.
Qed.

(** Two parallel segments with a common interior point share more points. *)
Lemma interior_overlap : forall A B C D X, nonzero (vsub B A) -> nonzero (vsub D C) -> cross (vsub B A) (vsub D C) == 0 ->
  inside_segment A B X -> inside_segment C D X -> ~ is_single_point (both (on_segment A B) (on_segment C D)) X.
Proof.
  intros A B C D X N1 N2 EP (x & Hx & EX) (y & Hy & EY) S.
  assert (EC : cross (vsub B A) (vsub C A) == 0).
  { assert (F1 : cross (vsub B A) (vsub X A) == 0) by (eapply lerp_cross; exact EX).
    assert (F2 : cross (vsub B A) (vsub X C) == y * cross (vsub B A) (vsub D C)).
    { destruct EY as [G1 G2]. unfold lerp, vadd, vscale, vsub, cross in *; simpl in *. rewrite G1, G2; ring. }
    assert (E : cross (vsub B A) (vsub C A) == cross (vsub B A) (vsub X A) - cross (vsub B A) (vsub X C))
      by (unfold cross, vsub; simpl; ring). rewrite E, F1, F2, EP; ring. }
  destruct (par_params A B C D N1 N2 EP EC) as (c & d & Ec & Ed & Ncd).
  assert (XX : x == c + y * (d - c)).
  { apply (lerp_inj A B); [exact N1|]. eapply pteq_trans; [apply pteq_sym; exact EX|].
    eapply pteq_trans; [exact EY|]. eapply pteq_trans; [apply lerp_compat_pt; [exact Ec|exact Ed]|]. apply lerp_lerp. }
  assert (K : exists z, x < z /\ z <= 1 /\ btw c d z).
  { destruct (Qlt_le_dec c d) as [L|L].
    - assert (x < d) by nra. destruct (Qlt_le_dec 1 d); [exists 1|exists d]; (split; [lra|]); (split; [lra|]); left; split; nra.
    - assert (d < c) by (destruct (Qlt_le_dec d c); [assumption|exfalso; apply Ncd; lra]).
      assert (x < c) by nra. destruct (Qlt_le_dec 1 c); [exists 1|exists c]; (split; [lra|]); (split; [lra|]); right; split; nra. }
  destruct K as (z & Z1 & Z2 & Z3).
  assert (BZ : both (on_segment A B) (on_segment C D) (lerp A B z)).
  { split; [exists z; split; [lra|apply pteq_refl]|]. apply (on_segment_line_pt A B C D c d z N1 Ec Ed _ (pteq_refl _)). exact Z3. }
  apply S in BZ. assert (z == x) by (apply (lerp_inj A B); [exact N1|]; eapply pteq_trans; [exact BZ|exact EX]). lra.
Qed.
