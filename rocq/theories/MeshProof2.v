From Coq Require Import Classical_Prop.
From Verif Require Import RBase AngleModel MeshModel MeshSpec MeshProof.

Lemma std_max_lub : forall a b c r, std_max a (std_max b c) < r <-> a < r /\ b < r /\ c < r.
Proof. intros. unfold std_max. destruct (Rltb_spec b c), (Rltb_spec a c), (Rltb_spec a b); try destruct (Rltb_spec a c); try destruct (Rltb_spec a b); lra. Qed.
Lemma std_min_glb : forall a b c r, r < std_min a (std_min b c) <-> r < a /\ r < b /\ r < c.
Proof. intros. unfold std_min. destruct (Rltb_spec c b), (Rltb_spec c a), (Rltb_spec b a); try destruct (Rltb_spec c a); try destruct (Rltb_spec b a); lra. Qed.
(** Policies that report less only for numbers that are less. *)
Definition lenient (cmp : rpolicy) : Prop := (forall u v, rlt cmp u v = true -> u < v) /\ (forall u v, rgt cmp u v = true -> v < u).
Lemma lenient_direct : lenient rdirect.
Proof. split; intros u v H; cbn [rlt rgt rdirect] in H; [destruct (Rltb_spec u v)|destruct (Rltb_spec v u)]; (assumption || discriminate). Qed.
Lemma lenient_absolute : forall tol, 0 <= tol -> lenient (rabsolute tol).
Proof. intros tol T. split; intros u v H; cbn [rlt rgt rabsolute] in H; [destruct (Rltb_spec (u - v) (- tol))|destruct (Rltb_spec tol (u - v))]; (lra || discriminate). Qed.

Lemma separates_lenient : forall cmp v0 v1 v2 a r, lenient cmp -> separates cmp v0 v1 v2 a r = true ->
  (p_dot v0 a < - r /\ p_dot v1 a < - r /\ p_dot v2 a < - r) \/ (r < p_dot v0 a /\ r < p_dot v1 a /\ r < p_dot v2 a).
Proof.
  intros cmp v0 v1 v2 a r [L1 L2] H. unfold separates in H. cbv zeta in H. apply orb_true_iff in H. destruct H as [H|H].
  - left. apply std_max_lub. apply L1, H.
  - right. apply std_min_glb. apply L2, H.
Qed.
Lemma separates_direct : forall v0 v1 v2 a r,
  (p_dot v0 a < - r /\ p_dot v1 a < - r /\ p_dot v2 a < - r) \/ (r < p_dot v0 a /\ r < p_dot v1 a /\ r < p_dot v2 a) ->
  separates rdirect v0 v1 v2 a r = true.
Proof.
  intros v0 v1 v2 a r H. unfold separates. cbv zeta. apply orb_true_iff. cbn [rlt rgt rdirect]. destruct H as [H|H].
  - left. apply std_max_lub in H. destruct (Rltb_spec (std_max (p_dot v0 a) (std_max (p_dot v1 a) (p_dot v2 a))) (- r)); [reflexivity|lra].
  - right. apply std_min_glb in H. destruct (Rltb_spec r (std_min (p_dot v0 a) (std_min (p_dot v1 a) (p_dot v2 a)))); [reflexivity|lra].
Qed.

Lemma norm_pos : forall e : plane, ~ (fst e = 0 /\ snd e = 0) -> 0 < p_norm e.
Proof.
  intros [x y] N. unfold p_norm, p_dot. cbn [fst snd] in *. apply sqrt_lt_R0. pose proof (Rle_0_sqr x) as A. pose proof (Rle_0_sqr y) as B. unfold Rsqr in *.
  destruct (Rtotal_order (x * x + y * y) 0) as [H|[H|H]]; [lra| |exact H]. exfalso. apply N. split; apply Rsqr_0_uniq; unfold Rsqr; lra.
Qed.
(** The test on the axis of the edge PQ in terms of the side function. *)
Lemma edge_axis_k : forall P Q c, let e := p_sub (p_sub P c) (p_sub Q c) in ~ (fst e = 0 /\ snd e = 0) ->
  let f := p_normalize e in let a := (snd f, - fst f) in
  exists k, 0 < k /\ (forall p, p_dot (p_sub p c) a = k * (sidef P Q p - sidef P Q c)) /\
    forall e0 e1, e0 * Rabs (p_dot (1, 0) a) + e1 * Rabs (p_dot (0, 1) a) = k * (e0 * Rabs (snd Q - snd P) + e1 * Rabs (fst Q - fst P)).
Proof.
  intros P Q c e N f a. exists (1 / p_norm e). pose proof (norm_pos e N) as NP.
  assert (E : e = (fst P - fst Q, snd P - snd Q)) by (unfold e, p_sub; cbn [fst snd]; f_equal; ring).
  assert (A : a = (1 / p_norm e * (snd P - snd Q), - (1 / p_norm e * (fst P - fst Q)))) by (unfold a, f, p_normalize, p_scale; rewrite E; cbn [fst snd]; reflexivity).
  assert (KP : 0 < 1 / p_norm e) by (apply Rdiv_lt_0_compat; lra). split; [exact KP|].
  rewrite A. set (k := 1 / p_norm e) in *. clearbody k. unfold p_dot, p_sub, sidef. cbn [fst snd]. split; [intro; ring|].
  intros e0 e1.
  replace (1 * (k * (snd P - snd Q)) + 0 * - (k * (fst P - fst Q))) with (- (k * (snd Q - snd P))) by ring.
  replace (0 * (k * (snd P - snd Q)) + 1 * - (k * (fst P - fst Q))) with (k * (fst Q - fst P)) by ring.
  rewrite Rabs_Ropp, !Rabs_mult, (Rabs_right k) by lra. ring.
Qed.
Definition centre (lo hi : plane) : plane := p_scale (1 / 2) (p_add lo hi).
Definition ext0 (lo hi : plane) : R := (fst hi - fst lo) * (1 / 2).
Definition ext1 (lo hi : plane) : R := (snd hi - snd lo) * (1 / 2).
(** Over the box the side function stays within the radius around its value at the centre. *)
Lemma side_radius : forall P Q lo hi p, in_box p lo hi ->
  Rabs (sidef P Q p - sidef P Q (centre lo hi)) <= ext0 lo hi * Rabs (snd Q - snd P) + ext1 lo hi * Rabs (fst Q - fst P).
Proof.
  intros P Q lo hi p [X Y]. set (dx := fst Q - fst P). set (dy := snd Q - snd P).
  replace (sidef P Q p - sidef P Q (centre lo hi)) with (dx * (snd p - snd (centre lo hi)) + - (dy * (fst p - fst (centre lo hi)))) by (unfold sidef, dx, dy; ring).
  eapply Rle_trans; [apply Rabs_triang|]. rewrite Rabs_Ropp, !Rabs_mult. rewrite Rplus_comm.
  unfold centre, ext0, ext1, p_scale, p_add; cbn [fst snd].
  apply Rplus_le_compat; rewrite Rmult_comm; apply Rmult_le_compat_r; try apply Rabs_pos; apply Rabs_le; lra.
Qed.
(** and some corner reaches it on either side. *)
Lemma side_corner : forall P Q lo hi, fst lo <= fst hi -> snd lo <= snd hi ->
  let r := ext0 lo hi * Rabs (snd Q - snd P) + ext1 lo hi * Rabs (fst Q - fst P) in
  (exists p, in_box p lo hi /\ sidef P Q p = sidef P Q (centre lo hi) + r) /\ (exists p, in_box p lo hi /\ sidef P Q p = sidef P Q (centre lo hi) - r).
Proof.
  intros P Q lo hi LX LY r. unfold r. set (dx := fst Q - fst P). set (dy := snd Q - snd P).
  set (xs := if Rle_dec 0 dy then (fst lo, fst hi) else (fst hi, fst lo)). set (ys := if Rle_dec 0 dx then (snd hi, snd lo) else (snd lo, snd hi)).
  split; [exists (fst xs, fst ys)|exists (snd xs, snd ys)]; unfold xs, ys; (split; [unfold in_box; destruct (Rle_dec 0 dy), (Rle_dec 0 dx); cbn [fst snd]; lra|]);
    unfold sidef; fold dx; fold dy; unfold centre, ext0, ext1, p_scale, p_add;
    destruct (Rle_dec 0 dy) as [A|A], (Rle_dec 0 dx) as [B|B]; cbn [fst snd];
    try (rewrite (Rabs_right dy) by lra); try (rewrite (Rabs_left dy) by lra); try (rewrite (Rabs_right dx) by lra); try (rewrite (Rabs_left dx) by lra); field.
Qed.

(** The mean of three numbers is not beyond all of them. *)
Lemma mean_bounds : forall u v w a b c r, 0 <= u -> 0 <= v -> 0 <= w -> u + v + w = 1 ->
  (a < r -> b < r -> c < r -> u * a + v * b + w * c < r) /\ (r < a -> r < b -> r < c -> r < u * a + v * b + w * c).
Proof.
  intros u v w a b c r U V W S. assert (POS : 0 < u \/ 0 < v \/ 0 < w) by (destruct (Rlt_dec 0 u); [auto|]; destruct (Rlt_dec 0 v); [auto|]; right; right; lra).
  split; intros H1 H2 H3.
  - assert (E : r - (u * a + v * b + w * c) = u * (r - a) + v * (r - b) + w * (r - c)) by (transitivity ((u + v + w) * r - (u * a + v * b + w * c)); [rewrite S; ring|ring]).
    assert (0 <= u * (r - a)) by (apply Rmult_le_pos; lra). assert (0 <= v * (r - b)) by (apply Rmult_le_pos; lra). assert (0 <= w * (r - c)) by (apply Rmult_le_pos; lra).
    destruct POS as [POS|[POS|POS]]; [assert (0 < u * (r - a)) by (apply Rmult_lt_0_compat; lra)|assert (0 < v * (r - b)) by (apply Rmult_lt_0_compat; lra)|assert (0 < w * (r - c)) by (apply Rmult_lt_0_compat; lra)]; lra.
  - assert (E : (u * a + v * b + w * c) - r = u * (a - r) + v * (b - r) + w * (c - r)) by (transitivity ((u * a + v * b + w * c) - (u + v + w) * r); [rewrite S; ring|ring]).
    assert (0 <= u * (a - r)) by (apply Rmult_le_pos; lra). assert (0 <= v * (b - r)) by (apply Rmult_le_pos; lra). assert (0 <= w * (c - r)) by (apply Rmult_le_pos; lra).
    destruct POS as [POS|[POS|POS]]; [assert (0 < u * (a - r)) by (apply Rmult_lt_0_compat; lra)|assert (0 < v * (b - r)) by (apply Rmult_lt_0_compat; lra)|assert (0 < w * (c - r)) by (apply Rmult_lt_0_compat; lra)]; lra.
Qed.

Lemma Rabs_bounds : forall x r, Rabs x <= r -> - r <= x <= r.
Proof. intros x r H. unfold Rabs in H. destruct (Rcase_abs x); lra. Qed.
Lemma shared_point_not_separated : forall cmp A B C P Q lo hi, lenient cmp ->
  (exists p, in_triangle p A B C /\ in_box p lo hi) ->
  edge_separates cmp (p_sub A (centre lo hi)) (p_sub B (centre lo hi)) (p_sub C (centre lo hi)) (p_sub (p_sub P (centre lo hi)) (p_sub Q (centre lo hi))) (ext0 lo hi) (ext1 lo hi) = false.
Proof.
  intros cmp A B C P Q lo hi L (p & IT & IB). unfold edge_separates. set (c := centre lo hi). set (e := p_sub (p_sub P c) (p_sub Q c)).
  destruct (Reqb (fst e) 0 && Reqb (snd e) 0) eqn:Z; [reflexivity|].
  assert (NZ : ~ (fst e = 0 /\ snd e = 0)) by (destruct (Reqb_spec (fst e) 0), (Reqb_spec (snd e) 0); cbn in Z; try discriminate; tauto).
  destruct (edge_axis_k P Q c NZ) as (k & K & D & RR). fold e in D, RR. cbv zeta. apply not_true_is_false. intro H.
  apply (separates_lenient _ _ _ _ _ _ L) in H. rewrite !D, RR in H.
  pose proof (side_radius P Q lo hi p IB) as SR. fold c in SR. set (r := ext0 lo hi * Rabs (snd Q - snd P) + ext1 lo hi * Rabs (fst Q - fst P)) in *. clearbody r.
  destruct IT as (u & v & w & U & V & W & S & X & Y). rewrite (sidef_affine P Q A B C u v w p S X Y) in SR. apply Rabs_bounds in SR.
  assert (CANC : forall x y, k * x < k * y -> x < y) by (intros x y; apply Rmult_lt_reg_l; exact K).
  destruct H as [(H1 & H2 & H3)|(H1 & H2 & H3)].
  - replace (- (k * r)) with (k * - r) in H1, H2, H3 by ring. apply CANC in H1. apply CANC in H2. apply CANC in H3.
    destruct (mean_bounds u v w (sidef P Q A) (sidef P Q B) (sidef P Q C) (sidef P Q c - r) U V W S) as [M _].
    specialize (M ltac:(lra) ltac:(lra) ltac:(lra)). lra.
  - apply CANC in H1. apply CANC in H2. apply CANC in H3.
    destruct (mean_bounds u v w (sidef P Q A) (sidef P Q B) (sidef P Q C) (sidef P Q c + r) U V W S) as [_ M].
    specialize (M ltac:(lra) ltac:(lra) ltac:(lra)). lra.
Qed.
Lemma eberly_complete : forall cmp A B C lo hi, lenient cmp -> (exists p, in_triangle p A B C /\ in_box p lo hi) ->
  eberly_triangle_aabb_intersection_2d cmp A B C lo hi = true.
Proof.
  intros cmp A B C lo hi L SH. unfold eberly_triangle_aabb_intersection_2d. cbv zeta.
  fold (centre lo hi). fold (ext0 lo hi). fold (ext1 lo hi). 
  rewrite (shared_point_not_separated cmp A B C A B lo hi L SH), (shared_point_not_separated cmp A B C B C lo hi L SH), (shared_point_not_separated cmp A B C C A lo hi L SH). set (c := centre lo hi).
  destruct SH as (p & (u & v & w & U & V & W & S & X & Y) & BX & BY).
  assert (CX : fst c = (fst lo + fst hi) / 2) by (unfold c, centre, p_scale, p_add; cbn [fst snd]; field).
  assert (CY : snd c = (snd lo + snd hi) / 2) by (unfold c, centre, p_scale, p_add; cbn [fst snd]; field).
  destruct (separates cmp (p_sub A c) (p_sub B c) (p_sub C c) (1, 0) (ext0 lo hi)) eqn:E0.
  { exfalso. apply (separates_lenient _ _ _ _ _ _ L) in E0. unfold p_dot, p_sub, ext0 in E0. cbn [fst snd] in E0. rewrite CX in E0.
    destruct E0 as [E0|E0].
    - destruct (mean_bounds u v w (fst A) (fst B) (fst C) (fst lo) U V W S) as [M _]. specialize (M ltac:(lra) ltac:(lra) ltac:(lra)). lra.
    - destruct (mean_bounds u v w (fst A) (fst B) (fst C) (fst hi) U V W S) as [_ M]. specialize (M ltac:(lra) ltac:(lra) ltac:(lra)). lra. }
  destruct (separates cmp (p_sub A c) (p_sub B c) (p_sub C c) (0, 1) (ext1 lo hi)) eqn:E1; [|reflexivity].
  exfalso. apply (separates_lenient _ _ _ _ _ _ L) in E1. unfold p_dot, p_sub, ext1 in E1. cbn [fst snd] in E1. rewrite CY in E1.
  destruct E1 as [E1|E1].
  - destruct (mean_bounds u v w (snd A) (snd B) (snd C) (snd lo) U V W S) as [M _]. specialize (M ltac:(lra) ltac:(lra) ltac:(lra)). lra.
  - destruct (mean_bounds u v w (snd A) (snd B) (snd C) (snd hi) U V W S) as [_ M]. specialize (M ltac:(lra) ltac:(lra) ltac:(lra)). lra.
Qed.

(** ** The converse *)
Lemma reach_x : forall A B C p q lo hi, lo <= hi -> in_triangle p A B C -> in_triangle q A B C -> lo <= fst p -> fst q <= hi ->
  exists r, in_triangle r A B C /\ lo <= fst r <= hi.
Proof.
  intros A B C p q lo hi LH Ip Iq P Q. destruct (Rle_dec (fst p) hi) as [G|G]; [exists p; split; [exact Ip|lra]|].
  destruct (Rle_dec lo (fst q)) as [G2|G2]; [exists q; split; [exact Iq|lra]|].
  set (t := (fst p - hi) / (fst p - fst q)). assert (D : 0 < fst p - fst q) by lra.
  exists (fst p + t * (fst q - fst p), snd p + t * (snd q - snd p)). split.
  - apply (in_triangle_between A B C p q t); auto. unfold t. split; [apply Rmult_le_pos; [lra|left; apply Rinv_0_lt_compat; exact D]|].
    apply (Rmult_le_reg_r (fst p - fst q)); [exact D|]. unfold Rdiv. rewrite Rmult_assoc, Rinv_l by lra. lra.
  - cbn [fst]. replace (fst p + t * (fst q - fst p)) with hi by (unfold t; field; lra). lra.
Qed.
Lemma reach_y : forall A B C p q lo hi, lo <= hi -> in_triangle p A B C -> in_triangle q A B C -> lo <= snd p -> snd q <= hi ->
  exists r, in_triangle r A B C /\ lo <= snd r <= hi.
Proof.
  intros A B C p q lo hi LH Ip Iq P Q. destruct (Rle_dec (snd p) hi) as [G|G]; [exists p; split; [exact Ip|lra]|].
  destruct (Rle_dec lo (snd q)) as [G2|G2]; [exists q; split; [exact Iq|lra]|].
  set (t := (snd p - hi) / (snd p - snd q)). assert (D : 0 < snd p - snd q) by lra.
  exists (fst p + t * (fst q - fst p), snd p + t * (snd q - snd p)). split.
  - apply (in_triangle_between A B C p q t); auto. unfold t. split; [apply Rmult_le_pos; [lra|left; apply Rinv_0_lt_compat; exact D]|].
    apply (Rmult_le_reg_r (snd p - snd q)); [exact D|]. unfold Rdiv. rewrite Rmult_assoc, Rinv_l by lra. lra.
  - cbn [snd]. replace (snd p + t * (snd q - snd p)) with hi by (unfold t; field; lra). lra.
Qed.
Lemma sep_edge_separates : forall A B C P Q lo hi, fst lo <= fst hi -> snd lo <= snd hi ->
  (((forall p, in_box p lo hi -> sidef P Q p < 0) /\ (forall p, in_triangle p A B C -> 0 <= sidef P Q p)) \/
     ((forall p, in_box p lo hi -> 0 < sidef P Q p) /\ (forall p, in_triangle p A B C -> sidef P Q p <= 0))) ->
  edge_separates rdirect (p_sub A (centre lo hi)) (p_sub B (centre lo hi)) (p_sub C (centre lo hi)) (p_sub (p_sub P (centre lo hi)) (p_sub Q (centre lo hi))) (ext0 lo hi) (ext1 lo hi) = true.
Proof.
  intros A B C P Q lo hi LX LY H. unfold edge_separates. set (c := centre lo hi). set (e := p_sub (p_sub P c) (p_sub Q c)).
  assert (NZ : ~ (fst e = 0 /\ snd e = 0)).
  { intros [Z1 Z2]. unfold e, p_sub in Z1, Z2. cbn [fst snd] in Z1, Z2.
    assert (Z : sidef P Q lo = 0) by (unfold sidef; replace (fst Q - fst P) with 0 by lra; replace (snd Q - snd P) with 0 by lra; ring).
    assert (BL : in_box lo lo hi) by (unfold in_box; lra). destruct H as [[H _]|[H _]]; specialize (H lo BL); lra. }
  destruct (Reqb_spec (fst e) 0) as [Z1|Z1], (Reqb_spec (snd e) 0) as [Z2|Z2]; cbn [andb]; try tauto.
  all: destruct (edge_axis_k P Q c NZ) as (k & K & D & RR); fold e in D, RR; cbv zeta; apply separates_direct; rewrite !D, RR;
    destruct (side_corner P Q lo hi LX LY) as ((p1 & B1 & E1) & (p2 & B2 & E2)); fold c in E1, E2;
    set (r := ext0 lo hi * Rabs (snd Q - snd P) + ext1 lo hi * Rabs (fst Q - fst P)) in *; clearbody r;
    (assert (CMP : forall x y, x < y -> k * x < k * y) by (intros; apply Rmult_lt_compat_l; assumption));
    destruct (in_triangle_vertex A B C) as (VA & VB & VC);
    destruct H as [[H1 H2]|[H1 H2]];
    [right; specialize (H1 p1 B1)|left; specialize (H1 p2 B2); replace (- (k * r)) with (k * - r) by ring];
    pose proof (H2 A VA); pose proof (H2 B VB); pose proof (H2 C VC); repeat split; apply CMP; lra.
Qed.
Lemma eberly_exact : forall A B C lo hi, fst lo <= fst hi -> snd lo <= snd hi ->
  (eberly_triangle_aabb_intersection_2d rdirect A B C lo hi = true <-> exists p, in_triangle p A B C /\ in_box p lo hi).
Proof.
  intros A B C lo hi LX LY. split; [|intro H; apply eberly_complete; [apply lenient_direct|exact H]].
  intro H. unfold eberly_triangle_aabb_intersection_2d in H. cbv zeta in H. fold (centre lo hi) in H. fold (ext0 lo hi) in H. fold (ext1 lo hi) in H. set (c := centre lo hi) in *.
  destruct (edge_separates rdirect (p_sub A c) (p_sub B c) (p_sub C c) (p_sub (p_sub A c) (p_sub B c)) (ext0 lo hi) (ext1 lo hi)) eqn:S1; [discriminate|].
  destruct (edge_separates rdirect (p_sub A c) (p_sub B c) (p_sub C c) (p_sub (p_sub B c) (p_sub C c)) (ext0 lo hi) (ext1 lo hi)) eqn:S2; [discriminate|].
  destruct (edge_separates rdirect (p_sub A c) (p_sub B c) (p_sub C c) (p_sub (p_sub C c) (p_sub A c)) (ext0 lo hi) (ext1 lo hi)) eqn:S3; [discriminate|].
  destruct (separates rdirect (p_sub A c) (p_sub B c) (p_sub C c) (1, 0) (ext0 lo hi)) eqn:S4; [discriminate|].
  destruct (separates rdirect (p_sub A c) (p_sub B c) (p_sub C c) (0, 1) (ext1 lo hi)) eqn:S5; [discriminate|]. clear H.
  assert (CX : fst c = (fst lo + fst hi) / 2) by (unfold c, centre, p_scale, p_add; cbn [fst snd]; field).
  assert (CY : snd c = (snd lo + snd hi) / 2) by (unfold c, centre, p_scale, p_add; cbn [fst snd]; field).
  destruct (in_triangle_vertex A B C) as (VA & VB & VC).
  assert (RX : exists r, in_triangle r A B C /\ fst lo <= fst r <= fst hi).
  { assert (N : ~ ((p_dot (p_sub A c) (1, 0) < - ext0 lo hi /\ p_dot (p_sub B c) (1, 0) < - ext0 lo hi /\ p_dot (p_sub C c) (1, 0) < - ext0 lo hi) \/ (ext0 lo hi < p_dot (p_sub A c) (1, 0) /\ ext0 lo hi < p_dot (p_sub B c) (1, 0) /\ ext0 lo hi < p_dot (p_sub C c) (1, 0)))) by (intro N; apply separates_direct in N; congruence).
    unfold p_dot, p_sub, ext0 in N. cbn [fst snd] in N. rewrite CX in N.
    assert (E1 : exists p, in_triangle p A B C /\ fst lo <= fst p).
    { destruct (Rle_dec (fst lo) (fst A)); [exists A; auto|]. destruct (Rle_dec (fst lo) (fst B)); [exists B; auto|]. destruct (Rle_dec (fst lo) (fst C)); [exists C; auto|]. exfalso. apply N. left. lra. }
    assert (E2 : exists p, in_triangle p A B C /\ fst p <= fst hi).
    { destruct (Rle_dec (fst A) (fst hi)); [exists A; auto|]. destruct (Rle_dec (fst B) (fst hi)); [exists B; auto|]. destruct (Rle_dec (fst C) (fst hi)); [exists C; auto|]. exfalso. apply N. right. lra. }
    destruct E1 as (p & Ip & Hp), E2 as (q & Iq & Hq). apply (reach_x A B C p q); assumption. }
  assert (RY : exists r, in_triangle r A B C /\ snd lo <= snd r <= snd hi).
  { assert (N : ~ ((p_dot (p_sub A c) (0, 1) < - ext1 lo hi /\ p_dot (p_sub B c) (0, 1) < - ext1 lo hi /\ p_dot (p_sub C c) (0, 1) < - ext1 lo hi) \/ (ext1 lo hi < p_dot (p_sub A c) (0, 1) /\ ext1 lo hi < p_dot (p_sub B c) (0, 1) /\ ext1 lo hi < p_dot (p_sub C c) (0, 1)))) by (intro N; apply separates_direct in N; congruence).
    unfold p_dot, p_sub, ext1 in N. cbn [fst snd] in N. rewrite CY in N.
    assert (E1 : exists p, in_triangle p A B C /\ snd lo <= snd p).
    { destruct (Rle_dec (snd lo) (snd A)); [exists A; auto|]. destruct (Rle_dec (snd lo) (snd B)); [exists B; auto|]. destruct (Rle_dec (snd lo) (snd C)); [exists C; auto|]. exfalso. apply N. left. lra. }
    assert (E2 : exists p, in_triangle p A B C /\ snd p <= snd hi).
    { destruct (Rle_dec (snd A) (snd hi)); [exists A; auto|]. destruct (Rle_dec (snd B) (snd hi)); [exists B; auto|]. destruct (Rle_dec (snd C) (snd hi)); [exists C; auto|]. exfalso. apply N. right. lra. }
    destruct E1 as (p & Ip & Hp), E2 as (q & Iq & Hq). apply (reach_y A B C p q); assumption. }
  destruct RX as (P1 & I1 & X1), RY as (P2 & I2 & Y2).
  destruct (Classical_Prop.classic (exists p, in_triangle p A B C /\ in_box p lo hi)) as [G|G]; [exact G|]. exfalso.
  assert (DIS : forall p, in_triangle p A B C -> ~ in_box p lo hi) by (intros p I1' I2'; apply G; exists p; auto).
  destruct (edge_sep_all A B C lo hi P1 P2 LX LY DIS I1 X1 I2 Y2) as (P & Q & PQ & H).
  apply (sep_edge_separates A B C P Q lo hi LX LY) in H. fold c in H.
  destruct PQ as [[-> ->]|[[-> ->]|[-> ->]]]; congruence.
Qed.
