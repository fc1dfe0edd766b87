From Verif Require Import Base CmpModel OrientModel OrientSpec DistSpec PolygonModel PolygonSpec PolygonProof SimplifyModel SimplifySpec.

(** ** Subsequences *)
Lemma sub_refl : forall A (l : list A), subsequence l l.
Proof. induction l; constructor; assumption. Qed.
Lemma sub_app : forall A (r1 l1 r2 l2 : list A), subsequence r1 l1 -> subsequence r2 l2 -> subsequence (r1 ++ r2) (l1 ++ l2).
Proof. intros A r1 l1 r2 l2 H1 H2. induction H1; simpl; [exact H2|constructor; exact IHsubsequence..]. Qed.
Lemma sub_trans : forall A (l1 l2 l3 : list A), subsequence l1 l2 -> subsequence l2 l3 -> subsequence l1 l3.
Proof.
  intros A l1 l2 l3 H1 H2. revert l1 H1. induction H2; intros l1 H1; [exact H1| |constructor; apply IHsubsequence, H1].
  inversion H1; subst; constructor; apply IHsubsequence; assumption.
Qed.

Lemma last_cons : forall (l : list pt) x d, last (x :: l) d = last l x.
Proof. intros [|y l] x d; [reflexivity|]. apply (last_indep (y :: l)). discriminate. Qed.

(** ** Any policy: first, last, subsequence *)
Lemma polyline_loop_any : forall cmp cs b a rest,
  exists b' a' rest', fold_left (collinear_step cmp) cs (b :: a :: rest) = b' :: a' :: rest' /\
    b' = last cs b /\ last (a' :: rest') a' = last (a :: rest) a /\
    subsequence (rev (b' :: a' :: rest')) (rev (b :: a :: rest) ++ cs).
Proof.
  induction cs as [|c cs IH]; intros b a rest.
  - exists b, a, rest. split; [reflexivity|]. split; [reflexivity|]. split; [reflexivity|]. rewrite app_nil_r. apply sub_refl.
  - cbn [fold_left]. unfold collinear_step at 2. destruct (is_collinear cmp a b c).
    + destruct (IH c a rest) as (b' & a' & rest' & E & L & F & S). exists b', a', rest'. split; [exact E|].
      split; [rewrite L, last_cons; reflexivity|]. split; [exact F|].
      apply (sub_trans _ _ _ _ S). cbn [rev]. rewrite <- !app_assoc. apply sub_app; [apply sub_refl|].
      cbn [app]. constructor. constructor. apply sub_refl.
    + destruct (IH c b (a :: rest)) as (b' & a' & rest' & E & L & F & S). exists b', a', rest'. split; [exact E|].
      split; [rewrite L, last_cons; reflexivity|]. split; [|].
      * rewrite F, !last_cons; reflexivity.
      * apply (sub_trans _ _ _ _ S). cbn [rev]. rewrite <- !app_assoc. cbn [app]. apply sub_refl.
Qed.
Lemma last_rev : forall (l : list pt) d, last (rev l) d = hd d l.
Proof. intros [|a l] d; [reflexivity|]. cbn [rev hd]. rewrite last_app by discriminate. reflexivity. Qed.
Lemma hd_rev : forall (l : list pt) d, hd d (rev l) = last l d.
Proof. intros l d. rewrite <- (rev_involutive l) at 2. rewrite last_rev. reflexivity. Qed.

Lemma remove_polyline_any : forall cmp ps d,
  let r := remove_collinear_points_polyline cmp ps in
  subsequence r ps /\ hd d r = hd d ps /\ last r d = last ps d /\ (2 <= length ps -> 2 <= length r)%nat.
Proof.
  intros cmp ps d. unfold remove_collinear_points_polyline.
  destruct ps as [|p0 [|p1 [|p2 rest]]]; try (split; [apply sub_refl|]; split; [reflexivity|]; split; [reflexivity|]; cbn; lia).
  destruct (polyline_loop_any cmp (p2 :: rest) p1 p0 []) as (b & a & l & E & L & F & S). cbv zeta. rewrite E.
  split; [exact S|]. split; [rewrite hd_rev; rewrite last_cons; transitivity (last (a :: l) a); [rewrite !last_cons; reflexivity|rewrite F; reflexivity]|].
  split; [rewrite last_rev; cbn [hd]; rewrite L, !last_cons; reflexivity|].
  intros _. rewrite rev_length. cbn; lia.
Qed.

(** ** The points of a chain *)
Fixpoint on_path (ps : list pt) (X : pt) : Prop :=
  match ps with
  | a :: (b :: _) as t => on_segment a b X \/ on_path t X
  | _ => False
  end.
Lemma on_path_polyline : forall ps X, on_polyline ps X <-> on_path ps X.
Proof.
  induction ps as [|a ps IH]; intro X.
  - split; [|contradiction]. intros (i & A & B & [H _] & _). destruct i; discriminate.
  - destruct ps as [|b ps].
    + split; [|contradiction]. intros (i & A & B & [_ H] & _). destruct i; discriminate.
    + change (on_path (a :: b :: ps) X) with (on_segment a b X \/ on_path (b :: ps) X). rewrite <- IH. split.
      * intros (i & A & B & [H1 H2] & H3). destruct i as [|i]; [cbn in H1, H2; left; congruence|].
        right. exists i, A, B. split; [split; assumption|exact H3].
      * intros [H|(i & A & B & [H1 H2] & H3)]; [exists 0%nat, a, b; split; [split; reflexivity|exact H]|].
        exists (S i), A, B. split; [split; assumption|exact H3].
Qed.
Lemma on_path_app : forall l1 a l2 X, on_path (l1 ++ a :: l2) X <-> on_path (l1 ++ [a]) X \/ on_path (a :: l2) X.
Proof.
  induction l1 as [|x l1 IH]; intros a l2 X.
  - change (on_path ([] ++ a :: l2) X) with (on_path (a :: l2) X). cbn [app]. split; [tauto|]. intros [[]|H]; exact H.
  - destruct l1 as [|y l1].
    + change (on_path ([x] ++ a :: l2) X) with (on_segment x a X \/ on_path (a :: l2) X).
      change (on_path ([x] ++ [a]) X) with (on_segment x a X \/ False). tauto.
    + change (on_path ((x :: y :: l1) ++ a :: l2) X) with (on_segment x y X \/ on_path ((y :: l1) ++ a :: l2) X).
      change (on_path ((x :: y :: l1) ++ [a]) X) with (on_segment x y X \/ on_path ((y :: l1) ++ [a]) X).
      rewrite IH. tauto.
Qed.

(** b strictly between a and c, given by directions. *)
Lemma between_union : forall a b c k m, 0 < k -> 0 < m ->
  m * (px b - px a) == k * (px c - px b) -> m * (py b - py a) == k * (py c - py b) ->
  forall X, on_segment a b X \/ on_segment b c X <-> on_segment a c X.
Proof.
  intros a b c k m Hk Hm Ex Ey X. unfold on_segment, lerp, pteq, vadd, vscale, vsub; cbn [px py].
  assert (S0 : 0 < k + m) by lra.
  set (r := k / (k + m)).
  assert (R : r * (k + m) == k) by (unfold r; field; lra).
  assert (R0 : 0 < r) by (apply Qlt_shift_div_l; lra).
  assert (R1 : r < 1) by (apply Qlt_shift_div_r; lra).
  assert (Bx : px b == px a + r * (px c - px a)).
  { assert (E : (k + m) * (px b - px a - r * (px c - px a)) == 0).
    { transitivity (k * (px b - px a) + m * (px b - px a) - (r * (k + m)) * (px c - px a)); [ring|]. rewrite R, Ex. ring. }
    apply Qmult_integral in E. destruct E; lra. }
  assert (By : py b == py a + r * (py c - py a)).
  { assert (E : (k + m) * (py b - py a - r * (py c - py a)) == 0).
    { transitivity (k * (py b - py a) + m * (py b - py a) - (r * (k + m)) * (py c - py a)); [ring|]. rewrite R, Ey. ring. }
    apply Qmult_integral in E. destruct E; lra. }
  clearbody r. clear R Ex Ey. split.
  - intros [(t & T & Xx & Xy)|(t & T & Xx & Xy)].
    + exists (t * r). split; [split; nra|]. rewrite Xx, Xy, Bx, By. split; ring.
    + exists (r + t * (1 - r)). split; [split; nra|]. rewrite Xx, Xy, Bx, By. split; ring.
  - intros (t & T & Xx & Xy). destruct (Qlt_le_dec t r) as [L|L].
    + left. exists (t / r). split.
      * split; [apply Qle_shift_div_l; lra|apply Qle_shift_div_r; lra].
      * rewrite Xx, Xy, Bx, By. split; field; lra.
    + right. exists ((t - r) / (1 - r)). split.
      * split; [apply Qle_shift_div_l; lra|apply Qle_shift_div_r; lra].
      * rewrite Xx, Xy, Bx, By. split; field; lra.
Qed.

(** ** The loop on a chain that goes on *)
(** The last kept edge points the way of the last edge of the input. *)
Definition aligned (a b q : pt) : Prop :=
  exists k, 0 < k /\ px b - px a == k * (px b - px q) /\ py b - py a == k * (py b - py q).

Lemma succ_head : forall ps A B C, successive ps A B C -> forall x, successive (x :: ps) A B C.
Proof. intros ps A B C (i & H) x. exists (S i). exact H. Qed.
Lemma succ_cons : forall x y l A B C, successive (x :: y :: l) A B C ->
  (exists z l', l = z :: l' /\ A = x /\ B = y /\ C = z) \/ successive (y :: l) A B C.
Proof.
  intros x y l A B C (i & H1 & H2 & H3). destruct i as [|i].
  - left. destruct l as [|z l]; [discriminate|]. cbn in H1, H2, H3. exists z, l. repeat split; congruence.
  - right. exists i. split; [exact H1|]. split; assumption.
Qed.
Lemma goes_on_tail : forall x ps, goes_on (x :: ps) -> goes_on ps.
Proof. intros x ps H A B C S. apply H. apply succ_head, S. Qed.
(** Successive triples of a chain extended at the end. *)
Lemma nostraight_snoc : forall a b rest c, (forall A B C, successive (rev (b :: a :: rest)) A B C -> ~ tri2 A B C == 0) ->
  ~ tri2 a b c == 0 -> forall A B C, successive (rev (c :: b :: a :: rest)) A B C -> ~ tri2 A B C == 0.
Proof.
  intros a b rest c H N A B C (i & H1 & H2 & H3).
  cbn [rev] in H1, H2, H3. rewrite <- !app_assoc in H1, H2, H3. cbn [app] in H1, H2, H3.
  set (n := length (rev rest)).
  destruct (Nat.lt_trichotomy i n) as [L|[L|L]].
  - apply (H A B C). exists i. cbn [rev]. rewrite <- app_assoc. cbn [app].
    assert (G : forall j Y, (j < n + 2)%nat -> nth_error (rev rest ++ [a; b; c]) j = Some Y -> nth_error (rev rest ++ [a; b]) j = Some Y).
    { intros j Y Hj HY. change [a; b; c] with ([a; b] ++ [c]) in HY. rewrite app_assoc in HY. rewrite nth_error_app1 in HY; [exact HY|].
      rewrite app_length. cbn [length]. fold n. lia. }
    split; [apply G; [lia|exact H1]|]. split; apply G; (lia || assumption).
  - subst i. rewrite nth_error_app2 in H1, H2, H3 by (fold n; lia). fold n in H1, H2, H3. rewrite Nat.sub_diag in H1.
    replace (S n - n)%nat with 1%nat in H2 by lia. replace (S (S n) - n)%nat with 2%nat in H3 by lia. cbn in H1, H2, H3.
    intro Z. apply N. assert (a = A) by congruence. assert (b = B) by congruence. assert (c = C) by congruence. subst. exact Z.
  - exfalso. assert (K : nth_error (rev rest ++ [a; b; c]) (S (S i)) = None).
    { apply nth_error_None. rewrite app_length. cbn [length]. fold n. lia. }
    congruence.
Qed.
Lemma nostraight_front : forall a b rest, (forall A B C, successive (rev (b :: a :: rest)) A B C -> ~ tri2 A B C == 0) ->
  (forall A B C, successive (rev (a :: rest)) A B C -> ~ tri2 A B C == 0) /\
  (forall z rest', rest = z :: rest' -> ~ tri2 z a b == 0).
Proof.
  intros a b rest H. split.
  - intros A B C (i & H1 & H2 & H3). apply (H A B C). exists i. cbn [rev] in *.
    assert (G : forall j Y, nth_error (rev rest ++ [a]) j = Some Y -> nth_error ((rev rest ++ [a]) ++ [b]) j = Some Y).
    { intros j Y HY. rewrite nth_error_app1; [exact HY|]. apply nth_error_Some. congruence. }
    split; [apply G, H1|]. split; apply G; assumption.
  - intros z rest' ->. apply (H z a b). exists (length (rev rest')). cbn [rev]. rewrite <- !app_assoc. cbn [app].
    rewrite !nth_error_app2 by lia. rewrite Nat.sub_diag.
    replace (S (length (rev rest')) - length (rev rest'))%nat with 1%nat by lia.
    replace (S (S (length (rev rest'))) - length (rev rest'))%nat with 2%nat by lia.
    repeat split; reflexivity.
Qed.
Lemma nostraight_replace : forall a b rest c, (forall A B C, successive (rev (b :: a :: rest)) A B C -> ~ tri2 A B C == 0) ->
  (forall z rest', rest = z :: rest' -> ~ tri2 z a c == 0) ->
  forall A B C, successive (rev (c :: a :: rest)) A B C -> ~ tri2 A B C == 0.
Proof.
  intros a b rest c H N. destruct (nostraight_front a b rest H) as [F _].
  destruct rest as [|z rest'].
  - intros A B C (i & H1 & H2 & H3). destruct i as [|[|i]]; discriminate.
  - apply nostraight_snoc; [exact F|]. apply (N z rest' eq_refl).
Qed.

Lemma collinear_direct : forall a b c, is_collinear direct a b c = Qeqb (tri2 a b c) 0.
Proof. reflexivity. Qed.

(** One pass: what it keeps true. *)
Definition loop_inv (orig : list pt) (acc : list pt) (q : pt) (cs : list pt) : Prop :=
  exists b a rest, acc = b :: a :: rest /\ aligned a b q /\ goes_on (q :: b :: cs) /\
    (forall A B C, successive (rev acc) A B C -> ~ tri2 A B C == 0) /\
    (forall X, on_path (rev acc ++ cs) X <-> on_path orig X).

Lemma loop_step : forall orig acc q c cs, loop_inv orig acc q (c :: cs) ->
  exists b, hd_error acc = Some b /\ loop_inv orig (collinear_step direct acc c) b cs.
Proof.
  intros orig acc q c cs (b & a & rest & -> & (k & Hk & Kx & Ky) & G & N & P).
  exists b. split; [reflexivity|]. unfold collinear_step. rewrite collinear_direct.
  assert (T : tri2 a b c == k * tri2 q b c).
  { unfold tri2, cross, vsub; cbn [px py].
    transitivity ((px b - px a) * (py c - py b) - (py b - py a) * (px c - px b)); [ring|]. rewrite Kx, Ky. ring. }
  destruct (Qeqb_spec (tri2 a b c) 0) as [E|E].
  - assert (Z : tri2 q b c == 0).
    { rewrite T in E. apply Qmult_integral in E. destruct E; [lra|assumption]. }
    destruct (G q b c) as [(t & T1 & Bx & By) NE]; [exists 0%nat; repeat split; reflexivity|exact Z|].
    unfold lerp, vadd, vscale, vsub in Bx, By; cbn [px py] in Bx, By.
    (* c - b = m (b - q) *)
    set (m := (1 - t) / t).
    assert (M : 0 < m) by (apply Qlt_shift_div_l; lra).
    assert (Mt : m * t == 1 - t) by (unfold m; field; lra).
    assert (Cx : px c - px b == m * (px b - px q)).
    { transitivity ((1 - t) * (px c - px q)); [rewrite Bx; ring|]. rewrite <- Mt. rewrite Bx. ring. }
    assert (Cy : py c - py b == m * (py b - py q)).
    { transitivity ((1 - t) * (py c - py q)); [rewrite By; ring|]. rewrite <- Mt. rewrite By. ring. }
    exists c, a, rest. split; [reflexivity|]. split; [|split; [|split]].
    + exists ((k + m) / m). split; [apply Qlt_shift_div_l; lra|]. split.
      * rewrite Cx. transitivity ((px b - px a) + (px c - px b)); [ring|]. rewrite Kx, Cx. field. lra.
      * rewrite Cy. transitivity ((py b - py a) + (py c - py b)); [ring|]. rewrite Ky, Cy. field. lra.
    + apply goes_on_tail in G. exact G.
    + apply (nostraight_replace a b rest c); [exact N|]. intros z rest' -> Z'.
      destruct (nostraight_front a b (z :: rest') N) as [_ F]. apply (F z rest' eq_refl).
      assert (T2 : (k + m) * tri2 z a b == k * tri2 z a c).
      { unfold tri2, cross, vsub; cbn [px py].
        assert (X1 : px c - px a == (k + m) * (px b - px q)) by (transitivity ((px b - px a) + (px c - px b)); [ring|]; rewrite Kx, Cx; ring).
        assert (Y1 : py c - py a == (k + m) * (py b - py q)) by (transitivity ((py b - py a) + (py c - py b)); [ring|]; rewrite Ky, Cy; ring).
        transitivity ((k + m) * ((px a - px z) * (py b - py a) - (py a - py z) * (px b - px a))); [ring|].
        transitivity (k * ((px a - px z) * (py c - py a) - (py a - py z) * (px c - px a))); [|ring].
        rewrite Kx, Ky, X1, Y1. ring. }
      rewrite Z' in T2. assert (T3 : (k + m) * tri2 z a b == 0) by lra. apply Qmult_integral in T3. destruct T3; [lra|assumption].
    + intro X. rewrite <- P. cbn [rev]. rewrite <- !app_assoc. cbn [app].
      rewrite (on_path_app (rev rest) a (c :: cs)), (on_path_app (rev rest) a (b :: c :: cs)).
      change (on_path (a :: c :: cs) X) with (on_segment a c X \/ on_path (c :: cs) X).
      change (on_path (a :: b :: c :: cs) X) with (on_segment a b X \/ (on_segment b c X \/ on_path (c :: cs) X)).
      rewrite <- (between_union a b c k m Hk M); [tauto|rewrite Kx, Cx; ring|rewrite Ky, Cy; ring].
  - exists c, b, (a :: rest). split; [reflexivity|]. split; [|split; [|split]].
    + exists 1. split; [lra|]. split; ring.
    + apply goes_on_tail in G. exact G.
    + apply nostraight_snoc; assumption.
    + intro X. rewrite <- P. cbn [rev]. rewrite <- !app_assoc. cbn [app]. tauto.
Qed.
Lemma loop_all : forall orig cs acc q, loop_inv orig acc q cs ->
  exists q', loop_inv orig (fold_left (collinear_step direct) cs acc) q' [].
Proof.
  intros orig. induction cs as [|c cs IH]; intros acc q H; [exists q; exact H|].
  destruct (loop_step orig acc q c cs H) as (b & _ & H'). apply (IH _ b H').
Qed.
Lemma loop_start : forall p0 p1 cs, goes_on (p0 :: p1 :: cs) -> loop_inv (p0 :: p1 :: cs) [p1; p0] p0 cs.
Proof.
  intros p0 p1 cs G. exists p1, p0, []. split; [reflexivity|]. split; [exists 1; split; [lra|]; split; ring|]. split; [exact G|].
  split; [intros A B C (i & H1 & H2 & H3); destruct i as [|[|i]]; discriminate|].
  intro X. cbn [rev app]. tauto.
Qed.

Lemma remove_polyline_ok : forall ps, goes_on ps -> let r := remove_collinear_points_polyline direct ps in
  no_straight_vertex r /\ forall X, on_polyline r X <-> on_polyline ps X.
Proof.
  intros ps G. unfold remove_collinear_points_polyline.
  destruct ps as [|p0 [|p1 [|p2 rest]]];
    try (split; [intros A B C (i & H1 & H2 & H3); destruct i as [|[|i]]; discriminate|intro X; reflexivity]).
  cbv zeta. destruct (loop_all _ (p2 :: rest) [p1; p0] p0 (loop_start p0 p1 (p2 :: rest) G)) as (q' & b & a & l & -> & _ & _ & N & P).
  split; [exact N|]. intro X. rewrite !on_path_polyline. rewrite <- P, app_nil_r. reflexivity.
Qed.

(** ** Polygons *)
Lemma polygon_loop_any : forall cmp front cs b a rest,
  exists b' a' rest', collinear_polygon_loop cmp front (b :: a :: rest) cs = b' :: a' :: rest' /\
    last (a' :: rest') a' = last (a :: rest) a /\
    subsequence (rev (b' :: a' :: rest')) (rev (b :: a :: rest) ++ cs).
Proof.
  intros cmp front. induction cs as [|c cs IH]; intros b a rest.
  - exists b, a, rest. split; [reflexivity|]. split; [reflexivity|]. rewrite app_nil_r. apply sub_refl.
  - cbn [collinear_polygon_loop]. cbv zeta. destruct (is_collinear cmp a b c); cbn [negb].
    + destruct (IH c a rest) as (b' & a' & rest' & E & F & S). exists b', a', rest'. split; [exact E|]. split; [exact F|].
      apply (sub_trans _ _ _ _ S). cbn [rev]. rewrite <- !app_assoc. apply sub_app; [apply sub_refl|].
      cbn [app]. constructor. constructor. apply sub_refl.
    + destruct ((match cs with [] => false | _ => true end) || negb (is_collinear cmp b c front)).
      * destruct (IH c b (a :: rest)) as (b' & a' & rest' & E & F & S). exists b', a', rest'. split; [exact E|]. split.
        -- rewrite F, !last_cons; reflexivity.
        -- apply (sub_trans _ _ _ _ S). cbn [rev]. rewrite <- !app_assoc. cbn [app]. apply sub_refl.
      * destruct (IH b a rest) as (b' & a' & rest' & E & F & S). exists b', a', rest'. split; [exact E|]. split; [exact F|].
        apply (sub_trans _ _ _ _ S). apply sub_app; [apply sub_refl|]. constructor. apply sub_refl.
Qed.
Lemma remove_polygon_any : forall cmp ps d,
  let r := remove_collinear_points_polygon cmp ps in
  subsequence r ps /\ hd d r = hd d ps /\ (2 <= length ps -> 2 <= length r)%nat.
Proof.
  intros cmp ps d. unfold remove_collinear_points_polygon.
  destruct ps as [|p0 [|p1 [|p2 [|p3 rest]]]]; try (split; [apply sub_refl|]; split; [reflexivity|]; cbn; lia).
  destruct (polygon_loop_any cmp p0 (p2 :: p3 :: rest) p1 p0 []) as (b & a & l & E & F & S). cbv zeta. rewrite E.
  split; [exact S|]. split; [rewrite hd_rev; rewrite last_cons; transitivity (last (a :: l) a); [rewrite !last_cons; reflexivity|rewrite F; reflexivity]|].
  intros _. rewrite rev_length. cbn; lia.
Qed.

(** The signed area of the closed chain. *)
Definition area2 (ps : list pt) : Q := gsum cross (closed_chain ps).
Lemma area2_rotate : forall l1 l2, area2 (l1 ++ l2) == area2 (l2 ++ l1).
Proof. intros. unfold area2. apply gsum_perm, closed_chain_rotate. Qed.
Lemma area2_drop2 : forall a b c l, area2 (a :: b :: c :: l) == area2 (a :: c :: l) + tri2 a b c.
Proof.
  intros. unfold area2, closed_chain.
  assert (E : last (a :: b :: c :: l) a = last (a :: c :: l) a).
  { rewrite !last_cons; reflexivity. }
  rewrite E. cbn [chain gsum fst snd]. unfold tri2, cross, vsub; cbn [px py]. ring.
Qed.
Lemma area2_drop : forall l1 a b c l2, area2 (l1 ++ a :: b :: c :: l2) == area2 (l1 ++ a :: c :: l2) + tri2 a b c.
Proof.
  intros. rewrite (area2_rotate l1 (a :: b :: c :: l2)), (area2_rotate l1 (a :: c :: l2)). cbn [app]. apply area2_drop2.
Qed.
Lemma area2_drop_last : forall f l b c, area2 (f :: l ++ [b; c]) == area2 (f :: l ++ [b]) + tri2 b c f.
Proof.
  intros. change (f :: l ++ [b; c]) with ((f :: l) ++ [b; c]). change (f :: l ++ [b]) with ((f :: l) ++ [b]).
  rewrite (area2_rotate (f :: l) [b; c]), (area2_rotate (f :: l) [b]). cbn [app]. apply area2_drop2.
Qed.

Lemma polygon_loop_area : forall front cs acc, (2 <= length acc)%nat -> last acc front = front ->
  area2 (rev (collinear_polygon_loop direct front acc cs)) == area2 (rev acc ++ cs).
Proof.
  intros front. induction cs as [|c cs IH]; intros acc L F; [rewrite app_nil_r; reflexivity|].
  destruct acc as [|b [|a rest]]; [cbn in L; lia..|]. cbn [collinear_polygon_loop]. cbv zeta. rewrite !collinear_direct.
  destruct (Qeqb_spec (tri2 a b c) 0) as [E|E]; cbn [negb].
  - rewrite IH; [|cbn; lia|].
    + cbn [rev]. rewrite <- !app_assoc. cbn [app]. rewrite area2_drop, E. ring.
    + rewrite <- F. rewrite !last_cons. reflexivity.
  - destruct cs as [|c' cs]; cbn [orb].
    + destruct (Qeqb_spec (tri2 b c front) 0) as [E2|E2]; cbn [negb].
      * cbn [collinear_polygon_loop]. cbn [rev]. rewrite <- !app_assoc. cbn [app].
        destruct (rev rest) as [|f l] eqn:R.
        -- assert (rest = []) by (rewrite <- (rev_involutive rest), R; reflexivity). subst rest. cbn [last] in F. subst a.
           cbn [app]. pose proof (area2_drop_last front [] b c) as D. cbn [app] in D. rewrite D, E2. ring.
        -- assert (f = front).
           { assert (R2 : rest = rev l ++ [f]) by (rewrite <- (rev_involutive rest), R; reflexivity).
             rewrite <- F. rewrite R2. change (b :: a :: rev l ++ [f]) with ((b :: a :: rev l) ++ [f]). rewrite last_app by discriminate. reflexivity. }
           subst f. change ((front :: l) ++ [a; b]) with (front :: l ++ [a; b]). change ((front :: l) ++ [a; b; c]) with (front :: l ++ [a; b; c]).
           pose proof (area2_drop_last front (l ++ [a]) b c) as D. rewrite <- !app_assoc in D. cbn [app] in D. rewrite D, E2. ring.
      * cbn [collinear_polygon_loop]. cbn [rev]. rewrite <- !app_assoc. reflexivity.
    + rewrite IH; [|cbn; lia|].
      * cbn [rev]. rewrite <- !app_assoc. reflexivity.
      * etransitivity; [|exact F]. rewrite !last_cons. reflexivity.
Qed.
Lemma remove_polygon_area2 : forall ps, area2 (remove_collinear_points_polygon direct ps) == area2 ps.
Proof.
  intro ps. unfold remove_collinear_points_polygon.
  destruct ps as [|p0 [|p1 [|p2 [|p3 rest]]]]; try reflexivity.
  rewrite polygon_loop_area; [reflexivity|cbn; lia|reflexivity].
Qed.
Lemma area2_signed : forall l r, area2 l == area2 r -> forall s t, get_signed_area l = Some s -> get_signed_area r = Some t -> s == t.
Proof. intros l r E s t H1 H2. rewrite (signed_area_gsum _ _ H1), (signed_area_gsum _ _ H2). unfold area2 in E. rewrite E. reflexivity. Qed.

(** The border of a polygon that goes on. *)
Lemma polygon_loop_inv : forall front cs acc q, cs <> [] -> loop_inv (rev acc ++ cs ++ [front]) acc q (cs ++ [front]) ->
  let r := collinear_polygon_loop direct front acc cs in
  (forall A B C, successive (rev r) A B C -> ~ tri2 A B C == 0) /\
  (forall X, on_path (rev r ++ [front]) X <-> on_path (rev acc ++ cs ++ [front]) X).
Proof.
  intros front.
  assert (K : forall orig cs acc q, cs <> [] -> loop_inv orig acc q (cs ++ [front]) ->
    let r := collinear_polygon_loop direct front acc cs in
    (forall A B C, successive (rev r) A B C -> ~ tri2 A B C == 0) /\ (forall X, on_path (rev r ++ [front]) X <-> on_path orig X)).
  { intros orig. induction cs as [|c cs IH]; intros acc q NE H; [contradiction|].
    cbn [app] in H. destruct (loop_step orig acc q c (cs ++ [front]) H) as (b & Hb & H').
    destruct H as (b0 & a & rest & -> & AL & G & N & P). cbn in Hb. assert (b0 = b) by congruence. subst b0.
    unfold collinear_step in H'. cbn [collinear_polygon_loop]. cbv zeta.
    destruct (is_collinear direct a b c) eqn:EC; cbn [negb].
    - destruct cs as [|c' cs]; [|apply (IH _ b); [discriminate|exact H']].
      cbn [collinear_polygon_loop]. destruct H' as (b1 & a1 & r1 & E1 & _ & _ & N' & P'). split; [exact N'|exact P'].
    - destruct cs as [|c' cs]; cbn [orb]; [|apply (IH _ b); [discriminate|exact H']].
      destruct (is_collinear direct b c front) eqn:E2; cbn [negb]; cbn [collinear_polygon_loop].
      + (* c is dropped: strictly between b and front *)
        split; [exact N|]. destruct H' as (b1 & a1 & r1 & E1 & _ & G' & _ & P').
        assert (b1 = c) by congruence. subst b1.
        destruct (G' b c front) as [(t & T1 & Bx & By) _]; [exists 0%nat; repeat split; reflexivity| |].
        { rewrite collinear_direct in E2. destruct (Qeqb_spec (tri2 b c front) 0); [assumption|discriminate]. }
        intro X. rewrite <- P'. cbn [rev app]. rewrite <- !app_assoc. cbn [app].
        rewrite (on_path_app (rev rest) a [b; front]), (on_path_app (rev rest) a [b; c; front]).
        change (on_path [a; b; front] X) with (on_segment a b X \/ (on_segment b front X \/ False)).
        change (on_path [a; b; c; front] X) with (on_segment a b X \/ (on_segment b c X \/ (on_segment c front X \/ False))).
        rewrite <- (between_union b c front t (1 - t)); [tauto|lra|lra| |];
          unfold lerp, vadd, vscale, vsub in Bx, By; cbn [px py] in Bx, By; rewrite ?Bx, ?By; ring.
      + destruct H' as (b1 & a1 & r1 & E1 & _ & _ & N' & P'). split; [exact N'|exact P']. }
  intros cs acc q NE H. apply (K _ cs acc q NE H).
Qed.

Lemma polygon_edges_path : forall p ps X, on_polygon (p :: ps) X <-> on_path ((p :: ps) ++ [p]) X.
Proof.
  intros p ps X. rewrite <- on_path_polyline. unfold on_polygon, on_polyline, polygon_edge, polyline_edge.
  set (l := p :: ps). set (n := length l). assert (N : (0 < n)%nat) by (unfold n, l; cbn; lia).
  assert (P0 : nth_error l 0 = Some p) by reflexivity. clearbody l.
  assert (LA : length (l ++ [p]) = S n) by (rewrite app_length; cbn [length]; fold n; lia).
  assert (G : forall i, (i < n)%nat -> nth_error (l ++ [p]) i = nth_error l i) by (intros; apply nth_error_app1; exact H).
  assert (GN : nth_error (l ++ [p]) n = Some p) by (rewrite nth_error_app2 by (fold n; lia); fold n; rewrite Nat.sub_diag; reflexivity).
  split; intros (i & A & B & [H1 H2] & H3); exists i, A, B; (split; [|exact H3]).
  - assert (Hi : (i < n)%nat) by (unfold n; apply nth_error_Some; congruence).
    split; [rewrite G; assumption|].
    destruct (Nat.eq_dec (S i) n) as [E|E].
    + rewrite E. rewrite GN. rewrite E, Nat.mod_same in H2 by lia. congruence.
    + rewrite Nat.mod_small in H2 by lia. rewrite G by lia. exact H2.
  - assert (Hi : (S i < S n)%nat) by (rewrite <- LA; apply nth_error_Some; congruence).
    rewrite G in H1 by lia. split; [exact H1|].
    destruct (Nat.eq_dec (S i) n) as [E|E].
    + rewrite E, Nat.mod_same by lia. rewrite E in H2. congruence.
    + rewrite Nat.mod_small by lia. rewrite G in H2 by lia. exact H2.
Qed.

Lemma goes_on_around : forall ps p, hd_error ps = Some p -> (2 <= length ps)%nat -> goes_on (around ps) -> goes_on (ps ++ [p]).
Proof.
  intros ps p HD L G A B C (i & H1 & H2 & H3). apply G. exists i. unfold around.
  destruct ps as [|x [|y l]]; [cbn in L; lia..|]. cbn [firstn]. cbn in HD. assert (x = p) by congruence. subst x.
  assert (K : forall j Y, nth_error ((p :: y :: l) ++ [p]) j = Some Y -> nth_error ((p :: y :: l) ++ [p; y]) j = Some Y).
  { intros j Y HY. change [p; y] with ([p] ++ [y]). rewrite app_assoc. rewrite nth_error_app1; [exact HY|]. apply nth_error_Some. congruence. }
  split; [apply K, H1|]. split; apply K; assumption.
Qed.

Lemma remove_polygon_ok : forall ps, (4 <= length ps)%nat -> goes_on (around ps) -> let r := remove_collinear_points_polygon direct ps in
  no_straight_vertex r /\ forall X, on_polygon r X <-> on_polygon ps X.
Proof.
  intros ps L G. destruct ps as [|p0 [|p1 [|p2 [|p3 rest]]]]; try (cbn in L; lia).
  pose proof (goes_on_around (p0 :: p1 :: p2 :: p3 :: rest) p0 eq_refl ltac:(cbn; lia) G) as G'.
  pose proof (loop_start p0 p1 ((p2 :: p3 :: rest) ++ [p0]) G') as I.
  destruct (polygon_loop_inv p0 (p2 :: p3 :: rest) [p1; p0] p0 ltac:(discriminate) I) as [N P].
  cbv zeta. unfold remove_collinear_points_polygon in *. split; [exact N|].
  destruct (remove_polygon_any direct (p0 :: p1 :: p2 :: p3 :: rest) p0) as (_ & HD & L2).
  cbv zeta in HD, L2. unfold remove_collinear_points_polygon in HD, L2. specialize (L2 ltac:(cbn; lia)).
  set (r := rev (collinear_polygon_loop direct p0 [p1; p0] (p2 :: p3 :: rest))) in *.
  intro X. destruct r as [|x r]; [cbn in L2; lia|]. cbn in HD. subst x.
  rewrite !polygon_edges_path. apply P.
Qed.
