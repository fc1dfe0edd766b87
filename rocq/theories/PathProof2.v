From Verif Require Import RBase PathModel PathSpec PathProof.

Lemma last_suffix : forall (l : list rvec) w r d, last (l ++ w :: r) d = last (w :: r) d.
Proof.
  intros l w r d. induction l as [|v l IH]; [reflexivity|]. cbn [app last]. destruct (l ++ w :: r) eqn:Q; [destruct l; discriminate|exact IH].
Qed.
Lemma way_way : forall p q t u, length p = length q -> on_the_way (on_the_way p q t) q u = on_the_way p q (t + u * (1 - t)).
Proof.
  unfold on_the_way. induction p as [|x p IH]; intros [|y q] t u L; try discriminate; [reflexivity|]. cbn in *. f_equal; [ring|]. apply IH; lia.
Qed.
Lemma way_way_l : forall p q t u, length p = length q -> on_the_way p (on_the_way p q t) u = on_the_way p q (t * u).
Proof.
  unfold on_the_way. induction p as [|x p IH]; intros [|y q] t u L; try discriminate; [reflexivity|]. cbn in *. f_equal; [ring|]. apply IH; lia.
Qed.
Lemma way_swap : forall p q t, length p = length q -> on_the_way p q t = on_the_way q p (1 - t).
Proof.
  unfold on_the_way. induction p as [|x p IH]; intros [|y q] t L; try discriminate; [reflexivity|]. cbn in *. f_equal; [ring|]. apply IH; lia.
Qed.
Lemma euclid_sym : forall p q, euclid p q = euclid q p.
Proof. intros. change (euclid p q) with (rnorm (rsub q p)). change (euclid q p) with (rnorm (rsub p q)). apply rsub_norm_sym. Qed.
Lemma path_snoc : forall l a b, path_length (l ++ [a; b]) = path_length (l ++ [a]) + euclid a b.
Proof. intros. rewrite (path_app l a [b]). cbn [path_length]. lra. Qed.
Lemma path_rev : forall ps, path_length (rev ps) = path_length ps.
Proof.
  induction ps as [|a [|b ps] IH]; [reflexivity|reflexivity|]. cbn [rev] in *. rewrite <- app_assoc. cbn [app]. rewrite path_snoc, IH, path_cons, euclid_sym. lra.
Qed.
Lemma dim_rev : forall n ps, same_dim n ps -> same_dim n (rev ps).
Proof. intros n ps H. unfold same_dim in *. apply Forall_rev, H. Qed.

(** ** What is left after clipping the front *)
Lemma front_part : forall n pre p q post t r, same_dim n (pre ++ p :: q :: post) -> 0 <= t <= 1 ->
  r = (if Rltb t 1 then on_the_way p q t :: q :: post else q :: post) ->
  let ps := pre ++ p :: q :: post in let l := path_length (pre ++ [p]) + t * euclid p q in
  path_length r = path_length ps - l /\ same_dim n r /\ (forall d, last r d = last ps d) /\
  (forall d, point_at ps l (hd d r)) /\ (forall s x, point_at r s x -> point_at ps (l + s) x).
Proof.
  intros n pre p q post t r D T E. cbv zeta. pose proof (dim_edge _ _ _ _ _ D) as L.
  assert (Dq : same_dim n (q :: post)) by (apply dim_app in D; destruct D as [_ D]; apply dim_tail in D; exact D).
  assert (Lp : length p = n) by (apply dim_app in D; destruct D as [_ D]; inversion D; assumption).
  destruct (Rltb_spec t 1) as [C|C]; subst r.
  - assert (M2 : euclid (on_the_way p q t) q = (1 - t) * euclid p q) by (apply euclid_way_r; [exact L|lra]).
    split; [rewrite (path_app pre p (q :: post)), !path_cons; rewrite M2; lra|].
    split; [constructor; [rewrite way_length by exact L; exact Lp|exact Dq]|].
    split; [intro d; rewrite last_suffix; reflexivity|].
    split; [intro d; exists pre, p, q, post, t; repeat split; lra|].
    intros s x (pre' & p' & q' & post' & u & EQ & U & S & X). destruct pre' as [|y pre'].
    + cbn [app] in EQ. assert (p' = on_the_way p q t) by congruence. assert (q' = q) by congruence. subst p' q'.
      rewrite way_way in X by exact L. cbn [app path_length] in S. rewrite M2 in S.
      exists pre, p, q, post, (t + u * (1 - t)). split; [reflexivity|]. split.
      { assert (0 <= u * (1 - t)) by (apply Rmult_le_pos; lra). assert (0 <= (1 - u) * (1 - t)) by (apply Rmult_le_pos; lra). lra. }
      split; [lra|exact X].
    + cbn [app] in EQ. assert (EY : y = on_the_way p q t) by congruence. assert (ER : q :: post = pre' ++ p' :: q' :: post') by congruence.
      exists (pre ++ p :: pre'), p', q', post', u. split; [rewrite ER, <- app_assoc; reflexivity|]. split; [exact U|]. split; [|exact X].
      rewrite <- app_assoc. cbn [app]. rewrite (path_app pre p (pre' ++ [p'])).
      destruct pre' as [|z pre']; cbn [app] in *; [assert (q = p') by congruence; subst p'|assert (q = z) by congruence; subst z]; rewrite path_cons in *; subst y; rewrite M2 in S; lra.
  - assert (t = 1) by lra. subst t. split; [rewrite (path_app pre p (q :: post)), !path_cons; lra|].
    split; [exact Dq|]. split; [intro d; change (pre ++ p :: q :: post) with (pre ++ [p] ++ q :: post); rewrite app_assoc, last_suffix; reflexivity|].
    split; [intro d; exists pre, p, q, post, 1; repeat split; try lra; cbn [hd]; symmetry; apply way_1, L|].
    intros s x (pre' & p' & q' & post' & u & EQ & U & S & X).
    exists (pre ++ p :: pre'), p', q', post', u. split; [rewrite EQ, <- app_assoc; reflexivity|]. split; [exact U|]. split; [|exact X].
    rewrite <- app_assoc. cbn [app]. rewrite (path_app pre p (pre' ++ [p'])).
    destruct pre' as [|z pre']; cbn [app] in *; [assert (q = p') by congruence; subst p'|assert (q = z) by congruence; subst z]; rewrite path_cons; lra.
Qed.

Lemma front_result : forall n ps l, same_dim n ps -> 0 <= l < path_length ps ->
  exists r, clip_polyline_front rdirect ps l = Value r /\ path_length r = path_length ps - l /\ same_dim n r /\
  (forall d, last r d = last ps d) /\ (forall d, point_at ps l (hd d r)) /\ (forall s x, point_at r s x -> point_at ps (l + s) x).
Proof.
  intros n ps l D H. destruct (clip_front_ok n ps l D H) as (pre & p & q & post & t & -> & T & P & E & _).
  eexists. split; [exact E|]. rewrite P. apply (front_part n pre p q post t _ D T eq_refl).
Qed.

Lemma point_at_rev : forall n ps s x, same_dim n ps -> point_at (rev ps) s x -> point_at ps (path_length ps - s) x.
Proof.
  intros n ps s x D (pre & p & q & post & t & E & T & S & X).
  assert (E' : ps = rev post ++ q :: p :: rev pre).
  { rewrite <- (rev_involutive ps), E, rev_app_distr. cbn [rev]. rewrite <- !app_assoc. reflexivity. }
  pose proof D as D'. rewrite E' in D'. pose proof (dim_edge _ _ _ _ _ D') as L.
  exists (rev post), q, p, (rev pre), (1 - t). split; [exact E'|]. split; [lra|]. split.
  - rewrite E', (path_app (rev post) q (p :: rev pre)), path_cons. rewrite <- (path_rev (p :: rev pre)). cbn [rev]. rewrite rev_involutive, (euclid_sym q p). lra.
  - rewrite X. apply way_swap. symmetry. exact L.
Qed.
Lemma last_rev : forall (l : list rvec) d, last (rev l) d = hd d l.
Proof. intros [|a l] d; [reflexivity|]. cbn [rev]. rewrite last_suffix. reflexivity. Qed.
Lemma hd_rev : forall (l : list rvec) d, hd d (rev l) = last l d.
Proof. intros l d. rewrite <- (rev_involutive l) at 2. rewrite last_rev. reflexivity. Qed.

Lemma back_result : forall n ps l, same_dim n ps -> 0 <= l < path_length ps ->
  exists r, clip_polyline_back rdirect ps l = Value r /\ path_length r = path_length ps - l /\ same_dim n r /\
  (forall d, hd d r = hd d ps) /\ (forall d, point_at ps (path_length ps - l) (last r d)) /\ (forall s x, point_at r s x -> point_at ps s x).
Proof.
  intros n ps l D H. unfold clip_polyline_back.
  destruct (front_result n (rev ps) l (dim_rev _ _ D)) as (r & E & A & B & C & F & G); [rewrite path_rev; exact H|].
  rewrite path_rev in A. rewrite E. exists (rev r). split; [reflexivity|]. split; [rewrite path_rev; exact A|]. split; [apply dim_rev, B|].
  split; [intro d; rewrite hd_rev, C, last_rev; reflexivity|].
  split; [intro d; rewrite last_rev; apply (point_at_rev n); [exact D|apply F]|].
  intros s x X. assert (X' : point_at r (path_length r - s) x).
  { apply (point_at_rev n); assumption. }
  apply G in X'. apply (point_at_rev n ps _ x D) in X'. replace (path_length ps - (l + (path_length r - s))) with s in X' by lra. exact X'.
Qed.

Lemma ends_result : forall n ps l, same_dim n ps -> 0 <= l -> 2 * l < path_length ps ->
  exists r, clip_polyline_ends rdirect ps l = Value r /\ path_length r = path_length ps - 2 * l /\
  (forall d, point_at ps l (hd d r)) /\ (forall d, point_at ps (path_length ps - l) (last r d)) /\ (forall s x, point_at r s x -> point_at ps (l + s) x).
Proof.
  intros n ps l D H0 H. unfold clip_polyline_ends.
  destruct (front_result n ps l D ltac:(lra)) as (r & E & A & B & C & F & G). rewrite E.
  destruct (back_result n r l B ltac:(lra)) as (r' & E' & A' & B' & C' & F' & G'). exists r'. split; [exact E'|].
  split; [lra|]. split; [intro d; rewrite C'; apply F|]. split.
  - intro d. specialize (F' d). apply G in F'. replace (l + (path_length r - l)) with (path_length ps - l) in F' by lra. exact F'.
  - intros s x X. apply G, G', X.
Qed.
Lemma ends_empty : forall n ps l, same_dim n ps -> 0 <= l -> path_length ps <= 2 * l ->
  exists r, clip_polyline_ends rdirect ps l = Value r /\ path_length r = 0.
Proof.
  intros n ps l D H0 H. unfold clip_polyline_ends.
  assert (K : exists r, clip_polyline_front rdirect ps l = Value r /\ path_length r <= l).
  { destruct (Rlt_or_le l (path_length ps)) as [C|C].
    - destruct (front_result n ps l D ltac:(lra)) as (r & E & A & _). exists r. split; [exact E|lra].
    - destruct (clip_front_beyond ps l C H0) as (r & E & A). exists r. split; [exact E|lra]. }
  destruct K as (r & E & A). rewrite E. unfold clip_polyline_back.
  destruct (clip_front_beyond (rev r) l) as (r' & E' & A'); [rewrite path_rev; exact A|exact H0|]. rewrite E'. exists (rev r'). split; [reflexivity|]. rewrite path_rev. exact A'.
Qed.
Lemma back_beyond : forall ps l, path_length ps <= l -> 0 <= l -> exists r, clip_polyline_back rdirect ps l = Value r /\ path_length r = 0.
Proof.
  intros ps l H H0. unfold clip_polyline_back. destruct (clip_front_beyond (rev ps) l) as (r' & E' & A'); [rewrite path_rev; exact H|exact H0|].
  rewrite E'. exists (rev r'). split; [reflexivity|]. rewrite path_rev. exact A'.
Qed.

(** A negative length lengthens the polyline backwards beyond its first point. *)
Lemma front_negative : forall n p q ps l, same_dim n (p :: q :: ps) -> 0 < euclid p q -> l < 0 ->
  exists t, t < 0 /\ clip_polyline_front rdirect (p :: q :: ps) l = Value (on_the_way p q t :: q :: ps) /\ euclid (on_the_way p q t) p = - l.
Proof.
  intros n p q ps l D E H. pose proof (dim_two _ _ _ _ D) as L. exists (l / euclid p q).
  assert (T : l / euclid p q < 0). { assert (0 < - l * / euclid p q) by (apply Rmult_lt_0_compat; [lra|apply Rinv_0_lt_compat; exact E]). unfold Rdiv. lra. }
  split; [exact T|]. split.
  - unfold clip_polyline_front, polyline_segment_lengths_cutoff. cbn [segment_lengths_upto lower_bound_at]. cbv zeta. rewrite rdist_euclid.
    destruct (Rltb_spec (0 + euclid p q) l); [lra|]. cbn [nth_error skipn Nat.add]. cbn [rgt rdirect].
    destruct (Rltb_spec 0 (0 + euclid p q - l)); [|lra]. rewrite back_from_ok by assumption.
    replace (1 - (0 + euclid p q - l) / euclid p q) with (l / euclid p q) by (field; lra).
    destruct (rvec_equals rdirect (on_the_way p q (l / euclid p q)) q) eqn:Q; [|reflexivity].
    apply way_eq in Q; [|exact L]. assert (0 < (1 - l / euclid p q) * euclid p q) by (apply Rmult_lt_0_compat; lra). lra.
  - pose proof (euclid_way p q (l / euclid p q) 0 L ltac:(lra)) as W. rewrite way_0 in W by exact L. rewrite W. field. lra.
Qed.

(** ** The middle *)
Lemma lengths_last : forall ps p L0 d, ps <> [] -> last (segment_lengths_from L0 p ps) d = L0 + path_length (p :: ps).
Proof.
  induction ps as [|q ps IH]; intros p L0 d NE; [contradiction|]. cbn [segment_lengths_from]. cbv zeta. rewrite rdist_euclid, path_cons.
  destruct ps as [|x ps].
  - cbn [segment_lengths_from last path_length]. lra.
  - specialize (IH q (L0 + euclid p q) d ltac:(discriminate)). change (last (?a :: ?l) d) with (match l with [] => a | _ => last l d end).
    destruct (segment_lengths_from (L0 + euclid p q) q (x :: ps)) eqn:Q; [cbn in Q; discriminate|]. rewrite IH. lra.
Qed.
Lemma mid_ok : forall n ps, same_dim n ps -> 0 < path_length ps ->
  exists m, polyline_mid_point ps = Value m /\ point_at ps (path_length ps / 2) m.
Proof.
  intros n [|p0 ps] D H; [cbn in H; lra|]. assert (NE : ps <> []) by (intro X; subst; cbn in H; lra).
  unfold polyline_mid_point. cbv zeta. unfold polyline_segment_lengths. rewrite lengths_last by exact NE. rewrite Rplus_0_l.
  set (pos := path_length (p0 :: ps) * (1 / 2)). assert (PP : path_length (p0 :: ps) / 2 = pos) by (unfold pos; field). assert (POS : 0 < pos) by (unfold pos; lra). rewrite PP.
  destruct (lower_ok ps p0 pos 0 0 ltac:(unfold pos; lra) NE) as (pre & p & q & post & E & _ & A & B & C). cbv zeta in *.
  rewrite A. cbn [Nat.add]. rewrite E in *. clearbody pos. destruct (nth_pre pre p q post) as (N1 & _ & N3). rewrite N1, N3.
  specialize (C POS). rewrite path_snoc in *. rewrite Rplus_0_l in *. pose proof (dim_edge _ _ _ _ _ D) as L.
  assert (E1 : 0 < euclid p q) by lra. rewrite back_from_ok by assumption.
  eexists. split; [reflexivity|]. exists pre, p, q, post, (1 - (path_length (pre ++ [p]) + euclid p q - pos) / euclid p q).
  set (t := 1 - (path_length (pre ++ [p]) + euclid p q - pos) / euclid p q).
  assert (T : pos = path_length (pre ++ [p]) + t * euclid p q) by (unfold t; field; lra).
  split; [reflexivity|]. split; [|split; [exact T|reflexivity]].
  split; apply (Rmult_le_reg_r (euclid p q)); lra.
Qed.
Lemma zero_edges : forall ps, path_length ps = 0 -> forall pre p q post, ps = pre ++ p :: q :: post -> euclid p q = 0.
Proof.
  intros ps H pre p q post E. subst ps. rewrite (path_app pre p (q :: post)), path_cons in H.
  pose proof (path_nonneg (pre ++ [p])). pose proof (path_nonneg (q :: post)). pose proof (euclid_nonneg p q). lra.
Qed.
Lemma mid_undefined : forall ps, path_length ps = 0 -> polyline_mid_point ps = Undefined.
Proof.
  intros [|p0 ps] H; [reflexivity|]. destruct ps as [|q0 ps]; [reflexivity|].
  unfold polyline_mid_point. cbv zeta. unfold polyline_segment_lengths. rewrite lengths_last by discriminate. rewrite H, Rplus_0_l.
  assert (Z : euclid p0 q0 = 0) by (apply (zero_edges _ H [] p0 q0 ps eq_refl)).
  cbn [segment_lengths_from lower_bound_at]. cbv zeta. rewrite rdist_euclid, Z. destruct (Rltb_spec (0 + 0) (0 * (1 / 2))); [lra|].
  cbn [nth_error Nat.add]. unfold back_from. cbv zeta. rewrite rsub_norm_sym. change (rnorm (rsub q0 p0)) with (euclid p0 q0). rewrite Z.
  destruct (Reqb_spec 0 0); [reflexivity|lra].
Qed.

(** ** Cutting a segment into small pieces *)
Lemma parts_double : forall s e n, length s = length e -> (0 < n)%nat ->
  equal_parts s e (n + n) = equal_parts s (on_the_way s e (1 / 2)) n ++ equal_parts (on_the_way s e (1 / 2)) e n.
Proof.
  intros s e n L N. unfold equal_parts. rewrite seq_app, map_app. cbn [Nat.add].
  assert (NR : INR n <> 0) by (apply not_0_INR; lia). rewrite plus_INR. f_equal.
  - apply map_ext. intro i. rewrite !way_way_l by exact L. f_equal; f_equal; field; lra.
  - replace (seq n n) with (map (fun i => (n + i)%nat) (seq 0 n)).
    + rewrite map_map. apply map_ext. intro i. rewrite !way_way by exact L. rewrite <- Nat.add_succ_r, !plus_INR. f_equal; f_equal; field; lra.
    + assert (K : forall k b, map (fun i => (n + i)%nat) (seq b k) = seq (n + b) k).
      { induction k as [|k IH]; intro b; [reflexivity|]. cbn [seq map]. rewrite IH, Nat.add_succ_r. reflexivity. }
      rewrite K, Nat.add_0_r. reflexivity.
Qed.
Lemma half_d2 : forall s e, length s = length e ->
  rdot (rsub (on_the_way s e (1/2)) s) (rsub (on_the_way s e (1/2)) s) = rdot (rsub e s) (rsub e s) / 4 /\
  rdot (rsub e (on_the_way s e (1/2))) (rsub e (on_the_way s e (1/2))) = rdot (rsub e s) (rsub e s) / 4.
Proof.
  intros s e L.
  assert (A : rsub (on_the_way s e (1/2)) s = rscale (1/2) (rsub e s)).
  { rewrite <- (way_0 s e L) at 2. rewrite way_sub by exact L. f_equal. lra. }
  assert (B : rsub e (on_the_way s e (1/2)) = rscale (1/2) (rsub e s)).
  { rewrite <- (way_1 s e L) at 1. rewrite way_sub by exact L. f_equal. lra. }
  rewrite A, B, !rdot_rscale_l, !rdot_rscale_r. split; field.
Qed.
Definition depth_ok (k : nat) (d2 max2 : R) : Prop := d2 <= 4 ^ k * max2 /\ (k = 0%nat \/ 4 ^ (k - 1) * max2 < d2).
Lemma rec_ok : forall k f s e max2, length s = length e -> 0 <= max2 -> depth_ok k (rdot (rsub e s) (rsub e s)) max2 ->
  split_segment_rec (S k + f) max2 s e = Some (equal_parts s e (2 ^ k)).
Proof.
  induction k as [|k IH]; intros f s e max2 L M [H1 H2].
  - cbn [Nat.add split_segment_rec]. cbn [pow] in H1. destruct (Rltb_spec max2 (rdot (rsub e s) (rsub e s))); [lra|].
    unfold equal_parts. cbn [Nat.pow seq map]. cbn [INR]. do 2 f_equal.
    replace (0 / 1) with 0 by field. replace (1 / 1) with 1 by field. rewrite way_0, way_1 by exact L. reflexivity.
  - destruct H2 as [H2|H2]; [discriminate|]. replace (S k - 1)%nat with k in H2 by lia.
    change (S (S k) + f)%nat with (S (S k + f)). cbn [split_segment_rec].
    assert (P : 1 <= 4 ^ k). { clear. induction k as [|k IH]; cbn [pow]; lra. }
    assert (P2 : max2 <= 4 ^ k * max2). { assert (0 <= (4 ^ k - 1) * max2) by (apply Rmult_le_pos; lra). lra. }
    destruct (Rltb_spec max2 (rdot (rsub e s) (rsub e s))); [|lra]. cbv zeta.
    change (radd s (rscale (1 / 2) (rsub e s))) with (on_the_way s e (1 / 2)).
    destruct (half_d2 s e L) as [A B]. assert (DO : depth_ok k (rdot (rsub e s) (rsub e s) / 4) max2).
    { cbn [pow] in H1. split; [lra|]. destruct k as [|k]; [left; reflexivity|right]. replace (S k - 1)%nat with k by lia. cbn [pow] in H2. lra. }
    rewrite IH; [|rewrite way_length; [reflexivity|exact L]|exact M|rewrite A; exact DO].
    rewrite IH; [|rewrite way_length; exact L|exact M|rewrite B; exact DO].
    f_equal. assert (K : (2 ^ S k = 2 ^ k + 2 ^ k)%nat) by (cbn [Nat.pow]; lia). rewrite K. symmetry. apply parts_double; [exact L|].
    clear. induction k as [|k IH]; cbn [Nat.pow]; lia.
Qed.
Lemma depth_exists : forall d2 max2, 0 < max2 -> exists k, depth_ok k d2 max2.
Proof.
  intros d2 max2 M. assert (A : exists K, d2 <= 4 ^ K * max2).
  { assert (U : exists K, d2 / max2 < INR K).
    { destruct (archimed (d2 / max2)) as [U _]. exists (Z.to_nat (up (d2 / max2))).
      destruct (Z.le_gt_cases 0 (up (d2 / max2))) as [Z|Z].
      - rewrite INR_IZR_INZ, Z2Nat.id by exact Z. lra.
      - pose proof (pos_INR (Z.to_nat (up (d2 / max2)))). apply IZR_lt in Z. lra. }
    destruct U as [K HK]. exists K.
    assert (B : INR K <= 4 ^ K). { clear. induction K as [|K IH]; [cbn; lra|]. rewrite S_INR. cbn [pow]. assert (1 <= 4 ^ K) by (clear; induction K as [|K IH]; cbn [pow]; lra). lra. }
    assert (C : d2 = d2 / max2 * max2) by (field; lra). rewrite C. apply Rmult_le_compat_r; lra. }
  destruct A as [K HK]. induction K as [|K IH].
  - exists 0%nat. split; [exact HK|left; reflexivity].
  - destruct (Rle_or_lt d2 (4 ^ K * max2)) as [C|C]; [apply IH, C|]. exists (S K). split; [exact HK|right]. replace (S K - 1)%nat with K by lia. exact C.
Qed.
Lemma split_segment_ok : forall s e m, length s = length e -> m <> 0 ->
  exists k, (euclid s e <= 2 ^ k * Rabs m /\ (k = 0%nat \/ 2 ^ (k - 1) * Rabs m < euclid s e)) /\
    forall f, (k < f)%nat -> split_segment f s e m = Some (equal_parts s e (2 ^ k)).
Proof.
  intros s e m L M. assert (M2 : 0 < m * m). { pose proof (Rlt_0_sqr m M) as Q. exact Q. }
  destruct (depth_exists (rdot (rsub e s) (rsub e s)) (m * m) M2) as [k K]. exists k. split.
  - assert (E2 : rdot (rsub e s) (rsub e s) = euclid s e * euclid s e) by (unfold euclid; rewrite sqrt_sqrt; [reflexivity|apply rdot_self_nonneg]).
    assert (P4 : forall j, 4 ^ j * (m * m) = (2 ^ j * Rabs m) * (2 ^ j * Rabs m)).
    { intro j. replace 4 with (2 * 2) by ring. rewrite Rpow_mult_distr. 
      assert (Rabs m * Rabs m = m * m) by (rewrite <- Rabs_mult; apply Rabs_right; lra). replace (2 ^ j * Rabs m * (2 ^ j * Rabs m)) with (2 ^ j * 2 ^ j * (Rabs m * Rabs m)) by ring. rewrite H. ring. }
    assert (PN : forall j, 0 <= 2 ^ j * Rabs m) by (intro j; apply Rmult_le_pos; [apply pow_le; lra|apply Rabs_pos]).
    pose proof (euclid_nonneg s e) as E0. destruct K as [K1 K2]. rewrite E2, P4 in K1. split.
    + apply Rsqr_incr_0; [exact K1|exact E0|apply PN].
    + destruct K2 as [K2|K2]; [left; exact K2|right]. rewrite E2, P4 in K2. apply Rsqr_incrst_0; [exact K2|apply PN|exact E0].
  - intros f F. replace f with (S k + (f - S k))%nat by lia. apply rec_ok; [exact L|lra|exact K].
Qed.
Lemma split_segment_zero : forall f s e, length s = length e -> 0 < euclid s e -> split_segment f s e 0 = None.
Proof.
  intros f s e L H. assert (H2 : 0 < rdot (rsub e s) (rsub e s)).
  { destruct (Rle_lt_or_eq_dec _ _ (rdot_self_nonneg (rsub e s))) as [C|C]; [exact C|]. unfold euclid in H. rewrite <- C, sqrt_0 in H. lra. }
  clear H. unfold split_segment. revert s e L H2. induction f as [|f IH]; intros s e L H2; [reflexivity|]. cbn [split_segment_rec].
  destruct (Rltb_spec (0 * 0) (rdot (rsub e s) (rsub e s))); [|lra]. cbv zeta. change (radd s (rscale (1 / 2) (rsub e s))) with (on_the_way s e (1 / 2)).
  destruct (half_d2 s e L) as [A _]. rewrite IH; [reflexivity|rewrite way_length; [reflexivity|exact L]|rewrite A; lra].
Qed.
Lemma split_segment_small : forall s e m, length s = length e -> m <> 0 ->
  exists F, forall f, (F < f)%nat -> exists r, split_segment f s e m = Some r /\
    forall a b, In (a, b) r -> euclid a b <= Rabs m /\ euclid a b = euclid s e / INR (length r).
Proof.
  intros s e m L M. destruct (split_segment_ok s e m L M) as (k & [K1 _] & F). exists k. intros f H. exists (equal_parts s e (2 ^ k)). split; [apply F, H|].
  intros a b I. unfold equal_parts in I. apply in_map_iff in I. destruct I as (i & E & I). apply in_seq in I.
  assert (EA : a = on_the_way s e (INR i / INR (2 ^ k))) by congruence. assert (EB : b = on_the_way s e (INR (S i) / INR (2 ^ k))) by congruence.
  assert (N : INR (2 ^ k) = 2 ^ k) by (rewrite pow_INR; f_equal). assert (P : 0 < 2 ^ k) by (apply pow_lt; lra).
  assert (LE : INR i / INR (2 ^ k) <= INR (S i) / INR (2 ^ k)).
  { rewrite N. unfold Rdiv. apply Rmult_le_compat_r; [left; apply Rinv_0_lt_compat, P|]. rewrite S_INR. lra. }
  assert (D : euclid a b = euclid s e / 2 ^ k).
  { rewrite EA, EB, euclid_way by assumption. rewrite N, S_INR. field. lra. }
  assert (LL : length (equal_parts s e (2 ^ k)) = (2 ^ k)%nat) by (unfold equal_parts; rewrite map_length, seq_length; reflexivity).
  rewrite LL, N, D. split; [|reflexivity].
  apply (Rmult_le_reg_l (2 ^ k)); [exact P|]. replace (2 ^ k * (euclid s e / 2 ^ k)) with (euclid s e) by (field; lra). exact K1.
Qed.
