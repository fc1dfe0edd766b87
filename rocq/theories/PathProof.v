From Verif Require Import RBase PathModel PathSpec.

Lemma rdist_euclid : forall p q, rdist p q = euclid p q.
Proof. reflexivity. Qed.
Lemma euclid_nonneg : forall p q, 0 <= euclid p q.
Proof. intros; apply sqrt_pos. Qed.
Lemma path_cons : forall a b l, path_length (a :: b :: l) = euclid a b + path_length (b :: l).
Proof. reflexivity. Qed.
Lemma path_nonneg : forall ps, 0 <= path_length ps.
Proof.
  induction ps as [|a [|b ps] IH]; [cbn; lra|cbn; lra|]. rewrite path_cons. pose proof (euclid_nonneg a b). lra.
Qed.
Lemma path_app : forall l1 a l2, path_length (l1 ++ a :: l2) = path_length (l1 ++ [a]) + path_length (a :: l2).
Proof.
  induction l1 as [|x l1 IH]; intros a l2; [cbn [app]; cbn [path_length]; lra|].
  destruct l1 as [|y l1].
  - cbn [app]. rewrite !path_cons. cbn [path_length]. lra.
  - cbn [app] in *. rewrite !path_cons. rewrite IH. lra.
Qed.
Lemma length_from : forall ps p l, polyline_length_from l p ps = l + path_length (p :: ps).
Proof.
  induction ps as [|q ps IH]; intros p l; [cbn; lra|]. cbn [polyline_length_from]. rewrite IH, path_cons, rdist_euclid. lra.
Qed.
Lemma length_ok : forall ps, polyline_length ps = path_length ps.
Proof. intros [|p ps]; [reflexivity|]. unfold polyline_length. rewrite length_from. lra. Qed.
Lemma polygon_length_ok : forall p q ps, polygon_length (p :: q :: ps) = Some (path_length (p :: q :: ps ++ [p])).
Proof. intros. unfold polygon_length. rewrite length_from. f_equal. cbn [app]. lra. Qed.

(** ** Points on an edge *)
Lemma rsub_norm_sym : forall p q, rnorm (rsub p q) = rnorm (rsub q p).
Proof.
  intros p q. unfold rnorm. f_equal. revert q. induction p as [|x p IH]; intros [|y q]; cbn; try reflexivity. rewrite IH. ring.
Qed.
Lemma back_vec : forall p q k l, length p = length q -> radd q (rscale l (rscale k (rsub p q))) = on_the_way p q (1 - l * k).
Proof.
  unfold on_the_way. induction p as [|x p IH]; intros [|y q] k l L; try discriminate; [reflexivity|].
  cbn in L. cbn. f_equal; [ring|]. apply IH. lia.
Qed.
Lemma back_from_ok : forall p q l, length p = length q -> 0 < euclid p q ->
  back_from p q l = Some (on_the_way p q (1 - l / euclid p q)).
Proof.
  intros p q l L D. unfold back_from. cbv zeta. rewrite rsub_norm_sym. change (rnorm (rsub q p)) with (euclid p q).
  destruct (Reqb_spec (euclid p q) 0); [lra|]. unfold rnormalize. rewrite rsub_norm_sym. change (rnorm (rsub q p)) with (euclid p q).
  rewrite back_vec by exact L. do 2 f_equal. field. lra.
Qed.
Lemma way_0 : forall p q, length p = length q -> on_the_way p q 0 = p.
Proof. unfold on_the_way. induction p as [|x p IH]; intros [|y q] L; try discriminate; [reflexivity|]. cbn in *. f_equal; [ring|]. apply IH; lia. Qed.
Lemma way_1 : forall p q, length p = length q -> on_the_way p q 1 = q.
Proof. unfold on_the_way. induction p as [|x p IH]; intros [|y q] L; try discriminate; [reflexivity|]. cbn in *. f_equal; [ring|]. apply IH; lia. Qed.
Lemma way_length : forall p q t, length p = length q -> length (on_the_way p q t) = length p.
Proof. intros. unfold on_the_way. rewrite radd_length; [reflexivity|]. rewrite rscale_length, rsub_length; congruence. Qed.
Lemma way_sub : forall p q s t, length p = length q -> rsub (on_the_way p q t) (on_the_way p q s) = rscale (t - s) (rsub q p).
Proof.
  unfold on_the_way. induction p as [|x p IH]; intros [|y q] s t L; try discriminate; [reflexivity|]. cbn in *. f_equal; [ring|]. apply IH; lia.
Qed.
Lemma norm_scale : forall k v, rnorm (rscale k v) = Rabs k * rnorm v.
Proof.
  intros k v. unfold rnorm. rewrite rdot_rscale_l, rdot_rscale_r.
  replace (k * (k * rdot v v)) with ((k * k) * rdot v v) by ring.
  rewrite sqrt_mult; [|pose proof (Rle_0_sqr k) as Q; unfold Rsqr in Q; exact Q|apply rdot_self_nonneg].
  f_equal. change (k * k) with (Rsqr k). apply sqrt_Rsqr_abs.
Qed.
Lemma euclid_way : forall p q s t, length p = length q -> s <= t ->
  euclid (on_the_way p q s) (on_the_way p q t) = (t - s) * euclid p q.
Proof.
  intros p q s t L H. change (euclid (on_the_way p q s) (on_the_way p q t)) with (rnorm (rsub (on_the_way p q t) (on_the_way p q s))).
  rewrite way_sub by exact L. rewrite norm_scale, Rabs_right by lra. reflexivity.
Qed.
Lemma euclid_way_l : forall p q t, length p = length q -> 0 <= t -> euclid p (on_the_way p q t) = t * euclid p q.
Proof. intros p q t L H. rewrite <- (way_0 p q L) at 1. rewrite euclid_way by assumption. rewrite Rminus_0_r. reflexivity. Qed.
Lemma euclid_way_r : forall p q t, length p = length q -> t <= 1 -> euclid (on_the_way p q t) q = (1 - t) * euclid p q.
Proof. intros p q t L H. rewrite <- (way_1 p q L) at 2. rewrite euclid_way by assumption. reflexivity. Qed.

Lemma dim_tail : forall n p ps, same_dim n (p :: ps) -> same_dim n ps.
Proof. intros n p ps H. inversion H; assumption. Qed.
Lemma dim_two : forall n p q ps, same_dim n (p :: q :: ps) -> length p = length q.
Proof. intros n p q ps H. inversion H as [|? ? H1 H2]; inversion H2; congruence. Qed.
Lemma dim_app : forall n l1 l2, same_dim n (l1 ++ l2) <-> same_dim n l1 /\ same_dim n l2.
Proof. intros. unfold same_dim. apply Forall_app. Qed.
Lemma dim_edge : forall n pre p q post, same_dim n (pre ++ p :: q :: post) -> length p = length q.
Proof. intros n pre p q post H. apply dim_app in H. destruct H as [_ H]. apply (dim_two n p q post H). Qed.

(** ** Splitting *)
Lemma split_loop_ok : forall n pos ps p acc L0, same_dim n (p :: ps) -> L0 <= pos < L0 + path_length (p :: ps) ->
  exists pre p' q post t, p :: ps = pre ++ p' :: q :: post /\ 0 <= t < 1 /\ 0 < euclid p' q /\
    pos = L0 + path_length (pre ++ [p']) + t * euclid p' q /\
    (t = 0 -> split_loop pos L0 acc p ps = split_finish (p' :: rev pre ++ acc) (q :: post)) /\
    (0 < t -> split_loop pos L0 acc p ps = split_finish (on_the_way p' q t :: p' :: rev pre ++ acc) (q :: post)) /\
    forall i, (t = 0 -> position_loop pos L0 i p ps = Value (i + length pre, None)%nat) /\
      (0 < t -> position_loop pos L0 i p ps = Value ((i + length pre)%nat, Some (on_the_way p' q t))).
Proof.
  intros n pos. induction ps as [|q ps IH]; intros p acc L0 D H; [cbn in H; lra|].
  rewrite path_cons in H. cbn [split_loop position_loop]. cbv zeta. rewrite rdist_euclid.
  pose proof (dim_two n p q ps D) as L. pose proof (euclid_nonneg p q) as E0.
  destruct (Rltb_spec pos (L0 + euclid p q)) as [C|C].
  - assert (E1 : 0 < euclid p q) by lra. set (t := (pos - L0) / euclid p q).
    assert (T : pos = L0 + t * euclid p q) by (unfold t; field; lra).
    assert (T0 : 0 <= t) by (unfold t; apply Rmult_le_pos; [lra|]; left; apply Rinv_0_lt_compat; lra).
    assert (T1 : t < 1). { apply (Rmult_lt_reg_r (euclid p q)); lra. }
    exists [], p, q, ps, t. split; [reflexivity|]. split; [lra|]. split; [exact E1|]. split; [cbn [app path_length]; lra|].
    rewrite back_from_ok by assumption. replace (1 - (L0 + euclid p q - pos) / euclid p q) with t by (unfold t; field; lra).
    destruct (Rltb_spec (L0 + euclid p q - pos) (euclid p q)) as [Z|Z].
    + split; [intro Z0; rewrite Z0 in T; lra|]. split; [reflexivity|]. intro i. split; [intro Z0; rewrite Z0 in T; lra|].
      intros _. cbn [length]. rewrite Nat.add_0_r. reflexivity.
    + split; [reflexivity|]. split; [intro Z0; assert (0 < t * euclid p q) by (apply Rmult_lt_0_compat; lra); lra|].
      intro i. split; [intros _; cbn [length]; rewrite Nat.add_0_r; reflexivity|].
      intro Z0. assert (0 < t * euclid p q) by (apply Rmult_lt_0_compat; lra); lra.
  - destruct (IH q (p :: acc) (L0 + euclid p q) (dim_tail _ _ _ D)) as (pre & p' & q' & post & t & E & T & E1 & P & S1 & S2 & S3); [lra|].
    exists (p :: pre), p', q', post, t. split; [rewrite E; reflexivity|]. split; [exact T|]. split; [exact E1|]. split.
    + rewrite P. destruct pre as [|x pre].
      * cbn [app] in E. injection E as <- E. cbn [app path_length]. lra.
      * cbn [app] in E. injection E as <- E. cbn [app] in *. rewrite path_cons. lra.
    + cbn [rev]. rewrite <- app_assoc. cbn [app]. split; [exact S1|]. split; [exact S2|].
      intro i. destruct (S3 (S i)) as [A B]. cbn [length]. rewrite Nat.add_succ_r, <- Nat.add_succ_l. split; assumption.
Qed.

Lemma split_ok : forall n ps pos, same_dim n ps -> 0 <= pos < path_length ps ->
  exists pre p q post t, ps = pre ++ p :: q :: post /\ 0 <= t < 1 /\ 0 < euclid p q /\ pos = path_length (pre ++ [p]) + t * euclid p q /\
    (t = 0 -> polyline_split ps pos = Value (pre ++ [p], p :: q :: post) /\ polyline_point_at_position ps pos = Value (length pre, None)) /\
    (0 < t -> let m := on_the_way p q t in polyline_split ps pos = Value (pre ++ [p; m], m :: q :: post) /\
       polyline_point_at_position ps pos = Value (length pre, Some m)).
Proof.
  intros n [|p ps] pos D H; [cbn in H; lra|].
  destruct (split_loop_ok n pos ps p [] 0 D ltac:(lra)) as (pre & p' & q & post & t & E & T & E1 & P & S1 & S2 & S3).
  exists pre, p', q, post, t. split; [exact E|]. split; [exact T|]. split; [exact E1|]. split; [lra|]. unfold polyline_split, polyline_point_at_position.
  destruct (S3 0%nat) as [A B]. split.
  - intro Z. split; [|apply A, Z]. rewrite S1 by exact Z. unfold split_finish. rewrite app_nil_r. cbn [rev]. rewrite rev_involutive. reflexivity.
  - intro Z. split; [|apply B, Z]. rewrite S2 by exact Z. unfold split_finish. rewrite app_nil_r. cbn [rev]. rewrite rev_involutive, <- app_assoc. reflexivity.
Qed.

Lemma split_lengths : forall n ps pos a b d, same_dim n ps -> 0 <= pos < path_length ps -> polyline_split ps pos = Value (a, b) ->
  path_length a = pos /\ path_length b = path_length ps - pos /\ last a d = hd d b /\ hd d a = hd d ps /\ last b d = last ps d /\
  point_at ps pos (hd d b).
Proof.
  intros n ps pos a b d D H E. destruct (split_ok n ps pos D H) as (pre & p & q & post & t & -> & T & E1 & P & S1 & S2).
  pose proof (dim_edge _ _ _ _ _ D) as L.
  assert (LA : forall l x y z : list rvec, last (l ++ x ++ y) d = last (x ++ y) d \/ x ++ y = []).
  { intros l x y _. destruct (x ++ y) as [|w r] eqn:EQ; [right; reflexivity|left].
    induction l as [|v l IH]; [reflexivity|]. cbn [app last]. destruct (l ++ w :: r) eqn:Q; [destruct l; discriminate|]. exact IH. }
  assert (LB : forall l w (r : list rvec), last (l ++ w :: r) d = last (w :: r) d).
  { intros l w r. destruct (LA l [w] r []) as [X|X]; [exact X|discriminate]. }
  assert (HD : forall (l : list rvec) w r r', hd d (l ++ w :: r) = hd d (l ++ w :: r')) by (intros [|v l] w r r'; reflexivity).
  destruct (Req_dec t 0) as [Z|Z].
  - destruct (S1 Z) as [S _]. rewrite S in E. assert (EA : a = pre ++ [p]) by congruence. assert (EB : b = p :: q :: post) by congruence. subst a b.
    rewrite Z in P. split; [lra|]. split; [rewrite (path_app pre p (q :: post)); lra|]. split; [rewrite LB; reflexivity|].
    split; [apply HD|]. split; [rewrite LB; reflexivity|].
    exists pre, p, q, post, 0. split; [reflexivity|]. split; [lra|]. split; [lra|]. cbn [hd]. symmetry. apply way_0, L.
  - destruct (S2 ltac:(lra)) as [S _]. rewrite S in E.
    set (m := on_the_way p q t) in *. assert (EA : a = pre ++ [p; m]) by congruence. assert (EB : b = m :: q :: post) by congruence. subst a b.
    assert (M1 : euclid p m = t * euclid p q) by (apply euclid_way_l; [exact L|lra]).
    assert (M2 : euclid m q = (1 - t) * euclid p q) by (apply euclid_way_r; [exact L|lra]).
    split; [rewrite (path_app pre p [m]); cbn [path_length]; lra|].
    split; [rewrite (path_app pre p (q :: post)), !path_cons; lra|]. split; [rewrite LB; reflexivity|].
    split; [apply HD|]. split; [rewrite LB; reflexivity|].
    exists pre, p, q, post, t. split; [reflexivity|]. split; [lra|]. split; [lra|]. reflexivity.
Qed.

(** Positions outside. *)
Lemma split_before : forall p q ps pos, pos < 0 -> same_dim (length p) (p :: q :: ps) -> polyline_split (p :: q :: ps) pos = Value ([p], p :: q :: ps).
Proof.
  intros p q ps pos H D. unfold polyline_split. cbn [split_loop]. cbv zeta. rewrite rdist_euclid. pose proof (euclid_nonneg p q).
  destruct (Rltb_spec pos (0 + euclid p q)); [|lra]. destruct (Rltb_spec (0 + euclid p q - pos) (euclid p q)); [lra|]. reflexivity.
Qed.
Lemma split_loop_beyond : forall pos ps p q acc L0, L0 + path_length (p :: ps ++ [q]) <= pos ->
  split_loop pos L0 acc p (ps ++ [q]) = split_finish (rev (p :: ps) ++ acc) [].
Proof.
  intros pos. induction ps as [|x ps IH]; intros p q acc L0 H; cbn [app] in *; rewrite path_cons in H.
  - cbn [path_length] in H. cbn [split_loop]. cbv zeta. rewrite rdist_euclid. destruct (Rltb_spec pos (L0 + euclid p q)); [lra|]. reflexivity.
  - pose proof (path_nonneg (x :: ps ++ [q])). cbn [split_loop]. cbv zeta. rewrite rdist_euclid. destruct (Rltb_spec pos (L0 + euclid p x)); [lra|].
    rewrite IH by lra. cbn [rev]. rewrite <- !app_assoc. reflexivity.
Qed.
Lemma split_beyond : forall pre p q pos, path_length (pre ++ [p; q]) <= pos -> polyline_split (pre ++ [p; q]) pos = Value (pre ++ [p], [p]).
Proof.
  intros [|x pre] p q pos H; unfold polyline_split; cbn [app] in *.
  - change [q] with ([] ++ [q]). rewrite split_loop_beyond by (cbn [app]; lra). reflexivity.
  - replace (pre ++ [p; q]) with ((pre ++ [p]) ++ [q]) by (rewrite <- app_assoc; reflexivity).
    rewrite split_loop_beyond by (rewrite <- app_assoc; cbn [app]; lra).
    cbn [rev]. rewrite rev_app_distr. cbn [app rev]. rewrite app_nil_r. unfold split_finish. cbn [rev]. rewrite rev_app_distr, rev_involutive. reflexivity.
Qed.

(** ** Clipping *)
Lemma lower_ok : forall ps p l L0 i, L0 <= l <= L0 + path_length (p :: ps) -> ps <> [] ->
  exists pre p' q post, p :: ps = pre ++ p' :: q :: post /\
    (let lo := L0 + path_length (pre ++ [p']) in let hi := L0 + path_length (pre ++ [p'; q]) in
     lower_bound_at i (segment_lengths_upto l L0 p ps) l = Some ((i + length pre)%nat, hi) /\
     lower_bound_at i (segment_lengths_from L0 p ps) l = Some ((i + length pre)%nat, hi) /\ lo <= l <= hi /\ (L0 < l -> lo < l)).
Proof.
  induction ps as [|q ps IH]; intros p l L0 i H NE; [contradiction|].
  rewrite path_cons in H. cbn [segment_lengths_upto segment_lengths_from lower_bound_at]. cbv zeta. rewrite rdist_euclid.
  destruct (Rltb_spec (L0 + euclid p q) l) as [C|C].
  - assert (NE' : ps <> []) by (intro X; subst ps; cbn [path_length] in H; lra).
    destruct (Rltb_spec l (L0 + euclid p q)); [lra|].
    destruct (IH q l (L0 + euclid p q) (S i) ltac:(lra) NE') as (pre & p' & q' & post & E & A & A' & B & C').
    exists (p :: pre), p', q', post. split; [rewrite E; reflexivity|].
    assert (PL : forall w, path_length ((p :: pre) ++ p' :: w) = euclid p q + path_length (pre ++ p' :: w)).
    { intro w. destruct pre as [|x pre]; cbn [app] in E; injection E as <- E; cbn [app]; rewrite path_cons; reflexivity. }
    cbn [length]. rewrite Nat.add_succ_r, <- Nat.add_succ_l. rewrite !PL. rewrite A, A'.
    split; [do 2 f_equal; lra|]. split; [do 2 f_equal; lra|]. specialize (C' C). lra.
  - exists [], p, q, ps. split; [reflexivity|]. cbn [app path_length length]. rewrite Nat.add_0_r.
    split; [do 2 f_equal; lra|]. split; [do 2 f_equal; lra|]. lra.
Qed.

Lemma nth_pre : forall (pre : list rvec) p q post, nth_error (pre ++ p :: q :: post) (length pre) = Some p /\
  skipn (length pre + 1) (pre ++ p :: q :: post) = q :: post /\ nth_error (pre ++ p :: q :: post) (length pre + 1) = Some q.
Proof.
  induction pre as [|x pre IH]; intros p q post; [repeat split; reflexivity|]. destruct (IH p q post) as (A & B & C). repeat split; assumption.
Qed.
Lemma way_eq : forall p q t, length p = length q -> rvec_equals rdirect (on_the_way p q t) q = true -> (1 - t) * euclid p q = 0.
Proof.
  intros p q t L H. assert (E : on_the_way p q t = q).
  { clear -L H. unfold on_the_way in *. revert q L H. induction p as [|x p IH]; intros [|y q] L H; try discriminate; [reflexivity|].
    cbn in *. apply andb_true_iff in H. destruct H as [H1 H2]. destruct (Reqb_spec (x + t * (y - x)) y); [|discriminate]. f_equal; [assumption|]. apply IH; [lia|exact H2]. }
  destruct (Rle_or_lt t 1) as [T|T].
  - rewrite <- euclid_way_r by (assumption || lra). rewrite E. unfold euclid. assert (Z : rdot (rsub q q) (rsub q q) = 0).
    { clear. induction q as [|x q IH]; cbn; [reflexivity|]. rewrite IH. ring. }
    rewrite Z. apply sqrt_0.
  - (* t > 1 *)
    assert (K : euclid q (on_the_way p q t) = (t - 1) * euclid p q) by (rewrite <- (way_1 p q L) at 1; apply euclid_way; [exact L|lra]).
    rewrite E in K. assert (Z : euclid q q = 0).
    { unfold euclid. assert (Z : rdot (rsub q q) (rsub q q) = 0) by (clear; induction q as [|x q IH]; cbn; [reflexivity|]; rewrite IH; ring). rewrite Z. apply sqrt_0. }
    lra.
Qed.

Lemma clip_front_ok : forall n ps l, same_dim n ps -> 0 <= l < path_length ps ->
  exists pre p q post t, ps = pre ++ p :: q :: post /\ 0 <= t <= 1 /\ l = path_length (pre ++ [p]) + t * euclid p q /\
    clip_polyline_front rdirect ps l = Value (if Rltb t 1 then on_the_way p q t :: q :: post else q :: post) /\ (t < 1 -> 0 < euclid p q).
Proof.
  intros n [|p0 ps] l D H; [cbn in H; lra|].
  assert (NE : ps <> []) by (intro X; subst; cbn in H; lra).
  destruct (lower_ok ps p0 l 0 0 ltac:(lra) NE) as (pre & p & q & post & E & A & _ & B & _). cbv zeta in *.
  rewrite E in D. pose proof (dim_edge _ _ _ _ _ D) as L. rewrite E.
  assert (HI : path_length (pre ++ [p; q]) = path_length (pre ++ [p]) + euclid p q).
  { rewrite (path_app pre p [q]). cbn [path_length]. lra. }
  unfold clip_polyline_front, polyline_segment_lengths_cutoff.
  assert (A' : lower_bound_at 0 match pre ++ p :: q :: post with [] => [] | p1 :: ps0 => segment_lengths_upto l 0 p1 ps0 end l = Some ((0 + length pre)%nat, 0 + path_length (pre ++ [p; q]))).
  { rewrite <- E. exact A. }
  rewrite A'. cbn [Nat.add]. cbv zeta. destruct (nth_pre pre p q post) as (N1 & N2 & _). rewrite N1, N2. cbn [rgt rdirect].
  rewrite Rplus_0_l in *. rewrite HI in *. pose proof (euclid_nonneg p q) as E0.
  destruct (Rltb_spec 0 (path_length (pre ++ [p]) + euclid p q - l)) as [C|C].
  - assert (E1 : 0 < euclid p q) by lra. set (t := (l - path_length (pre ++ [p])) / euclid p q).
    assert (T : l = path_length (pre ++ [p]) + t * euclid p q) by (unfold t; field; lra).
    assert (T1 : t < 1) by (apply (Rmult_lt_reg_r (euclid p q)); lra).
    assert (T0 : 0 <= t) by (unfold t; apply Rmult_le_pos; [lra|]; left; apply Rinv_0_lt_compat; lra).
    exists pre, p, q, post, t. split; [reflexivity|]. split; [lra|]. split; [exact T|]. split; [|intros _; exact E1].
    rewrite back_from_ok by assumption. replace (1 - (path_length (pre ++ [p]) + euclid p q - l) / euclid p q) with t by (unfold t; field; lra).
    destruct (Rltb_spec t 1); [|lra].
    destruct (rvec_equals rdirect (on_the_way p q t) q) eqn:Q; [|reflexivity].
    exfalso. apply way_eq in Q; [|exact L]. assert (0 < (1 - t) * euclid p q) by (apply Rmult_lt_0_compat; lra). lra.
  - exists pre, p, q, post, 1. split; [reflexivity|]. split; [lra|]. split; [lra|]. split; [|lra].
    destruct (Rltb_spec 1 1); [lra|]. destruct post as [|x post]; [|reflexivity].
    exfalso. rewrite E in H. rewrite HI in H. lra.
Qed.

Lemma lower_none : forall ps p l L0 i, L0 + path_length (p :: ps) < l -> lower_bound_at i (segment_lengths_upto l L0 p ps) l = None.
Proof.
  induction ps as [|q ps IH]; intros p l L0 i H; [reflexivity|]. rewrite path_cons in H. pose proof (path_nonneg (q :: ps)).
  cbn [segment_lengths_upto lower_bound_at]. cbv zeta. rewrite rdist_euclid.
  destruct (Rltb_spec (L0 + euclid p q) l); [|lra]. destruct (Rltb_spec l (L0 + euclid p q)); [lra|]. apply IH. lra.
Qed.
Lemma clip_front_beyond : forall ps l, path_length ps <= l -> 0 <= l -> exists r, clip_polyline_front rdirect ps l = Value r /\ path_length r = 0.
Proof.
  intros [|p ps] l H L0; [exists []; split; reflexivity|].
  destruct ps as [|q0 ps0]; [exists []; split; reflexivity|]. set (ps := q0 :: ps0) in *.
  destruct (Rle_lt_or_eq_dec _ _ H) as [C|C].
  - unfold clip_polyline_front, polyline_segment_lengths_cutoff. rewrite lower_none by lra. exists []. split; reflexivity.
  - destruct (lower_ok ps p l 0 0 ltac:(lra) ltac:(discriminate)) as (pre & p' & q & post & E & A & _ & B & _). cbv zeta in *.
    unfold clip_polyline_front, polyline_segment_lengths_cutoff. rewrite A. cbn [Nat.add]. cbv zeta. rewrite E.
    destruct (nth_pre pre p' q post) as (N1 & N2 & _). rewrite N1, N2. cbn [rgt rdirect].
    assert (HI : path_length (p :: ps) = path_length (pre ++ [p'; q]) + path_length (q :: post)).
    { rewrite E. change (p' :: q :: post) with ([p'] ++ q :: post). rewrite app_assoc, (path_app (pre ++ [p']) q post), <- app_assoc. reflexivity. }
    pose proof (path_nonneg (q :: post)) as P. rewrite Rplus_0_l in *.
    destruct (Rltb_spec 0 (path_length (pre ++ [p'; q]) - l)); [lra|].
    destruct post as [|x post]; [exists []; split; reflexivity|]. exists (q :: x :: post). split; [reflexivity|]. lra.
Qed.
