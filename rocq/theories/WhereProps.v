(** C127: the place of a point on a polyline. *)
From Verif Require Import RBase PathModel PathSpec PathProof WhereModel WhereSpec.

Lemma dim2 : forall p : rvec, length p = 2%nat -> exists x y, p = [x; y].
Proof. intros [|x [|y [|z p]]] H; try discriminate. exists x, y. reflexivity. Qed.
Lemma between_ok : forall A B p, length A = 2%nat -> length B = 2%nat -> length p = 2%nat -> A <> B -> (pt_between rdirect A B p true = true <-> on_seg A B p).
Proof.
  intros A B p LA LB LP NE. destruct (dim2 A LA) as (ax & ay & ->). destruct (dim2 B LB) as (bx & by' & ->). destruct (dim2 p LP) as (x & y & ->).
  unfold pt_between, pt_collinear, collinear_between, c0, c1, rdirect, on_seg, on_the_way. cbn [nth req rle rge]. unfold rsub, rscale, radd, map.
  destruct (Reqb_spec ((bx - ax) * (y - ay) - (by' - ay) * (x - ax)) 0) as [C|C]; cbn [andb].
  - destruct (Reqb_spec ax bx) as [V|V]; cbn [negb].
    + subst bx. assert (NY : ay <> by') by (intro E; apply NE; subst; reflexivity). assert (X : x = ax).
      { assert (F : (by' - ay) * (x - ax) = 0) by lra. apply Rmult_integral in F as [F|F]; lra. }
      subst x. rewrite orb_true_iff, !andb_true_iff. unfold Rleb. destruct (Rle_dec ay y), (Rle_dec y by'), (Rle_dec y ay), (Rle_dec by' y); split; intro H;
        try (exists ((y - ay) / (by' - ay)); split; [|f_equal; [ring|f_equal; field; lra]]); try (destruct H as [[? ?]|[? ?]]; discriminate); try tauto;
        try (destruct H as (t & T & H); injection H as E1 E2; exfalso; nra).
      all: try (split; [apply Rmult_le_reg_r with (by' - ay)|apply Rmult_le_reg_r with (by' - ay)]; try lra; unfold Rdiv; rewrite ?Rmult_assoc, ?Rinv_l; lra).
      all: try (replace ((y - ay) / (by' - ay)) with ((ay - y) / (ay - by')) by (field; lra); split; [apply Rmult_le_reg_r with (ay - by')|apply Rmult_le_reg_r with (ay - by')]; try lra; unfold Rdiv; rewrite ?Rmult_assoc, ?Rinv_l; lra).
    + assert (Y : forall t, x = ax + t * (bx - ax) -> y = ay + t * (by' - ay)).
      { intros t E. assert (F : (bx - ax) * (y - (ay + t * (by' - ay))) = 0) by (rewrite E in C; nra). apply Rmult_integral in F as [F|F]; lra. }
      rewrite orb_true_iff, !andb_true_iff. unfold Rleb. destruct (Rle_dec ax x), (Rle_dec x bx), (Rle_dec x ax), (Rle_dec bx x); split; intro H;
        try (exists ((x - ax) / (bx - ax)); split; [|assert (EX : x = ax + (x - ax) / (bx - ax) * (bx - ax)) by (field; lra); f_equal; [exact EX|f_equal; apply Y, EX]]); try (destruct H as [[? ?]|[? ?]]; discriminate); try tauto;
        try (destruct H as (t & T & H); injection H as E1 E2; exfalso; nra).
      all: try (split; [apply Rmult_le_reg_r with (bx - ax)|apply Rmult_le_reg_r with (bx - ax)]; try lra; unfold Rdiv; rewrite ?Rmult_assoc, ?Rinv_l; lra).
      all: try (replace ((x - ax) / (bx - ax)) with ((ax - x) / (ax - bx)) by (field; lra); split; [apply Rmult_le_reg_r with (ax - bx)|apply Rmult_le_reg_r with (ax - bx)]; try lra; unfold Rdiv; rewrite ?Rmult_assoc, ?Rinv_l; lra).
  - split; [discriminate|]. intros (t & T & H). injection H as E1 E2. exfalso. apply C. rewrite E1, E2. ring.
Qed.

Lemma after_loop : forall cmp p rest A i len post k, where_loop cmp p A rest i len post (Some k) = (len, post + path_length (A :: rest), Some k).
Proof.
  intros cmp p rest. induction rest as [|B rest IH]; intros A i len post k; cbn [where_loop].
  - cbn. rewrite Rplus_0_r. reflexivity.
  - rewrite IH, path_cons, rdist_euclid. f_equal. f_equal. ring.
Qed.
Lemma loop_ok : forall p rest A i len post, length p = 2%nat -> same_dim 2 (A :: rest) -> no_repeats (A :: rest) ->
  (exists pre a b tail, A :: rest = pre ++ a :: b :: tail /\ on_seg a b p /\ (forall pre' a' b' tail', A :: rest = pre' ++ a' :: b' :: tail' -> (length pre' < length pre)%nat -> ~ on_seg a' b' p) /\
     where_loop rdirect p A rest i len post None = (len + path_length (pre ++ [a]) + euclid a p, post + euclid p b + path_length (b :: tail), Some (i + length pre)%nat)) \/
  ((forall pre' a' b' tail', A :: rest = pre' ++ a' :: b' :: tail' -> ~ on_seg a' b' p) /\ where_loop rdirect p A rest i len post None = (len + path_length (A :: rest), post, None)).
Proof.
  intros p rest. induction rest as [|B rest IH]; intros A i len post LP D NR.
  - right. split; [|cbn; rewrite Rplus_0_r; reflexivity]. intros pre' a' b' tail' E. apply (f_equal (@length _)) in E. rewrite app_length in E. cbn in E. lia.
  - cbn [where_loop]. pose proof (NR [] A B rest eq_refl) as NE. assert (LA : length A = 2%nat) by (inversion D; assumption). assert (LB : length B = 2%nat) by (inversion D as [|? ? ? D']; inversion D'; assumption).
    destruct (pt_between rdirect A B p true) eqn:EB; cbn [negb].
    + left. exists [], A, B, rest. split; [reflexivity|]. split; [apply between_ok; assumption|]. split; [intros ? ? ? ? _ H; cbn in H; lia|]. rewrite after_loop, !rdist_euclid. cbn [app length path_length]. rewrite Nat.add_0_r. f_equal. f_equal; ring.
    + assert (NO : ~ on_seg A B p) by (intro H; apply between_ok in H; congruence).
      assert (NR' : no_repeats (B :: rest)). { intros pre a b tail E. apply (NR (A :: pre) a b tail). cbn. rewrite E. reflexivity. }
      destruct (IH B (S i) (len + rdist A B) post LP (dim_tail _ _ _ D) NR') as [(pre & a & b & tail & E & ON & FIRST & R)|(NONE & R)].
      * left. exists (A :: pre), a, b, tail. split; [cbn; rewrite E; reflexivity|]. split; [exact ON|]. split.
        { intros pre' a' b' tail' E' L. destruct pre' as [|h pre']; cbn in E'; [injection E' as <- <- _; exact NO|]. injection E' as _ E'. apply (FIRST pre' a' b' tail' E'). cbn in L. lia. }
        rewrite R, rdist_euclid. assert (PL : path_length ((A :: pre) ++ [a]) = euclid A B + path_length (pre ++ [a])).
        { destruct pre as [|h pre]; cbn [app] in E |- *; injection E as <- E; apply path_cons. }
        rewrite PL. cbn [length]. replace (S i + length pre)%nat with (i + S (length pre))%nat by lia. f_equal. f_equal. ring.
      * right. split.
        { intros pre' a' b' tail' E'. destruct pre' as [|h pre']; cbn in E'; [injection E' as <- <- _; exact NO|]. injection E' as _ E'. apply (NONE pre' a' b' tail' E'). }
        rewrite R, path_cons, rdist_euclid. f_equal. f_equal. ring.
Qed.

(** A point of the polyline: the first length is the least arc length at which the polyline is at
    the point, the second the length that remains, the index the first side with the point on it. *)
Theorem C127_on : forall poly p s, same_dim 2 poly -> length p = 2%nat -> no_repeats poly -> point_at poly s p ->
  exists before after i, point_on_polyline_length_characteristics rdirect poly p = (before, after, Some i) /\
  point_at poly before p /\ (forall s', point_at poly s' p -> before <= s') /\ before + after = path_length poly /\
  (exists pre a b post, poly = pre ++ a :: b :: post /\ length pre = i /\ on_seg a b p) /\
  (forall pre a b post, poly = pre ++ a :: b :: post -> (length pre < i)%nat -> ~ on_seg a b p).
Proof.
  intros poly p s D LP NR (pre0 & p0 & q0 & post0 & t0 & E0 & T0 & _ & EM). destruct poly as [|A rest]; [destruct pre0; discriminate|]. unfold point_on_polyline_length_characteristics.
  destruct (loop_ok p rest A 0 0 0 LP D NR) as [(pre & a & b & tail & E & ON & FIRST & R)|(NONE & _)].
  2:{ exfalso. apply (NONE pre0 p0 q0 post0 E0). exists t0. auto. }
  rewrite R. pose proof D as DD. rewrite E in DD. pose proof (dim_edge _ _ _ _ _ DD) as LAB. destruct ON as (t & T & EP).
  eexists. eexists. eexists. split; [reflexivity|]. assert (EA : euclid a p = t * euclid a b) by (rewrite EP; apply euclid_way_l; [exact LAB|lra]). assert (EB : euclid p b = (1 - t) * euclid a b) by (rewrite EP; apply euclid_way_r; [exact LAB|lra]).
  split; [|split; [|split; [|split]]].
  - exists pre, a, b, tail, t. split; [exact E|]. split; [exact T|]. split; [rewrite EA; ring|exact EP].
  - intros s' (pre' & a' & b' & tail' & t' & E' & T' & ES & EP'). rewrite ES, EA, Rplus_0_l.
    destruct (Nat.lt_trichotomy (length pre') (length pre)) as [L|[L|L]].
    + exfalso. apply (FIRST pre' a' b' tail' E' L). exists t'. auto.
    + assert (EQ : pre' = pre /\ a' :: b' :: tail' = a :: b :: tail). { rewrite E in E'. clear - E' L. revert pre E' L. induction pre' as [|h pre' IH]; intros [|g pre] E L; cbn in *; try lia; [auto|]. injection E as <- E. destruct (IH pre E ltac:(lia)) as [-> ->]. auto. }
      destruct EQ as [-> EQ]. injection EQ as <- <- <-.
      assert (EE : euclid a' p = t' * euclid a' b') by (rewrite EP'; apply euclid_way_l; [exact LAB|lra]). rewrite EA in EE. lra.
    + assert (PRE : exists m, pre' = pre ++ a :: m). { rewrite E in E'. clear - E' L. revert pre E' L. induction pre' as [|h pre' IH]; intros [|g pre] E L; cbn in *; try lia; [injection E as <- _; exists pre'; reflexivity|]. injection E as <- E. destruct (IH pre E ltac:(lia)) as [m ->]. exists m. reflexivity. }
      destruct PRE as (m & ->). rewrite <- app_assoc. cbn [app]. rewrite (path_app pre a (m ++ [a'])). rewrite E in E'. rewrite <- app_assoc in E'. apply app_inv_head in E'. cbn [app] in E'. injection E' as E'.
      assert (PC : euclid a b <= path_length (a :: m ++ [a'])).
      { destruct m as [|h m]; cbn [app] in E' |- *; injection E' as <- E'; rewrite path_cons; [cbn; lra|]. pose proof (path_nonneg (b :: m ++ [a'])). lra. }
      assert (T1 : t * euclid a b <= euclid a b) by (pose proof (euclid_nonneg a b); nra). assert (T2 : 0 <= t' * euclid a' b') by (apply Rmult_le_pos; [lra|apply euclid_nonneg]). lra.
  - rewrite E. rewrite (path_app pre a (b :: tail)). rewrite (path_cons a b tail), EA, EB. ring.
  - exists pre, a, b, tail. split; [exact E|]. split; [reflexivity|]. exists t. auto.
  - intros pre' a' b' post' E' L. apply (FIRST pre' a' b' post' E'). exact L.
Qed.
Print Assumptions C127_on.
(** A point elsewhere: no index, the whole length and nothing after. *)
Theorem C127_off : forall poly p, same_dim 2 poly -> length p = 2%nat -> no_repeats poly -> (forall s, ~ point_at poly s p) ->
  point_on_polyline_length_characteristics rdirect poly p = (path_length poly, 0, None).
Proof.
  intros poly p D LP NR NO. destruct poly as [|A rest]; [reflexivity|]. unfold point_on_polyline_length_characteristics.
  destruct (loop_ok p rest A 0 0 0 LP D NR) as [(pre & a & b & tail & E & (t & T & EP) & _)|(_ & R)].
  - exfalso. apply (NO (path_length (pre ++ [a]) + t * euclid a b)). exists pre, a, b, tail, t. auto.
  - rewrite R, Rplus_0_l. reflexivity.
Qed.
Print Assumptions C127_off.
(** A side of length zero holds every point at its height: the point (5,0) is reported on a
    polyline it is not on, and the lengths do not add up. *)
Theorem C127_zero_side_refuted : exists poly p before after, same_dim 2 poly /\ length p = 2%nat /\ (forall s, ~ point_at poly s p) /\
  point_on_polyline_length_characteristics rdirect poly p = (before, after, Some 0%nat) /\ before + after <> path_length poly.
Proof.
  exists [[0; 0]; [0; 0]; [0; 1]], [5; 0]. eexists. eexists. split; [repeat constructor|]. split; [reflexivity|].
  assert (E5 : forall x, x = 5 \/ x = -5 -> sqrt (x * x + (0 * 0 + 0)) = 5).
  { intros x X. replace (x * x + (0 * 0 + 0)) with (5 * 5) by (destruct X; subst; ring). apply sqrt_square. lra. }
  assert (P1 : path_length [[0; 0]; [0; 0]; [0; 1]] = 1).
  { cbn [path_length]. unfold euclid. cbn [rsub rdot]. replace ((0 - 0) * (0 - 0) + ((0 - 0) * (0 - 0) + 0)) with 0 by ring. replace ((0 - 0) * (0 - 0) + ((1 - 0) * (1 - 0) + 0)) with 1 by ring. rewrite sqrt_0, sqrt_1. ring. }
  split; [|split].
  - intros s (pre & a & b & post & t & E & T & _ & EP). assert (H : exists y z, a = [0; y] /\ b = [0; z]).
    { destruct pre as [|h pre]; [injection E as <- <- _; exists 0, 0; auto|]. injection E as <- E. destruct pre as [|g pre]; [injection E as <- <- _; exists 0, 1; auto|]. injection E as <- E. destruct pre as [|k pre]; [discriminate|]. destruct pre; discriminate. }
    destruct H as (y & z & -> & ->). unfold on_the_way in EP. cbn in EP. injection EP as E1 _. lra.
  - unfold point_on_polyline_length_characteristics. cbn [where_loop]. unfold pt_between, pt_collinear, collinear_between, c0, c1, rdirect. cbn [nth req rle rge].
    destruct (Reqb_spec ((0 - 0) * (0 - 0) - (0 - 0) * (5 - 0)) 0) as [_|N]; [|exfalso; apply N; ring]. destruct (Reqb_spec 0 0) as [_|N]; [|contradiction]. unfold Rleb. destruct (Rle_dec 0 0) as [_|N]; [|exfalso; apply N; lra]. cbn. reflexivity.
  - rewrite P1. unfold rdist, rnorm. cbn [rsub rdot]. replace ((5 - 0) * (5 - 0) + ((0 - 0) * (0 - 0) + 0)) with (5 * 5) by ring. replace ((0 - 5) * (0 - 5) + ((0 - 0) * (0 - 0) + 0)) with (5 * 5) by ring. replace ((0 - 0) * (0 - 0) + ((1 - 0) * (1 - 0) + 0)) with 1 by ring.
    rewrite sqrt_square, sqrt_1 by lra. lra.
Qed.
Print Assumptions C127_zero_side_refuted.
Fixpoint steps (ps : list rvec) : Prop := match ps with a :: ((b :: _) as t) => a <> b /\ steps t | _ => True end.
Lemma no_repeats_check : forall ps, steps ps -> no_repeats ps.
Proof.
  intros ps H pre. revert ps H. induction pre as [|h pre IH]; intros ps H a b post E; subst ps.
  - apply H.
  - cbn [app] in H. apply (IH (pre ++ a :: b :: post)) with (post := post); [|reflexivity]. destruct pre; apply H.
Qed.
(** The point of the middle side of a bent polyline, not its first one. *)
Example C127_witness : let poly := [[0; 0]; [4; 0]; [4; 4]; [2; 4]; [2; -1]] in same_dim 2 poly /\ no_repeats poly /\ exists s, point_at poly s [4; 1].
Proof.
  cbn zeta. split; [repeat constructor|]. split.
  - apply no_repeats_check. cbn. repeat split; intro F; injection F; intros; lra.
  - eexists. exists [[0; 0]], [4; 0], [4; 4], [[2; 4]; [2; -1]], (1 / 4). split; [reflexivity|]. split; [lra|]. split; [reflexivity|]. unfold on_the_way. cbn. f_equal; [lra|f_equal; lra].
Qed.
