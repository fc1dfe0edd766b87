From Verif Require Import RBase AngleModel MeshModel MeshSpec MeshProof MeshProof2.

(** ** Weights *)
Lemma sum_first_S : forall l n w, nth_error l n = Some w -> sum_first (S n) l = sum_first n l + w.
Proof.
  induction l as [|x l IH]; intros n w E; [destruct n; discriminate|]. destruct n as [|n]; unfold sum_first in *; cbn [firstn fold_right nth_error] in *.
  - inversion E. subst. cbn. lra.
  - rewrite (IH n w E). lra.
Qed.
Lemma total_exact : forall ws, total_weight exact ws = fold_right Rplus 0 ws.
Proof.
  intro ws. unfold total_weight. cbn [a_add a_zero exact]. assert (H : forall l a, fold_left Rplus l a = a + fold_right Rplus 0 l) by (induction l as [|x l IH]; intro a; cbn [fold_left fold_right]; [lra|rewrite IH; lra]).
  rewrite H. lra.
Qed.
Lemma integral_nth : forall ws T last n, (n < length ws)%nat -> nth_error (integral_from exact T last ws) n = Some (last + sum_first (S n) ws / T).
Proof.
  induction ws as [|w ws IH]; intros T last n N; [cbn in N; lia|]. cbn [integral_from a_add a_div exact]. cbv zeta. destruct n as [|n].
  - cbn [nth_error]. unfold sum_first. cbn. f_equal. unfold Rdiv. ring.
  - cbn [nth_error]. rewrite IH by (cbn in N; lia). f_equal. unfold sum_first. cbn [firstn fold_right]. unfold Rdiv. ring.
Qed.
Lemma integral_length : forall ws T last, length (integral_from exact T last ws) = length ws.
Proof. induction ws as [|w ws IH]; intros; cbn [integral_from length]; cbv zeta; [reflexivity|rewrite IH; reflexivity]. Qed.
Lemma lower_bound_ok : forall l v, (forall i x, (i < lower_bound exact l v)%nat -> nth_error l i = Some x -> x < v) /\
  (forall x, nth_error l (lower_bound exact l v) = Some x -> v <= x).
Proof.
  induction l as [|x l IH]; intro v; cbn [lower_bound a_lt exact]; [split; [lia|discriminate]|]. destruct (Rltb_spec x v) as [C|C].
  - destruct (IH v) as [A B]. split.
    + intros [|i] y I E; cbn [nth_error] in E; [inversion E; subst; exact C|]. apply (A i y); [lia|exact E].
    + exact B.
  - split; [lia|]. cbn [nth_error]. intros y E. inversion E. subst. lra.
Qed.
Lemma sum_all : forall l, sum_first (length l) l = fold_right Rplus 0 l.
Proof. intro l. unfold sum_first. rewrite firstn_all. reflexivity. Qed.
Lemma lower_bound_le : forall l v, (lower_bound exact l v <= length l)%nat.
Proof. induction l as [|x l IH]; intro v; cbn [lower_bound a_lt exact length]; [lia|]. destruct (Rltb x v); [specialize (IH v); lia|lia]. Qed.
Lemma selection : forall ws rT, 0 < fold_right Rplus 0 ws -> 0 <= rT <= 1 ->
  let n := lower_bound exact (integral exact ws) rT in
  (n < length ws)%nat /\ (0 < rT -> sum_first n ws < rT * fold_right Rplus 0 ws) /\ rT * fold_right Rplus 0 ws <= sum_first (S n) ws.
Proof.
  intros ws rT T R. cbv zeta. unfold integral. rewrite total_exact. cbn [a_zero exact]. set (tot := fold_right Rplus 0 ws) in *.
  set (n := lower_bound exact (integral_from exact tot 0 ws) rT).
  destruct (lower_bound_ok (integral_from exact tot 0 ws) rT) as [LA LB].
  fold n in LA, LB.
  assert (LEN : length ws <> 0%nat) by (intro E; destruct ws; [unfold tot in T; cbn in T; lra|discriminate]).
  assert (NB : (n < length ws)%nat).
  { pose proof (lower_bound_le (integral_from exact tot 0 ws) rT) as LE. fold n in LE. rewrite integral_length in LE.
    destruct (Nat.eq_dec n (length ws)) as [E|E]; [|lia]. exfalso.
    pose proof (integral_nth ws tot 0 (length ws - 1) ltac:(lia)) as I. replace (S (length ws - 1)) with (length ws) in I by lia.
    rewrite sum_all in I. fold tot in I. specialize (LA (length ws - 1)%nat _ ltac:(lia) I).
    replace (0 + tot / tot) with 1 in LA by (field; lra). lra. }
  split; [exact NB|].
  assert (SC : forall x, rT <= 0 + x / tot <-> rT * tot <= x).
  { intro x. assert (E : x = x / tot * tot) by (field; lra). split; intro H.
    - rewrite E. apply Rmult_le_compat_r; lra.
    - apply (Rmult_le_reg_r tot); [exact T|]. replace ((0 + x / tot) * tot) with x by (field; lra). exact H. }
  split.
  - intro RP. destruct n as [|n'] eqn:EN.
    + unfold sum_first. cbn. apply Rmult_lt_0_compat; assumption.
    + pose proof (integral_nth ws tot 0 n' ltac:(lia)) as I. specialize (LA n' _ ltac:(lia) I). destruct (Rlt_dec (sum_first (S n') ws) (rT * tot)) as [G|G]; [exact G|].
      exfalso. apply Rnot_lt_le in G. apply SC in G. lra.
  - apply SC. apply LB. apply integral_nth. exact NB.
Qed.
Lemma get_area_nonneg : forall t, 0 <= get_area t.
Proof. intros [[a b] c]. unfold get_area. apply Rabs_pos. Qed.
Lemma get_area_area2 : forall a b c, get_area (a, b, c) = Rabs (area2 a b c) / 2.
Proof.
  intros a b c. unfold get_area, area2, p_cross. rewrite Rabs_mult, (Rabs_right (1 / 2)) by lra.
  replace (fst a * snd b - snd a * fst b + (fst b * snd c - snd b * fst c) + (fst c * snd a - snd c * fst a)) with ((fst b - fst a) * (snd c - snd a) - (snd b - snd a) * (fst c - fst a)) by ring. lra.
Qed.

(** ** The random position *)
Lemma position_in : forall a b c r1 r2, 0 <= r1 <= 1 -> 0 <= r2 <= 1 ->
  in_triangle (p_add (p_add (p_scale (1 - sqrt r1) a) (p_scale (sqrt r1 * (1 - r2)) b)) (p_scale (sqrt r1 * r2) c)) a b c.
Proof.
  intros a b c r1 r2 R1 R2. assert (S0 : 0 <= sqrt r1) by apply sqrt_pos.
  assert (S1 : sqrt r1 <= 1) by (rewrite <- sqrt_1; apply sqrt_le_1_alt; lra).
  exists (1 - sqrt r1), (sqrt r1 * (1 - r2)), (sqrt r1 * r2). unfold p_add, p_scale. cbn [fst snd].
  assert (0 <= sqrt r1 * (1 - r2)) by (apply Rmult_le_pos; lra). assert (0 <= sqrt r1 * r2) by (apply Rmult_le_pos; lra).
  repeat split; try lra.
Qed.
Lemma position_onto : forall a b c p, in_triangle p a b c -> exists r1 r2, 0 <= r1 <= 1 /\ 0 <= r2 <= 1 /\
  p_add (p_add (p_scale (1 - sqrt r1) a) (p_scale (sqrt r1 * (1 - r2)) b)) (p_scale (sqrt r1 * r2) c) = p.
Proof.
  intros a b c [x y] (u & v & w & U & V & W & S & X & Y). cbn [fst snd] in X, Y.
  exists ((v + w) * (v + w)), (if Req_EM_T (v + w) 0 then 0 else w / (v + w)).
  assert (SQ : sqrt ((v + w) * (v + w)) = v + w) by (apply sqrt_square; lra). rewrite SQ.
  split; [split; [apply Rmult_le_pos; lra|]|].
  - replace 1 with (1 * 1) by ring. apply Rmult_le_compat; lra.
  - unfold p_add, p_scale. cbn [fst snd]. destruct (Req_EM_T (v + w) 0) as [Z|Z].
    + assert (v = 0) by lra. assert (w = 0) by lra. subst v w. split; [lra|]. rewrite X, Y. f_equal; replace u with 1 by lra; ring.
    + assert (P : 0 < v + w) by lra. split.
      * split; [apply Rmult_le_pos; [lra|left; apply Rinv_0_lt_compat; exact P]|]. apply (Rmult_le_reg_r (v + w)); [exact P|]. unfold Rdiv. rewrite Rmult_assoc, Rinv_l by exact Z. lra.
      * assert (E1 : (v + w) * (w / (v + w)) = w) by (field; exact Z). assert (E2 : (v + w) * (1 - w / (v + w)) = v) by (field; exact Z). rewrite E1, E2, X, Y.
        replace (1 - (v + w)) with u by lra. reflexivity.
Qed.

(** ** Construction *)
Lemma p_equals_direct : forall a b, p_equals rdirect a b = true <-> a = b.
Proof.
  intros [x y] [x' y']. unfold p_equals. cbn [req rdirect fst snd]. destruct (Reqb_spec y y'), (Reqb_spec x x'); cbn; split; intro H; try discriminate; try congruence.
Qed.
Lemma right_direct : forall a b c, is_oriented_right rdirect a b c = true <-> area2 a b c < 0.
Proof. intros a b c. unfold is_oriented_right, area2, p_sub. cbn [rlt rdirect fst snd]. destruct (Rltb_spec ((fst b - fst a) * (snd c - snd a)) ((snd b - snd a) * (fst c - fst a))); split; intro H; try discriminate; try lra; reflexivity. Qed.
(** Induction over a list in threes. *)
Lemma three_ind : forall (P : list nat -> Prop), P [] -> (forall a, P [a]) -> (forall a b, P [a; b]) -> (forall a b c l, P l -> P (a :: b :: c :: l)) -> forall l, P l.
Proof.
  intros P H0 H1 H2 H3. assert (G : forall n l, (length l <= n)%nat -> P l).
  { induction n as [|n IH]; intros l L; [destruct l; [exact H0|cbn in L; lia]|]. destruct l as [|a [|b [|c l]]]; auto. apply H3, IH. cbn in L. lia. }
  intro l. exact (G (length l) l (le_n _)).
Qed.
Lemma mesh_triangles_ok : forall points indices l, mesh_triangles rdirect points indices = Some l ->
  (forall t T, In (t, T) l -> corners points t T /\ (let '(a, b, c) := T in a <> b /\ b <> c /\ c <> a /\ 0 <= area2 a b c) /\
     (let '(i, j, k) := t in In (i, j, k) (triples indices) \/ In (i, k, j) (triples indices))) /\
  (forall i j k a b c, In (i, j, k) (triples indices) -> corners points (i, j, k) (a, b, c) -> a <> b -> b <> c -> c <> a ->
     if Rlt_dec (area2 a b c) 0 then In ((i, k, j), (a, c, b)) l else In ((i, j, k), (a, b, c)) l).
Proof.
  intros points indices. induction indices as [| | |i0 i1 i2 rest IH] using three_ind; intros l E; cbn [mesh_triangles] in E.
  1,2,3: inversion E; subst l; split; [intros t T []|intros i j k a' b' c' []].
  destruct (nth_error points i0) as [a0|] eqn:E0; [|discriminate]. destruct (nth_error points i1) as [a1|] eqn:E1; [|discriminate]. destruct (nth_error points i2) as [a2|] eqn:E2; [|discriminate].
  cbn [triples].
  assert (SPLIT : forall (b : bool) (j1 j2 : nat) (b1 b2 : plane),
    (if b then (i2, i1, a2, a1) else (i1, i2, a1, a2)) = (j1, j2, b1, b2) ->
    (b = true /\ j1 = i2 /\ j2 = i1 /\ b1 = a2 /\ b2 = a1) \/ (b = false /\ j1 = i1 /\ j2 = i2 /\ b1 = a1 /\ b2 = a2)) by (intros [] j1 j2 b1 b2 Q; [left|right]; inversion Q; subst; repeat split).
  destruct (if is_oriented_right rdirect a0 a1 a2 then (i2, i1, a2, a1) else (i1, i2, a1, a2)) as [[[j1 j2] b1] b2] eqn:SW. apply SPLIT in SW. clear SPLIT.
  destruct (mesh_triangles rdirect points rest) as [l'|] eqn:ER; [|discriminate].
  destruct (IH l' eq_refl) as [A B]. clear IH.
  assert (HEAD : nth_error points j1 = Some b1 /\ nth_error points j2 = Some b2 /\ 0 <= area2 a0 b1 b2 /\ (In (i0, j1, j2) ((i0, i1, i2) :: triples rest) \/ In (i0, j2, j1) ((i0, i1, i2) :: triples rest))).
  { destruct SW as [(S & -> & -> & -> & ->)|(S & -> & -> & -> & ->)]; (split; [assumption|]); (split; [assumption|]); (split; [|cbn; auto]).
    - apply right_direct in S. rewrite area2_swap. lra.
    - destruct (Rlt_dec (area2 a0 a1 a2) 0) as [N|N]; [apply right_direct in N; congruence|lra]. }
  assert (DST : p_equals rdirect a0 b1 || p_equals rdirect b1 b2 || p_equals rdirect b2 a0 = false <-> a0 <> b1 /\ b1 <> b2 /\ b2 <> a0).
  { pose proof (p_equals_direct a0 b1) as Q1. pose proof (p_equals_direct b1 b2) as Q2. pose proof (p_equals_direct b2 a0) as Q3.
    destruct (p_equals rdirect a0 b1), (p_equals rdirect b1 b2), (p_equals rdirect b2 a0); cbn; split; intro H; try discriminate; try reflexivity; try (exfalso; destruct H as (X1 & X2 & X3); first [apply X1, Q1; reflexivity|apply X2, Q2; reflexivity|apply X3, Q3; reflexivity]).
    repeat split; intro Z; [apply Q1 in Z|apply Q2 in Z|apply Q3 in Z]; discriminate. }
  split.
  - intros t T I. assert (I' : In (t, T) l' \/ (l = ((i0, j1, j2), (a0, b1, b2)) :: l' /\ (t, T) = ((i0, j1, j2), (a0, b1, b2)) /\ a0 <> b1 /\ b1 <> b2 /\ b2 <> a0)).
    { destruct (p_equals rdirect a0 b1 || p_equals rdirect b1 b2 || p_equals rdirect b2 a0) eqn:Q; inversion E; subst l; [left; exact I|]. destruct I as [I|I]; [right|left; exact I]. split; [reflexivity|]. split; [congruence|]. apply DST. reflexivity. }
    destruct I' as [I'|(_ & EQ & D)].
    + destruct (A t T I') as (C1 & C2 & C3). split; [exact C1|]. split; [exact C2|]. destruct t as [[i j] k]. cbn [In]. tauto.
    + inversion EQ. subst t T. destruct HEAD as (H1 & H2 & H3 & H4). split; [cbn; auto|]. split; [tauto|]. exact H4.
  - intros i j k a b c I C D1 D2 D3. destruct I as [I|I].
    + inversion I. subst i j k. destruct C as (C0 & C1 & C2). assert (a0 = a) by (unfold plane in *; congruence). assert (a1 = b) by (unfold plane in *; congruence). assert (a2 = c) by (unfold plane in *; congruence). subst a0 a1 a2.
      destruct SW as [(S & -> & -> & -> & ->)|(S & -> & -> & -> & ->)].
      * assert (Q : p_equals rdirect a c || p_equals rdirect c b || p_equals rdirect b a = false) by (apply DST; auto). rewrite Q in E. inversion E.
        apply right_direct in S. destruct (Rlt_dec (area2 a b c) 0); [left; reflexivity|lra].
      * assert (Q : p_equals rdirect a b || p_equals rdirect b c || p_equals rdirect c a = false) by (apply DST; auto). rewrite Q in E. inversion E.
        destruct (Rlt_dec (area2 a b c) 0) as [N|N]; [apply right_direct in N; congruence|left; reflexivity].
    + specialize (B i j k a b c I C D1 D2 D3). destruct (p_equals rdirect a0 b1 || p_equals rdirect b1 b2 || p_equals rdirect b2 a0); inversion E; subst l; destruct (Rlt_dec (area2 a b c) 0); [exact B|exact B|right; exact B|right; exact B].
Qed.
