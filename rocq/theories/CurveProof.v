From Verif Require Import RBase CurveModel CurveSpec.

Lemma rsq : forall x : R, 0 <= x * x.
Proof. intro x. pose proof (Rle_0_sqr x) as H. unfold Rsqr in H. exact H. Qed.

Lemma rpd2_nonneg : forall a b, 0 <= rpd2 a b.
Proof. intros; unfold rpd2. pose proof (rsq (fst b - fst a)). pose proof (rsq (snd b - snd a)). lra. Qed.
Lemma rpd2_sym : forall a b, rpd2 a b = rpd2 b a.
Proof. intros; unfold rpd2; ring. Qed.
Lemma rpd2_zero : forall a b, rpd2 a b = 0 <-> a = b.
Proof.
  intros [ax ay] [bx by_]; unfold rpd2; simpl. split.
  - intro H. pose proof (rsq (bx - ax)) as P. pose proof (rsq (by_ - ay)) as Q.
    assert (E1 : (bx - ax) * (bx - ax) = 0) by lra. assert (E2 : (by_ - ay) * (by_ - ay) = 0) by lra.
    apply Rmult_integral in E1. apply Rmult_integral in E2. f_equal; lra.
  - intro H; injection H as -> ->. ring.
Qed.
Lemma rpd2_pos : forall a b, a <> b -> 0 < rpd2 a b.
Proof.
  intros a b H. pose proof (rpd2_nonneg a b). destruct (Req_dec (rpd2 a b) 0) as [E|E]; [|lra].
  apply rpd2_zero in E. contradiction.
Qed.

(** The curvature at the middle of three points. *)
Definition menger (f : R -> R) (a b c : rp) : option R :=
  rdiv_opt (2 * f (rpcross (rpsub b a) (rpsub c b))) (sqrt (rpd2 b a * rpd2 b c * rpd2 a c)).

Lemma cross_turn : forall a b c, rpcross (rpsub b a) (rpsub c b) = turn a b c.
Proof. intros; unfold rpcross, rpsub, turn; simpl; ring. Qed.

Lemma menger_den : forall a b c, distinct3 a b c -> 0 < sqrt (rpd2 b a * rpd2 b c * rpd2 a c).
Proof.
  intros a b c (H1 & H2 & H3). apply sqrt_lt_R0.
  repeat apply Rmult_lt_0_compat; apply rpd2_pos; auto.
Qed.

Lemma menger_some : forall f a b c, distinct3 a b c ->
  menger f a b c = Some (2 * f (turn a b c) / sqrt (rpd2 b a * rpd2 b c * rpd2 a c)).
Proof.
  intros f a b c H. unfold menger, rdiv_opt. pose proof (menger_den a b c H).
  destruct (Reqb_spec (sqrt (rpd2 b a * rpd2 b c * rpd2 a c)) 0); [lra|]. rewrite cross_turn. reflexivity.
Qed.

Lemma menger_none : forall f a b c, ~ distinct3 a b c -> menger f a b c = None.
Proof.
  intros f a b c H. unfold menger, rdiv_opt.
  destruct (Reqb_spec (sqrt (rpd2 b a * rpd2 b c * rpd2 a c)) 0) as [|N]; [reflexivity|]. exfalso. apply H.
  assert (P : rpd2 b a * rpd2 b c * rpd2 a c <> 0) by (intro E; apply N; rewrite E; apply sqrt_0).
  split; [|split]; intros ->; apply P; rewrite (proj2 (rpd2_zero _ _) eq_refl); ring.
Qed.

Lemma circle_product : forall a b c O r, 0 < r -> on_circle O r a -> on_circle O r b -> on_circle O r c ->
  rpd2 b a * rpd2 b c * rpd2 a c = 4 * (r * r) * (turn a b c * turn a b c).
Proof.
  intros [ax ay] [bx by_] [cx cy] [ox oy] r Hr. unfold on_circle, rdist, rpd2, turn; simpl. intros H1 H2 H3.
  assert (K : forall u v, sqrt (u * u + v * v) = r -> u * u + v * v = r * r).
  { intros u v E. rewrite <- E. rewrite sqrt_sqrt; [reflexivity|]. pose proof (rsq u). pose proof (rsq v). lra. }
  apply K in H1. apply K in H2. apply K in H3.
  set (x := ox - bx). set (y := oy - by_). set (p := ax - bx). set (q := ay - by_). set (s := cx - bx). set (t := cy - by_).
  assert (R2 : x * x + y * y = r * r) by (unfold x, y; lra).
  assert (A1 : 2 * (p * x + q * y) = p * p + q * q).
  { assert ((p - x) * (p - x) + (q - y) * (q - y) = r * r) by (unfold p, q, x, y; lra). lra. }
  assert (A2 : 2 * (s * x + t * y) = s * s + t * t).
  { assert ((s - x) * (s - x) + (t - y) * (t - y) = r * r) by (unfold s, t, x, y; lra). lra. }
  replace ((ax - bx) * (ax - bx) + (ay - by_) * (ay - by_)) with (p * p + q * q) by reflexivity.
  replace ((cx - bx) * (cx - bx) + (cy - by_) * (cy - by_)) with (s * s + t * t) by reflexivity.
  replace ((cx - ax) * (cx - ax) + (cy - ay) * (cy - ay)) with ((s - p) * (s - p) + (t - q) * (t - q)) by (unfold s, t, p, q; ring).
  replace ((bx - ax) * (cy - ay) - (by_ - ay) * (cx - ax)) with (- (p * t - q * s)) by (unfold s, t, p, q; ring).
  assert (I : (p * t - q * s) * (p * t - q * s) * (x * x + y * y) =
     (p * x + q * y) * (p * x + q * y) * (s * s + t * t) + (s * x + t * y) * (s * x + t * y) * (p * p + q * q)
     - 2 * (p * x + q * y) * (s * x + t * y) * (p * s + q * t)) by ring.
  rewrite R2 in I.
  set (A := p * p + q * q) in *. set (B := s * s + t * t) in *.
  assert (E1 : p * x + q * y = A / 2) by lra. assert (E2 : s * x + t * y = B / 2) by lra. rewrite E1, E2 in I.
  replace ((s - p) * (s - p) + (t - q) * (t - q)) with (A + B - 2 * (p * s + q * t)) by (unfold A, B; ring).
  replace (4 * (r * r) * (- (p * t - q * s) * - (p * t - q * s))) with (4 * ((p * t - q * s) * (p * t - q * s) * (r * r))) by ring.
  rewrite I. field.
Qed.

Lemma circumcircle : forall a b c, turn a b c <> 0 ->
  exists O r, 0 < r /\ on_circle O r a /\ on_circle O r b /\ on_circle O r c.
Proof.
  intros [ax ay] [bx by_] [cx cy]; unfold turn; simpl; intro T.
  set (p := ax - bx). set (q := ay - by_). set (s := cx - bx). set (t := cy - by_).
  assert (D : p * t - q * s <> 0) by (intro E; apply T; unfold p, q, s, t in E; lra).
  set (A := p * p + q * q). set (B := s * s + t * t).
  set (x := (A * t - B * q) / (2 * (p * t - q * s))). set (y := (B * p - A * s) / (2 * (p * t - q * s))).
  assert (A1 : 2 * (p * x + q * y) = A) by (unfold x, y; field; exact D).
  assert (A2 : 2 * (s * x + t * y) = B) by (unfold x, y; field; exact D).
  exists (bx + x, by_ + y), (sqrt (x * x + y * y)).
  assert (P : 0 < x * x + y * y).
  { pose proof (rsq x). pose proof (rsq y). destruct (Req_dec (x * x + y * y) 0) as [E|E]; [|lra]. exfalso.
    assert (x * x = 0) by lra. assert (y * y = 0) by lra.
    assert (x = 0) by (apply Rmult_integral in H1; tauto). assert (y = 0) by (apply Rmult_integral in H2; tauto).
    rewrite H3, H4 in A1, A2. assert (A = 0) by lra. assert (B = 0) by lra.
    unfold A in H5. pose proof (rsq p). pose proof (rsq q). assert (p * p = 0) by lra. assert (q * q = 0) by lra.
    assert (p = 0) by (apply Rmult_integral in H9; tauto). assert (q = 0) by (apply Rmult_integral in H10; tauto).
    apply D. rewrite H11, H12. ring. }
  split; [apply sqrt_lt_R0; exact P|].
  unfold on_circle, rdist; simpl. repeat split; f_equal.
  - replace (ax - (bx + x)) with (p - x) by (unfold p; ring). replace (ay - (by_ + y)) with (q - y) by (unfold q; ring).
    unfold A in A1. lra.
  - ring.
  - replace (cx - (bx + x)) with (s - x) by (unfold s; ring). replace (cy - (by_ + y)) with (t - y) by (unfold t; ring).
    unfold B in A2. lra.
Qed.

Lemma circle_den : forall a b c O r, 0 < r -> on_circle O r a -> on_circle O r b -> on_circle O r c ->
  sqrt (rpd2 b a * rpd2 b c * rpd2 a c) = 2 * r * Rabs (turn a b c).
Proof.
  intros a b c O r Hr H1 H2 H3. rewrite (circle_product a b c O r Hr H1 H2 H3).
  replace (4 * (r * r) * (turn a b c * turn a b c)) with ((2 * r * Rabs (turn a b c)) * (2 * r * Rabs (turn a b c))).
  - apply sqrt_square. pose proof (Rabs_pos (turn a b c)). nra.
  - replace (turn a b c * turn a b c) with (Rabs (turn a b c) * Rabs (turn a b c)); [ring|].
    rewrite <- Rabs_mult. apply Rabs_pos_eq. apply rsq.
Qed.

Lemma menger_circle : forall a b c O r, distinct3 a b c -> 0 < r -> on_circle O r a -> on_circle O r b -> on_circle O r c ->
  turn a b c <> 0 /\
  (0 < turn a b c -> menger (fun x => x) a b c = Some (1 / r)) /\
  (turn a b c < 0 -> menger (fun x => x) a b c = Some (- (1 / r))) /\
  menger Rabs a b c = Some (1 / r).
Proof.
  intros a b c O r D Hr H1 H2 H3.
  pose proof (circle_den a b c O r Hr H1 H2 H3) as E. pose proof (menger_den a b c D) as P.
  assert (N : turn a b c <> 0) by (intro Z; rewrite Z, Rabs_R0 in E; lra).
  split; [exact N|]. rewrite !menger_some by exact D. rewrite E.
  assert (N2 : Rabs (turn a b c) <> 0) by (apply Rabs_no_R0; exact N).
  split; [|split]; [intro L|intro L|]; f_equal.
  - rewrite (Rabs_pos_eq (turn a b c)) by lra. field. lra.
  - rewrite (Rabs_left (turn a b c)) by lra. field. lra.
  - field. lra.
Qed.

Lemma circle_curvature_ok : forall a b c k, distinct3 a b c ->
  (menger (fun x => x) a b c = Some k <-> circle_curvature a b c k).
Proof.
  intros a b c k D. unfold circle_curvature. split.
  - intro M. destruct (Req_dec (turn a b c) 0) as [Z|Z].
    + left. split; [exact Z|]. rewrite menger_some, Z in M by exact D. injection M as <-.
      pose proof (menger_den a b c D). field. lra.
    + right. destruct (circumcircle a b c Z) as (O & r & Hr & H1 & H2 & H3).
      exists O, r. repeat split; auto.
      destruct (menger_circle a b c O r D Hr H1 H2 H3) as (_ & P & Q & _).
      destruct (Rtotal_order (turn a b c) 0) as [L|[L|L]]; [right|contradiction|left]; split; auto.
      * rewrite (Q L) in M. injection M as <-. reflexivity.
      * rewrite (P L) in M. injection M as <-. reflexivity.
  - intros [[Z ->]|(O & r & Hr & H1 & H2 & H3 & C)].
    + rewrite menger_some, Z by exact D. f_equal. pose proof (menger_den a b c D). field. lra.
    + destruct (menger_circle a b c O r D Hr H1 H2 H3) as (_ & P & Q & _).
      destruct C as [[L ->]|[L ->]]; auto.
Qed.

(** ** The functions in terms of consecutive points *)

Lemma at_split : forall (pre : list rp) a b c post,
  rpoint (pre ++ a :: b :: c :: post) (length pre) = a /\
  rpoint (pre ++ a :: b :: c :: post) (S (length pre)) = b /\
  rpoint (pre ++ a :: b :: c :: post) (S (S (length pre))) = c.
Proof.
  intros. unfold rpoint.
  rewrite !app_nth2 by lia.
  replace (length pre - length pre)%nat with 0%nat by lia.
  replace (S (length pre) - length pre)%nat with 1%nat by lia.
  replace (S (S (length pre)) - length pre)%nat with 2%nat by lia. auto.
Qed.

Lemma at_index_inner : forall pre a b c post,
  polyline_signed_curvature_at_index (pre ++ a :: b :: c :: post) (S (length pre)) = menger (fun x => x) a b c.
Proof.
  intros. unfold polyline_signed_curvature_at_index.
  rewrite app_length. simpl length.
  destruct (Nat.ltb_spec (S (length pre) + 1) (length pre + S (S (S (length post))))); [|lia].
  cbn [Nat.ltb Nat.leb andb].
  destruct (at_split pre a b c post) as (E1 & E2 & E3).
  replace (S (length pre) - 1)%nat with (length pre) by lia.
  replace (S (length pre) + 1)%nat with (S (S (length pre))) by lia.
  rewrite E1, E2, E3. reflexivity.
Qed.

Definition mean_term (f : R -> R) (a b c : rp) : option R :=
  match menger f a b c with None => None | Some k => Some (1 / 2 * (sqrt (rpd2 b a) + sqrt (rpd2 b c)) * k) end.

Lemma over_index_inner : forall pre a b c post,
  polyline_total_curvature_over_index (pre ++ a :: b :: c :: post) (S (length pre)) = mean_term Rabs a b c.
Proof.
  intros. unfold polyline_total_curvature_over_index.
  rewrite app_length. simpl length.
  destruct (Nat.ltb_spec (S (length pre) + 1) (length pre + S (S (S (length post))))); [|lia].
  cbn [Nat.ltb Nat.leb andb].
  destruct (at_split pre a b c post) as (E1 & E2 & E3).
  replace (S (length pre) - 1)%nat with (length pre) by lia.
  replace (S (length pre) + 1)%nat with (S (S (length pre))) by lia.
  rewrite E1, E2, E3. reflexivity.
Qed.

Lemma split_at_inner : forall (poly : list rp) j, (0 < j)%nat -> (j + 1 < length poly)%nat ->
  exists pre a b c post, poly = pre ++ a :: b :: c :: post /\ j = S (length pre).
Proof.
  intros poly j H1 H2. exists (firstn (j - 1) poly).
  pose proof (firstn_skipn (j - 1) poly) as E.
  pose proof (skipn_length (j - 1) poly) as L.
  destruct (skipn (j - 1) poly) as [|a [|b [|c post]]]; simpl in L; try lia.
  exists a, b, c, post. split; [symmetry; exact E|]. rewrite firstn_length. lia.
Qed.

Lemma at_index_end : forall poly j, (j = 0%nat \/ (length poly <= j + 1)%nat) ->
  polyline_signed_curvature_at_index poly j = Some 0 /\ polyline_total_curvature_over_index poly j = Some 0.
Proof.
  intros poly j H. unfold polyline_signed_curvature_at_index, polyline_total_curvature_over_index.
  destruct (Nat.ltb_spec 0 j); destruct (Nat.ltb_spec (j + 1) (length poly)); simpl; auto; lia.
Qed.

(** ** Sums over the inner points *)

Fixpoint opt_sum (g : rp -> rp -> rp -> option R) (poly : list rp) : option R :=
  match poly with
  | a :: ((b :: c :: _) as rest) =>
      match g a b c, opt_sum g rest with Some x, Some y => Some (x + y) | _, _ => None end
  | _ => Some 0
  end.

Lemma opt_sum_cons : forall g a b c post,
  opt_sum g (a :: b :: c :: post) =
  match g a b c, opt_sum g (b :: c :: post) with Some x, Some y => Some (x + y) | _, _ => None end.
Proof. reflexivity. Qed.

Lemma loop_ok : forall f post pre a b sum,
  curvature_loop f (pre ++ a :: b :: post) (length post) (length pre) (S (length pre)) (S (S (length pre)))
    (rpd2 b a) (rpsub b a) sum =
  match opt_sum (mean_term f) (a :: b :: post) with Some y => Some (sum + y) | None => None end.
Proof.
  intros f. induction post as [|c post IH]; intros pre a b sum.
  - simpl. f_equal. ring.
  - cbn [length curvature_loop].
    destruct (at_split pre a b c post) as (E1 & E2 & E3). rewrite E1, E2, E3.
    rewrite opt_sum_cons. unfold mean_term at 1, menger.
    destruct (rdiv_opt (2 * f (rpcross (rpsub b a) (rpsub c b))) (sqrt (rpd2 b a * rpd2 b c * rpd2 a c))) as [k|]; [|reflexivity].
    specialize (IH (pre ++ [a]) b c (sum + 1 / 2 * (sqrt (rpd2 b a) + sqrt (rpd2 b c)) * k)).
    rewrite <- app_assoc in IH. cbn [app] in IH. rewrite app_length in IH. cbn [length] in IH.
    replace (length pre + 1)%nat with (S (length pre)) in IH by lia.
    rewrite (rpd2_sym c b) in IH. rewrite IH.
    destruct (opt_sum (mean_term f) (b :: c :: post)); [|reflexivity]. f_equal. ring.
Qed.

Lemma total_ok : forall f poly, total_curvature_by f poly = opt_sum (mean_term f) poly.
Proof.
  intros f [|a [|b [|c post]]]; try reflexivity.
  unfold total_curvature_by. cbn [length].
  replace (Nat.ltb 2 (S (S (S (length post))))) with true by (symmetry; apply Nat.ltb_lt; lia).
  replace (S (S (S (length post))) - 2)%nat with (length (c :: post)) by (simpl; lia).
  pose proof (loop_ok f (c :: post) [] a b 0) as L. cbn [app length] in L. cbn [length].
  unfold rpoint. cbn [nth]. rewrite L.
  destruct (opt_sum (mean_term f) (a :: b :: c :: post)); [|reflexivity]. f_equal. ring.
Qed.

Lemma distinct_tail : forall a l, distinct_triples (a :: l) -> distinct_triples l.
Proof. intros a l H pre x y z post E. apply (H (a :: pre) x y z post). rewrite E. reflexivity. Qed.

Lemma opt_sum_value : forall (g : rp -> rp -> rp -> option R) h poly,
  (forall a b c, distinct3 a b c -> g a b c = Some (h a b c)) -> distinct_triples poly ->
  opt_sum g poly = Some (over_triples h poly).
Proof.
  intros g h. induction poly as [|a poly IH]; intros H D; [reflexivity|].
  destruct poly as [|b [|c post]]; try reflexivity.
  rewrite opt_sum_cons, H by (apply (D [] a b c post); reflexivity).
  rewrite IH; auto. eapply distinct_tail; exact D.
Qed.

Lemma opt_sum_none : forall (g : rp -> rp -> rp -> option R) poly,
  (forall a b c, ~ distinct3 a b c -> g a b c = None) ->
  (exists pre a b c post, poly = pre ++ a :: b :: c :: post /\ ~ distinct3 a b c) ->
  opt_sum g poly = None.
Proof.
  intros g. induction poly as [|x poly IH]; intros H (pre & a & b & c & post & E & N).
  - destruct pre; discriminate.
  - destruct pre as [|y pre].
    + injection E as -> ->. rewrite opt_sum_cons, H by exact N. reflexivity.
    + injection E as -> ->. specialize (IH H (ex_intro _ pre (ex_intro _ a (ex_intro _ b (ex_intro _ c (ex_intro _ post (conj eq_refl N))))))).
      destruct pre as [|z [|z' pre]]; cbn [app] in *; rewrite opt_sum_cons, IH; destruct (g _ _ _); reflexivity.
Qed.

Lemma over_triples_snoc : forall g l a b c,
  over_triples g (l ++ [a; b; c]) = over_triples g (l ++ [a; b]) + g a b c.
Proof.
  intros g. induction l as [|x l IH]; intros a b c.
  - simpl. ring.
  - destruct l as [|y [|z l]].
    + simpl. ring.
    + simpl. ring.
    + change ((x :: y :: z :: l) ++ [a; b; c]) with (x :: (y :: z :: (l ++ [a; b; c]))).
      change ((x :: y :: z :: l) ++ [a; b]) with (x :: (y :: z :: (l ++ [a; b]))).
      cbn [over_triples]. specialize (IH a b c). cbn [app over_triples] in IH. lra.
Qed.

Lemma over_triples_rev : forall g h, (forall a b c, g a b c = h c b a) ->
  forall poly, over_triples g (rev poly) = over_triples h poly.
Proof.
  intros g h E. induction poly as [|a poly IH]; [reflexivity|].
  destruct poly as [|b [|c post]]; try reflexivity.
  cbn [rev] in *. rewrite <- !app_assoc in *. cbn [app] in *. rewrite over_triples_snoc, IH.
  rewrite E. cbn [over_triples]. ring.
Qed.

Lemma over_triples_ext : forall g h poly, (forall a b c, g a b c = h a b c) -> over_triples g poly = over_triples h poly.
Proof.
  intros g h poly E. induction poly as [|a poly IH]; [reflexivity|].
  destruct poly as [|b [|c post]]; try reflexivity. cbn [over_triples] in *. rewrite E, IH. reflexivity.
Qed.

Lemma over_triples_scale : forall k g poly, over_triples (fun a b c => k * g a b c) poly = k * over_triples g poly.
Proof.
  intros k g poly. induction poly as [|a poly IH]; [simpl; ring|].
  destruct poly as [|b [|c post]]; try (simpl; ring). cbn [over_triples] in *. rewrite IH. ring.
Qed.

Lemma over_triples_le : forall g h poly, (forall a b c, g a b c <= h a b c) -> over_triples g poly <= over_triples h poly.
Proof.
  intros g h poly E. induction poly as [|a poly IH]; [simpl; lra|].
  destruct poly as [|b [|c post]]; try (simpl; lra). cbn [over_triples] in *. specialize (E a b c). lra.
Qed.

Lemma over_triples_map : forall (m : rp -> rp) g poly, over_triples g (map m poly) = over_triples (fun a b c => g (m a) (m b) (m c)) poly.
Proof.
  intros m g poly. induction poly as [|a poly IH]; [reflexivity|].
  destruct poly as [|b [|c post]]; try reflexivity. cbn [map over_triples] in *. rewrite IH. reflexivity.
Qed.

(** ** Cutting into parts *)

(** The common shape of both cutting loops: a flag per index. *)
Fixpoint cut_loop (poly : list rp) (flags : list bool) (i : nat) (current : list rp) (results : list (list rp)) : list (list rp) :=
  match flags with
  | [] => if Nat.ltb 1 (length current) then results ++ [current] else results
  | fl :: flags' =>
      let current := current ++ [rpoint poly i] in
      if fl then
        if Nat.ltb 1 (length current) then cut_loop poly flags' (S i) [rpoint poly i] (results ++ [current])
        else cut_loop poly flags' (S i) current results
      else cut_loop poly flags' (S i) current results
  end.

(** Indices of the set flags, counted from i. *)
Fixpoint flagged (i : nat) (flags : list bool) : list nat :=
  match flags with
  | [] => []
  | fl :: flags' => if fl then i :: flagged (S i) flags' else flagged (S i) flags'
  end.

Lemma part_one : forall (poly : list rp) a, (a < length poly)%nat -> part poly a a = [rpoint poly a].
Proof.
  intros poly a H. unfold part, rpoint. replace (S a - a)%nat with 1%nat by lia.
  rewrite <- (firstn_skipn a poly) at 2. rewrite app_nth2; rewrite firstn_length; [|lia].
  replace (a - Nat.min a (length poly))%nat with 0%nat by lia.
  pose proof (skipn_length a poly). destruct (skipn a poly); simpl in *; [lia|]. reflexivity.
Qed.

Lemma part_snoc : forall (poly : list rp) a i, (a <= i)%nat -> (S i < length poly)%nat ->
  part poly a (S i) = part poly a i ++ [rpoint poly (S i)].
Proof.
  intros poly a i H L. unfold part, rpoint.
  rewrite <- (firstn_skipn a poly) at 3. rewrite app_nth2; rewrite firstn_length; [|lia].
  replace (Nat.min a (length poly)) with a by lia.
  set (l := skipn a poly). assert (Hl : (length l = length poly - a)%nat) by apply skipn_length.
  replace (S (S i) - a)%nat with (S (S i - a)) by lia.
  replace (S i - a)%nat with (S i - a)%nat by lia.
  assert (K : (S i - a < length l)%nat) by lia. clear Hl. revert K. generalize (S i - a)%nat as n. clear.
  intro n. revert n. induction l as [|x l IH]; intros n H; simpl in H; [lia|].
  destruct n as [|n]; [reflexivity|]. cbn [firstn nth app]. f_equal. apply IH. lia.
Qed.

Lemma part_length : forall (poly : list rp) a b, (a <= b)%nat -> (b < length poly)%nat -> length (part poly a b) = (S b - a)%nat.
Proof. intros. unfold part. rewrite firstn_length, skipn_length. lia. Qed.

Lemma parts_snoc : forall (poly : list rp) l a b, parts poly (l ++ [a; b]) = parts poly (l ++ [a]) ++ [part poly a b].
Proof.
  intros poly l a b. induction l as [|x l IH]; [reflexivity|].
  destruct l as [|y l]; [reflexivity|]. cbn [app parts] in *. f_equal. exact IH.
Qed.

Lemma cut_loop_ok : forall poly flags i a cuts, (i + length flags = length poly)%nat -> (a < i)%nat ->
  cut_loop poly flags i (part poly a (i - 1)) (parts poly (cuts ++ [a])) =
  parts poly (cuts ++ a :: filter (fun k => Nat.ltb k (length poly - 1)) (flagged i flags) ++
                (if Nat.eqb a (length poly - 1) then [] else [(length poly - 1)%nat])).
Proof.
  intros poly flags. induction flags as [|fl flags IH]; intros i a cuts L A.
  - simpl in *. assert (i = length poly) by lia. subst i.
    rewrite part_length by lia.
    destruct (Nat.ltb_spec 1 (S (length poly - 1) - a)).
    + destruct (Nat.eqb_spec a (length poly - 1)); [lia|]. rewrite parts_snoc. reflexivity.
    + destruct (Nat.eqb_spec a (length poly - 1)); [reflexivity|lia].
  - cbn [cut_loop flagged]. simpl in L.
    assert (P : part poly a (i - 1) ++ [rpoint poly i] = part poly a i).
    { replace i with (S (i - 1)) at 2 3 by lia. symmetry. apply part_snoc; lia. }
    rewrite P. rewrite part_length by lia.
    destruct fl.
    + destruct (Nat.ltb_spec 1 (S i - a)); [|lia].
      rewrite <- parts_snoc.
      rewrite <- (part_one poly i) by lia.
      replace (part poly i i) with (part poly i (S i - 1)) by (f_equal; lia).
      replace (cuts ++ [a; i]) with ((cuts ++ [a]) ++ [i]) by (rewrite <- app_assoc; reflexivity).
      rewrite IH by (auto; lia).
      rewrite <- app_assoc. cbn [app filter].
      destruct (Nat.ltb_spec i (length poly - 1)).
      * f_equal. f_equal. f_equal. cbn [app]. f_equal. f_equal.
        destruct (Nat.eqb_spec i (length poly - 1)); [lia|]. destruct (Nat.eqb_spec a (length poly - 1)); [lia|]. reflexivity.
      * destruct (Nat.eqb_spec i (length poly - 1)); [|lia]. destruct (Nat.eqb_spec a (length poly - 1)); [lia|].
        assert (flags = []) by (destruct flags; simpl in *; [reflexivity|lia]). subst flags. simpl. subst i. reflexivity.
    + replace (part poly a i) with (part poly a (S i - 1)) by (f_equal; lia).
      rewrite IH by (auto; lia). reflexivity.
Qed.

Lemma cut_all : forall poly flags, (1 <= length poly)%nat -> length flags = (length poly - 1)%nat ->
  cut_loop poly flags 1 [rpoint poly 0] [] =
  parts poly (0%nat :: filter (fun k => Nat.ltb k (length poly - 1)) (flagged 1 flags) ++
                (if Nat.eqb 0 (length poly - 1) then [] else [(length poly - 1)%nat])).
Proof.
  intros poly flags H L.
  rewrite <- (part_one poly 0) by lia.
  pose proof (cut_loop_ok poly flags 1 0 []) as C. cbn [app parts] in C. apply C; lia.
Qed.

Lemma flagged_range : forall flags i k, In k (flagged i flags) -> (i <= k < i + length flags)%nat.
Proof.
  induction flags as [|fl flags IH]; intros i k H; simpl in *; [contradiction|].
  destruct fl; [destruct H as [<-|H]; [lia|]|]; specialize (IH (S i) k H); lia.
Qed.

Lemma flagged_nth : forall flags i k, In k (flagged i flags) <-> (i <= k)%nat /\ nth_error flags (k - i) = Some true.
Proof.
  induction flags as [|fl flags IH]; intros i k; simpl.
  - split; [contradiction|]. intros [_ H]. destruct (k - i)%nat; discriminate.
  - assert (T : In k (flagged (S i) flags) <-> (S i <= k)%nat /\ nth_error flags (k - S i) = Some true) by apply IH.
    destruct fl.
    + split.
      * intros [<-|H]; [split; [lia|]; replace (i - i)%nat with 0%nat by lia; reflexivity|].
        apply T in H. destruct H as [H1 H2]. split; [lia|]. replace (k - i)%nat with (S (k - S i)) by lia. exact H2.
      * intros [H1 H2]. destruct (Nat.eq_dec i k) as [->|N]; [left; reflexivity|right]. apply T. split; [lia|].
        replace (k - i)%nat with (S (k - S i)) in H2 by lia. exact H2.
    + rewrite T. split; intros [H1 H2].
      * split; [lia|]. replace (k - i)%nat with (S (k - S i)) by lia. exact H2.
      * destruct (Nat.eq_dec i k) as [->|N]; [replace (k - k)%nat with 0%nat in H2 by lia; discriminate|].
        split; [lia|]. replace (k - i)%nat with (S (k - S i)) in H2 by lia. exact H2.
Qed.

Lemma increasing_cons : forall a l, increasing (a :: l) <-> (forall b, In b l -> (a < b)%nat) /\ increasing l.
Proof.
  intros a l. revert a. induction l as [|b l IH]; intros a.
  - simpl. split; auto. intros _. split; auto. intros b [].
  - change (increasing (a :: b :: l)) with ((a < b)%nat /\ increasing (b :: l)). split.
    + intros [H1 H2]. split; [|exact H2]. intros c [<-|Hc]; [exact H1|]. apply IH in H2. destruct H2 as [H2 _]. specialize (H2 c Hc). lia.
    + intros [H1 H2]. split; [apply H1; left; reflexivity|exact H2].
Qed.

Lemma flagged_increasing : forall flags i, increasing (flagged i flags).
Proof.
  induction flags as [|fl flags IH]; intros i; simpl; [exact I|].
  destruct fl; [|apply IH]. apply increasing_cons. split; [|apply IH].
  intros b Hb. apply flagged_range in Hb. lia.
Qed.

Lemma increasing_filter : forall f l, increasing l -> increasing (filter f l).
Proof.
  intros f l. induction l as [|a l IH]; intro H; [exact I|]. simpl. apply increasing_cons in H. destruct H as [H1 H2].
  destruct (f a); [|auto]. apply increasing_cons. split; [|auto]. intros b Hb. apply filter_In in Hb. apply H1; tauto.
Qed.
