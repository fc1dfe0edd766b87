(** Proofs about polygons. *)
From Coq Require Import ArithRing Psatz.
From Verif Require Import Base CmpModel OrientModel OrientSpec OrientProof DistModel DistSpec DistProof PolygonModel PolygonSpec.

(** ** Closed chains and edges *)

Lemma chain_nth : forall ps prev k, nth_error (chain prev ps) k =
  match nth_error ps k with
  | Some b => Some (match k with O => prev | S k' => nth k' ps prev end, b)
  | None => None
  end.
Proof.
  induction ps as [|a ps IH]; intros prev [|k]; simpl; auto.
  rewrite IH. destruct (nth_error ps k) as [b|] eqn:E; [|reflexivity].
  destruct k as [|k]; [reflexivity|]. f_equal. f_equal.
  apply nth_indep. assert (S k < length ps)%nat by (apply nth_error_Some; congruence). lia.
Qed.
Lemma chain_length : forall ps prev, length (chain prev ps) = length ps.
Proof. induction ps; simpl; auto. Qed.
Lemma closed_chain_length : forall ps, length (closed_chain ps) = length ps.
Proof. intros [|a ps]; [reflexivity|]. unfold closed_chain. apply chain_length. Qed.
Lemma last_pnth : forall (ps : list pt) a, ps <> [] -> last ps a = nth (length ps - 1) ps a.
Proof.
  induction ps as [|b ps IH]; intros a H; [contradiction|].
  destruct ps as [|c ps]; [reflexivity|].
  change (last (b :: c :: ps) a) with (last (c :: ps) a). rewrite IH by discriminate.
  simpl length. replace (S (S (length ps)) - 1)%nat with (S (length ps)) by lia.
  replace (S (length ps) - 1)%nat with (length ps) by lia. reflexivity.
Qed.
(** The pairs of the closed chain are the edges of the polygon. *)
Lemma in_closed_chain : forall ps u v, In (u, v) (closed_chain ps) <-> exists i, polygon_edge ps i u v.
Proof.
  intros [|a ps] u v.
  - simpl. split; [tauto|]. intros (i & H & _). destruct i; discriminate H.
  - unfold closed_chain. set (l := a :: ps). assert (L : (0 < length l)%nat) by (simpl; lia). clearbody l.
    assert (NE : l <> []) by (destruct l; [simpl in L; lia|discriminate]).
    split.
    + intro H. apply In_nth_error in H as [k H]. rewrite chain_nth in H.
      destruct (nth_error l k) as [b|] eqn:E; [|discriminate].
      assert (K : (k < length l)%nat) by (apply nth_error_Some; congruence).
      assert (E1 : v = b) by congruence. subst b.
      destruct k as [|k].
      * exists (length l - 1)%nat. assert (E2 : u = last l a) by congruence. rewrite last_pnth in E2 by exact NE. split.
        -- subst u. apply nth_error_nth'. lia.
        -- replace (S (length l - 1)) with (length l) by lia. rewrite Nat.mod_same by lia. exact E.
      * exists k. assert (E2 : u = nth k l (last l a)) by congruence. split.
        -- subst u. apply nth_error_nth'. lia.
        -- rewrite Nat.mod_small by lia. exact E.
    + intros (i & H1 & H2). assert (K : (i < length l)%nat) by (apply nth_error_Some; congruence).
      destruct (Nat.eq_dec (S i) (length l)) as [E|E].
      * rewrite E, Nat.mod_same in H2 by lia. apply nth_error_In with 0%nat. rewrite chain_nth, H2. f_equal. f_equal.
        rewrite last_pnth by exact NE. replace (length l - 1)%nat with i by lia. apply nth_error_nth. exact H1.
      * rewrite Nat.mod_small in H2 by lia. apply nth_error_In with (S i). rewrite chain_nth, H2. f_equal. f_equal.
        apply nth_error_nth. exact H1.
Qed.

(** ** Signed area *)

Lemma sum_cross_acc : forall es s, sum_cross es s == s + sum_cross es 0.
Proof.
  unfold sum_cross. induction es as [|e es IH]; intro s; simpl; [lra|].
  rewrite IH. rewrite (IH (0 + cross (fst e) (snd e))). lra.
Qed.
Fixpoint gsum (g : pt -> pt -> Q) (es : list (pt * pt)) : Q :=
  match es with [] => 0 | e :: es' => g (fst e) (snd e) + gsum g es' end.
Lemma sum_cross_gsum : forall es, sum_cross es 0 == gsum cross es.
Proof.
  induction es as [|e es IH]; [reflexivity|]. unfold sum_cross; simpl. fold (sum_cross es (0 + cross (fst e) (snd e))).
  rewrite sum_cross_acc, IH. lra.
Qed.
Lemma gsum_app : forall g l1 l2, gsum g (l1 ++ l2) == gsum g l1 + gsum g l2.
Proof. induction l1 as [|e l1 IH]; intro l2; simpl; [lra|]. rewrite IH. lra. Qed.
Lemma gsum_ext : forall g h es, (forall u v, In (u, v) es -> g u v == h u v) -> gsum g es == gsum h es.
Proof.
  induction es as [|[u v] es IH]; intro H; simpl; [lra|].
  rewrite (H u v) by (left; reflexivity). rewrite IH; [lra|]. intros; apply H; right; assumption.
Qed.
Lemma gsum_add : forall g h es, gsum (fun u v => g u v + h u v) es == gsum g es + gsum h es.
Proof. induction es as [|[u v] es IH]; simpl; [lra|]. rewrite IH. lra. Qed.
Lemma gsum_scale : forall k g es, gsum (fun u v => k * g u v) es == k * gsum g es.
Proof. induction es as [|[u v] es IH]; simpl; [lra|]. rewrite IH. ring. Qed.
(** A difference of vertex values telescopes. *)
Lemma gsum_tele : forall f ps prev, gsum (fun u v => f v - f u) (chain prev ps) == f (last ps prev) - f prev.
Proof.
  induction ps as [|a ps IH]; intro prev; simpl; [lra|]. rewrite IH.
  destruct ps as [|b ps]; [simpl; lra|]. simpl. assert (E : last (b :: ps) a = last (b :: ps) prev).
  { rewrite !last_pnth by discriminate. apply nth_indep. simpl; lia. }
  simpl in E. rewrite E. lra.
Qed.
Lemma last_indep : forall (ps : list pt) a b, ps <> [] -> last ps a = last ps b.
Proof.
  intros ps a b H. rewrite !last_pnth by exact H. apply nth_indep. destruct ps; [contradiction|simpl; lia].
Qed.
Lemma gsum_closed_tele : forall f ps, gsum (fun u v => f v - f u) (closed_chain ps) == 0.
Proof.
  intros f [|a ps]; [reflexivity|]. unfold closed_chain. rewrite gsum_tele.
  rewrite (last_indep (a :: ps) (last (a :: ps) a) a) by discriminate. lra.
Qed.
Lemma chain_nth_sum : forall g ps prev, gsum g (chain prev ps) ==
  qsum (fun i => g (match i with O => prev | S i' => nth i' ps prev end) (nth i ps prev)) (length ps).
Proof.
  intros g ps prev. induction ps as [|b ps IH] using rev_ind; [reflexivity|].
  assert (C : forall l p, chain p (l ++ [b]) = chain p l ++ [(last l p, b)]).
  { induction l as [|x l IHl]; intro p; simpl; [reflexivity|]. rewrite IHl. f_equal. f_equal. f_equal. f_equal.
    destruct l as [|y l]; [reflexivity|apply last_indep; discriminate]. }
  rewrite C, gsum_app, IH, app_length. simpl. rewrite Nat.add_1_r. simpl.
  assert (E1 : qsum (fun i => g (match i with O => prev | S i' => nth i' ps prev end) (nth i ps prev)) (length ps) ==
               qsum (fun i => g (match i with O => prev | S i' => nth i' (ps ++ [b]) prev end) (nth i (ps ++ [b]) prev)) (length ps)).
  { assert (H : forall n, (n <= length ps)%nat ->
      qsum (fun i => g (match i with O => prev | S i' => nth i' ps prev end) (nth i ps prev)) n ==
      qsum (fun i => g (match i with O => prev | S i' => nth i' (ps ++ [b]) prev end) (nth i (ps ++ [b]) prev)) n).
    { induction n as [|n IHn]; intro Hn; [reflexivity|]. simpl. rewrite IHn by lia.
      rewrite (app_nth1 ps [b] prev (n := n)) by lia. destruct n as [|n]; [reflexivity|]. rewrite (app_nth1 ps [b] prev (n := n)) by lia. reflexivity. }
    apply H. lia. }
  rewrite E1. rewrite (app_nth2 ps [b] prev (n := length ps)) by lia. rewrite Nat.sub_diag. simpl.
  assert (E2 : last ps prev = match length ps with O => prev | S i' => nth i' (ps ++ [b]) prev end).
  { destruct ps as [|x ps]; [reflexivity|]. rewrite last_pnth by discriminate. simpl length.
    replace (S (length ps) - 1)%nat with (length ps) by lia. rewrite app_nth1 by (simpl; lia). reflexivity. }
  rewrite <- E2. lra.
Qed.
Lemma qsum_ext : forall f g n, (forall i, (i < n)%nat -> f i == g i) -> qsum f n == qsum g n.
Proof. induction n as [|n IH]; intro H; simpl; [lra|]. rewrite IH by (intros; apply H; lia). rewrite H by lia. lra. Qed.
Lemma qsum_shift : forall f n, qsum f (S n) == f 0%nat + qsum (fun i => f (S i)) n.
Proof. induction n as [|n IH]; [simpl; lra|]. change (qsum f (S (S n))) with (qsum f (S n) + f (S n)). rewrite IH. simpl. lra. Qed.
(** The sum along the closed chain is the sum over the indexed edges. *)
Lemma closed_chain_edge_sum : forall g ps, gsum g (closed_chain ps) == edge_sum g ps.
Proof.
  intros g [|a ps]; [reflexivity|]. unfold closed_chain, edge_sum. set (l := a :: ps). assert (L : (0 < length l)%nat) by (simpl; lia).
  assert (NE : l <> []) by discriminate. clearbody l.
  rewrite chain_nth_sum. destruct (length l) as [|n] eqn:EN; [lia|].
  rewrite qsum_shift. set (gf := fun i => g (pnth l i) (pnth l (S i mod S n))).
  change (qsum gf (S n)) with (qsum gf n + gf n). unfold gf at 2. rewrite Nat.mod_same by lia. cbn [nth].
  assert (E0 : last l a = pnth l n) by (unfold pnth; rewrite last_pnth by exact NE; rewrite EN; replace (S n - 1)%nat with n by lia; apply nth_indep; lia).
  rewrite E0.
  assert (N0 : forall i d, (i <= n)%nat -> nth i l d = pnth l i) by (intros; unfold pnth; apply nth_indep; lia).
  rewrite (N0 0%nat) by lia.
  rewrite (qsum_ext (fun i => g (nth i l (pnth l n)) (nth (S i) l (pnth l n))) gf).
  - lra.
  - intros i Hi. unfold gf. rewrite !N0 by lia. rewrite Nat.mod_small by lia. reflexivity.
Qed.

Lemma signed_area_gsum : forall ps s, get_signed_area ps = Some s -> s == gsum cross (closed_chain ps) * (1 # 2).
Proof.
  intros [|a ps] s H; [discriminate|]. unfold get_signed_area in H.
  assert (E : s = (sum_cross (chain a ps) 0 + cross (last (a :: ps) a) a) * (1 # 2)) by congruence. subst s.
  rewrite sum_cross_gsum. unfold closed_chain. cbn [chain gsum fst snd]. ring.
Qed.
(** Whatever the reference point, twice the area is the sum of the fan triangles. *)
Lemma signed_area_fan : forall ps s o, get_signed_area ps = Some s -> 2 * s == edge_sum (fun a b => tri2 o a b) ps.
Proof.
  intros ps s o H. rewrite (signed_area_gsum ps s H), <- closed_chain_edge_sum.
  rewrite (gsum_ext (fun a b => tri2 o a b) (fun a b => cross a b + (cross b o - cross a o))).
  - rewrite gsum_add. 
    assert (Z : gsum (fun a b => (cross b o - cross a o)) (closed_chain ps) == 0).
    { rewrite <- (gsum_closed_tele (fun v => cross v o) ps). apply gsum_ext. intros; lra. }
    rewrite Z. lra.
  - intros u v _. unfold tri2, cross, vsub; simpl. ring.
Qed.

(** ** Rotating and reversing the point list *)

From Coq Require Import Permutation.
Lemma chain_app : forall l1 l2 p, chain p (l1 ++ l2) = chain p l1 ++ chain (last l1 p) l2.
Proof.
  induction l1 as [|a l1 IH]; intros l2 p; [reflexivity|]. simpl. rewrite IH. f_equal. f_equal. f_equal.
  destruct l1 as [|b l1]; [reflexivity|]. apply last_indep. discriminate.
Qed.
Lemma last_app : forall (l1 l2 : list pt) d, l2 <> [] -> last (l1 ++ l2) d = last l2 d.
Proof.
  induction l1 as [|a l1 IH]; intros l2 d H; [reflexivity|]. simpl.
  destruct (l1 ++ l2) eqn:E; [destruct l1; [simpl in E; contradiction|discriminate]|].
  rewrite <- E. apply IH, H.
Qed.
Lemma closed_chain_rotate : forall l1 l2, Permutation (closed_chain (l1 ++ l2)) (closed_chain (l2 ++ l1)).
Proof.
  intros [|a l1] [|b l2]; try (rewrite !app_nil_r; reflexivity).
  simpl app at 1. unfold closed_chain at 1. change (a :: l1 ++ b :: l2) with ((a :: l1) ++ (b :: l2)).
  simpl app at 3. unfold closed_chain. change (b :: l2 ++ a :: l1) with ((b :: l2) ++ (a :: l1)).
  rewrite !last_app by discriminate. rewrite !chain_app.
  rewrite (last_indep (a :: l1) (last (b :: l2) a) b) by discriminate.
  rewrite (last_indep (b :: l2) (last (a :: l1) b) a) by discriminate.
  apply Permutation_app_comm.
Qed.
Definition swap_pair (e : pt * pt) : pt * pt := (snd e, fst e).
Lemma chain_rev : forall l p q, Permutation (map swap_pair (chain p (l ++ [q]))) (chain q (rev l ++ [p])).
Proof.
  induction l as [|a l IH]; intros p q; [reflexivity|]. simpl. rewrite <- app_assoc. simpl.
  rewrite IH. change (rev l ++ [a; p]) with (rev l ++ [a] ++ [p]). rewrite app_assoc.
  rewrite (chain_app (rev l ++ [a]) [p]). rewrite last_app by discriminate. simpl. unfold swap_pair; simpl.
  change ((a, p) :: chain q (rev l ++ [a])) with ([(a, p)] ++ chain q (rev l ++ [a])).
  apply Permutation_app_comm.
Qed.
Lemma closed_chain_rev : forall l, Permutation (closed_chain (rev l)) (map swap_pair (closed_chain l)).
Proof.
  intro l. destruct l as [|a l] using rev_ind; [reflexivity|]. clear IHl.
  rewrite rev_app_distr. simpl app. unfold closed_chain at 1.
  assert (E : closed_chain (l ++ [a]) = chain a (l ++ [a])).
  { destruct l as [|b l]; [reflexivity|]. simpl app. unfold closed_chain.
    change (b :: l ++ [a]) with ((b :: l) ++ [a]). rewrite last_app by discriminate. reflexivity. }
  rewrite E. clear E.
  destruct l as [|b l]; [reflexivity|].
  change (chain a ((b :: l) ++ [a])) with ((a, b) :: chain b (l ++ [a])). cbn [map].
  rewrite (chain_rev l b a). unfold swap_pair at 1; cbn [fst snd].
  assert (E : last (a :: rev (b :: l)) a = b).
  { simpl rev. change (a :: rev l ++ [b]) with ((a :: rev l) ++ [b]). rewrite last_app by discriminate. reflexivity. }
  rewrite E. simpl rev. reflexivity.
Qed.
Lemma gsum_perm : forall g l1 l2, Permutation l1 l2 -> gsum g l1 == gsum g l2.
Proof. intros g l1 l2 H. induction H; simpl; try lra. Qed.
Lemma gsum_swap : forall g es, gsum g (map swap_pair es) == gsum (fun u v => g v u) es.
Proof. induction es as [|[u v] es IH]; simpl; [lra|]. rewrite IH. lra. Qed.

Lemma signed_area_rotate : forall l1 l2 s t,
  get_signed_area (l1 ++ l2) = Some s -> get_signed_area (l2 ++ l1) = Some t -> s == t.
Proof.
  intros l1 l2 s t H1 H2. rewrite (signed_area_gsum _ _ H1), (signed_area_gsum _ _ H2).
  rewrite (gsum_perm cross _ _ (closed_chain_rotate l1 l2)). reflexivity.
Qed.
Lemma signed_area_reverse : forall l s t,
  get_signed_area l = Some s -> get_signed_area (rev l) = Some t -> t == - s.
Proof.
  intros l s t H1 H2. rewrite (signed_area_gsum _ _ H1), (signed_area_gsum _ _ H2).
  rewrite (gsum_perm cross _ _ (closed_chain_rev l)), gsum_swap.
  rewrite (gsum_ext (fun u v => cross v u) (fun u v => (-1) * cross u v)), gsum_scale; [ring|].
  intros; unfold cross; ring.
Qed.
Lemma signed_area_map_gsum : forall (f : pt -> pt) ps, closed_chain (map f ps) = map (fun e => (f (fst e), f (snd e))) (closed_chain ps).
Proof.
  intros f [|a ps]; [reflexivity|].
  assert (L : forall l d, last (map f l) (f d) = f (last l d)).
  { induction l as [|x l IH]; intro d; [reflexivity|]. simpl. destruct l as [|y l]; [reflexivity|]. apply IH. }
  assert (C : forall l p, chain (f p) (map f l) = map (fun e => (f (fst e), f (snd e))) (chain p l)).
  { induction l as [|x l IH]; intro p; [reflexivity|]. simpl. f_equal. apply IH. }
  unfold closed_chain. cbn [map]. change (f a :: map f ps) with (map f (a :: ps)). rewrite L. apply C.
Qed.
Lemma gsum_map : forall g (f : pt -> pt) es, gsum g (map (fun e => (f (fst e), f (snd e))) es) == gsum (fun u v => g (f u) (f v)) es.
Proof. induction es as [|[u v] es IH]; simpl; [lra|]. rewrite IH. lra. Qed.
(** A linear map followed by a translation multiplies the signed area by its determinant. *)
Definition affine (m00 m01 m10 m11 : Q) (t p : pt) : pt :=
  mkpt (m00 * px p + m01 * py p + px t) (m10 * px p + m11 * py p + py t).
Lemma signed_area_affine : forall a b c d t ps s s',
  get_signed_area ps = Some s -> get_signed_area (map (affine a b c d t) ps) = Some s' -> s' == (a * d - b * c) * s.
Proof.
  intros a b c d t ps s s' H1 H2. rewrite (signed_area_gsum _ _ H1), (signed_area_gsum _ _ H2).
  rewrite signed_area_map_gsum, gsum_map.
  rewrite (gsum_ext _ (fun u v => (a * d - b * c) * cross u v +
     (cross (affine a b c d (mkpt 0 0) v) (vneg t) - cross (affine a b c d (mkpt 0 0) u) (vneg t)))).
  - rewrite gsum_add, gsum_scale.
    assert (Z : gsum (fun u v => (cross (affine a b c d (mkpt 0 0) v) (vneg t) - cross (affine a b c d (mkpt 0 0) u) (vneg t))) (closed_chain ps) == 0).
    { rewrite <- (gsum_closed_tele (fun v => cross (affine a b c d (mkpt 0 0) v) (vneg t)) ps). apply gsum_ext. intros; ring. }
    rewrite Z. ring.
  - intros u v _. unfold affine, cross, vneg; simpl. ring.
Qed.
Lemma signed_area_some : forall ps, ps <> [] -> exists s, get_signed_area ps = Some s.
Proof. intros [|a ps] H; [contradiction|]. eexists; reflexivity. Qed.
(** Cutting along the diagonal from a to b. *)
Lemma signed_area_split : forall a l1 b l2 s s1 s2,
  get_signed_area (a :: l1 ++ b :: l2) = Some s ->
  get_signed_area (a :: l1 ++ [b]) = Some s1 -> get_signed_area (b :: l2 ++ [a]) = Some s2 -> s == s1 + s2.
Proof.
  intros a l1 b l2 s s1 s2 H H1 H2.
  rewrite (signed_area_gsum _ _ H), (signed_area_gsum _ _ H1), (signed_area_gsum _ _ H2).
  assert (P : forall x l y, gsum cross (closed_chain (x :: l ++ [y])) == gsum cross (chain x (l ++ [y])) + cross y x).
  { intros x l y. unfold closed_chain. change (x :: l ++ [y]) with ((x :: l) ++ [y]) at 2. 
    change (x :: l ++ [y]) with ((x :: l) ++ [y]). rewrite last_app by discriminate.
    simpl last. cbn [app chain gsum fst snd]. ring. }
  rewrite (P a l1 b), (P b l2 a).
  assert (R : gsum cross (closed_chain (a :: l1 ++ b :: l2)) == gsum cross (chain a (l1 ++ [b])) + gsum cross (chain b (l2 ++ [a]))).
  { unfold closed_chain. change (a :: l1 ++ b :: l2) with ((a :: l1) ++ (b :: l2)). rewrite last_app by discriminate.
    replace ((a :: l1) ++ b :: l2) with ([a] ++ (l1 ++ [b]) ++ l2) by (simpl; rewrite <- app_assoc; reflexivity).
    rewrite (last_indep (b :: l2) a b) by discriminate.
    assert (L : last (b :: l2) b = last l2 b) by (destruct l2; reflexivity). rewrite L.
    rewrite !chain_app, !gsum_app. set (z := last l2 b). rewrite !last_app by discriminate. cbn [last chain gsum fst snd].
    ring. }
  rewrite R. unfold cross. ring.
Qed.

(** ** Centroid *)

Lemma centroid_sums : forall es a x y, 
  let r := fold_left centroid_step es (a, x, y) in
  fst (fst r) == a + gsum cross es /\
  snd (fst r) == x + gsum (fun u v => cross u v * (px u + px v)) es /\
  snd r == y + gsum (fun u v => cross u v * (py u + py v)) es.
Proof.
  induction es as [|[u v] es IH]; intros a x y; cbv zeta; simpl.
  - repeat split; lra.
  - destruct (IH (a + cross u v) (x + cross u v * (px u + px v)) (y + cross u v * (py u + py v))) as (A & X & Y).
    cbv zeta in *. rewrite A, X, Y. repeat split; ring.
Qed.
Lemma centroid_char : forall ps, ps <> [] ->
  let S := gsum cross (closed_chain ps) in
  let X := gsum (fun u v => cross u v * (px u + px v)) (closed_chain ps) in
  let Y := gsum (fun u v => cross u v * (py u + py v)) (closed_chain ps) in
  (S == 0 /\ get_centroid ps = None) \/
  (~ S == 0 /\ exists c, get_centroid ps = Some c /\ 3 * S * px c == X /\ 3 * S * py c == Y).
Proof.
  intros [|a ps] NE; [contradiction|]. cbv zeta. unfold get_centroid, closed_chain. cbn [chain gsum fst snd].
  destruct (fold_left centroid_step (chain a ps) (0, 0, 0)) as [[ar mx] my] eqn:E.
  pose proof (centroid_sums (chain a ps) 0 0 0) as H. cbv zeta in H. rewrite E in H. cbn [fst snd] in H.
  destruct H as (HA & HX & HY). unfold centroid_step. cbn [fst snd].
  set (l := last (a :: ps) a) in *. clearbody l.
  set (sa := gsum cross (chain a ps)) in *. set (sx := gsum (fun u v => cross u v * (px u + px v)) (chain a ps)) in *.
  set (sy := gsum (fun u v => cross u v * (py u + py v)) (chain a ps)) in *. clearbody sa sx sy.
  set (k := cross l a) in *. clearbody k.
  destruct (Qeqb (6 * ((ar + k) * (1 # 2))) 0) eqn:Z.
  - left. apply Qeqb_eq in Z. split; [lra|reflexivity].
  - right. assert (NZ : ~ 6 * ((ar + k) * (1 # 2)) == 0) by (intro C; apply Qeqb_eq in C; congruence).
    split; [lra|]. eexists; split; [reflexivity|]. cbn [px py].
    assert (K : 3 * (k + sa) == 6 * ((ar + k) * (1 # 2))) by lra.
    rewrite K. set (d := 6 * ((ar + k) * (1 # 2))) in *. clearbody d. clear K E.
    split; [transitivity (mx + k * (px l + px a)); [field; exact NZ|lra]|transitivity (my + k * (py l + py a)); [field; exact NZ|lra]].
Qed.
(** For every reference point, the centroid is the area-weighted mean of the centroids of the
    fan triangles. *)
Lemma centroid_fan : forall ps c, get_centroid ps = Some c -> forall o,
  ~ edge_sum (fun a b => tri2 o a b) ps == 0 /\
  edge_sum (fun a b => tri2 o a b) ps * px c == edge_sum (fun a b => tri2 o a b * ((px o + px a + px b) * (1 # 3))) ps /\
  edge_sum (fun a b => tri2 o a b) ps * py c == edge_sum (fun a b => tri2 o a b * ((py o + py a + py b) * (1 # 3))) ps.
Proof.
  intros ps c H o. assert (NE : ps <> []) by (intro; subst; discriminate).
  destruct (centroid_char ps NE) as [[_ E]|(NZ & c' & E & EX & EY)]; [congruence|].
  assert (c' = c) by congruence. subst c'.
  rewrite <- !closed_chain_edge_sum.
  assert (T : gsum (fun a b => tri2 o a b) (closed_chain ps) == gsum cross (closed_chain ps)).
  { destruct (signed_area_some ps NE) as [s Hs]. pose proof (signed_area_fan ps s o Hs) as F.
    rewrite <- closed_chain_edge_sum in F. rewrite (signed_area_gsum ps s Hs) in F. lra. }
  rewrite T. split; [exact NZ|]. split.
  - rewrite (gsum_ext (fun a b => tri2 o a b * ((px o + px a + px b) * (1 # 3)))
      (fun a b => (1 # 3) * (cross a b * (px a + px b)) +
         ((fun v => (1 # 3) * (py o * px v * px v - px o * px v * py v + px o * (px v * py o - py v * px o))) b -
          (fun v => (1 # 3) * (py o * px v * px v - px o * px v * py v + px o * (px v * py o - py v * px o))) a))).
    + rewrite gsum_add, gsum_scale, gsum_closed_tele. lra.
    + intros u v _. unfold tri2, cross, vsub; simpl. ring.
  - rewrite (gsum_ext (fun a b => tri2 o a b * ((py o + py a + py b) * (1 # 3)))
      (fun a b => (1 # 3) * (cross a b * (py a + py b)) +
         ((fun v => (1 # 3) * (py o * px v * py v - px o * py v * py v + py o * (px v * py o - py v * px o))) b -
          (fun v => (1 # 3) * (py o * px v * py v - px o * py v * py v + py o * (px v * py o - py v * px o))) a))).
    + rewrite gsum_add, gsum_scale, gsum_closed_tele. lra.
    + intros u v _. unfold tri2, cross, vsub; simpl. ring.
Qed.
(** It is undefined exactly for the empty sequence and for signed area zero. *)
Lemma centroid_none : forall ps, get_centroid ps = None <-> ps = [] \/ (exists s, get_signed_area ps = Some s /\ s == 0).
Proof.
  intro ps. split.
  - intro H. destruct ps as [|a ps]; [left; reflexivity|]. right.
    destruct (centroid_char (a :: ps)) as [[Z _]|(_ & c & E & _)]; [discriminate| |congruence].
    destruct (signed_area_some (a :: ps)) as [s Hs]; [discriminate|]. exists s; split; [exact Hs|].
    rewrite (signed_area_gsum _ _ Hs), Z. ring.
  - intros [E|(s & Hs & Z)]; [subst; reflexivity|].
    assert (NE : ps <> []) by (intro; subst; discriminate).
    destruct (centroid_char ps NE) as [[_ E]|(NZ & _)]; [exact E|].
    rewrite (signed_area_gsum _ _ Hs) in Z. lra.
Qed.

(** ** Crossing parity *)

Fixpoint xsum (f : pt -> pt -> bool) (es : list (pt * pt)) : bool :=
  match es with [] => false | e :: es' => xorb (f (fst e) (snd e)) (xsum f es') end.
Lemma pip_fold : forall A es b,
  fold_left (fun inside e => if pip_flip A (fst e) (snd e) then negb inside else inside) es b = xorb b (xsum (pip_flip A) es).
Proof.
  induction es as [|e es IH]; intro b; simpl; [destruct b; reflexivity|]. rewrite IH.
  destruct (pip_flip A (fst e) (snd e)), b, (xsum (pip_flip A) es); reflexivity.
Qed.
Lemma pip_xsum : forall A ps, point_in_polygon A ps = negb (Nat.ltb (length ps) 3) && xsum (pip_flip A) (closed_chain ps).
Proof. intros A ps. unfold point_in_polygon. destruct (Nat.ltb (length ps) 3); [reflexivity|]. rewrite pip_fold, xorb_false_l. reflexivity. Qed.
Lemma xsum_xor : forall f g es, xsum (fun u v => xorb (f u v) (g u v)) es = xorb (xsum f es) (xsum g es).
Proof.
  induction es as [|e es IH]; [reflexivity|]. simpl. rewrite IH.
  destruct (f (fst e) (snd e)), (g (fst e) (snd e)), (xsum f es), (xsum g es); reflexivity.
Qed.
Lemma xsum_ext : forall f g es, (forall u v, In (u, v) es -> f u v = g u v) -> xsum f es = xsum g es.
Proof.
  induction es as [|[u v] es IH]; intro H; [reflexivity|]. simpl. rewrite (H u v) by (left; reflexivity). f_equal. apply IH.
  intros; apply H; right; assumption.
Qed.
Lemma xsum_perm : forall f l1 l2, Permutation l1 l2 -> xsum f l1 = xsum f l2.
Proof.
  intros f l1 l2 H. induction H; simpl; try congruence.
  destruct (f (fst x) (snd x)), (f (fst y) (snd y)), (xsum f l); reflexivity.
Qed.
Lemma xsum_swap : forall f es, xsum f (map swap_pair es) = xsum (fun u v => f v u) es.
Proof. induction es as [|[u v] es IH]; [reflexivity|]. simpl. rewrite IH. reflexivity. Qed.
Lemma xsum_chain_tele : forall h ps prev, xsum (fun u v => xorb (h u) (h v)) (chain prev ps) = xorb (h prev) (h (last ps prev)).
Proof.
  induction ps as [|a ps IH]; intro prev; simpl; [destruct (h prev); reflexivity|]. rewrite IH.
  destruct ps as [|b ps]; [cbn [last]; destruct (h prev), (h a); reflexivity|].
  rewrite (last_indep (b :: ps) a prev) by discriminate. destruct (h prev), (h a), (h (last (b :: ps) prev)); reflexivity.
Qed.
Lemma xsum_tele : forall h ps, xsum (fun u v => xorb (h u) (h v)) (closed_chain ps) = false.
Proof.
  intros h [|a ps]; [reflexivity|]. unfold closed_chain. rewrite xsum_chain_tele.
  rewrite (last_indep (a :: ps) (last (a :: ps) a) a) by discriminate. apply xorb_nilpotent.
Qed.
Lemma pip_flip_sym : forall A u v, pip_flip A u v = pip_flip A v u.
Proof.
  intros A u v. unfold pip_flip, Qgtb.
  destruct (Qltb_spec (py A) (py u)) as [U|U]; destruct (Qltb_spec (py A) (py v)) as [V|V];
    destruct (Qleb_spec (py u) (py A)) as [U'|U']; destruct (Qleb_spec (py v) (py A)) as [V'|V']; try reflexivity; try lra;
    apply bool_iff; rewrite !Qltb_lt; split; intro; lra.
Qed.
(** An edge leaving the horizontal line of A upwards: flip exactly when A is strictly left of it. *)
Lemma pip_flip_up : forall A u v, py u <= py A -> py A < py v -> pip_flip A u v = Qltb 0 (tri2 u v A).
Proof.
  intros A u v H1 H2. unfold pip_flip, tri2, cross, vsub; cbn [px py].
  destruct (Qltb_spec (py A) (py u)); [lra|]. destruct (Qltb_spec (py A) (py v)); [|lra].
  apply bool_iff. rewrite !Qltb_lt. split; intro; nra.
Qed.
Lemma pip_flip_low : forall A u v, py u <= py A -> py v <= py A -> pip_flip A u v = false.
Proof.
  intros A u v H1 H2. unfold pip_flip. destruct (Qltb_spec (py A) (py u)); [lra|]. destruct (Qltb_spec (py A) (py v)); [lra|]. reflexivity.
Qed.
Lemma pip_flip_high : forall A u v, py A < py u -> py A < py v -> pip_flip A u v = false.
Proof.
  intros A u v H1 H2. unfold pip_flip. destruct (Qltb_spec (py A) (py u)); [|lra]. destruct (Qleb_spec (py v) (py A)); [lra|]. reflexivity.
Qed.

(** The vertex weight: strictly right of AB, above A and not above B. *)
Definition weight (A B X : pt) : bool := Qltb (py A) (py X) && Qleb (py X) (py B) && Qltb (tri2 A B X) 0.
Lemma weight_low : forall A B X, py X <= py A -> weight A B X = false.
Proof. intros A B X H. unfold weight. destruct (Qltb_spec (py A) (py X)); [lra|reflexivity]. Qed.
Lemma weight_high : forall A B X, py B < py X -> weight A B X = false.
Proof. intros A B X H. unfold weight. destruct (Qleb_spec (py X) (py B)); [lra|]. rewrite andb_false_r. reflexivity. Qed.
Lemma weight_mid : forall A B X, py A < py X -> py X <= py B -> weight A B X = Qltb (tri2 A B X) 0.
Proof.
  intros A B X H1 H2. unfold weight. destruct (Qltb_spec (py A) (py X)); [|lra]. destruct (Qleb_spec (py X) (py B)); [|lra]. reflexivity.
Qed.

Lemma lerp_py : forall A B t, py (lerp A B t) == py A + t * (py B - py A).
Proof. intros. unfold lerp, vadd, vscale, vsub; simpl. ring. Qed.
Lemma lerp_px : forall A B t, px (lerp A B t) == px A + t * (px B - px A).
Proof. intros. unfold lerp, vadd, vscale, vsub; simpl. ring. Qed.
Lemma tri2_lerp : forall A B u v t, tri2 A B (lerp u v t) == tri2 A B u + t * (tri2 A B v - tri2 A B u).
Proof. intros. unfold tri2, cross, lerp, vadd, vscale, vsub; simpl. ring. Qed.
Lemma lerp_in : forall a b l t, 0 <= a <= 1 -> 0 <= b <= 1 -> 0 <= l <= 1 -> t == a + l * (b - a) -> 0 <= t <= 1.
Proof. intros a b l t H1 H2 H3 E. rewrite E. split; nra. Qed.

(** Two points of the edge inside the strip of AB, on opposite closed sides of AB: then the
    edge meets AB. *)
Lemma strip_meets : forall A B u v a b, py A < py B -> 0 <= a <= 1 -> 0 <= b <= 1 ->
  py A <= py (lerp u v a) <= py B -> py A <= py (lerp u v b) <= py B ->
  tri2 A B (lerp u v a) <= 0 -> 0 <= tri2 A B (lerp u v b) -> ~ misses A B u v.
Proof.
  intros A B u v a b Hy Ha Hb Ya Yb Sa Sb M.
  assert (X : exists l, 0 <= l <= 1 /\ tri2 A B (lerp u v a) + l * (tri2 A B (lerp u v b) - tri2 A B (lerp u v a)) == 0).
  { set (s := tri2 A B (lerp u v a)) in *. set (t := tri2 A B (lerp u v b)) in *. clearbody s t.
    destruct (Qeq_dec s t) as [E|E].
    - exists 0. split; [lra|]. lra.
    - exists (- s / (t - s)). assert (P : 0 < t - s) by lra. repeat split.
      + apply Qle_shift_div_l; lra.
      + apply Qle_shift_div_r; lra.
      + field. lra. }
  destruct X as (l & Hl & Z).
  set (t := a + l * (b - a)).
  assert (Ht : 0 <= t <= 1) by (apply (lerp_in a b l); auto; reflexivity).
  assert (Zt : tri2 A B (lerp u v t) == 0).
  { rewrite tri2_lerp. rewrite !tri2_lerp in Z. unfold t. lra. }
  assert (Yt : py A <= py (lerp u v t) <= py B).
  { rewrite lerp_py in *. unfold t.
    set (ya := py u + a * (py v - py u)) in *. set (yb := py u + b * (py v - py u)) in *.
    assert (E : py u + (a + l * (b - a)) * (py v - py u) == ya + l * (yb - ya)) by (unfold ya, yb; ring).
    rewrite E. clearbody ya yb. split; nra. }
  apply (M (lerp u v t)).
  - exists ((py (lerp u v t) - py A) / (py B - py A)). set (X := lerp u v t) in *. clearbody X. split.
    + split; [apply Qle_shift_div_l; lra|apply Qle_shift_div_r; lra].
    + unfold lerp, vadd, vscale, vsub; split; cbn [px py].
      * unfold tri2, cross, vsub in Zt; cbn [px py] in Zt.
        setoid_replace (px A + (py X - py A) / (py B - py A) * (px B - px A)) with
          (px A + (px B - px A) * (py X - py A) / (py B - py A)) by (field; lra).
        assert (E : (px B - px A) * (py X - py A) == (py B - py A) * (px X - px A)) by lra.
        rewrite E. field. lra.
      * field. lra.
  - exists t. split; [exact Ht|split; reflexivity].
Qed.
(** So all points of a missed edge inside the strip are strictly on one side. *)
Lemma strip_same_side : forall A B u v a b, py A < py B -> misses A B u v -> 0 <= a <= 1 -> 0 <= b <= 1 ->
  py A <= py (lerp u v a) <= py B -> py A <= py (lerp u v b) <= py B ->
  Qltb (tri2 A B (lerp u v a)) 0 = Qltb (tri2 A B (lerp u v b)) 0.
Proof.
  intros A B u v a b Hy M Ha Hb Ya Yb.
  apply bool_iff. rewrite !Qltb_lt. split; intro H.
  - destruct (Qlt_le_dec (tri2 A B (lerp u v b)) 0) as [L|L]; [exact L|].
    exfalso. apply (strip_meets A B u v a b); auto. lra.
  - destruct (Qlt_le_dec (tri2 A B (lerp u v a)) 0) as [L|L]; [exact L|].
    exfalso. apply (strip_meets A B u v b a); auto. lra.
Qed.
Lemma level_param : forall u v y, py u <= y -> y < py v -> exists t, 0 <= t <= 1 /\ py (lerp u v t) == y.
Proof.
  intros u v y H1 H2. exists ((y - py u) / (py v - py u)). repeat split.
  - apply Qle_shift_div_l; lra.
  - apply Qle_shift_div_r; lra.
  - rewrite lerp_py. field. lra.
Qed.
(** At the height of A (or of B) the side of AB is the side of the edge. *)
Lemma level_side_A : forall A B u v t, py A < py B -> py u < py v -> py (lerp u v t) == py A ->
  Qltb 0 (tri2 u v A) = Qltb (tri2 A B (lerp u v t)) 0.
Proof.
  intros A B u v t H1 H2 E. apply bool_iff. rewrite !Qltb_lt.
  assert (K : (py B - py A) * tri2 u v A == - (py v - py u) * tri2 A B (lerp u v t)).
  { rewrite lerp_py in E. unfold tri2, cross, lerp, vadd, vscale, vsub; cbn [px py].
    setoid_replace (py A) with (py u + t * (py v - py u)) by lra. ring. }
  split; intro H; nra.
Qed.
Lemma level_side_B : forall A B u v t, py A < py B -> py u < py v -> py (lerp u v t) == py B ->
  Qltb 0 (tri2 u v B) = Qltb (tri2 A B (lerp u v t)) 0.
Proof.
  intros A B u v t H1 H2 E. apply bool_iff. rewrite !Qltb_lt.
  assert (K : (py B - py A) * tri2 u v B == - (py v - py u) * tri2 A B (lerp u v t)).
  { rewrite lerp_py in E. unfold tri2, cross, lerp, vadd, vscale, vsub; cbn [px py].
    setoid_replace (py B) with (py u + t * (py v - py u)) by lra. ring. }
  split; intro H; nra.
Qed.
Lemma lerp_0 : forall u v, lerp u v 0 =p= u.
Proof. intros. unfold lerp, vadd, vscale, vsub; split; simpl; ring. Qed.
Lemma lerp_1 : forall u v, lerp u v 1 =p= v.
Proof. intros. unfold lerp, vadd, vscale, vsub; split; simpl; ring. Qed.
Lemma tri2_pteq : forall A B X Y, X =p= Y -> tri2 A B X == tri2 A B Y.
Proof. intros A B X Y [E1 E2]. unfold tri2, cross, vsub; cbn [px py]. rewrite E1, E2. reflexivity. Qed.
Lemma Qltb_eqv : forall a b c d, a == c -> b == d -> Qltb a b = Qltb c d.
Proof. intros a b c d H1 H2. apply bool_iff. rewrite !Qltb_lt. rewrite H1, H2. tauto. Qed.

(** The edge identity, upward edge missing AB. *)
Lemma edge_missed_up : forall A B u v, py A <= py B -> py u <= py v -> misses A B u v ->
  xorb (pip_flip A u v) (pip_flip B u v) = xorb (weight A B u) (weight A B v).
Proof.
  intros A B u v Hy Huv M.
  assert (P0 : Qltb (tri2 A B (lerp u v 0)) 0 = Qltb (tri2 A B u) 0) by (apply Qltb_eqv; [apply tri2_pteq, lerp_0|reflexivity]).
  assert (P1 : Qltb (tri2 A B (lerp u v 1)) 0 = Qltb (tri2 A B v) 0) by (apply Qltb_eqv; [apply tri2_pteq, lerp_1|reflexivity]).
  assert (Y0 : py (lerp u v 0) == py u) by (rewrite lerp_py; ring).
  assert (Y1 : py (lerp u v 1) == py v) by (rewrite lerp_py; ring).
  destruct (Qlt_le_dec (py A) (py v)) as [VA|VA].
  2:{ (* both at or below A *)
      rewrite (pip_flip_low A), (pip_flip_low B), (weight_low A B u), (weight_low A B v) by lra. reflexivity. }
  destruct (Qlt_le_dec (py B) (py u)) as [UB|UB].
  { rewrite (pip_flip_high A), (pip_flip_high B), (weight_high A B u), (weight_high A B v) by lra. reflexivity. }
  destruct (Qlt_le_dec (py A) (py u)) as [UA|UA].
  - (* u in the strip *)
    destruct (Qlt_le_dec (py B) (py v)) as [VB|VB].
    + (* v above *)
      rewrite (pip_flip_high A), (pip_flip_up B), (weight_mid A B u), (weight_high A B v) by lra.
      destruct (level_param u v (py B)) as (t & Ht & Et); [lra|lra|].
      rewrite (level_side_B A B u v t) by lra.
      rewrite (strip_same_side A B u v t 0), P0 by (assumption || lra). destruct (Qltb (tri2 A B u) 0); reflexivity.
    + rewrite (pip_flip_high A), (pip_flip_low B), (weight_mid A B u), (weight_mid A B v) by lra.
      rewrite <- P0, <- P1. rewrite (strip_same_side A B u v 0 1) by (assumption || lra). rewrite !xorb_nilpotent. reflexivity.
  - destruct (Qlt_le_dec (py B) (py v)) as [VB|VB].
    + rewrite (pip_flip_up A), (pip_flip_up B), (weight_low A B u), (weight_high A B v) by lra.
      destruct (Qlt_le_dec (py A) (py B)) as [S|S].
      * destruct (level_param u v (py A)) as (t & Ht & Et); [lra|lra|].
        destruct (level_param u v (py B)) as (s & Hs & Es); [lra|lra|].
        rewrite (level_side_A A B u v t), (level_side_B A B u v s) by lra.
        rewrite (strip_same_side A B u v t s) by (assumption || lra). apply xorb_nilpotent.
      * (* AB horizontal *)
        assert (EY : py A == py B) by lra.
        assert (Q : Qltb 0 (tri2 u v A) = Qltb 0 (tri2 u v B)); [|rewrite Q; apply xorb_nilpotent].
        destruct (level_param u v (py A)) as (t & Ht & Et); [lra|lra|].
        set (X := lerp u v t) in *.
        assert (KA : tri2 u v A == (py v - py u) * (px X - px A)).
        { unfold X. rewrite lerp_px. unfold X in Et. rewrite lerp_py in Et. unfold tri2, cross, vsub; cbn [px py].
          setoid_replace (py A) with (py u + t * (py v - py u)) by lra. ring. }
        assert (KB : tri2 u v B == (py v - py u) * (px X - px B)).
        { unfold X. rewrite lerp_px. unfold X in Et. rewrite lerp_py in Et. unfold tri2, cross, vsub; cbn [px py].
          setoid_replace (py B) with (py u + t * (py v - py u)) by lra. ring. }
        assert (NM : ~ (px A <= px X <= px B \/ px B <= px X <= px A)).
        { intro C. apply (M X); [|exists t; split; [exact Ht|split; reflexivity]].
          destruct (Qeq_dec (px A) (px B)) as [EX|EX].
          - exists 0. split; [lra|]. unfold lerp, vadd, vscale, vsub; split; cbn [px py]; lra.
          - exists ((px X - px A) / (px B - px A)). clear - C EX Et EY. clearbody X. split.
            + destruct C as [C|C].
              * split; [apply Qle_shift_div_l; lra|apply Qle_shift_div_r; lra].
              * setoid_replace ((px X - px A) / (px B - px A)) with ((px A - px X) / (px A - px B)) by (field; split; lra).
                split; [apply Qle_shift_div_l; lra|apply Qle_shift_div_r; lra].
            + unfold lerp, vadd, vscale, vsub; split; cbn [px py].
              * field; lra.
              * setoid_replace (py B - py A) with 0 by lra. lra. }
        apply bool_iff. rewrite !Qltb_lt, KA, KB. assert (PV : 0 < py v - py u) by lra.
        clear - NM PV. split; intro H.
        -- assert (px A < px X) by nra. destruct (Qlt_le_dec (px B) (px X)) as [L|L]; [nra|]. exfalso; apply NM; left; lra.
        -- assert (px B < px X) by nra. destruct (Qlt_le_dec (px A) (px X)) as [L|L]; [nra|]. exfalso; apply NM; right; lra.
    + rewrite (pip_flip_up A), (pip_flip_low B), (weight_low A B u), (weight_mid A B v) by lra.
      destruct (level_param u v (py A)) as (t & Ht & Et); [lra|lra|].
      rewrite (level_side_A A B u v t) by lra.
      rewrite (strip_same_side A B u v t 1), P1 by (assumption || lra). destruct (Qltb (tri2 A B v) 0); reflexivity.
Qed.
Lemma on_segment_swap : forall u v X, on_segment u v X -> on_segment v u X.
Proof.
  intros u v X (t & H & E1 & E2). exists (1 - t). split; [lra|]. unfold lerp, vadd, vscale, vsub in *; split; cbn [px py] in *;
  [rewrite E1|rewrite E2]; ring.
Qed.
Lemma edge_missed : forall A B u v, py A <= py B -> misses A B u v ->
  xorb (pip_flip A u v) (pip_flip B u v) = xorb (weight A B u) (weight A B v).
Proof.
  intros A B u v Hy M. destruct (Qlt_le_dec (py v) (py u)) as [L|L].
  - rewrite (pip_flip_sym A), (pip_flip_sym B), (xorb_comm (weight A B u)). apply edge_missed_up; [exact Hy|lra|].
    intros X H1 H2. apply (M X H1), on_segment_swap, H2.
  - apply edge_missed_up; auto.
Qed.
Definition opposite_signs (su sv ta tb : Q) : Prop := (0 < su /\ sv < 0 /\ ta < 0 /\ 0 < tb) \/ (su < 0 /\ 0 < sv /\ 0 < ta /\ tb < 0).
Lemma crossed_signs : forall su sv ta tb, su * sv < 0 -> ta * tb < 0 -> tb - ta == su - sv -> opposite_signs su sv ta tb.
Proof.
  assert (N1 : forall a b, a * b < 0 -> 0 < a -> b < 0) by (intros; nra).
  assert (N2 : forall a b, a * b < 0 -> a <= 0 -> a < 0 /\ 0 < b).
  { intros a b H1 H2. assert (a < 0) by (destruct (Qlt_le_dec a 0); [assumption|assert (E : a == 0) by lra; rewrite E in H1; lra]). split; nra. }
  intros su sv ta tb C1 C2 I. unfold opposite_signs.
  destruct (Qlt_le_dec 0 su) as [P|P]; destruct (Qlt_le_dec 0 ta) as [T|T].
  - specialize (N1 su sv C1 P) as X. specialize (N1 ta tb C2 T). lra.
  - specialize (N1 su sv C1 P). specialize (N2 ta tb C2 T). lra.
  - specialize (N2 su sv C1 P). specialize (N1 ta tb C2 T). lra.
  - specialize (N2 su sv C1 P) as X. specialize (N2 ta tb C2 T). lra.
Qed.
Lemma crossed_level : forall su sv ta tb u v a, opposite_signs su sv ta tb -> tb - ta == su - sv ->
  su * v - sv * u == tb * a - ta * a -> u <= a -> v <= a -> u == a.
Proof.
  intros su sv ta tb u v a S I1 I2 U V. 
  assert (E : su * (v - a) + sv * (a - u) == 0).
  { setoid_replace (su * (v - a) + sv * (a - u)) with (su * v - sv * u - (su - sv) * a) by ring. rewrite I2, <- I1. ring. }
  destruct S as [(S1 & S2 & S3 & S4)|(S1 & S2 & S3 & S4)]; destruct (Qlt_le_dec u a) as [L|L]; try lra; exfalso.
  - assert (su * (v - a) <= 0) by nra. assert (sv * (a - u) < 0) by nra. lra.
  - assert (0 <= su * (v - a)) by nra. assert (0 < sv * (a - u)) by nra. lra.
Qed.
Lemma crossed_below : forall su sv ta tb u v a b, opposite_signs su sv ta tb -> tb - ta == su - sv ->
  su * v - sv * u == tb * a - ta * b -> a < b -> u <= a -> v <= a -> False.
Proof.
  intros su sv ta tb u v a b S I1 I2 L U V.
  assert (E : su * (v - a) + sv * (a - u) == ta * (a - b)).
  { setoid_replace (su * (v - a) + sv * (a - u)) with (su * v - sv * u - (su - sv) * a) by ring. rewrite I2, <- I1. ring. }
  destruct S as [(S1 & S2 & S3 & S4)|(S1 & S2 & S3 & S4)].
  - assert (su * (v - a) <= 0) by nra. assert (sv * (a - u) <= 0) by nra. assert (0 < ta * (a - b)) by nra. lra.
  - assert (0 <= su * (v - a)) by nra. assert (0 <= sv * (a - u)) by nra. assert (ta * (a - b) < 0) by nra. lra.
Qed.
Lemma crossed_above : forall su sv ta tb u v a b, opposite_signs su sv ta tb -> tb - ta == su - sv ->
  su * v - sv * u == tb * a - ta * b -> a <= b -> b < u -> b < v -> False.
Proof.
  intros su sv ta tb u v a b S I1 I2 L U V.
  assert (E : su * (v - b) + sv * (b - u) == tb * (a - b)).
  { setoid_replace (su * (v - b) + sv * (b - u)) with (su * v - sv * u - (su - sv) * b) by ring. rewrite I2, <- I1. ring. }
  destruct S as [(S1 & S2 & S3 & S4)|(S1 & S2 & S3 & S4)].
  - assert (0 < su * (v - b)) by nra. assert (0 < sv * (b - u)) by nra. assert (tb * (a - b) <= 0) by nra. lra.
  - assert (su * (v - b) < 0) by nra. assert (sv * (b - u) < 0) by nra. assert (0 <= tb * (a - b)) by nra. lra.
Qed.
Lemma edge_crossed_up : forall A B u v, py A <= py B -> py u <= py v -> crosses A B u v ->
  xorb (pip_flip A u v) (pip_flip B u v) = negb (xorb (weight A B u) (weight A B v)).
Proof.
  intros A B u v Hy Huv [C1 C2].
  set (su := tri2 A B u) in *. set (sv := tri2 A B v) in *. set (ta := tri2 u v A) in *. set (tb := tri2 u v B) in *.
  assert (I1 : tb - ta == su - sv) by (unfold su, sv, ta, tb, tri2, cross, vsub; cbn [px py]; ring).
  assert (I2 : su * py v - sv * py u == tb * py A - ta * py B) by (unfold su, sv, ta, tb, tri2, cross, vsub; cbn [px py]; ring).
  assert (HU : py A == py B -> su == (px B - px A) * (py u - py A))
    by (intro E; unfold su, tri2, cross, vsub; cbn [px py]; rewrite E; ring).
  pose proof (crossed_signs su sv ta tb C1 C2 I1) as S.
  assert (LL : ~ (py u <= py A /\ py v <= py A)).
  { intros [U V]. destruct (Qeq_dec (py A) (py B)) as [E|E].
    - specialize (HU E). rewrite <- E in I2. pose proof (crossed_level su sv ta tb (py u) (py v) (py A) S I1 I2 U V) as U0.
      assert (U1 : py u - py A == 0) by lra. rewrite U1 in HU. unfold opposite_signs in S; destruct S as [S|S]; lra.
    - apply (crossed_below su sv ta tb (py u) (py v) (py A) (py B) S I1 I2); lra. }
  assert (HH : ~ (py B < py u /\ py B < py v)) by (intros [U V]; apply (crossed_above su sv ta tb (py u) (py v) (py A) (py B) S I1 I2); lra).
  assert (Q1 : Qltb su 0 = negb (Qltb sv 0)) by (apply bool_iff; rewrite negb_true_iff; split; intro H;
     [apply Qltb_lt in H; destruct (Qltb_spec sv 0); [unfold opposite_signs in S; destruct S as [S|S]; lra|reflexivity]
     |destruct (Qltb_spec sv 0); [discriminate|apply Qltb_lt; unfold opposite_signs in S; destruct S as [S|S]; lra]]).
  assert (Q2 : Qltb 0 ta = Qltb su 0) by (apply bool_iff; rewrite !Qltb_lt; split; intro H; unfold opposite_signs in S; destruct S as [S|S]; lra).
  assert (Q3 : Qltb 0 tb = Qltb sv 0) by (apply bool_iff; rewrite !Qltb_lt; split; intro H; unfold opposite_signs in S; destruct S as [S|S]; lra).
  destruct (Qlt_le_dec (py A) (py v)) as [VA|VA]; [|exfalso; apply LL; split; lra].
  destruct (Qlt_le_dec (py B) (py u)) as [UB|UB]; [exfalso; apply HH; split; lra|].
  destruct (Qlt_le_dec (py A) (py u)) as [UA|UA]; destruct (Qlt_le_dec (py B) (py v)) as [VB|VB].
  - rewrite (pip_flip_high A), (pip_flip_up B), (weight_mid A B u), (weight_high A B v) by lra. fold su tb.
    rewrite Q3, Q1. destruct (Qltb sv 0); reflexivity.
  - rewrite (pip_flip_high A), (pip_flip_low B), (weight_mid A B u), (weight_mid A B v) by lra. fold su sv.
    rewrite Q1. destruct (Qltb sv 0); reflexivity.
  - rewrite (pip_flip_up A), (pip_flip_up B), (weight_low A B u), (weight_high A B v) by lra. fold ta tb.
    rewrite Q2, Q3, Q1. destruct (Qltb sv 0); reflexivity.
  - rewrite (pip_flip_up A), (pip_flip_low B), (weight_low A B u), (weight_mid A B v) by lra. fold ta sv.
    rewrite Q2, Q1. destruct (Qltb sv 0); reflexivity.
Qed.
Lemma crosses_swap_edge : forall A B u v, crosses A B u v -> crosses A B v u.
Proof.
  intros A B u v [H1 H2]. split.
  - setoid_replace (tri2 A B v * tri2 A B u) with (tri2 A B u * tri2 A B v) by ring. exact H1.
  - setoid_replace (tri2 v u A * tri2 v u B) with (tri2 u v A * tri2 u v B) by (unfold tri2, cross, vsub; cbn [px py]; ring). exact H2.
Qed.
Lemma crosses_swap_path : forall A B u v, crosses A B u v -> crosses B A u v.
Proof.
  intros A B u v [H1 H2]. split.
  - setoid_replace (tri2 B A u * tri2 B A v) with (tri2 A B u * tri2 A B v) by (unfold tri2, cross, vsub; cbn [px py]; ring). exact H1.
  - setoid_replace (tri2 u v B * tri2 u v A) with (tri2 u v A * tri2 u v B) by ring. exact H2.
Qed.
Lemma edge_crossed : forall A B u v, py A <= py B -> crosses A B u v ->
  xorb (pip_flip A u v) (pip_flip B u v) = negb (xorb (weight A B u) (weight A B v)).
Proof.
  intros A B u v Hy C. destruct (Qlt_le_dec (py v) (py u)) as [L|L].
  - rewrite (pip_flip_sym A), (pip_flip_sym B), (xorb_comm (weight A B u)). apply edge_crossed_up; [exact Hy|lra|].
    apply crosses_swap_edge, C.
  - apply edge_crossed_up; auto.
Qed.
Lemma misses_swap_path : forall A B u v, misses A B u v -> misses B A u v.
Proof. intros A B u v M X H1 H2. apply (M X); [apply on_segment_swap, H1|exact H2]. Qed.

(** If every edge is either missed or crossed properly, the answers at the two ends differ by
    the parity of the number of crossed edges. *)
Lemma crossing_parity_le : forall A B es (cr : pt -> pt -> bool), py A <= py B ->
  (forall u v, In (u, v) es -> if cr u v then crosses A B u v else misses A B u v) ->
  xsum (fun u v => xorb (pip_flip A u v) (pip_flip B u v)) es =
  xorb (xsum cr es) (xsum (fun u v => xorb (weight A B u) (weight A B v)) es).
Proof.
  intros A B es cr Hy H. rewrite <- xsum_xor. apply xsum_ext. intros u v I. specialize (H u v I).
  destruct (cr u v).
  - rewrite edge_crossed by assumption. destruct (xorb (weight A B u) (weight A B v)); reflexivity.
  - rewrite edge_missed by assumption. destruct (xorb (weight A B u) (weight A B v)); reflexivity.
Qed.
Lemma crossing_parity : forall A B ps (cr : pt -> pt -> bool), (3 <= length ps)%nat ->
  (forall i u v, polygon_edge ps i u v -> if cr u v then crosses A B u v else misses A B u v) ->
  xorb (point_in_polygon A ps) (point_in_polygon B ps) = xsum cr (closed_chain ps).
Proof.
  intros A B ps cr L H. rewrite !pip_xsum. destruct (Nat.ltb_spec (length ps) 3); [lia|]. cbn [negb andb].
  assert (H' : forall u v, In (u, v) (closed_chain ps) -> if cr u v then crosses A B u v else misses A B u v).
  { intros u v I. apply in_closed_chain in I as [i I]. apply (H i u v I). }
  rewrite <- xsum_xor. destruct (Qlt_le_dec (py B) (py A)) as [S|S].
  - rewrite (xsum_ext _ (fun u v => xorb (pip_flip B u v) (pip_flip A u v))) by (intros; apply xorb_comm).
    rewrite (crossing_parity_le B A (closed_chain ps) cr); [|lra|].
    + rewrite xsum_tele. apply xorb_false_r.
    + intros u v I. specialize (H' u v I). destruct (cr u v); [apply crosses_swap_path, H'|apply misses_swap_path, H'].
  - rewrite (crossing_parity_le A B (closed_chain ps) cr) by assumption. rewrite xsum_tele. apply xorb_false_r.
Qed.
Lemma pip_same_component : forall A B ps, (forall i u v, polygon_edge ps i u v -> misses A B u v) ->
  point_in_polygon A ps = point_in_polygon B ps.
Proof.
  intros A B ps H. destruct (Nat.le_gt_cases 3 (length ps)) as [L|L].
  - pose proof (crossing_parity A B ps (fun _ _ => false) L H) as P.
    assert (Z : xsum (fun _ _ => false) (closed_chain ps) = false).
    { clear P. induction (closed_chain ps) as [|e es IH]; [reflexivity|]. simpl. rewrite IH. reflexivity. }
    rewrite Z in P. apply xorb_eq, P.
  - rewrite !pip_xsum. destruct (Nat.ltb_spec (length ps) 3); [reflexivity|lia].
Qed.
Lemma xsum_false : forall f es, (forall u v, In (u, v) es -> f u v = false) -> xsum f es = false.
Proof.
  intros f es H. induction es as [|[u v] es IH]; [reflexivity|]. simpl. rewrite (H u v) by (left; reflexivity).
  rewrite IH; [reflexivity|]. intros; apply H; right; assumption.
Qed.
Lemma polygon_edge_in : forall ps i u v, polygon_edge ps i u v -> In u ps /\ In v ps.
Proof. intros ps i u v [H1 H2]. split; eapply nth_error_In; eassumption. Qed.
Lemma pip_outside_box : forall A ps, outside_box ps A -> point_in_polygon A ps = false.
Proof.
  intros A ps H. rewrite pip_xsum. destruct (Nat.ltb (length ps) 3); [reflexivity|]. cbn [negb andb].
  assert (V : forall u v, In (u, v) (closed_chain ps) -> In u ps /\ In v ps).
  { intros u v I. apply in_closed_chain in I as [i I]. apply (polygon_edge_in ps i u v I). }
  assert (UP : forall u v, py u <= py A -> py A < py v -> tri2 u v A == (py v - py u) * (px u - px A) + (px v - px u) * (py A - py u))
    by (intros; unfold tri2, cross, vsub; cbn [px py]; ring).
  destruct H as [H|[H|[H|H]]].
  - apply xsum_false. intros u v I. apply V in I as [Iu Iv]. pose proof (H u Iu). pose proof (H v Iv).
    assert (F : forall a b, px a < px A -> px b < px A -> py a <= py A -> py A < py b -> pip_flip A a b = false).
    { intros a b X1 X2 Y1 Y2. rewrite pip_flip_up by assumption. destruct (Qltb_spec 0 (tri2 a b A)) as [P|P]; [|reflexivity]. exfalso.
      rewrite UP in P by assumption. clear - X1 X2 Y1 Y2 P.
      assert (E : (py b - py a) * (px a - px A) + (px b - px a) * (py A - py a) ==
                  (py b - py A) * (px a - px A) + (py A - py a) * (px b - px A)) by ring.
      rewrite E in P. assert ((py b - py A) * (px a - px A) < 0) by nra. assert ((py A - py a) * (px b - px A) <= 0) by nra. lra. }
    destruct (Qlt_le_dec (py A) (py u)); destruct (Qlt_le_dec (py A) (py v)).
    + apply pip_flip_high; assumption.
    + rewrite pip_flip_sym. apply F; assumption.
    + apply F; assumption.
    + apply pip_flip_low; assumption.
  - rewrite (xsum_ext _ (fun u v => xorb (Qltb (py A) (py u)) (Qltb (py A) (py v)))); [apply (xsum_tele (fun v => Qltb (py A) (py v)))|].
    intros u v I. apply V in I as [Iu Iv]. pose proof (H u Iu). pose proof (H v Iv).
    assert (F : forall a b, px A < px a -> px A < px b -> py a <= py A -> py A < py b -> pip_flip A a b = true).
    { intros a b X1 X2 Y1 Y2. rewrite pip_flip_up by assumption. apply Qltb_lt. rewrite UP by assumption. clear - X1 X2 Y1 Y2.
      assert (E : (py b - py a) * (px a - px A) + (px b - px a) * (py A - py a) ==
                  (py b - py A) * (px a - px A) + (py A - py a) * (px b - px A)) by ring.
      rewrite E. assert (0 < (py b - py A) * (px a - px A)) by nra. assert (0 <= (py A - py a) * (px b - px A)) by nra. lra. }
    destruct (Qltb_spec (py A) (py u)); destruct (Qltb_spec (py A) (py v)); cbn [xorb negb].
    + apply pip_flip_high; assumption.
    + rewrite pip_flip_sym. apply F; assumption.
    + apply F; assumption.
    + apply pip_flip_low; assumption.
  - apply xsum_false. intros u v I. apply V in I as [Iu Iv]. pose proof (H u Iu). pose proof (H v Iv). apply pip_flip_low; lra.
  - apply xsum_false. intros u v I. apply V in I as [Iu Iv]. pose proof (H u Iu). pose proof (H v Iv). apply pip_flip_high; lra.
Qed.
Lemma pip_path : forall ps path A, avoiding_path ps A path -> point_in_polygon A ps = point_in_polygon (last path A) ps.
Proof.
  induction path as [|B path IH]; intros A H; [reflexivity|]. destruct H as [H1 H2].
  rewrite (pip_same_component A B ps H1), (IH B H2). destruct path as [|C path]; [reflexivity|].
  rewrite (last_indep (C :: path) B A) by discriminate. reflexivity.
Qed.
Lemma pip_rotate : forall A l1 l2, point_in_polygon A (l1 ++ l2) = point_in_polygon A (l2 ++ l1).
Proof.
  intros A l1 l2. rewrite !pip_xsum, !app_length, (Nat.add_comm (length l2)).
  rewrite (xsum_perm _ _ _ (closed_chain_rotate l1 l2)). reflexivity.
Qed.
Lemma pip_reverse : forall A l, point_in_polygon A (rev l) = point_in_polygon A l.
Proof.
  intros A l. rewrite !pip_xsum, rev_length. rewrite (xsum_perm _ _ _ (closed_chain_rev l)), xsum_swap.
  f_equal. apply xsum_ext. intros; apply pip_flip_sym.
Qed.

(** ** Parity over indexed edges *)

Fixpoint isum (f : nat -> bool) (n : nat) : bool := match n with O => false | S n' => xorb (isum f n') (f n') end.
Lemma isum_odd : forall f n, isum f n = Nat.odd (count_below f n).
Proof.
  intros f n. unfold count_below. induction n as [|n IH]; [reflexivity|]. rewrite seq_S, filter_app, app_length. simpl.
  rewrite IH. destruct (f n); cbn [filter length].
  - rewrite Nat.add_1_r, Nat.odd_succ, <- Nat.negb_odd. destruct (Nat.odd _); reflexivity.
  - rewrite Nat.add_0_r. destruct (Nat.odd _); reflexivity.
Qed.
Lemma isum_ext : forall f g n, (forall i, (i < n)%nat -> f i = g i) -> isum f n = isum g n.
Proof. induction n as [|n IH]; intro H; [reflexivity|]. simpl. rewrite IH by (intros; apply H; lia). rewrite H by lia. reflexivity. Qed.
Lemma xsum_app : forall f l1 l2, xsum f (l1 ++ l2) = xorb (xsum f l1) (xsum f l2).
Proof. induction l1 as [|e l1 IH]; intro l2; simpl; [symmetry; apply xorb_false_l|]. rewrite IH. rewrite xorb_assoc. reflexivity. Qed.
Lemma xsum_chain_index : forall f ps prev d, xsum f (chain prev ps) = isum (fun i => f (nth i (prev :: ps) d) (nth i ps d)) (length ps).
Proof.
  intros f ps prev d. induction ps as [|b ps IH] using rev_ind; [reflexivity|].
  rewrite chain_app, xsum_app, IH, app_length, Nat.add_1_r. cbn [isum]. f_equal.
  - apply isum_ext. intros i Hi. rewrite (app_nth1 ps [b]) by exact Hi.
    change (prev :: ps ++ [b]) with ((prev :: ps) ++ [b]). rewrite app_nth1 by (simpl; lia). reflexivity.
  - cbn [chain xsum fst snd]. rewrite xorb_false_r. rewrite (app_nth2 ps [b] d (n := length ps)) by lia. rewrite Nat.sub_diag.
    assert (E : last ps prev = nth (length ps) (prev :: ps ++ [b]) d).
    { destruct ps as [|x ps]; [reflexivity|]. rewrite last_pnth by discriminate. simpl length.
      replace (S (length ps) - 1)%nat with (length ps) by lia. change (nth (S (length ps)) (prev :: (x :: ps) ++ [b]) d) with (nth (length ps) ((x :: ps) ++ [b]) d). rewrite app_nth1 by (simpl; lia). apply nth_indep. simpl; lia. }
    rewrite <- E. reflexivity.
Qed.
Lemma xsum_index : forall f ps, xsum f (closed_chain ps) = isum (fun i => f (pnth ps i) (pnth ps (S i mod length ps))) (length ps).
Proof.
  intros f [|a ps]; [reflexivity|]. unfold closed_chain. cbn [chain xsum fst snd].
  rewrite (xsum_chain_index f ps a (mkpt 0 0)). simpl length. cbn [isum]. rewrite Nat.mod_same by lia. rewrite xorb_comm. f_equal.
  - apply isum_ext. intros i Hi. rewrite Nat.mod_small by lia. reflexivity.
  - f_equal. unfold pnth. rewrite last_pnth by discriminate. simpl length. replace (S (length ps) - 1)%nat with (length ps) by lia.
    apply nth_indep. simpl; lia.
Qed.
Lemma edge_at : forall ps i, (i < length ps)%nat -> polygon_edge ps i (pnth ps i) (pnth ps (S i mod length ps)).
Proof.
  intros ps i H. split; apply nth_error_nth'; [exact H|]. apply Nat.mod_upper_bound. lia.
Qed.
Lemma edge_pnth : forall ps i u v, polygon_edge ps i u v -> (i < length ps)%nat /\ u = pnth ps i /\ v = pnth ps (S i mod length ps).
Proof.
  intros ps i u v [H1 H2]. split; [apply nth_error_Some; congruence|]. unfold pnth.
  split; symmetry; apply nth_error_nth; assumption.
Qed.
Lemma crossing_parity_index : forall A B ps (cr : nat -> bool), (3 <= length ps)%nat ->
  (forall i u v, polygon_edge ps i u v -> if cr i then crosses A B u v else misses A B u v) ->
  xorb (point_in_polygon A ps) (point_in_polygon B ps) = Nat.odd (count_below cr (length ps)).
Proof.
  assert (G : forall A B ps (cr : nat -> bool), py A <= py B -> (3 <= length ps)%nat ->
    (forall i u v, polygon_edge ps i u v -> if cr i then crosses A B u v else misses A B u v) ->
    xorb (point_in_polygon A ps) (point_in_polygon B ps) = Nat.odd (count_below cr (length ps))).
  { intros A B ps cr Hy L H. rewrite !pip_xsum. destruct (Nat.ltb_spec (length ps) 3); [lia|]. cbn [negb andb].
    rewrite <- xsum_xor. rewrite <- isum_odd.
    rewrite <- (xorb_false_r (isum cr (length ps))), <- (xsum_tele (weight A B) ps).
    rewrite !xsum_index.
    assert (X : forall f g n, xorb (isum f n) (isum g n) = isum (fun i => xorb (f i) (g i)) n).
    { clear. induction n as [|n IH]; [reflexivity|]. simpl. rewrite <- IH.
      destruct (isum f n), (isum g n), (f n), (g n); reflexivity. }
    rewrite X. apply isum_ext. intros i Hi. specialize (H i _ _ (edge_at ps i Hi)).
    destruct (cr i).
    - rewrite edge_crossed by assumption. destruct (xorb (weight A B _) _); reflexivity.
    - rewrite edge_missed by assumption. destruct (xorb (weight A B _) _); reflexivity. }
  intros A B ps cr L H. destruct (Qlt_le_dec (py B) (py A)) as [S|S].
  - rewrite xorb_comm. apply G; [lra|exact L|]. intros i u v E. specialize (H i u v E).
    destruct (cr i); [apply crosses_swap_path, H|apply misses_swap_path, H].
  - apply G; assumption.
Qed.

(** ** Triangles *)

Lemma tri2_sum : forall A B C p, tri2 A B p + tri2 B C p + tri2 C A p == tri2 A B C.
Proof. intros. unfold tri2, cross, vsub; cbn [px py]. ring. Qed.
Lemma tri2_cyc : forall A B C, tri2 B C A == tri2 A B C.
Proof. intros. unfold tri2, cross, vsub; cbn [px py]. ring. Qed.
Lemma tri2_swap : forall A B C, tri2 B A C == - tri2 A B C.
Proof. intros. unfold tri2, cross, vsub; cbn [px py]. ring. Qed.
Lemma in_triangle_iff : forall A B C p, 0 < tri2 A B C ->
  (in_triangle A B C p <-> 0 <= tri2 A B p /\ 0 <= tri2 B C p /\ 0 <= tri2 C A p).
Proof.
  intros A B C p T. split.
  - intros (a & b & c & Ha & Hb & Hc & S & E).
    assert (E1 : tri2 A B p == c * tri2 A B C).
    { rewrite (tri2_pteq A B _ _ E). unfold tri2, cross, vadd, vscale, vsub; cbn [px py].
      setoid_replace a with (1 - b - c) by lra. ring. }
    assert (E2 : tri2 B C p == a * tri2 A B C).
    { rewrite (tri2_pteq B C _ _ E). unfold tri2, cross, vadd, vscale, vsub; cbn [px py].
      setoid_replace a with (1 - b - c) by lra. ring. }
    assert (E3 : tri2 C A p == b * tri2 A B C).
    { rewrite (tri2_pteq C A _ _ E). unfold tri2, cross, vadd, vscale, vsub; cbn [px py].
      setoid_replace a with (1 - b - c) by lra. ring. }
    rewrite E1, E2, E3. set (t := tri2 A B C) in *. clearbody t. clear - T Ha Hb Hc. repeat split; nra.
  - intros (H1 & H2 & H3). pose proof (tri2_sum A B C p) as S.
    exists (tri2 B C p / tri2 A B C), (tri2 C A p / tri2 A B C), (tri2 A B p / tri2 A B C).
    assert (NZ : ~ tri2 A B C == 0) by lra.
    repeat split; try (apply Qle_shift_div_l; lra).
    + rewrite <- S. field. lra.
    + unfold vadd, vscale; cbn [px py].
      setoid_replace (tri2 B C p / tri2 A B C * px A + (tri2 C A p / tri2 A B C * px B + tri2 A B p / tri2 A B C * px C))
        with ((tri2 B C p * px A + tri2 C A p * px B + tri2 A B p * px C) / tri2 A B C) by (field; exact NZ).
      setoid_replace (tri2 B C p * px A + tri2 C A p * px B + tri2 A B p * px C) with (px p * tri2 A B C)
        by (unfold tri2, cross, vsub; cbn [px py]; ring). field. exact NZ.
    + unfold vadd, vscale; cbn [px py].
      setoid_replace (tri2 B C p / tri2 A B C * py A + (tri2 C A p / tri2 A B C * py B + tri2 A B p / tri2 A B C * py C))
        with ((tri2 B C p * py A + tri2 C A p * py B + tri2 A B p * py C) / tri2 A B C) by (field; exact NZ).
      setoid_replace (tri2 B C p * py A + tri2 C A p * py B + tri2 A B p * py C) with (py p * tri2 A B C)
        by (unfold tri2, cross, vsub; cbn [px py]; ring). field. exact NZ.
Qed.
Lemma pit_char : forall p A B C, point_in_triangle direct p A B C = true <-> 0 <= tri2 A B p /\ 0 <= tri2 B C p /\ 0 <= tri2 C A p.
Proof.
  intros p A B C. unfold point_in_triangle. cbn [less_than direct].
  assert (E : forall a b, pseudo_cross_2d (vsub p a) (vsub b a) == tri2 a b p)
    by (intros; unfold pseudo_cross_2d, tri2, cross, vsub; cbn [px py]; ring).
  destruct (Qltb_spec (pseudo_cross_2d (vsub p A) (vsub B A)) 0) as [H1|H1]; rewrite E in H1; [split; [discriminate|intros; lra]|].
  destruct (Qltb_spec (pseudo_cross_2d (vsub p B) (vsub C B)) 0) as [H2|H2]; rewrite E in H2; [split; [discriminate|intros; lra]|].
  destruct (Qltb_spec (pseudo_cross_2d (vsub p C) (vsub A C)) 0) as [H3|H3]; rewrite E in H3; [split; [discriminate|intros; lra]|].
  split; [intros; repeat split; lra|reflexivity].
Qed.
Lemma pit_ccw : forall p A B C, 0 < tri2 A B C -> (point_in_triangle direct p A B C = true <-> in_triangle A B C p).
Proof. intros p A B C T. rewrite pit_char, in_triangle_iff by exact T. tauto. Qed.
Lemma pit_cw : forall p A B C, tri2 A B C < 0 -> point_in_triangle direct p A B C = false.
Proof.
  intros p A B C T. destruct (point_in_triangle direct p A B C) eqn:E; [|reflexivity]. apply pit_char in E.
  pose proof (tri2_sum A B C p). lra.
Qed.
Lemma pit_degenerate : forall p A B C, tri2 A B C == 0 ->
  (point_in_triangle direct p A B C = true <-> tri2 A B p == 0 /\ tri2 B C p == 0 /\ tri2 C A p == 0).
Proof. intros p A B C T. rewrite pit_char. pose proof (tri2_sum A B C p). split; intros; repeat split; lra. Qed.
(** With a tolerance no point of the triangle is rejected. *)
Lemma pit_tolerant : forall t p A B C, 0 <= t -> point_in_triangle direct p A B C = true -> point_in_triangle (absolute t) p A B C = true.
Proof.
  intros t p A B C Ht H. apply pit_char in H as (H1 & H2 & H3). unfold point_in_triangle.
  assert (E : forall a b, pseudo_cross_2d (vsub p a) (vsub b a) == tri2 a b p)
    by (intros; unfold pseudo_cross_2d, tri2, cross, vsub; cbn [px py]; ring).
  assert (L : forall x, 0 <= x -> less_than (absolute t) x 0 = false).
  { intros x Hx. unfold less_than, absolute. qcase; try reflexivity; lra. }
  rewrite !L; [reflexivity| | |]; rewrite E; assumption.
Qed.
(** In space. *)
Lemma pit3_char : forall p A B C, ~ dot3 (cross3 (vsub3 B A) (vsub3 C A)) (cross3 (vsub3 B A) (vsub3 C A)) == 0 ->
  coplanar3 A B C p ->
  (point_in_triangle3 direct p A B C = true <-> in_triangle3 A B C p \/ (exists t, pt3eq p (vadd3 B (vscale3 t (vsub3 C B))))).
Proof.
  intros p A B C N (a & b & c & S & E).
  set (n := cross3 (vsub3 B A) (vsub3 C A)) in *.
  assert (NP : 0 < dot3 n n).
  { assert (0 <= dot3 n n) by (unfold dot3; pose proof (sq_nonneg (x3 n)); pose proof (sq_nonneg (y3 n)); pose proof (sq_nonneg (z3 n)); lra). lra. }
  destruct E as (E1 & E2 & E3). unfold vadd3, vscale3 in E1, E2, E3; cbn [x3 y3 z3] in E1, E2, E3.
  assert (Ea : a == 1 - b - c) by lra.
  assert (UV : dot3 (cross3 (vsub3 B p) (vsub3 C p)) (cross3 (vsub3 C p) (vsub3 A p)) == (a * b) * dot3 n n).
  { unfold n, dot3, cross3, vsub3; cbn [x3 y3 z3]. rewrite E1, E2, E3, Ea. ring. }
  assert (UW : dot3 (cross3 (vsub3 B p) (vsub3 C p)) (cross3 (vsub3 A p) (vsub3 B p)) == (a * c) * dot3 n n).
  { unfold n, dot3, cross3, vsub3; cbn [x3 y3 z3]. rewrite E1, E2, E3, Ea. ring. }
  assert (R : point_in_triangle3 direct p A B C = true <-> 0 <= a * b /\ 0 <= a * c).
  { unfold point_in_triangle3. cbv zeta. cbn [less_than direct].
    set (k := dot3 n n) in *. clearbody k.
    destruct (Qltb_spec (dot3 (cross3 (vsub3 B p) (vsub3 C p)) (cross3 (vsub3 C p) (vsub3 A p))) 0) as [H1|H1]; rewrite UV in H1.
    - split; [discriminate|]. intros [H _]. clear - H H1 NP. nra.
    - destruct (Qltb_spec (dot3 (cross3 (vsub3 B p) (vsub3 C p)) (cross3 (vsub3 A p) (vsub3 B p))) 0) as [H2|H2]; rewrite UW in H2.
      + split; [discriminate|]. intros [_ H]. clear - H H2 NP. nra.
      + split; [|reflexivity]. intros _. clear - H1 H2 NP. split; nra. }
  rewrite R. split.
  - intros [H1 H2]. destruct (Qlt_le_dec 0 a) as [P|P].
    + left. exists a, b, c. assert (0 <= b) by (clear - H1 P; nra). assert (0 <= c) by (clear - H2 P; nra).
      repeat split; try lra; unfold vadd3, vscale3; cbn [x3 y3 z3]; assumption.
    + right. destruct (Qlt_le_dec a 0) as [Q|Q].
      * exfalso. assert (b <= 0) by (clear - H1 Q; nra). assert (c <= 0) by (clear - H2 Q; nra). lra.
      * exists c. assert (a == 0) by lra. assert (b == 1 - c) by lra. unfold vadd3, vscale3, vsub3; repeat split; cbn [x3 y3 z3];
          [rewrite E1|rewrite E2|rewrite E3]; rewrite H, H0; ring.
  - intros [(a' & b' & c' & Ha & Hb & Hc & S' & E')|[t E']].
    + assert (K : a == a' /\ b == b' /\ c == c'); [|destruct K as (K1 & K2 & K3); rewrite K1, K2, K3; clear - Ha Hb Hc; split; nra].
      destruct E' as (F1 & F2 & F3). unfold vadd3, vscale3 in F1, F2, F3; cbn [x3 y3 z3] in F1, F2, F3.
      (* the coordinates are unique because the normal is not zero *)
      assert (D1 : (b - b') * (x3 B - x3 A) + (c - c') * (x3 C - x3 A) == 0) by (clear - E1 F1 Ea S'; assert (a' == 1 - b' - c') by lra; rewrite Ea in E1; rewrite H in F1; lra).
      assert (D2 : (b - b') * (y3 B - y3 A) + (c - c') * (y3 C - y3 A) == 0) by (clear - E2 F2 Ea S'; assert (a' == 1 - b' - c') by lra; rewrite Ea in E2; rewrite H in F2; lra).
      assert (D3 : (b - b') * (z3 B - z3 A) + (c - c') * (z3 C - z3 A) == 0) by (clear - E3 F3 Ea S'; assert (a' == 1 - b' - c') by lra; rewrite Ea in E3; rewrite H in F3; lra).
      assert (UB : (b - b') * dot3 n n == 0).
      { assert (B1 : (b - b') * x3 n == 0 /\ (b - b') * y3 n == 0 /\ (b - b') * z3 n == 0).
        { unfold n, cross3, vsub3; cbn [x3 y3 z3]. repeat split.
          - setoid_replace ((b - b') * ((y3 B - y3 A) * (z3 C - z3 A) - (z3 B - z3 A) * (y3 C - y3 A))) with
              ((z3 C - z3 A) * ((b - b') * (y3 B - y3 A) + (c - c') * (y3 C - y3 A)) - (y3 C - y3 A) * ((b - b') * (z3 B - z3 A) + (c - c') * (z3 C - z3 A))) by ring.
            rewrite D2, D3. ring.
          - setoid_replace ((b - b') * ((z3 B - z3 A) * (x3 C - x3 A) - (x3 B - x3 A) * (z3 C - z3 A))) with
              ((x3 C - x3 A) * ((b - b') * (z3 B - z3 A) + (c - c') * (z3 C - z3 A)) - (z3 C - z3 A) * ((b - b') * (x3 B - x3 A) + (c - c') * (x3 C - x3 A))) by ring.
            rewrite D1, D3. ring.
          - setoid_replace ((b - b') * ((x3 B - x3 A) * (y3 C - y3 A) - (y3 B - y3 A) * (x3 C - x3 A))) with
              ((y3 C - y3 A) * ((b - b') * (x3 B - x3 A) + (c - c') * (x3 C - x3 A)) - (x3 C - x3 A) * ((b - b') * (y3 B - y3 A) + (c - c') * (y3 C - y3 A))) by ring.
            rewrite D1, D2. ring. }
        destruct B1 as (B1 & B2 & B3). unfold dot3.
        setoid_replace ((b - b') * (x3 n * x3 n + y3 n * y3 n + z3 n * z3 n)) with (((b - b') * x3 n) * x3 n + ((b - b') * y3 n) * y3 n + ((b - b') * z3 n) * z3 n) by ring.
        rewrite B1, B2, B3. ring. }
      assert (UC : (c - c') * dot3 n n == 0).
      { assert (B1 : (c - c') * x3 n == 0 /\ (c - c') * y3 n == 0 /\ (c - c') * z3 n == 0).
        { unfold n, cross3, vsub3; cbn [x3 y3 z3]. repeat split.
          - setoid_replace ((c - c') * ((y3 B - y3 A) * (z3 C - z3 A) - (z3 B - z3 A) * (y3 C - y3 A))) with
              ((y3 B - y3 A) * ((b - b') * (z3 B - z3 A) + (c - c') * (z3 C - z3 A)) - (z3 B - z3 A) * ((b - b') * (y3 B - y3 A) + (c - c') * (y3 C - y3 A))) by ring.
            rewrite D2, D3. ring.
          - setoid_replace ((c - c') * ((z3 B - z3 A) * (x3 C - x3 A) - (x3 B - x3 A) * (z3 C - z3 A))) with
              ((z3 B - z3 A) * ((b - b') * (x3 B - x3 A) + (c - c') * (x3 C - x3 A)) - (x3 B - x3 A) * ((b - b') * (z3 B - z3 A) + (c - c') * (z3 C - z3 A))) by ring.
            rewrite D1, D3. ring.
          - setoid_replace ((c - c') * ((x3 B - x3 A) * (y3 C - y3 A) - (y3 B - y3 A) * (x3 C - x3 A))) with
              ((x3 B - x3 A) * ((b - b') * (y3 B - y3 A) + (c - c') * (y3 C - y3 A)) - (y3 B - y3 A) * ((b - b') * (x3 B - x3 A) + (c - c') * (x3 C - x3 A))) by ring.
            rewrite D1, D2. ring. }
        destruct B1 as (B1 & B2 & B3). unfold dot3.
        setoid_replace ((c - c') * (x3 n * x3 n + y3 n * y3 n + z3 n * z3 n)) with (((c - c') * x3 n) * x3 n + ((c - c') * y3 n) * y3 n + ((c - c') * z3 n) * z3 n) by ring.
        rewrite B1, B2, B3. ring. }
      apply Qmult_integral in UB. apply Qmult_integral in UC. destruct UB as [UB|UB]; [|contradiction]. destruct UC as [UC|UC]; [|contradiction].
      repeat split; lra.
    + destruct E' as (F1 & F2 & F3). unfold vadd3, vscale3, vsub3 in F1, F2, F3; cbn [x3 y3 z3] in F1, F2, F3.
      (* a times the normal vanishes *)
      assert (D1 : a * (x3 A - x3 B) == (t - c) * (x3 C - x3 B)) by (clear - E1 F1 Ea; assert (b == 1 - a - c) by lra; rewrite H in E1; lra).
      assert (D2 : a * (y3 A - y3 B) == (t - c) * (y3 C - y3 B)) by (clear - E2 F2 Ea; assert (b == 1 - a - c) by lra; rewrite H in E2; lra).
      assert (D3 : a * (z3 A - z3 B) == (t - c) * (z3 C - z3 B)) by (clear - E3 F3 Ea; assert (b == 1 - a - c) by lra; rewrite H in E3; lra).
      assert (Z : a * dot3 n n == 0).
      { assert (B1 : a * x3 n == 0 /\ a * y3 n == 0 /\ a * z3 n == 0).
        { unfold n, cross3, vsub3; cbn [x3 y3 z3]. repeat split.
          - setoid_replace (a * ((y3 B - y3 A) * (z3 C - z3 A) - (z3 B - z3 A) * (y3 C - y3 A))) with
              ((a * (z3 A - z3 B)) * (y3 C - y3 B) - (a * (y3 A - y3 B)) * (z3 C - z3 B)) by ring. rewrite D2, D3. ring.
          - setoid_replace (a * ((z3 B - z3 A) * (x3 C - x3 A) - (x3 B - x3 A) * (z3 C - z3 A))) with
              ((a * (x3 A - x3 B)) * (z3 C - z3 B) - (a * (z3 A - z3 B)) * (x3 C - x3 B)) by ring. rewrite D1, D3. ring.
          - setoid_replace (a * ((x3 B - x3 A) * (y3 C - y3 A) - (y3 B - y3 A) * (x3 C - x3 A))) with
              ((a * (y3 A - y3 B)) * (x3 C - x3 B) - (a * (x3 A - x3 B)) * (y3 C - y3 B)) by ring. rewrite D1, D2. ring. }
        destruct B1 as (B1 & B2 & B3). unfold dot3.
        setoid_replace (a * (x3 n * x3 n + y3 n * y3 n + z3 n * z3 n)) with ((a * x3 n) * x3 n + (a * y3 n) * y3 n + (a * z3 n) * z3 n) by ring.
        rewrite B1, B2, B3. ring. }
      apply Qmult_integral in Z. destruct Z as [Z|Z]; [|contradiction]. rewrite Z. split; lra.
Qed.
