(** The static test of convex polygons. *)
From Verif Require Import Base CmpModel OrientModel OrientSpec OrientProof DistModel DistSpec DistProof PolygonModel PolygonSpec PolygonProof PolygonConvexProof SatModel SatSpec SatProof.

(** ** Indices *)
Lemma middle_lt : forall i0 i1 n, (i0 < n)%nat -> (i1 < n)%nat -> (get_middle_index i0 i1 n < n)%nat.
Proof.
  intros i0 i1 n A B. unfold get_middle_index. destruct (Nat.ltb_spec i0 i1); [|apply Nat.mod_upper_bound; lia].
  apply (Nat.le_lt_trans _ i1); [|exact B]. apply Nat.div_le_upper_bound; lia.
Qed.
Lemma extreme_loop_lt : forall cmp c d fuel i0 i1 i, (i0 < length c)%nat -> (i1 < length c)%nat -> extreme_loop cmp c d fuel i0 i1 = Some i -> (i < length c)%nat.
Proof.
  intros cmp c d. induction fuel as [|f IH]; intros i0 i1 i A B E; cbn [extreme_loop] in E; [discriminate|].
  pose proof (middle_lt i0 i1 (length c) A B) as M. set (mid := get_middle_index i0 i1 (length c)) in *.
  destruct (greater_than cmp (dot d (vsub (get_point c ((mid + 1) mod length c)) (get_point c mid))) 0).
  - destruct (negb (mid =? i0)%nat); [exact (IH mid i1 i M B E)|inversion E; subst; exact B].
  - destruct (less_than cmp _ 0); [exact (IH i0 mid i A M E)|inversion E; subst; exact M].
Qed.
Lemma extreme_in : forall cmp fuel c d i, c <> [] -> get_extreme_index cmp fuel c d = Some i -> In (get_point c i) c.
Proof.
  intros cmp fuel c d i N E. unfold get_point. apply nth_In. apply (extreme_loop_lt cmp c d fuel 0 0 i); [| |exact E]; destruct c; [contradiction|cbn; lia|contradiction|cbn; lia].
Qed.
Lemma dot_normal : forall q0 q1 v, dot (left_normal (vsub q0 q1)) (vsub v q0) == tri2 q1 q0 v.
Proof. intros. unfold dot, left_normal, vsub, tri2, cross, vsub. cbn [px py]. ring. Qed.
Lemma edges_loop_true : forall fuel other, other <> [] -> forall edges, edges_loop direct fuel edges other = Some true ->
  forall q1 q0, In (q1, q0) edges -> exists v, In v other /\ tri2 q1 q0 v <= 0.
Proof.
  intros fuel other NE. induction edges as [|[e1 e0] edges IH]; intros E q1 q0 I; [contradiction|]. cbn [edges_loop] in E.
  destruct (get_extreme_index direct fuel other (vneg (left_normal (vsub e0 e1)))) as [m|] eqn:X; [|discriminate].
  cbn [greater_than direct] in E. destruct (Qgtb_spec (dot (left_normal (vsub e0 e1)) (vsub (get_point other m) e0)) 0) as [H|H]; [discriminate|].
  destruct I as [I|I]; [|exact (IH E q1 q0 I)]. inversion I; subst. exists (get_point other m). split; [apply (extreme_in _ _ _ _ _ NE X)|]. rewrite dot_normal in H. lra.
Qed.

(** ** Clockwise polygons *)
Lemma tri2_flip : forall A B C, tri2 C B A == - tri2 A B C.
Proof. intros. unfold tri2, cross, vsub. cbn [px py]. ring. Qed.
Lemma cw_rev : forall p, convex_cw p -> convex_ccw (rev p).
Proof.
  intros p C i j k A B D O E1 E2 E3.
  assert (L : (k < length p)%nat) by (apply nth_error_Some_lt in E3 || (assert (nth_error (rev p) k <> None) by congruence; apply nth_error_Some in H; rewrite rev_length in H; exact H)).
  assert (R : forall n X, (n < length p)%nat -> nth_error (rev p) n = Some X -> nth_error p (length p - S n) = Some X).
  { intros n X N E. apply (nth_error_nth _ _ (mkpt 0 0)) in E. rewrite rev_nth in E by exact N. rewrite <- E. apply nth_error_nth'. lia. }
  apply R in E1; [|lia]. apply R in E2; [|lia]. apply R in E3; [|lia].
  pose proof (C (length p - S k) (length p - S j) (length p - S i) D B A)%nat as H. specialize (H ltac:(lia) E3 E2 E1). rewrite tri2_flip in H. lra.
Qed.
Lemma hull_rev : forall p x, in_hull (rev p) x <-> in_hull p x.
Proof. intros p x. unfold in_hull. split; intros (A & B & C & IA & IB & IC & H); exists A, B, C; rewrite <- !in_rev in *; auto. Qed.
Lemma rev_edge : forall p i, (i < length p)%nat -> In (pnth (rev p) (S i mod length p), pnth (rev p) i) (edges_into p).
Proof.
  intros p i L. unfold edges_into. apply in_map_iff. exists (length p - S i)%nat. split; [|apply in_seq; lia].
  unfold pnth, get_point. rewrite (rev_nth p (mkpt 0 0) L). f_equal. destruct (Nat.eq_dec (S i) (length p)) as [E|E].
  - rewrite E, (Nat.mod_same (length p)) by lia. rewrite rev_nth by lia. f_equal. rewrite Nat.mod_small by lia. lia.
  - rewrite (Nat.mod_small (S i)) by lia. rewrite rev_nth by lia. f_equal.
    replace (length p - S i + length p - 1)%nat with ((length p - S (S i)) + 1 * length p)%nat by lia. rewrite Nat.mod_add by lia. apply Nat.mod_small. lia.
Qed.
Lemma edge_rev : forall p q1 q0, In (q1, q0) (edges_into p) -> exists i, (i < length p)%nat /\ q0 = pnth (rev p) i /\ q1 = pnth (rev p) (S i mod length p).
Proof.
  intros p q1 q0 I. unfold edges_into in I. apply in_map_iff in I. destruct I as (i0 & E & I). apply in_seq in I. exists (length p - S i0)%nat. split; [lia|].
  pose proof (f_equal fst E) as E1. pose proof (f_equal snd E) as E0. cbn [fst snd] in E1, E0. subst q1 q0. unfold pnth, get_point. rewrite rev_nth by lia. split; [f_equal; lia|].
  destruct (Nat.eq_dec i0 0) as [->|Z].
  - replace (S (length p - 1)) with (length p) by lia. rewrite Nat.mod_same by lia. rewrite rev_nth by lia. f_equal. rewrite Nat.mod_small by lia. lia.
  - rewrite (Nat.mod_small (S (length p - S i0))) by lia. rewrite rev_nth by lia. f_equal.
    replace (i0 + length p - 1)%nat with ((i0 - 1) + 1 * length p)%nat by lia. rewrite Nat.mod_add by lia. rewrite Nat.mod_small by lia. lia.
Qed.
Lemma overlap_rev : forall p q, overlap (rev p) (rev q) <-> overlap p q.
Proof. intros p q. unfold overlap. split; intros (x & A & B); exists x; rewrite !hull_rev in *; auto. Qed.
(** What the test checks, for clockwise polygons, is the separating axis condition. *)
Lemma cw_condition : forall p q, convex_cw p -> convex_cw q -> (3 <= length p)%nat -> (3 <= length q)%nat ->
  (overlap p q <-> (forall q1 q0, In (q1, q0) (edges_into p) -> exists v, In v q /\ tri2 q1 q0 v <= 0) /\ (forall q1 q0, In (q1, q0) (edges_into q) -> exists v, In v p /\ tri2 q1 q0 v <= 0)).
Proof.
  intros p q Cp Cq Lp Lq. rewrite <- overlap_rev. pose proof (cw_rev p Cp) as Rp. pose proof (cw_rev q Cq) as Rq.
  assert (SW : forall A B v, tri2 B A v == - tri2 A B v) by (intros; unfold tri2, cross, vsub; cbn [px py]; ring). split.
  - intro H. apply separating_axis_converse in H; [|assumption|assumption|rewrite rev_length; assumption|rewrite rev_length; assumption].
    destruct H as [H1 H2]. rewrite !rev_length in *. split; intros q1 q0 I; apply edge_rev in I; destruct I as (i & Li & -> & ->).
    + destruct (H1 i Li) as (v & V & T). exists v. split; [apply in_rev, V|]. rewrite SW. lra.
    + destruct (H2 i Li) as (v & V & T). exists v. split; [apply in_rev, V|]. rewrite SW. lra.
  - intros [H1 H2]. apply separating_axis; [assumption|assumption|rewrite rev_length; assumption|rewrite rev_length; assumption| |].
    + rewrite rev_length. intros i Li. destruct (H1 _ _ (rev_edge p i Li)) as (v & V & T). exists v. split; [apply -> in_rev; exact V|]. rewrite SW in T. lra.
    + rewrite rev_length. intros i Li. destruct (H2 _ _ (rev_edge q i Li)) as (v & V & T). exists v. split; [apply -> in_rev; exact V|]. rewrite SW in T. lra.
Qed.
Lemma sat_sound : forall p q fuel, convex_cw p -> convex_cw q -> (3 <= length p)%nat -> (3 <= length q)%nat ->
  convex_polygons_intersection direct fuel p q = Some true -> overlap p q.
Proof.
  intros p q fuel Cp Cq Lp Lq E. unfold convex_polygons_intersection in E. destruct (edges_loop direct fuel (edges_into p) q) as [[]|] eqn:E1; try discriminate.
  apply cw_condition; try assumption. split; intros q1 q0 I.
  - apply (edges_loop_true fuel q ltac:(destruct q; [cbn in Lq; lia|discriminate]) _ E1 _ _ I).
  - apply (edges_loop_true fuel p ltac:(destruct p; [cbn in Lp; lia|discriminate]) _ E _ _ I).
Qed.

(** ** Triangles *)
Lemma extreme_step : forall c d f i0 i1 mid next prev, get_middle_index i0 i1 (length c) = mid -> ((mid + 1) mod length c = next)%nat -> ((mid + length c - 1) mod length c = prev)%nat ->
  extreme_loop direct c d (S f) i0 i1 =
  if Qltb (dot d (get_point c mid)) (dot d (get_point c next)) then (if negb (Nat.eqb mid i0) then extreme_loop direct c d f mid i1 else Some i1)
  else if Qltb (dot d (get_point c mid)) (dot d (get_point c prev)) then extreme_loop direct c d f i0 mid else Some mid.
Proof.
  intros c d f i0 i1 mid next prev E1 E2 E3. cbn [extreme_loop]. rewrite E1, E2, E3. cbn [direct greater_than less_than].
  assert (D : forall u v, dot d (vsub u v) == dot d u - dot d v) by (intros; unfold dot, vsub; cbn [px py]; ring).
  assert (G : forall u v, Qgtb (dot d (vsub u v)) 0 = Qltb (dot d v) (dot d u)) by (intros u v; pose proof (D u v); destruct (Qgtb_spec (dot d (vsub u v)) 0), (Qltb_spec (dot d v) (dot d u)); (lra || reflexivity)).
  assert (L : forall u v, Qltb (dot d (vsub u v)) 0 = Qltb (dot d u) (dot d v)) by (intros u v; pose proof (D u v); destruct (Qltb_spec (dot d (vsub u v)) 0), (Qltb_spec (dot d u) (dot d v)); (lra || reflexivity)).
  rewrite G, L. reflexivity.
Qed.
Lemma extreme_triangle : forall a b c d k, exists i, get_extreme_index direct (S (S (S (S k)))) [a; b; c] d = Some i /\ extreme [a; b; c] d i.
Proof.
  intros a b c d k.
  assert (FIN : forall i, (i < 3)%nat -> dot d a <= dot d (nth i [a; b; c] (mkpt 0 0)) -> dot d b <= dot d (nth i [a; b; c] (mkpt 0 0)) -> dot d c <= dot d (nth i [a; b; c] (mkpt 0 0)) -> extreme [a; b; c] d i).
  { intros i I A B C. split; [exact I|]. intros X [<-|[<-|[<-|[]]]]; assumption. }
  unfold get_extreme_index. rewrite (extreme_step [a; b; c] d _ 0 0 1 2 0) by reflexivity. cbn [get_point nth Nat.eqb negb].
  destruct (Qltb_spec (dot d b) (dot d c)) as [H1|H1].
  - rewrite (extreme_step [a; b; c] d _ 1 0 2 0 1) by reflexivity. cbn [get_point nth Nat.eqb negb]. destruct (Qltb_spec (dot d c) (dot d a)) as [H2|H2].
    + rewrite (extreme_step [a; b; c] d _ 2 0 2 0 1) by reflexivity. cbn [get_point nth Nat.eqb negb].
      destruct (Qltb_spec (dot d c) (dot d a)); [|lra]. exists 0%nat. split; [reflexivity|apply FIN; cbn [nth]; lra || lia].
    + destruct (Qltb_spec (dot d c) (dot d b)); [lra|]. exists 2%nat. split; [reflexivity|apply FIN; cbn [nth]; lra || lia].
  - destruct (Qltb_spec (dot d b) (dot d a)) as [H2|H2].
    + rewrite (extreme_step [a; b; c] d _ 0 1 0 1 2) by reflexivity. cbn [get_point nth Nat.eqb negb].
      destruct (Qltb_spec (dot d a) (dot d b)); [lra|]. destruct (Qltb_spec (dot d a) (dot d c)); [lra|]. exists 0%nat. split; [reflexivity|apply FIN; cbn [nth]; lra || lia].
    + exists 1%nat. split; [reflexivity|apply FIN; cbn [nth]; lra || lia].
Qed.
Definition finds_extremes (fuel : nat) (c : list pt) : Prop := forall d, exists i, get_extreme_index direct fuel c d = Some i /\ extreme c d i.
Lemma edges_loop_exact : forall fuel other, finds_extremes fuel other -> forall edges,
  exists b, edges_loop direct fuel edges other = Some b /\ (b = true <-> forall q1 q0, In (q1, q0) edges -> exists v, In v other /\ tri2 q1 q0 v <= 0).
Proof.
  intros fuel other FE. induction edges as [|[e1 e0] edges (b & IB & IH)]; [exists true; split; [reflexivity|split; [intros _ q1 q0 []|reflexivity]]|].
  cbn [edges_loop]. destruct (FE (vneg (left_normal (vsub e0 e1)))) as (m & -> & M1 & M2). cbn [greater_than direct].
  assert (I : In (get_point other m) other) by (apply nth_In; exact M1).
  destruct (Qgtb_spec (dot (left_normal (vsub e0 e1)) (vsub (get_point other m) e0)) 0) as [H|H]; rewrite dot_normal in H.
  - exists false. split; [reflexivity|]. split; [discriminate|]. intro A. destruct (A e1 e0 (or_introl eq_refl)) as (v & V & T). specialize (M2 v V). fold (get_point other m) in M2.
    pose proof (dot_normal e0 e1 v) as Dv. pose proof (dot_normal e0 e1 (get_point other m)) as Dm. unfold dot, vneg, vsub in M2, Dv, Dm. cbn [px py] in M2, Dv, Dm. exfalso. lra.
  - exists b. split; [exact IB|]. rewrite IH. split.
    + intros A q1 q0 [E|J]; [inversion E; subst; exists (get_point other m); split; [exact I|lra]|exact (A q1 q0 J)].
    + intros A q1 q0 J. apply A. right. exact J.
Qed.
Lemma sat_exact : forall p q fuel, convex_cw p -> convex_cw q -> (3 <= length p)%nat -> (3 <= length q)%nat -> finds_extremes fuel p -> finds_extremes fuel q ->
  exists b, convex_polygons_intersection direct fuel p q = Some b /\ (b = true <-> overlap p q).
Proof.
  intros p q fuel Cp Cq Lp Lq Fp Fq. unfold convex_polygons_intersection. pose proof (cw_condition p q Cp Cq Lp Lq) as W.
  destruct (edges_loop_exact fuel q Fq (edges_into p)) as (b1 & -> & H1). destruct (edges_loop_exact fuel p Fp (edges_into q)) as (b2 & E2 & H2).
  destruct b1; [rewrite E2; exists b2; split; [reflexivity|]|exists false; split; [reflexivity|]].
  - rewrite H2, W. tauto.
  - split; [discriminate|]. intro A. apply W in A. destruct A as [A _]. apply H1 in A. discriminate.
Qed.
