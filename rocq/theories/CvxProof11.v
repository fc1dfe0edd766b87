(** Convex polygons that touch without a common interior point: what holds at a common point. *)
From Verif Require Import Base CmpModel OrientModel OrientSpec OrientProof DistModel DistSpec LinIntModel LinIntSpec LinIntProof PolygonModel PolygonSpec PolygonProof PolygonConvexProof CvxModel CvxSpec CvxProof CvxProof2 CvxProof3 CvxProof4 CvxProof5 CvxProof6 CvxProof7 CvxProof8 CvxProof9 CvxProof10 PfillProof3.

Lemma one_small : forall x u, 0 < x -> exists e, 0 < e /\ forall t, 0 < t <= e -> 0 < x - t * u.
Proof.
  intros x u H. destruct (Qlt_le_dec 0 u) as [K|K].
  - exists (x / (2 * u)). assert (E : x / (2 * u) * u == x * (1 # 2)) by (field; lra).
    assert (D : 0 < x / (2 * u)) by (apply Qlt_shift_div_l; lra). split; [exact D|]. intros t Ht. assert (t * u <= x / (2 * u) * u) by (apply Qmult_le_compat_r; lra). lra.
  - exists 1. split; [lra|]. intros t Ht. assert (0 <= t * - u) by (apply Qmult_le_0_compat; lra). lra.
Qed.
Lemma two_small : forall x u y v, 0 < x -> 0 < y -> exists t, 0 < t /\ 0 < x - t * u /\ 0 < y - t * v.
Proof.
  intros x u y v Hx Hy. destruct (one_small x u Hx) as (e & E & F). destruct (one_small y v Hy) as (e' & E' & F').
  destruct (Qlt_le_dec e e') as [K|K]; [exists e|exists e']; (split; [lra|]; split; [apply F; lra|apply F'; lra]).
Qed.
Lemma pteq_either : forall A B : pt, A =p= B \/ ~ A =p= B.
Proof. intros A B. destruct (Qeq_dec (px A) (px B)) as [E1|E1]; [destruct (Qeq_dec (py A) (py B)) as [E2|E2]|]; [left; split; assumption|right; intros []; contradiction|right; intros []; contradiction]. Qed.

(** A small step in a direction to the left of the edges at a point leads inside. *)
Lemma towards : forall ps X d, convex_polygon ps -> in_hull ps X -> (forall i, edge_on ps i X -> 0 < cross (edg ps i) d) ->
  exists e, 0 < e /\ forall s, 0 < s <= e -> strictly_inside ps (vadd X (vscale s d)).
Proof.
  intros ps X d C H L.
  assert (K : forall k, exists e, 0 < e /\ forall s, 0 < s <= e -> forall i, (i < k)%nat -> 0 < tri2 (from ps (S i)) (vtx ps (S i)) (vadd X (vscale s d))).
  { induction k as [|k (e & E & IH)]; [exists 1; split; [lra|]; intros; lia|].
    assert (ST : exists e', 0 < e' /\ forall s, 0 < s <= e' -> 0 < tri2 (from ps (S k)) (vtx ps (S k)) (vadd X (vscale s d))).
    { pose proof (around_left ps C (S k) X H) as T. destruct (Qeq_dec (tri2 (from ps (S k)) (vtx ps (S k)) X) 0) as [Z|Z].
      - exists 1. split; [lra|]. intros s Hs. rewrite (tri2_moved ps (S k) X _ d s (pteq_refl _)), Z. pose proof (L (S k) (around_on ps C (S k) X H Z)) as Lk.
        assert (0 < s * cross (edg ps (S k)) d) by (apply Qmult_lt_0_compat; lra). lra.
      - destruct (one_small (tri2 (from ps (S k)) (vtx ps (S k)) X) (- cross (edg ps (S k)) d) ltac:(lra)) as (e' & E' & F). exists e'. split; [exact E'|]. intros s Hs.
        rewrite (tri2_moved ps (S k) X _ d s (pteq_refl _)). specialize (F s Hs). lra. }
    destruct ST as (e' & E' & F). destruct (Qlt_le_dec e e') as [Q1|Q1]; [exists e|exists e']; (split; [lra|]; intros s Hs i Hi; destruct (Nat.eq_dec i k) as [->|Ne]; [apply F; lra|apply IH; [lra|lia]]). }
  destruct (K (length ps)) as (e & E & F). exists e. split; [exact E|]. intros s Hs i A B PE. apply edge_is in PE as (Hi & -> & ->).
  specialize (F s Hs i Hi). rewrite (from_S ps C) in F. unfold vtx in F. rewrite (Nat.mod_small i) in F by exact Hi. exact F.
Qed.

Section At.
Variable ps : list pt.
Hypothesis C : convex_polygon ps.
Let n := length ps.
Lemma prev_val : forall x, (x < n)%nat -> prev n x = if Nat.eqb x 0 then (n - 1)%nat else (x - 1)%nat.
Proof.
  intros x H. unfold prev. destruct (Nat.eqb_spec x 0) as [->|N]; [apply Nat.mod_small; lia|]. replace (x + n - 1)%nat with (x - 1 + 1 * n)%nat by lia. rewrite Nat.mod_add by lia. apply Nat.mod_small. lia.
Qed.
Lemma next_val : forall i, (S i mod n = if Nat.eqb (i mod n + 1) n then 0 else i mod n + 1)%nat.
Proof.
  intro i. pose proof (proj2 C) as L. fold n in L. rewrite <- (mod_S ps ps n i) by lia. pose proof (Nat.mod_upper_bound i n ltac:(lia)). destruct (Nat.eqb_spec (i mod n + 1) n) as [->|N]; [apply Nat.mod_same; lia|apply Nat.mod_small; lia].
Qed.
Lemma last_val : forall i, ((i + n - 1) mod n = if Nat.eqb (i mod n) 0 then n - 1 else i mod n - 1)%nat.
Proof.
  intro i. pose proof (proj2 C) as L. fold n in L. pose proof (Nat.mod_upper_bound i n ltac:(lia)) as B. rewrite <- (prev_val (i mod n) B). unfold prev.
  rewrite (Nat.div_mod i n) at 1 by lia. replace (n * (i / n) + i mod n + n - 1)%nat with (i mod n + n - 1 + (i / n) * n)%nat by nia. apply Nat.mod_add. lia.
Qed.
Lemma edg_mod : forall i k, (i mod n = k mod n)%nat -> edg ps i = edg ps k.
Proof. intros i k E. unfold edg, vtx, from. fold n. rewrite E. reflexivity. Qed.
Lemma last_next : forall i, edg ps (S (i + n - 1)) = edg ps i.
Proof. intro i. pose proof (proj2 C) as L. fold n in L. replace (S (i + n - 1)) with (i + n)%nat by lia. apply (edg_turn ps C). Qed.
Lemma last_vtx : forall i, vtx ps (i + n - 1) = from ps i.
Proof. intro i. pose proof (proj2 C) as L. fold n in L. rewrite <- (from_turn ps C i). fold n. rewrite <- (from_S ps C). f_equal. lia. Qed.
Lemma edges_at : forall i k X, edge_on ps i X -> edge_on ps k X ->
  edg ps k = edg ps i \/ (X =p= vtx ps i /\ edg ps k = edg ps (S i)) \/ (X =p= from ps i /\ edg ps k = edg ps (i + n - 1)).
Proof.
  intros i k X (t & Ht & EX) OK. pose proof (proj2 C) as L. fold n in L.
  pose proof (Nat.mod_upper_bound i n ltac:(lia)) as Bi. pose proof (Nat.mod_upper_bound k n ltac:(lia)) as Bk.
  destruct (Nat.eq_dec (k mod n) (i mod n)) as [E|E]; [left; apply edg_mod; exact E|right].
  apply edge_zero in OK. rewrite (tri2_pteq _ _ _ _ EX) in OK.
  assert (LT : tri2 (from ps k) (vtx ps k) (lerp (from ps i) (vtx ps i) t) == (1 - t) * tri2 (from ps k) (vtx ps k) (from ps i) + t * tri2 (from ps k) (vtx ps k) (vtx ps i)).
  { unfold tri2, cross, vsub, lerp, vadd, vscale, vsub. cbn [px py]. ring. }
  rewrite LT in OK. clear LT.
  pose proof (around_left ps C k _ (vtx_in ps C i)) as V. assert (HF : in_hull ps (from ps i)) by (rewrite <- (last_vtx i); apply (vtx_in ps C)). pose proof (around_left ps C k _ HF) as F.
  assert (A1 : 0 <= (1 - t) * tri2 (from ps k) (vtx ps k) (from ps i)) by (apply Qmult_le_0_compat; lra). assert (A2 : 0 <= t * tri2 (from ps k) (vtx ps k) (vtx ps i)) by (apply Qmult_le_0_compat; lra).
  destruct (Nat.eq_dec (i mod n) (prev n (k mod n))) as [E2|E2].
  - left. rewrite prev_val in E2 by exact Bk. assert (ES : (k mod n = S i mod n)%nat) by (rewrite next_val; destruct (Nat.eqb_spec (k mod n) 0); destruct (Nat.eqb_spec (i mod n + 1) n); lia).
    split; [|apply edg_mod; exact ES].
    assert (FS : 0 < tri2 (from ps k) (vtx ps k) (from ps i)).
    { rewrite <- (last_vtx i). apply (around_strict ps C); fold n; rewrite last_val; [|rewrite prev_val by exact Bk]; destruct (Nat.eqb_spec (k mod n) 0); destruct (Nat.eqb_spec (i mod n) 0); lia. }
    assert (T1 : t == 1) by nra. destruct EX as [X1 X2]. split; [rewrite X1|rewrite X2]; unfold lerp; cbn [px py vadd vscale vsub]; rewrite T1; ring.
  - right. pose proof (around_strict ps C k i ltac:(fold n; lia) E2) as VS. assert (T0 : t == 0) by nra. assert (FZ : tri2 (from ps k) (vtx ps k) (from ps i) == 0) by nra.
    split; [destruct EX as [X1 X2]; split; [rewrite X1|rewrite X2]; unfold lerp; cbn [px py vadd vscale vsub]; rewrite T0; ring|].
    apply edg_mod. destruct (Nat.eq_dec ((i + n - 1) mod n) (k mod n)) as [E3|E3]; [symmetry; exact E3|exfalso].
    assert (FS : 0 < tri2 (from ps k) (vtx ps k) (vtx ps (i + n - 1))).
    { apply (around_strict ps C); fold n; [exact E3|]. rewrite last_val, prev_val by exact Bk. destruct (Nat.eqb_spec (k mod n) 0); destruct (Nat.eqb_spec (i mod n) 0); lia. }
    rewrite last_vtx in FS. lra.
Qed.
Lemma edg_left' : forall i, 0 < cross (edg ps (i + n - 1)) (edg ps i).
Proof. intro i. rewrite <- (last_next i). apply (edg_left ps C). Qed.
Lemma ends_differ : forall i X, X =p= from ps i -> X =p= vtx ps i -> False.
Proof.
  intros i X [E1 E2] [F1 F2]. apply (edg_nonzero ps C i). unfold edg, vsub. cbn [px py]. split; lra.
Qed.
End At.

Section Geo.
Variables P Q : list pt.
Hypothesis CP : convex_polygon P.
Hypothesis CQ : convex_polygon Q.
Hypothesis NI : forall X, strictly_inside P X -> strictly_inside Q X -> False.
Let n := length P.
Let m := length Q.
(** The first polygon lies to the right of an edge of the second. *)
Definition right_of (j : nat) : Prop := forall V, in_hull P V -> tri2 (from Q j) (vtx Q j) V <= 0.
Lemma no_way_in : forall X d, in_hull P X -> in_hull Q X -> (forall i, edge_on P i X -> 0 < cross (edg P i) d) -> (forall j, edge_on Q j X -> 0 < cross (edg Q j) d) -> False.
Proof.
  intros X d HP HQ LP LQ. destruct (towards P X d CP HP LP) as (e & E & F). destruct (towards Q X d CQ HQ LQ) as (e' & E' & F').
  destruct (Qlt_le_dec e e'); [apply (NI (vadd X (vscale e d)))|apply (NI (vadd X (vscale e' d)))]; first [apply F; lra|apply F'; lra].
Qed.
Lemma lean : forall u a b t, cross u (vsub b (vscale t a)) == cross u b - t * cross u a.
Proof. intros. unfold cross, vsub, vscale. cbn [px py]. ring. Qed.
Lemma rec_geo : forall i j X, edge_on P i X -> edge_on Q j X -> 0 < AB P Q i j -> ~ X =p= vtx Q j ->
  right_of j \/ (X =p= vtx P i /\ X =p= from Q j /\ AB P Q (S i) j < 0).
Proof.
  intros i j X OP OQ A NV. pose proof (around_in P CP i X OP) as HP. pose proof (around_in Q CQ j X OQ) as HQ.
  pose proof (edg_left' P CP i) as La'. pose proof (edg_left' Q CQ j) as Lb'. pose proof (edg_left P CP i) as La. fold n in La'. fold m in Lb'.
  unfold AB in *. set (a := edg P i) in *. set (b := edg Q j) in *. set (a' := edg P (i + n - 1)) in *. set (a'' := edg P (S i)) in *. set (b' := edg Q (j + m - 1)) in *.
  assert (AN : forall u v, cross u v == - cross v u) by (intros; unfold cross; ring). assert (SZ : forall u, cross u u == 0) by (intros; unfold cross; ring).
  assert (TRY : forall t, 0 < t -> 0 < cross b' b - t * cross b' a -> (X =p= vtx P i -> 0 < cross a'' b - t * cross a'' a) -> (X =p= from P i -> 0 < cross a' b - t * cross a' a) -> False).
  { intros t Ht T1 T2 T3. apply (no_way_in X (vsub b (vscale t a)) HP HQ); intros k Hk; rewrite lean.
    - destruct (edges_at P CP i k X OP Hk) as [E|[(EX & E)|(EX & E)]]; rewrite E; fold n; [fold a; rewrite SZ; lra|apply T2; exact EX|apply T3; exact EX].
    - destruct (edges_at Q CQ j k X OQ Hk) as [E|[(EX & E)|(EX & E)]]; rewrite E; fold m; [fold b; rewrite SZ, (AN b a); nra|contradiction|exact T1]. }
  destruct (pteq_either X (from P i)) as [E1|E1].
  - left. assert (NX : ~ X =p= vtx P i) by (intro K; exact (ends_differ P CP i X E1 K)).
    destruct (Qlt_le_dec 0 (cross a' b)) as [K|K].
    + exfalso. destruct (two_small _ (cross b' a) _ (cross a' a) Lb' K) as (t & Ht & T1 & T2). apply (TRY t Ht T1); [contradiction|intros _; exact T2].
    + intros V HV. assert (OL : edge_on P (i + n - 1) X). { apply (segment_pteq _ _ (vtx P (i + n - 1))); [unfold n; rewrite (last_vtx P CP i); apply pteq_sym; exact E1|apply edge_end]. }
      assert (MV : V =p= vadd X (vscale 1 (vsub V X))) by (split; unfold vadd, vscale, vsub; cbn [px py]; ring).
      pose proof (tri2_moved P i X V _ 1 MV) as M1. pose proof (tri2_moved P (i + n - 1) X V _ 1 MV) as M2. pose proof (tri2_moved Q j X V _ 1 MV) as M3.
      rewrite (edge_zero P i X OP) in M1. rewrite (edge_zero P _ X OL) in M2. rewrite (edge_zero Q j X OQ) in M3. fold a in M1. fold a' in M2. fold b in M3.
      pose proof (around_left P CP i V HV) as G1. pose proof (around_left P CP (i + n - 1) V HV) as G2. set (v := vsub V X) in *.
      assert (ID : cross a' a * cross b v == cross a' v * cross b a - cross a v * cross b a') by (unfold cross; ring). rewrite (AN b a), (AN b a') in ID.
      assert (0 <= cross a' v * cross a b) by (apply Qmult_le_0_compat; lra). assert (0 <= cross a v * - cross a' b) by (apply Qmult_le_0_compat; lra).
      rewrite M3. destruct (Qlt_le_dec 0 (cross b v)) as [W|W]; [|lra]. assert (0 < cross a' a * cross b v) by (apply Qmult_lt_0_compat; lra). lra.
  - destruct (one_small _ (cross b' a) Lb') as (e & E & F). specialize (F e ltac:(lra)).
    destruct (pteq_either X (vtx P i)) as [E2|E2]; [|exfalso; apply (TRY e E F); contradiction].
    assert (AN2 := AN a'' a). destruct (Qlt_le_dec (cross a'' b) 0) as [K|K].
    + right. split; [exact E2|]. split; [|exact K]. destruct (pteq_either X (from Q j)) as [E3|E3]; [exact E3|exfalso].
      assert (TT : forall u, cross u (vsub a'' a) == cross u a'' - cross u a) by (intros; unfold cross, vsub; cbn [px py]; ring).
      apply (no_way_in X (vsub a'' a) HP HQ); intros k Hk; rewrite TT.
      * destruct (edges_at P CP i k X OP Hk) as [E4|[(EX & E4)|(EX & E4)]]; rewrite E4; fold n; [fold a; rewrite SZ; lra|fold a''; rewrite SZ; lra|contradiction].
      * destruct (edges_at Q CQ j k X OQ Hk) as [E4|[(EX & E4)|(EX & E4)]]; rewrite E4; fold m; [fold b; rewrite (AN b a''), (AN b a); lra|contradiction|contradiction].
    + exfalso. apply (TRY e E F); [intros _|contradiction]. assert (0 < e * cross a a'') by (apply Qmult_lt_0_compat; lra). rewrite AN2. lra.
Qed.
(** Edges with the same direction: only the end of one against the start of the other. *)
Lemma alike_geo : forall i j X, edge_on P i X -> edge_on Q j X -> AB P Q i j == 0 -> 0 < dot (edg P i) (edg Q j) -> ~ X =p= vtx Q j -> X =p= vtx P i.
Proof.
  intros i j X OP OQ Z D NV. pose proof (around_in P CP i X OP) as HP. pose proof (around_in Q CQ j X OQ) as HQ.
  destruct (pteq_either X (vtx P i)) as [E|E]; [exact E|exfalso].
  destruct (same_scale (edg P i) (edg Q j) (edg_nonzero P CP i) Z D) as (k & K & SC).
  pose proof (edg_left' P CP i) as La'. pose proof (edg_left' Q CQ j) as Lb'. fold n in La'. fold m in Lb'.
  pose proof (edg_left P CP i) as La. unfold AB in Z. set (a := edg P i) in *. set (b := edg Q j) in *. set (a' := edg P (i + n - 1)) in *. set (a'' := edg P (S i)) in *. set (b' := edg Q (j + m - 1)) in *.
  assert (AN : forall u v, cross u v == - cross v u) by (intros; unfold cross; ring). assert (SZ : forall u, cross u u == 0) by (intros; unfold cross; ring).
  assert (Lb : 0 < cross b' a). { rewrite (AN b' a). rewrite (AN b' b), SC in Lb'. nra. }
  destruct (two_small _ (- cross a' a'') _ (- cross b' a'') La' Lb) as (t & Ht & T1 & T2).
  assert (TT : forall u, cross u (vadd a (vscale t a'')) == cross u a + t * cross u a'') by (intros; unfold cross, vadd, vscale; cbn [px py]; ring).
  apply (no_way_in X (vadd a (vscale t a'')) HP HQ); intros l Hl; rewrite TT.
  - destruct (edges_at P CP i l X OP Hl) as [E4|[(EX & E4)|(EX & E4)]]; rewrite E4; fold n; [fold a; rewrite SZ; nra|contradiction|fold a'; lra].
  - destruct (edges_at Q CQ j l X OQ Hl) as [E4|[(EX & E4)|(EX & E4)]]; rewrite E4; fold m; [fold b; rewrite !SC, SZ; assert (0 < t * (k * cross a a'')) by (apply Qmult_lt_0_compat; [lra|apply Qmult_lt_0_compat; lra]); lra|contradiction|fold b'; lra].
Qed.
(** The end of an edge of the second polygon against the start of an edge of the first with the same direction. *)
Lemma skip_geo : forall i j X, X =p= vtx P i -> X =p= vtx Q j -> AB P Q (S i) j == 0 -> 0 < dot (edg P (S i)) (edg Q j) -> right_of (S j).
Proof.
  intros i j X E1 E2 Z D. 
  assert (O1 : edge_on P i X) by (apply (segment_pteq _ _ (vtx P i)); [apply pteq_sym; exact E1|apply edge_end]).
  assert (O2 : edge_on P (S i) X) by (apply (segment_pteq _ _ (vtx P i)); [apply pteq_sym; exact E1|rewrite <- (from_S P CP i); apply edge_start]).
  assert (O3 : edge_on Q j X) by (apply (segment_pteq _ _ (vtx Q j)); [apply pteq_sym; exact E2|apply edge_end]).
  assert (O4 : edge_on Q (S j) X) by (apply (segment_pteq _ _ (vtx Q j)); [apply pteq_sym; exact E2|rewrite <- (from_S Q CQ j); apply edge_start]).
  pose proof (around_in P CP i X O1) as HP. pose proof (around_in Q CQ j X O3) as HQ.
  destruct (same_scale (edg P (S i)) (edg Q j) (edg_nonzero P CP (S i)) Z D) as (k & K & SC).
  pose proof (edg_left P CP i) as La. pose proof (edg_left Q CQ j) as Lb. 
  set (a := edg P i) in *. set (a'' := edg P (S i)) in *. set (b := edg Q j) in *. set (b'' := edg Q (S j)) in *.
  assert (AN : forall u v, cross u v == - cross v u) by (intros; unfold cross; ring). assert (SZ : forall u, cross u u == 0) by (intros; unfold cross; ring).
  rewrite SC in Lb. assert (Lc : 0 < cross a'' b'') by nra.
  destruct (Qlt_le_dec 0 (cross a b'')) as [W|W].
  - exfalso. assert (FF : forall ps (Cc : convex_polygon ps) l, X =p= vtx ps l -> X =p= vtx ps (S l) -> False) by (intros ps Cc l F1 F2; apply (ends_differ ps Cc (S l) X); [rewrite (from_S ps Cc); exact F1|exact F2]).
    assert (TT : forall u, cross u (vsub b'' a) == cross u b'' - cross u a) by (intros; unfold cross, vsub; cbn [px py]; ring).
    apply (no_way_in X (vsub b'' a) HP HQ); intros l Hl; rewrite TT.
    + destruct (edges_at P CP i l X O1 Hl) as [E4|[(EX & E4)|(EX & E4)]]; rewrite E4; fold n; [fold a; rewrite SZ; lra|fold a''; rewrite (AN a'' a); lra|exfalso; exact (ends_differ P CP i X EX E1)].
    + destruct (edges_at Q CQ j l X O3 Hl) as [E4|[(EX & E4)|(EX & E4)]]; rewrite E4; fold m.
      * fold b. rewrite !SC, (AN a'' a). assert (0 < k * cross a'' b'') by (apply Qmult_lt_0_compat; lra). assert (0 < k * cross a a'') by (apply Qmult_lt_0_compat; lra). lra.
      * fold b''. rewrite SZ, (AN b'' a). lra.
      * exfalso. exact (ends_differ Q CQ j X EX E2).
  - intros V HV. assert (MV : V =p= vadd X (vscale 1 (vsub V X))) by (split; unfold vadd, vscale, vsub; cbn [px py]; ring).
    pose proof (tri2_moved P i X V _ 1 MV) as M1. pose proof (tri2_moved P (S i) X V _ 1 MV) as M2. pose proof (tri2_moved Q (S j) X V _ 1 MV) as M3.
    rewrite (edge_zero P i X O1) in M1. rewrite (edge_zero P _ X O2) in M2. rewrite (edge_zero Q (S j) X O4) in M3. fold a in M1. fold a'' in M2. fold b'' in M3.
    pose proof (around_left P CP i V HV) as G1. pose proof (around_left P CP (S i) V HV) as G2. set (v := vsub V X) in *.
    assert (ID : cross a a'' * cross b'' v == cross a v * cross b'' a'' - cross a'' v * cross b'' a) by (unfold cross; ring). rewrite (AN b'' a''), (AN b'' a) in ID.
    assert (0 <= cross a v * cross a'' b'') by (apply Qmult_le_0_compat; lra). assert (0 <= cross a'' v * - cross a b'') by (apply Qmult_le_0_compat; lra).
    rewrite M3. destruct (Qlt_le_dec 0 (cross b'' v)) as [T|T]; [|lra]. assert (0 < cross a a'' * cross b'' v) by (apply Qmult_lt_0_compat; lra). lra.
Qed.

(** ** To the right of an edge *)
Lemma right_alike : forall i j X, right_of j -> edge_on P i X -> edge_on Q j X -> AB P Q i j == 0 -> dot (edg P i) (edg Q j) < 0.
Proof.
  intros i j X R OP OQ Z. destruct (Qlt_le_dec (dot (edg P i) (edg Q j)) 0) as [K|K]; [exact K|exfalso].
  assert (D : 0 < dot (edg P i) (edg Q j)).
  { destruct (Qeq_dec (dot (edg P i) (edg Q j)) 0) as [K0|K0]; [exfalso|lra]. exact (cross_dot_nonzero (edg P i) (edg Q j) (edg_nonzero P CP i) (edg_nonzero Q CQ j) Z K0). }
  destruct (same_scale (edg P i) (edg Q j) (edg_nonzero P CP i) Z D) as (k & K1 & SC).
  pose proof (R (vtx P (S i)) (vtx_in P CP (S i))) as T. pose proof (edg_left P CP i) as L.
  assert (MV : vtx P (S i) =p= vadd (vtx P i) (vscale 1 (edg P (S i)))) by (unfold edg; rewrite (from_S P CP i); split; unfold vadd, vscale, vsub; cbn [px py]; ring).
  rewrite (tri2_moved Q j _ _ _ 1 MV) in T. destruct (to_end P i X OP) as (h & Hh & EH). rewrite (tri2_moved Q j X _ _ h EH), (edge_zero Q j X OQ), (cross_swap P Q), Z, SC in T.
  assert (0 < k * cross (edg P i) (edg P (S i))) by (apply Qmult_lt_0_compat; lra). lra.
Qed.
Lemma right_boundary : forall j W, right_of j -> in_hull P W -> tri2 (from Q j) (vtx Q j) W == 0 -> exists k, edge_on P k W.
Proof.
  intros j W R HW TZ.
  assert (S : forall K, (exists k, (k < K)%nat /\ tri2 (from P k) (vtx P k) W == 0) \/ (forall k, (k < K)%nat -> ~ tri2 (from P k) (vtx P k) W == 0)).
  { induction K as [|K [(k & Hk & IH)|IH]]; [right; intros; lia|left; exists k; split; [lia|exact IH]|]. destruct (Qeq_dec (tri2 (from P K) (vtx P K) W) 0) as [Z|Z]; [left; exists K; split; [lia|exact Z]|right].
    intros k Hk. destruct (Nat.eq_dec k K) as [->|Ne]; [exact Z|apply IH; lia]. }
  destruct (S n) as [(k & _ & Z)|N]; [exists k; apply (around_on P CP); assumption|exfalso].
  assert (NO : forall k, ~ edge_on P k W).
  { intros k O. apply edge_zero in O. pose proof (proj2 CP) as L. apply (N (k mod n)%nat); [apply Nat.mod_upper_bound; unfold n; lia|].
    unfold from, vtx, n in *. rewrite Nat.mod_mod by lia. exact O. }
  destruct (towards P W (mkpt (- py (edg Q j)) (px (edg Q j))) CP HW) as (e & E & F); [intros k O; exfalso; exact (NO k O)|].
  specialize (F e ltac:(lra)). apply (inside_hull P _ CP) in F. specialize (R _ F). rewrite (tri2_moved Q j W _ _ e (pteq_refl _)), TZ in R.
  assert (0 < cross (edg Q j) (mkpt (- py (edg Q j)) (px (edg Q j)))).
  { unfold cross. cbn [px py]. pose proof (edg_nonzero Q CQ j) as NZ. pose proof (sq_nonneg (px (edg Q j))). pose proof (sq_nonneg (py (edg Q j))). unfold nonzero in NZ.
    destruct (Qeq_dec (px (edg Q j)) 0) as [Z1|Z1]; [destruct (Qeq_dec (py (edg Q j)) 0) as [Z2|Z2]; [exfalso; apply NZ; split; assumption|]|].
    - assert (0 < py (edg Q j) * py (edg Q j)) by nra. lra.
    - assert (0 < px (edg Q j) * px (edg Q j)) by nra. lra. }
  assert (0 < e * cross (edg Q j) (mkpt (- py (edg Q j)) (px (edg Q j)))) by (apply Qmult_lt_0_compat; lra). lra.
Qed.
Lemma right_hit : forall i j X, right_of j -> edge_on P i X -> edge_on Q j X -> hit P Q i j.
Proof.
  intros i j X R OP OQ. split; [exists X; auto|]. destruct (Qeq_dec (AB P Q i j) 0) as [Z|Z]; [right|left; exact Z]. exact (right_alike i j X R OP OQ Z).
Qed.
Lemma key_row : forall j W, right_of j -> in_hull P W -> edge_on Q j W -> exists i, hit P Q i j /\ 0 <= AB P Q i j.
Proof.
  intros j W R HW OQ. destruct (right_boundary j W R HW (edge_zero Q j W OQ)) as [k OP].
  destruct (pteq_either W (vtx P k)) as [E|E].
  - assert (O2 : edge_on P (S k) W) by (apply (segment_pteq _ _ (vtx P k)); [apply pteq_sym; exact E|rewrite <- (from_S P CP k); apply edge_start]).
    exists (S k). split; [apply (right_hit _ _ W); assumption|]. pose proof (R _ (vtx_in P CP (S k))) as T.
    assert (MV : vtx P (S k) =p= vadd W (vscale 1 (edg P (S k)))) by (unfold edg; rewrite (from_S P CP k); destruct E as [E1 E2]; split; unfold vadd, vscale, vsub; cbn [px py]; [rewrite E1|rewrite E2]; ring).
    rewrite (tri2_moved Q j _ _ _ 1 MV), (edge_zero Q j W OQ), (cross_swap P Q) in T. lra.
  - exists k. split; [apply (right_hit _ _ W); assumption|]. destruct (to_end_strict P k W OP E) as (h & Hh & MV). pose proof (R _ (vtx_in P CP k)) as T.
    rewrite (tri2_moved Q j _ _ _ h MV), (edge_zero Q j W OQ), (cross_swap P Q) in T. destruct (Qlt_le_dec (AB P Q k j) 0) as [K|K]; [|exact K]. assert (0 < h * - AB P Q k j) by (apply Qmult_lt_0_compat; lra). lra.
Qed.
Lemma hit_row : forall i j, hit P Q (i mod n) j <-> hit P Q i j.
Proof.
  intros i j. pose proof (proj2 CP) as L. unfold hit, touch, edge_on, AB, edg, from, vtx, n. rewrite !Nat.mod_mod by lia. reflexivity.
Qed.
Lemma AB_row : forall i j, AB P Q (i mod n) j = AB P Q i j.
Proof. intros i j. pose proof (proj2 CP) as L. unfold AB, edg, from, vtx, n. rewrite !Nat.mod_mod by lia. reflexivity. Qed.
Lemma face_or_one : forall j, right_of j -> (exists i, hit P Q i j /\ AB P Q i j == 0) \/ (forall Y Z, common_point P Q Y -> common_point P Q Z -> Y =p= Z).
Proof.
  intros j R.
  assert (S : forall K, (exists k, hit P Q k j /\ AB P Q k j == 0) \/ (forall k, (k < K)%nat -> hit P Q k j -> ~ AB P Q k j == 0)).
  { induction K as [|K [IH|IH]]; [right; intros; lia|left; exact IH|]. destruct (hit_dec P Q CP CQ K j) as [H|H]; [destruct (Qeq_dec (AB P Q K j) 0) as [Z|Z]; [left; eauto|]|];
    right; intros k Hk; (destruct (Nat.eq_dec k K) as [->|Ne]; [tauto|apply IH; lia]). }
  destruct (S n) as [H|N]; [left; exact H|right]. intros Y Z [Y1 Y2] [Z1 Z2]. destruct (pteq_either Y Z) as [E|E]; [exact E|exfalso].
  pose proof (R Y Y1) as RY. pose proof (R Z Z1) as RZ. pose proof (around_left Q CQ j Y Y2) as LY. pose proof (around_left Q CQ j Z Z2) as LZ.
  set (M := lerp Y Z (1 # 2)). assert (MP : in_hull P M) by (apply hull_lerp; [exact CP|exact Y1|exact Z1|lra]). assert (MQ : in_hull Q M) by (apply hull_lerp; [exact CQ|exact Y2|exact Z2|lra]).
  assert (TM : forall ps k, tri2 (from ps k) (vtx ps k) M == (1 # 2) * (tri2 (from ps k) (vtx ps k) Y + tri2 (from ps k) (vtx ps k) Z)) by (intros; unfold M, tri2, cross, lerp, vadd, vscale, vsub; cbn [px py]; ring).
  assert (MZ : tri2 (from Q j) (vtx Q j) M == 0) by (rewrite TM; lra). destruct (right_boundary j M R MP MZ) as [k OP]. pose proof (around_on Q CQ j M MQ MZ) as OQ.
  pose proof (edge_zero P k M OP) as KZ. rewrite TM in KZ. pose proof (around_left P CP k Y Y1) as KY. pose proof (around_left P CP k Z Z1) as KZ2.
  assert (MV : Z =p= vadd Y (vscale 1 (vsub Z Y))) by (split; unfold vadd, vscale, vsub; cbn [px py]; ring).
  pose proof (tri2_moved P k Y Z _ 1 MV) as C1. pose proof (tri2_moved Q j Y Z _ 1 MV) as C2.
  assert (ZZ : AB P Q k j == 0).
  { unfold AB. set (a := edg P k) in *. set (b := edg Q j) in *. assert (CA : cross a (vsub Z Y) == 0) by lra. assert (CB : cross b (vsub Z Y) == 0) by lra.
    assert (I1 : cross a b * px (vsub Z Y) == cross b (vsub Z Y) * - px a + cross a (vsub Z Y) * px b) by (unfold cross; ring).
    assert (I2 : cross a b * py (vsub Z Y) == cross b (vsub Z Y) * - py a + cross a (vsub Z Y) * py b) by (unfold cross; ring).
    rewrite CA, CB in I1, I2. destruct (Qeq_dec (cross a b) 0) as [K|K]; [exact K|exfalso]. apply E. unfold vsub in I1, I2. cbn [px py] in I1, I2.
    assert (J1 : px Z - px Y == 0) by (apply (Qmult_integral_l (cross a b)); [exact K|rewrite I1; ring]). assert (J2 : py Z - py Y == 0) by (apply (Qmult_integral_l (cross a b)); [exact K|rewrite I2; ring]).
    split; lra. }
  apply (N (k mod n)%nat); [apply Nat.mod_upper_bound; pose proof (proj2 CP); unfold n; lia|apply hit_row; apply (right_hit _ _ M); assumption|rewrite AB_row; exact ZZ].
Qed.
End Geo.
