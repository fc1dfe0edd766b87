(** Segments, polylines and polygons meeting each other; simplicity; containment. *)
From Verif Require Import Base CmpModel OrientModel OrientSpec OrientProof DistModel DistSpec LinIntModel LinIntSpec LinIntProof PolygonModel PolygonSpec PolygonProof PlanarModel PlanarSpec PlanarProof PlanarProof2 PlanarProof3 PlanarProof4 PlanarProof5 PlanarProof6 PlanarProof7.
From Coq Require Import Lia.

Local Definition P2 (x y : Q) : pt := mkpt x y.
Local Definition never {X : Type} (_ : X) : bool := false.

(** ** A segment against the sides of a polyline or polygon *)
(** There is a list of all the sides that meet the segment, in order, each with the true common
    points.  Whatever the visitor does, it is told a beginning of that list: up to the first time
    it asks to stop, or all of it.  The answer says whether any side meets the segment. *)
Theorem C93_polyline : forall A B ps, nonzero (vsub B A) -> proper_polyline ps -> exists all,
  visits A B (polyline_edge ps) S all /\
  forall stop, exists b k, segment_polyline_intersect direct stop A B ps = Some (b, firstn k all) /\ (k <= length all)%nat /\
    (b = true <-> exists X, on_segment A B X /\ on_polyline ps X) /\
    (k = length all \/ (0 < k)%nat /\ stop (firstn k all) = true) /\ (forall m, (0 < m < k)%nat -> stop (firstn m all) = false).
Proof.
  intros A B ps N P. destruct (visit_polyline A B ps N P) as (all & V & H). exists all. split; [exact V|]. intro stop. destruct (H stop) as (k & LK & E & K1 & K2).
  exists (negb (Nat.eqb (length all) 0)), k. split; [exact E|]. split; [exact LK|]. split; [|auto]. rewrite (visits_some _ _ _ _ _ V). split.
  - intros (i & C & D & EI & X & X1 & X2). exists X. split; [exact X1|]. exists i, C, D. auto.
  - intros (X & X1 & i & C & D & EI & X2). exists i, C, D. split; [exact EI|]. exists X. auto.
Qed.
Print Assumptions C93_polyline.
Theorem C93_polygon_border : forall A B ps, nonzero (vsub B A) -> (2 <= length ps)%nat -> proper_polygon ps -> exists all,
  visits A B (polygon_edge ps) (fun i => (S i mod length ps)%nat) all /\
  forall stop, exists b k, segment_polygon_border_intersect direct stop A B ps = Some (b, firstn k all) /\ (k <= length all)%nat /\
    (b = true <-> exists X, on_segment A B X /\ on_polygon ps X) /\
    (k = length all \/ (0 < k)%nat /\ stop (firstn k all) = true) /\ (forall m, (0 < m < k)%nat -> stop (firstn m all) = false).
Proof.
  intros A B ps N L P. destruct (visit_polygon A B ps N L P) as (all & V & H). exists all. split; [exact V|]. intro stop. destruct (H stop) as (k & LK & E & K1 & K2).
  exists (negb (Nat.eqb (length all) 0)), k. split; [exact E|]. split; [exact LK|]. split; [|auto]. rewrite (visits_some _ _ _ _ _ V). split.
  - intros (i & C & D & EI & X & X1 & X2). exists X. split; [exact X1|]. exists i, C, D. auto.
  - intros (X & X1 & i & C & D & EI & X2). exists i, C, D. split; [exact EI|]. exists X. auto.
Qed.
Print Assumptions C93_polygon_border.
(** A polygon of one point makes the border version read out of range. *)
Theorem C93_one_point_refuted : forall stop A B p, segment_polygon_border_intersect direct stop A B [p] = None.
Proof. reflexivity. Qed.
Print Assumptions C93_one_point_refuted.
Lemma nz_check : forall A B, negb (Qeqb (px A) (px B) && Qeqb (py A) (py B)) = true -> nonzero (vsub B A).
Proof. intros A B H [E1 E2]. unfold vsub in *. cbn [px py] in *. rewrite negb_true_iff in H. destruct (Qeqb_spec (px A) (px B)) as [H1|H1]; [|lra]. destruct (Qeqb_spec (py A) (py B)) as [H2|H2]; [discriminate|lra]. Qed.
Lemma proper_polyline_check : forall ps, forallb (fun i => negb (Qeqb (px (pnth ps i)) (px (pnth ps (S i))) && Qeqb (py (pnth ps i)) (py (pnth ps (S i))))) (seq 0 (length ps - 1)) = true -> proper_polyline ps.
Proof.
  intros ps H i A B EI. pose proof (polyline_edge_bound _ _ _ _ EI) as LI. destruct EI as [EA EB]. rewrite forallb_forall in H. specialize (H i). apply nz_check.
  unfold pnth in H. rewrite (nth_error_nth _ _ _ EA), (nth_error_nth _ _ _ EB) in H. apply H, in_seq. lia.
Qed.
Lemma proper_polygon_check : forall ps, forallb (fun i => negb (Qeqb (px (pnth ps i)) (px (pnth ps (S i mod length ps))) && Qeqb (py (pnth ps i)) (py (pnth ps (S i mod length ps))))) (seq 0 (length ps)) = true -> proper_polygon ps.
Proof. intros ps H i A B EI. apply edge_pnth in EI as (LI & -> & ->). rewrite forallb_forall in H. apply nz_check, H, in_seq. lia. Qed.
Definition zigzag : list pt := [P2 0 0; P2 1 2; P2 2 0; P2 3 2; P2 4 2].
Example C93_witness : proper_polyline zigzag /\ exists b h, segment_polyline_intersect direct never (P2 0 1) (P2 4 1) zigzag = Some (b, h) /\ length h = 3%nat /\
  exists b' h', segment_polyline_intersect direct (fun l => Nat.eqb (length l) 2) (P2 0 1) (P2 4 1) zigzag = Some (b', h') /\ length h' = 2%nat.
Proof.
  split; [apply proper_polyline_check; vm_compute; reflexivity|]. eexists. eexists. split; [vm_compute; reflexivity|]. split; [reflexivity|]. eexists. eexists. split; [vm_compute; reflexivity|reflexivity].
Qed.

(** ** Two polylines *)
(** The answer says whether the polylines have a common point; the visitor is told true
    intersections of the first side of A that meets B, from the first one on. *)
Theorem C94_polylines : forall A B stop, proper_polyline A -> proper_polyline B ->
  exists b hits, polyline_polyline_intersect direct stop A B = Some (b, hits) /\
  (b = true <-> exists X, on_polyline A X /\ on_polyline B X) /\ (b = false -> hits = []) /\
  (b = true -> exists i P Q all k, polyline_edge A i P Q /\ visits P Q (polyline_edge B) S all /\ (0 < k <= length all)%nat /\ hits = map (pair i) (firstn k all) /\
     (forall i' P' Q' X, (i' < i)%nat -> polyline_edge A i' P' Q' -> on_segment P' Q' X -> ~ on_polyline B X) /\
     (k = length all \/ stop hits = true) /\ (forall m, (0 < m < k)%nat -> stop (map (pair i) (firstn m all)) = false)).
Proof.
  intros A B stop PA PB. destruct (polylines_ok A B stop PA PB) as [(i & P & Q & all & k & EI & V & NE & BEFORE & K & K1 & K2 & E)|(NONE & E)].
  - exists true, (map (pair i) (firstn k all)). split; [exact E|]. split; [|split; [discriminate|]].
    + split; [|reflexivity]. intros _. assert (S : negb (Nat.eqb (length all) 0) = true) by (destruct all; [congruence|reflexivity]).
      apply (visits_some _ _ _ _ _ V) in S as (j & C & D & EJ & X & X1 & X2). exists X. split; [exists i, P, Q; auto|exists j, C, D; auto].
    + intros _. exists i, P, Q, all, k. split; [exact EI|]. split; [exact V|]. split; [exact K|]. split; [reflexivity|]. split; [|auto].
      intros i' P' Q' X LT EI' OX (j & C & D & EJ & OJ). apply (BEFORE i' P' Q' j C D LT EI' EJ). exists X. auto.
  - exists false, []. split; [exact E|]. split; [|split; [reflexivity|discriminate]]. split; [discriminate|].
    intros (X & (i & P & Q & EI & X1) & (j & C & D & EJ & X2)). exfalso. apply (NONE i P Q j C D EI EJ). exists X. auto.
Qed.
Print Assumptions C94_polylines.
(** A visitor that never asks to stop is not told about the later sides of A. *)
Theorem C94_all_sides_refuted : exists A B b hits i P Q, proper_polyline A /\ proper_polyline B /\
  polyline_polyline_intersect direct never A B = Some (b, hits) /\ polyline_edge A i P Q /\ (exists X, on_segment P Q X /\ on_polyline B X) /\ ~ In i (map fst hits).
Proof.
  exists zigzag, [P2 0 1; P2 4 1]. eexists. eexists. exists 1%nat, (P2 1 2), (P2 2 0).
  split; [apply proper_polyline_check; vm_compute; reflexivity|]. split; [apply proper_polyline_check; vm_compute; reflexivity|]. split; [vm_compute; reflexivity|]. split; [split; reflexivity|]. split.
  - exists (P2 (3 # 2) 1). split; [exists (1 # 2); split; [lra|split; reflexivity]|]. exists 0%nat, (P2 0 1), (P2 4 1). split; [split; reflexivity|]. exists (3 # 8). split; [lra|split; reflexivity].
  - vm_compute. intros [H|H]; [discriminate|exact H].
Qed.
Print Assumptions C94_all_sides_refuted.

(** ** Self-intersection and simplicity *)
(** Reported are exactly: the sides, not one next to the other, that have a common point, and the
    neighbouring sides on one line; each with its true common points. *)
Theorem C95_self : forall ps, proper_polyline ps -> exists b l, polyline_self_intersection direct ps = Some (b, l) /\ (b = true <-> l <> []) /\
  (forall i j t xs, In (i, j, t, xs) l -> (i < j)%nat /\ exists A B C D, polyline_edge ps i A B /\ polyline_edge ps j C D /\ describes A B C D t xs) /\
  (forall i j A B C D, (i < j)%nat -> polyline_edge ps i A B -> polyline_edge ps j C D ->
    ((exists t xs, In (i, j, t, xs) l) <-> (S i < j)%nat /\ meet A B C D \/ S i = j /\ parallel (vsub B A) (vsub D C))).
Proof.
  intros ps P. destruct (self_ok ps P) as (l & E & H1 & H2). exists (match l with [] => false | _ => true end), l. split; [exact E|]. split; [destruct l; split; congruence|auto].
Qed.
Print Assumptions C95_self.
(** A straight polyline with a vertex in the middle is reported as intersecting itself. *)
Theorem C95_straight_refuted : exists ps l, proper_polyline ps /\ polyline_self_intersection direct ps = Some (true, l) /\
  forall i j A B C D X, (i < j)%nat -> polyline_edge ps i A B -> polyline_edge ps j C D -> on_segment A B X -> on_segment C D X -> X =p= B /\ X =p= C.
Proof.
  exists [P2 0 0; P2 1 0; P2 2 0]. eexists. split; [apply proper_polyline_check; vm_compute; reflexivity|]. split; [vm_compute; reflexivity|].
  intros i j A B C D X IJ EI EJ OA OC. pose proof (polyline_edge_bound _ _ _ _ EJ) as LJ. cbn in LJ. assert (i = 0 /\ j = 1)%nat as [-> ->] by lia.
  destruct EI as [EA EB], EJ as [EC ED]. cbn in EA, EB, EC, ED. injection EA as <-. injection EB as <-. injection EC as <-. injection ED as <-.
  destruct OA as (s & Hs & X1 & Y1), OC as (t & Ht & X2 & Y2). rewrite lerp_px in X1, X2. rewrite lerp_py in Y1, Y2. unfold P2 in *. cbn [px py] in *. split; split; cbn [px py]; lra.
Qed.
Print Assumptions C95_straight_refuted.

Lemma far_no_spikes : forall ps, (4 <= length ps)%nat -> proper_polygon ps -> far_sides_disjoint ps -> no_spikes ps.
Proof.
  intros ps L P F i A B D EI EJ [T DD]. pose proof EI as EI'. pose proof EJ as EJ'. apply edge_pnth in EI' as (Hi & _). apply edge_pnth in EJ' as (Hj & _). set (n := length ps) in *.
  assert (NB : nonzero (vsub B A)) by exact (P _ _ _ EI).
  assert (DP : exists d, D =p= lerp A B d) by (apply (collinear_param A B D NB); unfold tri2, cross, vsub in *; cbn [px py] in *; lra). destruct DP as (d & ED).
  assert (DL : d < 1).
  { pose proof (nz_dot _ NB) as ND. destruct ED as [E1 E2]. rewrite lerp_px in E1. rewrite lerp_py in E2. unfold dot, vsub in *. cbn [px py] in *. rewrite E1, E2 in DD.
    destruct (Qlt_le_dec d 1) as [|G]; [assumption|]. exfalso.
    assert (0 <= (d - 1) * ((px B - px A) * (px B - px A) + (py B - py A) * (py B - py A))) by (apply Qmult_le_0_compat; lra). lra. }
  destruct (Qlt_le_dec d 0) as [D0|D0].
  - (* A lies between D and B: the side before ends on side i+1 *)
    assert (HM : exists m, (m < n)%nat /\ (S m mod n)%nat = i).
    { destruct i as [|i']; [exists (n - 1)%nat; split; [lia|]; replace (S (n - 1)) with n by lia; apply Nat.mod_same; lia|exists i'; split; [lia|apply Nat.mod_small; lia]]. }
    destruct HM as (m & Hm & EM). pose proof (edge_at ps m Hm) as [EZ _].
    assert (ME : polygon_edge ps m (pnth ps m) A) by (split; [exact EZ|fold n; rewrite EM; exact (proj1 EI)]).
    refine (F m (S i mod n)%nat _ _ _ _ _ _ ME EJ _).
    + rewrite <- EM. intro E. assert (H0 : (m mod n = (m + 2) mod n)%nat).
      { rewrite (Nat.mod_small m n Hm). rewrite E at 1. rewrite <- (Nat.add_1_r (S m mod n)). rewrite Nat.add_mod_idemp_l by lia. f_equal. lia. }
      destruct (Nat.eq_dec m (n - 1)) as [->|]; [rewrite (Nat.mod_small (n-1)%nat n) in H0 by lia; replace (n - 1 + 2)%nat with (1 + 1 * n)%nat in H0 by lia; rewrite Nat.mod_add in H0 by lia; rewrite Nat.mod_small in H0 by lia; lia|].
      destruct (Nat.eq_dec m (n - 2)) as [->|]; [rewrite (Nat.mod_small (n-2)%nat n) in H0 by lia; replace (n - 2 + 2)%nat with n in H0 by lia; rewrite Nat.mod_same in H0 by lia; lia|].
      rewrite !Nat.mod_small in H0 by lia. lia.
    + fold n. assert (NE : ~ neighbours n m (S i mod n)).
      { intros [E|E].
        - rewrite EM in E. destruct (Nat.eq_dec i (n - 1)) as [->|]; [replace (S (n - 1)) with n in E by lia; rewrite Nat.mod_same in E by lia; lia|rewrite Nat.mod_small in E by lia; lia].
        - assert (G : forall q, (q < n)%nat -> (q = (n - 1)%nat /\ (S q mod n = 0)%nat) \/ (q < n - 1)%nat /\ (S q mod n = S q)%nat).
          { intros q Hq. destruct (Nat.eq_dec q (n - 1)) as [->|]; [left; split; [reflexivity|replace (S (n - 1)) with n by lia; apply Nat.mod_same; lia]|right; split; [lia|apply Nat.mod_small; lia]]. }
          destruct (G m Hm) as [[? R1]|[? R1]]; rewrite R1 in EM; subst i; destruct (G _ Hi) as [[? R2]|[? R2]]; rewrite R2 in E; destruct (G _ Hj) as [[? R3]|[? R3]]; rewrite R2 in R3; rewrite R3 in E; lia. }
      exact NE.
    + exists A. split; [apply end_on|]. exists (1 / (1 - d)). assert (EQ : 1 / (1 - d) * (1 - d) == 1) by (field; lra). set (u := 1 / (1 - d)) in *.
      assert (U0 : 0 < u) by (destruct (Qlt_le_dec 0 u); [assumption|exfalso; assert (0 <= (- u) * (1 - d)) by (apply Qmult_le_0_compat; lra); lra]).
      assert (U1 : u <= 1) by (destruct (Qlt_le_dec 1 u); [exfalso; assert (0 < (u - 1) * (1 - d)) by (apply Qmult_lt_0_compat; lra); lra|assumption]).
      split; [lra|]. destruct ED as [E1 E2]. rewrite lerp_px in E1. rewrite lerp_py in E2. split; rewrite ?lerp_px, ?lerp_py, ?E1, ?E2.
      * setoid_replace (px B + u * (px A + d * (px B - px A) - px B)) with (px B - (u * (1 - d)) * (px B - px A)) by ring. rewrite EQ. ring.
      * setoid_replace (py B + u * (py A + d * (py B - py A) - py B)) with (py B - (u * (1 - d)) * (py B - py A)) by ring. rewrite EQ. ring.
  - (* D is on AB, and the next side begins there *)
    assert (HK : (S (S i mod n) mod n < n)%nat) by (apply Nat.mod_upper_bound; lia). pose proof (edge_at ps _ HK) as [EK EK2]. fold n in EK2.
    assert (pnth ps (S (S i mod n) mod n) = D) by (destruct EJ as [_ EJ]; fold n in EJ; congruence). rewrite H in EK.
    refine (F i _ _ _ _ _ _ _ EI (conj EK EK2) _).
    + intro E. assert (G : forall q, (q < n)%nat -> (q = (n - 1)%nat /\ (S q mod n = 0)%nat) \/ (q < n - 1)%nat /\ (S q mod n = S q)%nat).
      { intros q Hq. destruct (Nat.eq_dec q (n - 1)) as [->|]; [left; split; [reflexivity|replace (S (n - 1)) with n by lia; apply Nat.mod_same; lia]|right; split; [lia|apply Nat.mod_small; lia]]. }
      destruct (G i Hi) as [[? R1]|[? R1]]; destruct (G _ Hj) as [[? R2]|[? R2]]; rewrite R2 in E; rewrite R1 in *; lia.
    + fold n. intro NE. assert (G : forall q, (q < n)%nat -> (q = (n - 1)%nat /\ (S q mod n = 0)%nat) \/ (q < n - 1)%nat /\ (S q mod n = S q)%nat).
      { intros q Hq. destruct (Nat.eq_dec q (n - 1)) as [->|]; [left; split; [reflexivity|replace (S (n - 1)) with n by lia; apply Nat.mod_same; lia]|right; split; [lia|apply Nat.mod_small; lia]]. }
      destruct NE as [E|E].
      * destruct (G _ Hj) as [[? R2]|[? R2]]; rewrite R2 in E; lia.
      * destruct (G i Hi) as [[? R1]|[? R1]]; destruct (G _ Hj) as [[? R2]|[? R2]]; destruct (G _ HK) as [[? R3]|[? R3]]; rewrite R3 in E; rewrite R2 in *; rewrite R1 in *; lia.
    + exists D. split; [|apply start_on]. exists d. split; [lra|exact ED].
Qed.
(** For four or more points, no two in a row equal, the answer is exact. *)
Theorem C95_simple : forall ps, (4 <= length ps)%nat -> proper_polygon ps ->
  exists b, is_polygon_simple direct ps = Some b /\ (b = true <-> simple_polygon ps).
Proof.
  intros ps L P. destruct (simple_ok ps ltac:(lia) P) as (b & E & H). exists b. split; [exact E|]. rewrite H. split; intro F.
  - apply (simple_spec ps ltac:(lia) P (far_no_spikes ps L P F)), F.
  - intros i j A B C D IJ NN EI EJ (X & X1 & X2). destruct F as (_ & _ & F). apply NN. destruct (F i j A B C D X IJ EI EJ X1 X2) as [[E1 _]|[E1 _]]; [left|right]; exact E1.
Qed.
Print Assumptions C95_simple.
(** A triangle is always said to be simple: rightly if its points are not on one line. *)
Theorem C95_triangle : forall a b c, ~ tri2 a b c == 0 -> is_polygon_simple direct [a; b; c] = Some true /\ simple_polygon [a; b; c].
Proof.
  intros a b c T.
  assert (P : proper_polygon [a; b; c]).
  { intros i A B [EA EB] [N1 N2]. apply T. destruct i as [|[|[|i]]]; cbn in EA, EB; try (destruct i; discriminate); injection EA as <-; injection EB as <-; unfold tri2, cross, vsub in *; cbn [px py] in *.
    - setoid_replace (px b - px a) with 0 by lra. setoid_replace (py b - py a) with 0 by lra. ring.
    - setoid_replace (px c - px a) with (px b - px a) by lra. setoid_replace (py c - py a) with (py b - py a) by lra. ring.
    - setoid_replace (px c - px a) with 0 by lra. setoid_replace (py c - py a) with 0 by lra. ring. }
  assert (F : far_sides_disjoint [a; b; c]).
  { intros i j A B C D IJ NN EI EJ. exfalso. apply NN. apply edge_pnth in EI as (Hi & _). apply edge_pnth in EJ as (Hj & _). cbn in Hi, Hj |- *. unfold neighbours.
    destruct i as [|[|[|i]]]; destruct j as [|[|[|j]]]; try lia; cbn; auto. }
  destruct (simple_ok [a; b; c] ltac:(cbn; lia) P) as (r & E & H). split; [apply H in F; congruence|]. apply simple_spec; [cbn; lia|exact P| |exact F].
  intros i A B D [EA EB] [EB' ED] [Z _]. apply T. destruct i as [|[|[|i]]]; cbn in EA, EB, EB', ED; try (destruct i; discriminate); injection EA as <-; injection EB as <-; injection ED as <-; rewrite <- Z; unfold tri2, cross, vsub; cbn [px py]; ring.
Qed.
Print Assumptions C95_triangle.
(** And wrongly if they are. *)
Theorem C95_flat_triangle_refuted : exists ps, proper_polygon ps /\ is_polygon_simple direct ps = Some true /\ ~ simple_polygon ps.
Proof.
  exists [P2 0 0; P2 2 0; P2 1 0]. split; [apply proper_polygon_check; vm_compute; reflexivity|]. split; [vm_compute; reflexivity|].
  intros (_ & _ & F). specialize (F 0%nat 1%nat (P2 0 0) (P2 2 0) (P2 2 0) (P2 1 0) (P2 1 0)).
  assert (G : (1%nat = 1%nat /\ P2 1 0 =p= P2 2 0) \/ (2%nat = 0%nat /\ P2 1 0 =p= P2 0 0)).
  { apply F; [discriminate|split; reflexivity|split; reflexivity|exists (1 # 2); split; [lra|split; reflexivity]|apply end_on]. }
  destruct G as [[_ [G _]]|[G _]]; [vm_compute in G; discriminate|discriminate].
Qed.
Print Assumptions C95_flat_triangle_refuted.
(** The version with remembered answers gives the same. *)
Theorem C95_memoized : forall ps, (3 <= length ps)%nat -> proper_polygon ps -> is_polygon_simple_memoized direct ps = is_polygon_simple direct ps.
Proof. exact memo_ok. Qed.
Print Assumptions C95_memoized.
Definition arrow : list pt := [P2 0 0; P2 4 0; P2 4 4; P2 2 1; P2 0 4].
Lemma arrow_simple : simple_polygon arrow.
Proof.
  assert (P : proper_polygon arrow) by (apply proper_polygon_check; vm_compute; reflexivity). destruct (C95_simple arrow ltac:(cbn; lia) P) as (b & E & H). apply H. vm_compute in E. congruence.
Qed.
Example C95_witness : proper_polygon arrow /\ is_polygon_simple direct arrow = Some true /\ is_polygon_simple direct [P2 0 0; P2 4 4; P2 4 0; P2 0 4] = Some false /\ proper_polygon [P2 0 0; P2 4 4; P2 4 0; P2 0 4] /\
  proper_polyline [P2 0 0; P2 4 4; P2 4 0; P2 0 4] /\ exists l, polyline_self_intersection direct [P2 0 0; P2 4 4; P2 4 0; P2 0 4] = Some (true, l).
Proof.
  split; [apply arrow_simple|]. split; [vm_compute; reflexivity|]. split; [vm_compute; reflexivity|]. split; [apply proper_polygon_check; vm_compute; reflexivity|].
  split; [apply proper_polyline_check; vm_compute; reflexivity|]. eexists. vm_compute. reflexivity.
Qed.

(** ** Polygons with holes *)
(** Said to be simple exactly when every loop is, and no two loops have a border point in common
    (loops of four or more points; the holes need not be inside the outer loop). *)
Theorem C96_holes : forall outer holes, (forall ps, In ps (outer :: holes) -> (4 <= length ps)%nat /\ proper_polygon ps) ->
  exists b, is_polygon_with_holes_simple direct outer holes = Some b /\
  (b = true <-> (forall ps, In ps (outer :: holes) -> simple_polygon ps) /\ loops_apart (outer :: holes)).
Proof.
  intros outer holes H. destruct (holes_ok outer holes) as (b & E & I); [intros ps IN; destruct (H ps IN); split; [lia|assumption]|]. exists b. split; [exact E|]. rewrite I. clear - H.
  assert (G : forall ps, In ps (outer :: holes) -> (far_sides_disjoint ps <-> simple_polygon ps)).
  { intros ps IN. destruct (H ps IN) as [L P]. split; intro F.
    - apply (simple_spec ps ltac:(lia) P (far_no_spikes ps L P F)), F.
    - intros i j A B C D IJ NN EI EJ (X & X1 & X2). destruct F as (_ & _ & F). apply NN. destruct (F i j A B C D X IJ EI EJ X1 X2) as [[E1 _]|[E1 _]]; [left|right]; exact E1. }
  split; intros [F1 F2]; (split; [intros ps IN; apply (G ps IN), F1, IN|exact F2]).
Qed.
Print Assumptions C96_holes.
(** A "hole" outside the outer loop is accepted. *)
Theorem C96_outside_hole_refuted : exists outer hole, is_polygon_with_holes_simple direct outer [hole] = Some true /\ forall v, In v hole -> px v > 1 /\ forall w, In w outer -> px w <= 1.
Proof.
  exists [P2 0 0; P2 1 0; P2 1 1; P2 0 1], [P2 2 0; P2 3 0; P2 3 1; P2 2 1]. split; [vm_compute; reflexivity|]. intros v I. cbn in I.
  repeat destruct I as [<-|I]; try contradiction; (split; [unfold P2; cbn [px]; lra|]); intros w J; cbn in J; repeat destruct J as [<-|J]; try contradiction; unfold P2; cbn [px]; lra.
Qed.
Print Assumptions C96_outside_hole_refuted.
Example C96_witness : is_polygon_with_holes_simple direct [P2 0 0; P2 9 0; P2 9 9; P2 0 9] [[P2 1 1; P2 2 1; P2 2 2; P2 1 2]; [P2 4 4; P2 5 4; P2 5 5; P2 4 5]] = Some true /\
  is_polygon_with_holes_simple direct [P2 0 0; P2 9 0; P2 9 9; P2 0 9] [[P2 1 1; P2 2 1; P2 2 2; P2 1 2]; [P2 1 1; P2 5 4; P2 5 5; P2 4 5]] = Some false.
Proof. split; vm_compute; reflexivity. Qed.

(** ** Segments leaving a polygon, and containment *)
(** For a segment that meets the border of a simple polygon: it is said to project outside exactly
    when one of its points is not in the closed region (border, or inside by the even-odd rule). A
    segment that misses the border is never said to, on either side. *)
Theorem C97_projects : forall eps A B ps, simple_polygon ps -> nonzero (vsub B A) ->
  exists b, segment_projects_outside_polygon direct eps A B ps = Some b /\
  ((exists X, on_segment A B X /\ on_polygon ps X) -> (b = true <-> exists Z, on_segment A B Z /\ ~ in_region ps Z)) /\
  (~ (exists X, on_segment A B X /\ on_polygon ps X) -> b = false).
Proof.
  intros eps A B ps S N. destruct (projects_ok eps ps S A B N) as (b & E & H1 & H2). exists b. split; [exact E|].
  assert (G : (exists X, on_segment A B X /\ on_polygon ps X) <-> exists i C D, polygon_edge ps i C D /\ meet A B C D).
  { split; [intros (X & X1 & i & C & D & EI & X2); exists i, C, D; split; [exact EI|exists X; auto]|intros (i & C & D & EI & X & X1 & X2); exists X; split; [exact X1|exists i, C, D; auto]]. }
  rewrite G. auto.
Qed.
Print Assumptions C97_projects.
(** A polyline is said to be contained in a simple polygon exactly when all its points are in the
    closed region. *)
Theorem C97_polyline : forall eps pline pgon, simple_polygon pgon -> proper_polyline pline ->
  exists b, polygon_polyline_containment direct eps pline pgon = Some b /\
  (b = true <-> pline <> [] /\ (forall v, In v pline -> in_region pgon v) /\ forall X, on_polyline pline X -> in_region pgon X).
Proof. exact polyline_containment_ok. Qed.
Print Assumptions C97_polyline.
(** And a polygon exactly when its whole border is. *)
Theorem C97_polygon : forall eps polygon1 polygon2, simple_polygon polygon2 -> proper_polygon polygon1 ->
  exists b, polygon_polygon_containment direct eps polygon1 polygon2 = Some b /\
  (b = true <-> polygon1 <> [] /\ forall X, on_polygon polygon1 X -> in_region polygon2 X).
Proof. exact polygon_containment_ok. Qed.
Print Assumptions C97_polygon.
(** The notch of the arrow between its two tips is outside, the points below it inside. *)
Example C97_witness : simple_polygon arrow /\
  segment_projects_outside_polygon direct 0 (P2 0 4) (P2 4 4) arrow = Some true /\ segment_projects_outside_polygon direct 0 (P2 0 0) (P2 2 1) arrow = Some false /\
  polygon_polyline_containment direct 0 [P2 0 4; P2 4 4] arrow = Some false /\ polygon_polyline_containment direct 0 [P2 0 4; P2 0 1; P2 2 1; P2 4 4] arrow = Some true /\
  polygon_polygon_containment direct 0 [P2 0 0; P2 4 0; P2 2 1] arrow = Some true /\ polygon_polygon_containment direct 0 [P2 0 0; P2 4 0; P2 2 2] arrow = Some false.
Proof. split; [exact arrow_simple|]. repeat split; vm_compute; reflexivity. Qed.
