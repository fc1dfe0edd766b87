From Verif Require Import Base CmpModel OrientModel OrientSpec OrientProof DistSpec PolygonModel PolygonSpec PolygonProof PolygonConvexProof FixedProof
  GridModel GridSpec GridProof FloodSpec CvxSpec CvxProof CvxProof3 PfillModel PfillSpec PfillProof PfillProof2 PfillProof3 PfillProof4.
From Coq Require Import Permutation.

Lemma all_or_one : forall n (f : nat -> Q), (forall i, (i < n)%nat -> 0 < f i) \/ exists i, (i < n)%nat /\ f i <= 0.
Proof.
  intros n f. induction n as [|n IH]; [left; intros; lia|]. destruct IH as [A|(i & Hi & K)]; [|right; exists i; split; [lia|exact K]].
  destruct (Qlt_le_dec 0 (f n)) as [L|L]; [|right; exists n; split; [lia|exact L]].
  left. intros i Hi. destruct (Nat.eq_dec i n) as [->|N]; [exact L|apply A; lia].
Qed.
Lemma some_or_all : forall (ps : list pt) (f : pt -> Q), (exists v, In v ps /\ 0 < f v) \/ forall v, In v ps -> f v <= 0.
Proof.
  intros ps f. induction ps as [|a ps IH]; [right; intros v []|]. destruct (Qlt_le_dec 0 (f a)) as [L|L]; [left; exists a; split; [left; reflexivity|exact L]|].
  destruct IH as [(v & I & K)|A]; [left; exists v; split; [right; exact I|exact K]|]. right. intros v [<-|I]; auto.
Qed.
(** A point of the polygon that is not inside it is on its boundary. *)
Lemma hull_boundary : forall ps X, convex_polygon ps -> in_hull ps X -> ~ inside_polygon ps X -> exists i, (i < length ps)%nat /\ on_segment (pnth ps i) (pnth ps (S i mod length ps)) X.
Proof.
  intros ps X C HX NI. destruct (all_or_one (length ps) (fun i => tri2 (pnth ps i) (pnth ps (S i mod length ps)) X)) as [A|(i & Hi & K)].
  - exfalso. apply NI. split; [exact HX|]. intros (i & P & Q & E & O). apply edge_is in E as (Hi & -> & ->). specialize (A i Hi).
    apply (tri2_on_segment (pnth ps i) (pnth ps (S i mod length ps))) in O as (t & _ & E). rewrite tri2_AA, tri2_AB in E. lra.
  - exists i. split; [exact Hi|]. apply hull_zero_edge; [exact C|exact Hi|exact HX|]. pose proof (hull_left ps X i (proj1 C) (proj2 C) HX Hi). lra.
Qed.

Section Holes.
Variables xmin xmax ymin ymax w : Q.
Variable g : grid.
Hypothesis Hw : 0 < w.
Notation cell := (in_closed_cell xmin ymin w).
Notation walls := (boundary_cells xmin ymin w g).

Section OneHole.
Variables (h : list pt) (L : list key).
Hypothesis C : convex_polygon h.
Hypothesis W : walls h L.
Variables (i k : Z) (X : pt).
Hypothesis KX : cell i k X.
Hypothesis NX : ~ inside_polygon h X.

Lemma open_case : forall Z, in_hull h Z -> xmin + inject_Z i * w < px Z < xmin + (inject_Z i + 1) * w -> ymin + inject_Z k * w < py Z < ymin + (inject_Z k + 1) * w ->
  exists c, In c L /\ cell (fst c) (snd c) X.
Proof.
  intros Z HZ Zx Zy. destruct W as (_ & W2 & _). destruct (exit_polygon h Z X C HZ) as [H|(s & j & Hj & Hs & _ & O)].
  - destruct (hull_boundary h X C H NX) as (j & Hj & O). destruct (W2 _ _ _ _ (edge_pnth h j Hj) O) as (c & I & K & _). eauto.
  - destruct (W2 _ _ _ _ (edge_pnth h j Hj) O) as (c & I & [K1 K2] & _). exists c. split; [exact I|].
    assert (PX : px (lerp Z X s) == px Z + s * (px X - px Z)) by (unfold lerp; cbn [px py vadd vscale vsub]; ring).
    assert (PY : py (lerp Z X s) == py Z + s * (py X - py Z)) by (unfold lerp; cbn [px py vadd vscale vsub]; ring).
    destruct KX as [KX1 KX2].
    assert (Between : forall lo hi z x, lo < z < hi -> lo <= x <= hi -> lo < z + s * (x - z) < hi).
    { intros lo hi z x [A B] [A' B']. split; nra. }
    assert (fst c = i). { apply (strip_inner xmin w Hw i (fst c) (px (lerp Z X s))); [rewrite PX; apply Between; assumption|exact K1]. }
    assert (snd c = k). { apply (strip_inner ymin w Hw k (snd c) (py (lerp Z X s))); [rewrite PY; apply Between; assumption|exact K2]. }
    rewrite H, H0. split; assumption.
Qed.

Lemma hole_case : forall lo hi, In (i, lo) L -> In (i, hi) L -> (lo <= k <= hi)%Z -> exists c, In c L /\ cell (fst c) (snd c) X.
Proof.
  intros lo hi Il Ih Lk.
  destruct (Z.eq_dec k lo) as [El|Nl]; [exists (i, k); rewrite El in *; split; assumption|].
  destruct (Z.eq_dec k hi) as [Eh|Nh]; [exists (i, k); rewrite Eh in *; split; assumption|].
  destruct (mid_point xmin ymin w g Hw h L i lo hi k C W Il Ih ltac:(lia)) as (U & V & Z & OU & OV & KU & KV & OZ & YU & YV & ZY & ZX).
  assert (HU := polygon_hull _ _ OU). assert (HV := polygon_hull _ _ OV). assert (HZ := segment_hull h U V Z C HU HV OZ).
  (* a point of the hole next to Z, strictly inside the column *)
  assert (Nudge : forall v, In v h -> (px Z == xmin + inject_Z i * w /\ px Z < px v \/ px Z == xmin + (inject_Z i + 1) * w /\ px v < px Z) ->
    exists c, In c L /\ cell (fst c) (snd c) X).
  { intros v Iv Side. destruct (small_eps (px v - px Z) (py v - py Z) ((1 # 2) * w) ltac:(lra)) as (e & He & Ex & Ey).
    assert (HZ' : in_hull h (lerp Z v e)) by (apply hull_lerp; [exact C|exact HZ|apply vertex_in_hull; exact Iv|lra]).
    assert (PX : px (lerp Z v e) == px Z + e * (px v - px Z)) by (unfold lerp; cbn [px py vadd vscale vsub]; ring).
    assert (PY : py (lerp Z v e) == py Z + e * (py v - py Z)) by (unfold lerp; cbn [px py vadd vscale vsub]; ring).
    apply (open_case (lerp Z v e) HZ').
    - rewrite PX. destruct Side as [[E Lv]|[E Lv]].
      + assert (0 < e * (px v - px Z)) by (apply Qmult_lt_0_compat; lra). lra.
      + assert (0 < e * (px Z - px v)) by (apply Qmult_lt_0_compat; lra). lra.
    - split; lra. }
  destruct (Qlt_le_dec (xmin + inject_Z i * w) (px Z)) as [A|A]; [destruct (Qlt_le_dec (px Z) (xmin + (inject_Z i + 1) * w)) as [B|B]|].
  - apply (open_case Z HZ); [lra|]. rewrite ZY. lra.
  - (* the right border *)
    destruct (some_or_all h (fun v => px Z - px v)) as [(v & Iv & Lv)|All].
    + apply (Nudge v Iv). right. split; lra.
    + exfalso. destruct W as (_ & _ & W3). destruct (W3 _ Il) as (v & Iv & Lv). cbn [fst] in Lv. specialize (All v Iv). cbn beta in All. lra.
  - (* the left border *)
    destruct (some_or_all h (fun v => px v - px Z)) as [(v & Iv & Lv)|All].
    + apply (Nudge v Iv). left. split; lra.
    + assert (Max : forall Y, in_hull h Y -> px Y <= px Z) by (intros Y HY; apply (hull_left_x h Y (px Z)); [intros v Iv; specialize (All v Iv); cbn beta in All; lra|exact HY]).
      assert (EU : px U == px Z) by (pose proof (Max U HU); destruct KU as [KU _]; lra).
      assert (EV : px V == px Z) by (pose proof (Max V HV); destruct KV as [KV _]; lra).
      destruct (exit_polygon h Z (mkpt (px Z + 1) (py Z)) C HZ) as [H|(s & j & Hj & Hs & HY & O)].
      { exfalso. apply Max in H. cbn [px] in H. lra. }
      assert (PX : px (lerp Z (mkpt (px Z + 1) (py Z)) s) == px Z + s) by (unfold lerp; cbn [px py vadd vscale vsub]; ring).
      assert (s == 0) by (apply Max in HY; lra). clear PX HY.
      assert (OZj : on_segment (pnth h j) (pnth h (S j mod length h)) Z).
      { revert O. apply segment_pteq. split; unfold lerp; cbn [px py vadd vscale vsub]; rewrite H; ring. }
      set (P := pnth h j) in *. set (R := pnth h (S j mod length h)) in *.
      assert (TZ : tri2 P R Z == 0). { apply (tri2_on_segment P R) in OZj as (t & _ & E). rewrite tri2_AA, tri2_AB in E. lra. }
      assert (TU := hull_left h U j (proj1 C) (proj2 C) HU Hj). assert (TV := hull_left h V j (proj1 C) (proj2 C) HV Hj). fold P R in TU, TV.
      destruct OZ as (t & Ht & EZ1 & EZ2).
      assert (PYt : py Z == py U + t * (py V - py U)) by (rewrite EZ2; unfold lerp; cbn [px py vadd vscale vsub]; ring).
      assert (t0 : 0 < t). { apply Qnot_le_lt. intro. assert (Et0 : t == 0) by lra. rewrite Et0 in PYt. lra. }
      assert (t1 : t < 1). { apply Qnot_le_lt. intro. assert (Et1 : t == 1) by lra. rewrite Et1 in PYt. lra. }
      rewrite (tri2_pteq P R Z (lerp U V t) (conj EZ1 EZ2)), tri2_lerp in TZ.
      assert (ZU : tri2 P R U == 0) by nra. assert (ZV : tri2 P R V == 0) by nra.
      destruct (hull_zero_edge h j U C Hj HU ZU) as (tu & Htu & EU1 & EU2). destruct (hull_zero_edge h j V C Hj HV ZV) as (tv & Htv & EV1 & EV2).
      fold P R in EU1, EU2, EV1, EV2.
      assert (Vert : px P == px R).
      { assert (F1 : px U == px P + tu * (px R - px P)) by (rewrite EU1; unfold lerp; cbn [px py vadd vscale vsub]; ring).
        assert (F2 : px V == px P + tv * (px R - px P)) by (rewrite EV1; unfold lerp; cbn [px py vadd vscale vsub]; ring).
        assert (F3 : py U == py P + tu * (py R - py P)) by (rewrite EU2; unfold lerp; cbn [px py vadd vscale vsub]; ring).
        assert (F4 : py V == py P + tv * (py R - py P)) by (rewrite EV2; unfold lerp; cbn [px py vadd vscale vsub]; ring).
        destruct (Qeq_dec (tv - tu) 0) as [E0|N0].
        - exfalso. assert (Et : tv == tu) by lra. rewrite Et in F4. lra.
        - assert (E0 : (tv - tu) * (px R - px P) == 0) by lra. apply Qmult_integral in E0 as [E0|E0]; [contradiction|lra]. }
      destruct W as (_ & W2 & _). destruct (W2 _ _ _ _ (edge_pnth h j Hj) OZj) as (c & Ic & [K1 K2] & Kv). specialize (Kv Vert).
      exists c. split; [exact Ic|].
      assert (Ek : snd c = k) by (apply (strip_inner ymin w Hw k (snd c) (py Z)); [rewrite ZY; split; lra|exact K2]).
      assert (fst c <= i)%Z by (apply (strip_le xmin w Hw (fst c) i (px Z)); lra).
      assert (i <= fst c)%Z by (apply (strip_le xmin w Hw i (fst c) (px Z)); lra).
      assert (Ei : fst c = i) by lia. rewrite Ei, Ek. exact KX.
Qed.
End OneHole.

Lemma inside_rev : forall ps X, inside_polygon (rev ps) X <-> inside_polygon ps X.
Proof. intros ps X. unfold inside_polygon. rewrite hull_rev, polygon_rev. tauto. Qed.
Lemma hole_either : forall h L i k X lo hi, convex_either h -> walls h L -> cell i k X -> ~ inside_polygon h X ->
  In (i, lo) L -> In (i, hi) L -> (lo <= k <= hi)%Z -> exists c, In c L /\ cell (fst c) (snd c) X.
Proof.
  intros h L i k X lo hi [C|C] W K N Il Ih Lk.
  - exact (hole_case h L C W i k X K N lo hi Il Ih Lk).
  - apply (hole_case (rev h) L C (walls_rev _ _ _ _ _ _ W) i k X K) with (lo := lo) (hi := hi); auto. rewrite inside_rev. exact N.
Qed.
(** A polygon inside another has no inner point on the boundary of the other. *)
Lemma nested_boundary : forall P h X, convex_polygon P -> convex_polygon h -> (forall Y, in_hull h Y -> in_hull P Y) ->
  inside_polygon h X -> on_polygon P X -> False.
Proof.
  intros P h X CP Ch Sub [HX NX] (i & A & B & E & O). apply edge_is in E as (Hi & -> & ->).
  set (u := pnth P i) in *. set (v := pnth P (S i mod length P)) in *.
  assert (TX : tri2 u v X == 0). { apply (tri2_on_segment u v) in O as (t & _ & E). rewrite tri2_AA, tri2_AB in E. lra. }
  assert (Pos : forall Y, in_hull P Y -> 0 <= tri2 u v Y) by (intros Y HY; exact (hull_left P Y i (proj1 CP) (proj2 CP) HY Hi)).
  destruct (some_or_all h (fun y => tri2 u v y)) as [(y & Iy & Ly)|All].
  - set (X' := lerp y X 2).
    assert (T' : tri2 u v X' == - tri2 u v y) by (unfold X'; rewrite tri2_lerp, TX; ring).
    destruct (exit_polygon h X X' Ch HX) as [H|(s & j & Hj & Hs & HY & OY)].
    + apply Sub, Pos in H. lra.
    + assert (TY := Pos _ (Sub _ HY)). rewrite tri2_lerp, TX, T' in TY. assert (s == 0) by nra.
      apply NX. exists j, (pnth h j), (pnth h (S j mod length h)). split; [apply edge_pnth; exact Hj|]. revert OY. apply segment_pteq.
      split; unfold lerp; cbn [px py vadd vscale vsub]; rewrite H; ring.
  - (* all points of h on one line *)
    assert (Zero : forall y, In y h -> tri2 u v y == 0).
    { intros y Iy. specialize (All y Iy). cbn beta in All. pose proof (Pos y (Sub y (vertex_in_hull h y Iy))). lra. }
    destruct Ch as [Ch Lh]. assert (T := convex_pnth h 0 1 2 Ch ltac:(lia) ltac:(lia)).
    assert (Z0 := Zero _ (pnth_In h 0 ltac:(lia))). assert (Z1 := Zero _ (pnth_In h 1 ltac:(lia))). assert (Z2 := Zero _ (pnth_In h 2 ltac:(lia))).
    assert (NZ : nonzero (vsub v u)).
    { pose proof (convex_nonzero P (S i mod length P) CP) as K. rewrite (next_prev _ _ Hi) in K. apply K. apply Nat.mod_upper_bound. lia. }
    revert T Z0 Z1 Z2. generalize (pnth h 0) (pnth h 1) (pnth h 2). intros a b c T Z0 Z1 Z2. revert NZ T Z0 Z1 Z2.
    unfold nonzero, tri2, cross. cbn [px py vsub]. set (dx := px v - px u). set (dy := py v - py u). intros NZ T Z0 Z1 Z2.
    assert (F1 : dx * ((px b - px a) * (py c - py a) - (py b - py a) * (px c - px a)) == 0).
    { assert (G1 : dx * (py b - py a) == dy * (px b - px a)) by lra. assert (G2 : dx * (py c - py a) == dy * (px c - px a)) by lra.
      assert (Er : dx * ((px b - px a) * (py c - py a) - (py b - py a) * (px c - px a)) == (px b - px a) * (dx * (py c - py a)) - (dx * (py b - py a)) * (px c - px a)) by ring.
      rewrite Er, G1, G2. ring. }
    assert (F2 : dy * ((px b - px a) * (py c - py a) - (py b - py a) * (px c - px a)) == 0).
    { assert (G1 : dx * (py b - py a) == dy * (px b - px a)) by lra. assert (G2 : dx * (py c - py a) == dy * (px c - px a)) by lra.
      assert (Er : dy * ((px b - px a) * (py c - py a) - (py b - py a) * (px c - px a)) == (dy * (px b - px a)) * (py c - py a) - (py b - py a) * (dy * (px c - px a))) by ring.
      rewrite Er, <- G1, <- G2. ring. }
    apply Qmult_integral in F1 as [F1|F1]; [|lra]. apply Qmult_integral in F2 as [F2|F2]; [|lra]. apply NZ. split; assumption.
Qed.
End Holes.

Section Final.
Variables xmin xmax ymin ymax w : Q.
Variable g : grid.
Hypothesis G : good_bounds xmin xmax ymin ymax w.
Hypothesis Eg : make_grid xmin xmax ymin ymax w = Some g.
Variable fuel : nat.
Hypothesis Fu : (g_nx g + g_ny g + 4 < Z.of_nat fuel)%Z.
Notation inside := (within_region xmin xmax ymin ymax).
Notation meets := (meets_cell xmin ymin w).

Theorem fill_ok : forall order ps holes, (forall l, Permutation (order l) l) -> convex_either ps -> inside ps ->
  (forall h, In h holes -> convex_either h /\ inside h) ->
  exists calls, floodfill_polygon order direct fuel g ps holes = PfDone calls /\ NoDup calls /\
    (forall c, In c calls -> in_grid (g_nx g) (g_ny g) c /\ (meets (in_hull ps) c \/ exists h, In h holes /\ meets (on_polygon h) c)) /\
    covered xmin ymin w (solid ps holes) calls /\
    (forall h, holes = [h] -> (forall X, in_hull h X -> in_hull ps X) ->
       forall c, (forall X, in_closed_cell xmin ymin w (fst c) (snd c) X -> inside_polygon h X) -> ~ In c calls).
Proof.
  intros order ps holes Or Ce R Hh. pose proof G as (Hw & _).
  destruct (fill_cells _ _ _ _ _ g G Eg fuel Fu order ps holes Or R (fun h I => proj2 (Hh h I))) as (calls & L & D & E & W & Mf & WD & ND & CL & CD & Sound & Cov & Single).
  assert (DH : forall h Lh, In (h, Lh) D -> In h holes) by (intros h Lh I; rewrite <- Mf; apply in_map_iff; exists (h, Lh); auto).
  assert (exists p1, convex_polygon p1 /\ boundary_cells xmin ymin w g p1 L /\ (forall X, in_hull p1 X <-> in_hull ps X) /\ (forall X, on_polygon p1 X <-> on_polygon ps X)) as (p1 & C & Wp & Hp & Bp).
  { destruct Ce as [C|C]; [exists ps; split; [exact C|]; split; [exact W|]; split; intro; tauto|].
    exists (rev ps). split; [exact C|]. split; [apply walls_rev; exact W|]. split; intro X; [apply hull_rev|apply polygon_rev]. }
  exists calls. split; [exact E|]. split; [exact ND|]. split; [|split].
  - intros c I. destruct (Sound c I) as [J|[(h & Lh & J & J')|(a & b & Ia & Ib & Lk)]].
    + destruct (proj1 W c J) as (Gr & X & O & K). split; [exact Gr|]. left. exists X. split; [apply polygon_hull; exact O|exact K].
    + destruct (proj1 (WD h Lh J) c J') as (Gr & X & O & K). split; [exact Gr|]. right. exists h. split; [exact (DH _ _ J)|]. exists X. auto.
    + split.
      * destruct (proj1 W _ Ia) as (Ga & _). destruct (proj1 W _ Ib) as (Gb & _). unfold in_grid in *. cbn [fst snd] in *. lia.
      * left. destruct c as [i k]. destruct (between_meets xmin ymin w g Hw p1 L i a b k C Wp Ia Ib) as (X & HX & K); [cbn [snd] in Lk; lia|]. exists X. split; [apply Hp; exact HX|exact K].
  - intros X [HX Hs]. destruct (hull_rows xmin ymin w g Hw p1 L X C Wp (proj2 (Hp X) HX)) as (i & k & a & b & Ia & Ib & Lk & K).
    destruct (Cov i a b k Ia Ib Lk) as [I|(h & Lh & lo & hi & I & Il & Ih & Ll)]; [exists (i, k); auto|].
    destruct (hole_either xmin ymin w g Hw h Lh i k X lo hi (proj1 (Hh h (DH _ _ I))) (WD _ _ I) K (Hs h (DH _ _ I)) Il Ih Ll) as (c & Ic & Kc).
    exists c. split; [exact (CD _ _ _ I Ic)|exact Kc].
  - intros h Eh Sub [i k] In_h I. cbn [fst snd] in In_h. assert (Mf' : map fst D = [h]) by congruence. clear Mf.
    destruct D as [|[h' Lh] [|? ?]]; cbn [map fst] in Mf'; try discriminate. injection Mf' as ->.
    assert (Wh := WD h Lh (or_introl eq_refl)). assert (Ih : In h holes) by (rewrite Eh; left; reflexivity). destruct (Hh h Ih) as [Ch _].
    assert (exists h1, convex_polygon h1 /\ boundary_cells xmin ymin w g h1 Lh /\ (forall X, in_hull h1 X <-> in_hull h X) /\ (forall X, inside_polygon h1 X <-> inside_polygon h X)) as (h1 & C1 & W1 & H1 & I1).
    { destruct Ch as [Ch|Ch]; [exists h; split; [exact Ch|]; split; [exact Wh|]; split; intro; tauto|].
      exists (rev h). split; [exact Ch|]. split; [apply walls_rev; exact Wh|]. split; intro X; [apply hull_rev|apply inside_rev]. }
    set (M := mkpt (xmin + (inject_Z i + (1 # 2)) * w) (ymin + (inject_Z k + (1 # 2)) * w)).
    assert (KM : in_closed_cell xmin ymin w i k M) by (unfold M; split; cbn [px py]; lra).
    destruct (column_rows xmin ymin w g Hw h1 Lh M i C1 W1) as (k' & a & b & Ia & Ib & Lk & [_ Kr]).
    { apply H1. exact (proj1 (In_h M KM)). }
    { unfold M; cbn [px]. lra. }
    assert (k' = k) by (apply (strip_inner ymin w Hw k k' (py M)); [unfold M; cbn [py]; lra|exact Kr]). subst k'.
    destruct (Single h Lh (i, k) a b eq_refl Ia Ib Lk I) as [J|J].
    + destruct (proj1 W _ J) as (_ & X & O & K). apply (nested_boundary p1 h1 X C C1); [intros Y HY; apply Hp, Sub, H1, HY|apply I1, In_h, K|apply Bp; exact O].
    + destruct (proj1 Wh _ J) as (_ & X & O & K). exact (proj2 (In_h X K) O).
Qed.
End Final.
