(** Construction of the solid-leaf partition tree. *)
From Verif Require Import Base CmpModel OrientModel OrientSpec OrientProof LinIntModel LinIntSpec LinIntProof PolygonModel PolygonSpec PolygonProof BspModel BspSpec BspProof BspProof2 BspProof3 SolidModel SolidSpec.
From Coq Require Import Lia.

Lemma plane_dist_side : forall s p, plane_dist s p == side s p.
Proof. intros. unfold plane_dist, distance_to_origin, normal, side, tri2, cross, dot, vsub. cbn [px py]. ring. Qed.
Lemma classify_point : forall p s, match classify_point_to_plane p s with in_front_of_plane => 0 < side s p | in_back_of_plane => side s p < 0 | coplanar_with_plane => side s p == 0 | straddling_plane => False end.
Proof.
  intros p s. unfold classify_point_to_plane. pose proof (plane_dist_side s p) as E. destruct (Qltb_spec 0 (plane_dist s p)); [lra|]. destruct (Qltb_spec (plane_dist s p) 0); lra.
Qed.
Lemma classify_simplex : forall e s, match classify_simplex_to_plane e s with
  | in_front_of_plane => in_front s e | in_back_of_plane => behind s e | coplanar_with_plane => along s e
  | straddling_plane => (0 < side s (fst e) /\ side s (snd e) < 0) \/ (side s (fst e) < 0 /\ 0 < side s (snd e)) end.
Proof.
  intros e s. unfold classify_simplex_to_plane, in_front, behind, along. pose proof (classify_point (fst e) s) as A. pose proof (classify_point (snd e) s) as B.
  destruct (classify_point_to_plane (fst e) s); destruct (classify_point_to_plane (snd e) s); cbn; try contradiction; lra.
Qed.

Lemma plane_hit_ok : forall s a b, (0 < side s a /\ side s b < 0) \/ (side s a < 0 /\ 0 < side s b) -> exists t, 0 < t < 1 /\ plane_hit b a s = Some (vadd b (vscale t (vsub a b))) /\ side s (vadd b (vscale t (vsub a b))) == 0.
Proof.
  intros s a b H. unfold plane_hit. set (den := dot (normal s) (vsub a b)).
  assert (DE : den == side s a - side s b) by (unfold den, side, tri2, cross, dot, normal, vsub; cbn [px py]; ring).
  assert (NU : distance_to_origin s - dot (normal s) b == - side s b) by (unfold distance_to_origin, side, tri2, cross, dot, normal, vsub; cbn [px py]; ring).
  assert (ND : ~ den == 0) by (destruct H; lra). destruct (Qeqb_spec den 0) as [Z|_]; [contradiction|].
  set (t := (distance_to_origin s - dot (normal s) b) / den).
  assert (TE : t * den == - side s b) by (unfold t; rewrite <- NU; field; exact ND).
  assert (T : 0 < t < 1). { destruct H as [[H1 H2]|[H1 H2]]; split; nra. }
  exists t. split; [exact T|]. cbv zeta. destruct (Qleb_spec 0 t); [|lra]. destruct (Qleb_spec t 1); [|lra]. cbn [andb]. split; [reflexivity|].
  assert (E : side s (vadd b (vscale t (vsub a b))) == side s b + t * (side s a - side s b)) by (unfold side, tri2, cross, vadd, vscale, vsub; cbn [px py]; ring). rewrite E, <- DE. lra.
Qed.
Definition straddles (s e : seg) : Prop := (0 < side s (fst e) /\ side s (snd e) < 0) \/ (side s (fst e) < 0 /\ 0 < side s (snd e)).
Lemma split_simplex_ok : forall e s, straddles s e ->
  exists f b, split_simplex e s = Some (f, b) /\ in_front s f /\ behind s b /\ piece_of f e /\ piece_of b e /\
    forall X, on_segment (fst e) (snd e) X -> on_segment (fst f) (snd f) X \/ on_segment (fst b) (snd b) X.
Proof.
  intros e s H. destruct (plane_hit_ok s (fst e) (snd e) H) as (t & T & HX & SX). set (x := vadd (snd e) (vscale t (vsub (fst e) (snd e)))) in *.
  assert (PX : piece_of (fst e, x) e). { exists 0, (1 - t). repeat split; try lra; unfold x, lerp, vadd, vscale, vsub; cbn [px py fst snd]; ring. }
  assert (PY : piece_of (x, snd e) e). { exists (1 - t), 1. repeat split; try lra; unfold x, lerp, vadd, vscale, vsub; cbn [px py fst snd]; ring. }
  assert (CV : forall X, on_segment (fst e) (snd e) X -> on_segment (fst e) x X \/ on_segment x (snd e) X).
  { intros X (u & U & [EX EY]). unfold lerp, vadd, vscale, vsub in EX, EY. cbn [px py] in EX, EY. destruct (Qlt_le_dec u (1 - t)) as [L|L]; [left|right].
    - exists (u / (1 - t)). assert (NT : ~ 1 - t == 0) by lra. split; [split; [apply Qle_shift_div_l; lra|apply Qle_shift_div_r; lra]|]. unfold x, lerp, vadd, vscale, vsub; split; cbn [px py]; [rewrite EX|rewrite EY]; field; exact NT.
    - exists ((u - (1 - t)) / t). assert (NT : ~ t == 0) by lra. split; [split; [apply Qle_shift_div_l; lra|apply Qle_shift_div_r; lra]|]. unfold x, lerp, vadd, vscale, vsub; split; cbn [px py]; [rewrite EX|rewrite EY]; field; exact NT. }
  unfold split_simplex. pose proof (classify_point (fst e) s) as A. pose proof (classify_point (snd e) s) as B. unfold in_front, behind.
  destruct (classify_point_to_plane (fst e) s); destruct (classify_point_to_plane (snd e) s); destruct H as [[H1 H2]|[H1 H2]]; try lra; try contradiction; rewrite HX; eexists; eexists; (split; [reflexivity|]); cbn [fst snd]; (split; [lra|]); (split; [lra|]).
  - split; [exact PX|]. split; [exact PY|exact CV].
  - split; [exact PY|]. split; [exact PX|]. intros X O. destruct (CV X O); tauto.
Qed.

(** ** Lines *)
Definition same_line (a e : seg) : Prop := exists k, 0 < k /\ forall X, side e X == k * side a X.
Definition anti_line (a e : seg) : Prop := exists k, 0 < k /\ forall X, side e X == - (k * side a X).
Lemma piece_same : forall e r, piece_of e r -> same_line r e.
Proof.
  intros e r (u & v & U & UV & V & [E1 E1'] & [E2 E2']). exists (v - u). split; [lra|]. intro X. unfold side, tri2, cross, vsub, lerp, vadd, vscale, vsub in *. cbn [px py] in *. rewrite E1, E1', E2, E2'. ring.
Qed.
Lemma same_along : forall a e, same_line a e -> along a e.
Proof.
  intros a e (k & K & H). unfold along. pose proof (H (fst e)) as A. pose proof (H (snd e)) as B.
  assert (Z1 : side e (fst e) == 0) by (unfold side, tri2, cross, vsub; cbn [px py]; ring). assert (Z2 : side e (snd e) == 0) by (unfold side, tri2, cross, vsub; cbn [px py]; ring).
  rewrite Z1 in A. rewrite Z2 in B. symmetry in A, B. destruct (Qmult_integral _ _ A); [lra|]. destruct (Qmult_integral _ _ B); [lra|]. auto.
Qed.
Lemma anti_along : forall a e, anti_line a e -> along a e.
Proof.
  intros a e (k & K & H). unfold along. pose proof (H (fst e)) as A. pose proof (H (snd e)) as B.
  assert (Z1 : side e (fst e) == 0) by (unfold side, tri2, cross, vsub; cbn [px py]; ring). assert (Z2 : side e (snd e) == 0) by (unfold side, tri2, cross, vsub; cbn [px py]; ring).
  rewrite Z1 in A. rewrite Z2 in B. assert (A' : k * side a (fst e) == 0) by lra. assert (B' : k * side a (snd e) == 0) by lra. destruct (Qmult_integral _ _ A'); [lra|]. destruct (Qmult_integral _ _ B'); [lra|]. auto.
Qed.
Lemma along_cases : forall a e r, proper a -> proper r -> piece_of e r -> along a e ->
  let dp := dot (normal r) (normal a) in (0 < dp /\ same_line a e) \/ (dp < 0 /\ anti_line a e).
Proof.
  intros a e r PA PR PC [A1 A2]. cbv zeta. pose proof (piece_proper _ _ PC PR) as PE.
  destruct (proj2 (line_side a (fst e) PA) A1) as (u & [U1 U2]). destruct (proj2 (line_side a (snd e) PA) A2) as (v & [V1 V2]).
  destruct PC as (p & q & P1 & P2 & P3 & [E1 E1'] & [E2 E2']). unfold lerp, vadd, vscale, vsub in *. cbn [px py] in *.
  set (ax := px (snd a) - px (fst a)) in *. set (ay := py (snd a) - py (fst a)) in *. set (rx := px (snd r) - px (fst r)) in *. set (ry := py (snd r) - py (fst r)) in *.
  assert (NA : 0 < ax * ax + ay * ay). { pose proof (nz_dot _ PA) as N. unfold dot, vsub in N. cbn [px py] in N. exact N. }
  assert (DX : (q - p) * rx == (v - u) * ax) by lra. assert (DY : (q - p) * ry == (v - u) * ay) by lra.
  assert (DP : (q - p) * dot (normal r) (normal a) == (v - u) * (ax * ax + ay * ay)).
  { transitivity (((q - p) * ry) * ay + ((q - p) * rx) * ax); [unfold dot, normal; cbn [px py]; fold ax ay rx ry; ring|]. rewrite DX, DY. ring. }
  assert (SE : forall X, side e X == (v - u) * side a X).
  { intro X. unfold side, tri2, cross, vsub. cbn [px py]. rewrite U1, U2, V1, V2. fold ax ay. ring. }
  assert (NV : ~ v - u == 0). { intro Z. apply PE. split; cbn [vsub px py]; [rewrite U1, V1|rewrite U2, V2]; assert (v == u) as -> by lra; ring. }
  destruct (Qlt_le_dec 0 (v - u)) as [L|L].
  - left. split; [|exists (v - u); auto]. assert (0 < (v - u) * (ax * ax + ay * ay)) by (apply Qmult_lt_0_compat; lra). nra.
  - right. assert (0 < (u - v) * (ax * ax + ay * ay)) by (apply Qmult_lt_0_compat; lra). split; [nra|]. exists (u - v). split; [lra|]. intro X. rewrite SE. ring.
Qed.

(** ** Distribution *)
Definition wf_item (planes : list seg) (it : item) : Prop := exists r, nth_error planes (it_index it) = Some r /\ proper r /\ piece_of (it_seg it) r.
(** The item [c] is [it], or a piece of it. *)
Definition comes (c it : item) : Prop := it_used c = it_used it /\ it_index c = it_index it /\ piece_of (it_seg c) (it_seg it).
Definition segs_of (items : list item) : list seg := map it_seg items.
Definition to_front (a e : seg) : Prop := in_front a e \/ same_line a e.
Definition to_back (a e : seg) : Prop := behind a e \/ anti_line a e.

Lemma wf_comes : forall planes c it, comes c it -> wf_item planes it -> wf_item planes c.
Proof. intros planes c it (_ & E & P) (r & N & PR & Pc). exists r. rewrite E. split; [exact N|]. split; [exact PR|]. exact (piece_trans _ _ _ P Pc). Qed.
Lemma wf_proper : forall planes it, wf_item planes it -> proper (it_seg it).
Proof. intros planes it (r & _ & PR & Pc). exact (piece_proper _ _ Pc PR). Qed.

Record parted (planes : list seg) (a : seg) (items front back : list item) (co : list nat) : Prop := mkparted {
  pa_front : forall c, In c front -> to_front a (it_seg c) /\ exists it, In it items /\ comes c it;
  pa_back : forall c, In c back -> to_back a (it_seg c) /\ exists it, In it items /\ comes c it;
  pa_cover : forall it X, In it items -> on_segment (fst (it_seg it)) (snd (it_seg it)) X ->
    exists c, (In c front \/ In c back) /\ comes c it /\ on_segment (fst (it_seg c)) (snd (it_seg c)) X;
  pa_same : forall it, In it items -> same_line a (it_seg it) -> In it front;
  pa_co : forall i, In i co <-> exists it, In it items /\ it_index it = i /\ along a (it_seg it);
  pa_idx : (NoDup (map it_index items) -> NoDup (map it_index front) /\ NoDup (map it_index back)) }.

Lemma comes_refl : forall it, comes it it.
Proof. intro it. split; [reflexivity|]. split; [reflexivity|apply piece_refl]. Qed.
Lemma same_not_front : forall a e, same_line a e -> ~ in_front a e.
Proof. intros a e S (A & B & C). apply same_along in S. destruct S as [S1 S2]. lra. Qed.
Lemma partition_ok : forall planes a items, proper a -> (forall it, In it items -> wf_item planes it) ->
  exists front back co, partition_items planes a items = Some (front, back, co) /\ parted planes a items front back co /\
    (forall i, In i (map it_index front) -> In i (map it_index items)) /\ (forall i, In i (map it_index back) -> In i (map it_index items)) /\
    (forall f, (forall e u i e', f (e, u, i) = f (e', u, i)) -> (length (filter f front) <= length (filter f items))%nat /\ (length (filter f back) <= length (filter f items))%nat).
Proof.
  intros planes a items PA. induction items as [|[[e u] i] items IH]; intro W.
  - exists [], [], []. split; [reflexivity|]. split; [|cbn; repeat split; intros; (contradiction || lia)]. split; [intros ? []|intros ? []|intros ? ? []|intros ? []| |].
    { intro x; split; [intros []|intros (? & [] & _)]. }
    intros _. split; constructor.
  - destruct IH as (front & back & co & E & [P1 P2 P3 P4 P5 P6] & I1 & I2 & FL); [intros; apply W; right; assumption|]. cbn [partition_items]. rewrite E.
    destruct (W (e, u, i) (or_introl eq_refl)) as (r & NR & PR & PC). cbn [it_index it_seg fst snd] in NR, PC. pose proof (classify_simplex e a) as CL.
    set (it := (e, u, i) : item) in *.
    assert (L1 : forall c, (exists x, In x items /\ comes c x) -> exists x, In x (it :: items) /\ comes c x) by (intros c (x & X & C); exists x; split; [right|]; assumption).
    assert (CO0 : ~ along a e -> forall j, In j co <-> exists x, In x (it :: items) /\ it_index x = j /\ along a (it_seg x)).
    { intros NA j. rewrite P5. split; [intros (x & X & Y); exists x; split; [right|]; assumption|]. intros (x & [<- |X] & Y & Z); [contradiction|]. exists x; auto. }
    assert (CO1 : along a e -> forall j, In j (i :: co) <-> exists x, In x (it :: items) /\ it_index x = j /\ along a (it_seg x)).
    { intros A j. cbn [In]. rewrite P5. split; [intros [<- |(x & X & Y)]; [exists it; split; [left; reflexivity|]; auto|exists x; split; [right|]; assumption]|]. intros (x & [<- |X] & Y & Z); [left; exact Y|right; exists x; auto]. }
    destruct (classify_simplex_to_plane e a) eqn:EC.
    + (* coplanar *) pose proof (along_cases a e r PA PR PC CL) as AC. cbv zeta in AC. rewrite (nth_error_nth planes i no_seg NR). cbv zeta.
      destruct (Qltb_spec (dot (normal r) (normal a)) 0) as [D|D].
      * destruct AC as [[G _]|[_ AL]]; [lra|]. exists front, (it :: back), (i :: co). split; [reflexivity|]. split; [split|].
        -- intros c C. destruct (P1 c C) as [A B]. split; [exact A|apply L1, B].
        -- intros c [<- |C]; [split; [right; exact AL|exists it; split; [left; reflexivity|apply comes_refl]]|]. destruct (P2 c C) as [A B]. split; [exact A|apply L1, B].
        -- intros x X [<- |I] O; [exists it; split; [right; left; reflexivity|]; split; [apply comes_refl|exact O]|]. destruct (P3 x X I O) as (c & [C|C] & C2 & C3); exists c; split; auto; [right; right; exact C].
        -- intros x [<- |I] S; [|exact (P4 x I S)]. exfalso. cbn in S. destruct S as (k & K & HS), AL as (k' & K' & HA). assert (Z : forall X, side a X == 0). { intro X. pose proof (HS X) as A. pose proof (HA X) as B. rewrite A in B. assert ((k + k') * side a X == 0) as C by lra. destruct (Qmult_integral _ _ C); lra. }
           pose proof (nz_dot _ PA) as N. pose proof (Z (vadd (fst a) (normal a))) as Y. unfold side, tri2, cross, vsub, vadd, normal in Y. unfold dot, vsub in N. cbn [px py] in Y, N. nra.
        -- apply CO1. exact CL.
        -- cbn [map]. intro ND. apply NoDup_cons_iff in ND. destruct ND as [N1 N2]. destruct (P6 N2) as [A B]. split; [exact A|]. constructor; [intro C; apply N1, (I2 _ C)|exact B].
        -- split; [intros j J; right; apply I1, J|]. split; [cbn [map]; intros j [J|J]; [left; exact J|right; apply I2, J]|]. intros f F. destruct (FL f F) as [F1 F2]. cbn [filter]. destruct (f it); cbn [length]; lia.
      * destruct AC as [[_ SL]|[G _]]; [|lra]. exists (it :: front), back, (i :: co). split; [reflexivity|]. split; [split|].
        -- intros c [<- |C]; [split; [right; exact SL|exists it; split; [left; reflexivity|apply comes_refl]]|]. destruct (P1 c C) as [A B]. split; [exact A|apply L1, B].
        -- intros c C. destruct (P2 c C) as [A B]. split; [exact A|apply L1, B].
        -- intros x X [<- |I] O; [exists it; split; [left; left; reflexivity|]; split; [apply comes_refl|exact O]|]. destruct (P3 x X I O) as (c & [C|C] & C2 & C3); exists c; split; auto; [left; right; exact C].
        -- intros x [<- |I] S; [left; reflexivity|right; exact (P4 x I S)].
        -- apply CO1. exact CL.
        -- cbn [map]. intro ND. apply NoDup_cons_iff in ND. destruct ND as [N1 N2]. destruct (P6 N2) as [A B]. split; [|exact B]. constructor; [intro C; apply N1, (I1 _ C)|exact A].
        -- split; [cbn [map]; intros j [J|J]; [left; exact J|right; apply I1, J]|]. split; [intros j J; right; apply I2, J|]. intros f F. destruct (FL f F) as [F1 F2]. cbn [filter]. destruct (f it); cbn [length]; lia.
    + (* front *) exists (it :: front), back, co. split; [reflexivity|]. split; [split|].
      * intros c [<- |C]; [split; [left; exact CL|exists it; split; [left; reflexivity|apply comes_refl]]|]. destruct (P1 c C) as [A B]. split; [exact A|apply L1, B].
      * intros c C. destruct (P2 c C) as [A B]. split; [exact A|apply L1, B].
      * intros x X [<- |I] O; [exists it; split; [left; left; reflexivity|]; split; [apply comes_refl|exact O]|]. destruct (P3 x X I O) as (c & [C|C] & C2 & C3); exists c; split; auto; [left; right; exact C].
      * intros x [<- |I] S; [left; reflexivity|right; exact (P4 x I S)].
      * apply CO0. intros [A1 A2]. destruct CL. lra.
      * cbn [map]. intro ND. apply NoDup_cons_iff in ND. destruct ND as [N1 N2]. destruct (P6 N2) as [A B]. split; [|exact B]. constructor; [intro C; apply N1, (I1 _ C)|exact A].
      * split; [cbn [map]; intros j [J|J]; [left; exact J|right; apply I1, J]|]. split; [intros j J; right; apply I2, J|]. intros f F. destruct (FL f F) as [F1 F2]. cbn [filter]. destruct (f it); cbn [length]; lia.
    + (* back *) exists front, (it :: back), co. split; [reflexivity|]. split; [split|].
      * intros c C. destruct (P1 c C) as [A B]. split; [exact A|apply L1, B].
      * intros c [<- |C]; [split; [left; exact CL|exists it; split; [left; reflexivity|apply comes_refl]]|]. destruct (P2 c C) as [A B]. split; [exact A|apply L1, B].
      * intros x X [<- |I] O; [exists it; split; [right; left; reflexivity|]; split; [apply comes_refl|exact O]|]. destruct (P3 x X I O) as (c & [C|C] & C2 & C3); exists c; split; auto; [right; right; exact C].
      * intros x [<- |I] S; [|exact (P4 x I S)]. exfalso. apply same_along in S. destruct S as [S1 S2]. change (it_seg it) with e in S1, S2. destruct CL as (B1 & B2 & B3). lra.
      * apply CO0. intros [A1 A2]. destruct CL. lra.
      * cbn [map]. intro ND. apply NoDup_cons_iff in ND. destruct ND as [N1 N2]. destruct (P6 N2) as [A B]. split; [exact A|]. constructor; [intro C; apply N1, (I2 _ C)|exact B].
      * split; [intros j J; right; apply I1, J|]. split; [cbn [map]; intros j [J|J]; [left; exact J|right; apply I2, J]|]. intros f F. destruct (FL f F) as [F1 F2]. cbn [filter]. destruct (f it); cbn [length]; lia.
    + (* straddling *) destruct (split_simplex_ok e a CL) as (f & b & -> & FF & BB & PF & PB & CV). exists ((f, u, i) :: front), ((b, u, i) :: back), co. split; [reflexivity|].
      assert (CF : comes (f, u, i) it) by (split; [reflexivity|]; split; [reflexivity|exact PF]). assert (CB : comes (b, u, i) it) by (split; [reflexivity|]; split; [reflexivity|exact PB]). split; [split|].
      * intros c [<- |C]; [split; [left; exact FF|exists it; split; [left; reflexivity|exact CF]]|]. destruct (P1 c C) as [A B]. split; [exact A|apply L1, B].
      * intros c [<- |C]; [split; [left; exact BB|exists it; split; [left; reflexivity|exact CB]]|]. destruct (P2 c C) as [A B]. split; [exact A|apply L1, B].
      * intros x X [<- |I] O; [destruct (CV X O) as [Y|Y]; [exists (f, u, i)|exists (b, u, i)]; (split; [try (left; left; reflexivity); right; left; reflexivity|]); split; assumption|]. destruct (P3 x X I O) as (c & [C|C] & C2 & C3); exists c; split; auto; [left|right]; right; exact C.
      * intros x [<- |I] S; [|right; exact (P4 x I S)]. exfalso. apply same_along in S. destruct S as [S1 S2]. change (it_seg it) with e in S1, S2. destruct CL as [[B1 B2]|[B1 B2]]; lra.
      * apply CO0. intros [A1 A2]. destruct CL as [[B1 B2]|[B1 B2]]; lra.
      * cbn [map]. intro ND. apply NoDup_cons_iff in ND. destruct ND as [N1 N2]. destruct (P6 N2) as [A B]. split; constructor; try assumption; intro C; apply N1; [apply (I1 _ C)|apply (I2 _ C)].
      * split; [cbn [map]; intros j [J|J]; [left; exact J|right; apply I1, J]|]. split; [cbn [map]; intros j [J|J]; [left; exact J|right; apply I2, J]|]. intros g F. destruct (FL g F) as [F1 F2]. unfold it. cbn [filter]. rewrite (F f u i e), (F b u i e). destruct (g (e, u, i)); cbn [length]; lia.
Qed.
