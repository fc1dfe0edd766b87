(** With no two walls on a line, boundary is answered on walls only; selection rules; convex rooms. *)
From Verif Require Import Base CmpModel OrientModel OrientSpec OrientProof PolygonModel PolygonSpec PolygonProof PolygonConvexProof BspModel BspSpec BspProof BspProof2 BspProof3 BspProof4 SolidModel SolidSpec SolidProof SolidProof2 SolidProof3.
From Coq Require Import Lia.

(** The answers of the leaves a query visits. *)
Inductive reach (planes : list seg) (X : pt) : solid_bsp -> solid_class -> Prop :=
  | reach_leaf : forall sol ix, reach planes X (Leaf sol ix) (if sol then in_solid else in_empty_space)
  | reach_front : forall i ix f b c, 0 <= side (nth i planes no_seg) X -> reach planes X f c -> reach planes X (Split i ix f b) c
  | reach_back : forall i ix f b c, side (nth i planes no_seg) X <= 0 -> reach planes X b c -> reach planes X (Split i ix f b) c.
Lemma reach_some : forall planes X t, exists c, reach planes X t c.
Proof.
  induction t as [sol ix|i ix f [c F] b [d B]]; [eexists; constructor|]. destruct (Qlt_le_dec (side (nth i planes no_seg) X) 0) as [L|L]; [exists d; apply reach_back; [lra|exact B]|exists c; apply reach_front; assumption].
Qed.
Lemma reach_all : forall planes X t c, (forall d, reach planes X t d -> d = c) -> point_in_solid_space planes t X = c.
Proof.
  induction t as [sol ix|i ix f IHF b IHB]; intros c H; [apply H; constructor|]. cbn [point_in_solid_space]. pose proof (plane_dist_side (nth i planes no_seg) X) as D.
  destruct (Qltb_spec 0 (plane_dist (nth i planes no_seg) X)) as [L|L]; [apply IHF; intros d R; apply H, reach_front; [lra|exact R]|].
  destruct (Qltb_spec (plane_dist (nth i planes no_seg) X) 0) as [L2|L2]; [apply IHB; intros d R; apply H, reach_back; [lra|exact R]|].
  rewrite (IHF c), (IHB c) by (intros d R; apply H; [apply reach_front + apply reach_back]; [lra|exact R]). destruct c; reflexivity.
Qed.

Definition strict (a : seg * bool) (X : pt) : Prop := if snd a then 0 < side (fst a) X else side (fst a) X < 0.
Definition within (a : seg * bool) (e : seg) : Prop := if snd a then in_front (fst a) e else behind (fst a) e.
Lemma within_mid : forall a e, within a e -> strict a (mid e).
Proof. intros [a []] e H; unfold strict; cbn [fst snd] in *; [exact (piece_front a e e (piece_refl e) H)|exact (piece_behind a e e (piece_refl e) H)]. Qed.
Lemma within_piece : forall a e r, within a r -> piece_of e r -> within a e.
Proof.
  intros [a []] e r H P; unfold within in *; cbn [fst snd] in *.
  - destruct H as (F1 & F2 & F3). destruct (piece_side a e r P) as (u & v & U & UV & V & E1 & E2). unfold in_front. rewrite E1, E2. split; [apply mix_nonneg; lra|]. split; [apply mix_nonneg; lra|]. pose proof (piece_front a e r P (conj F1 (conj F2 F3))) as M. rewrite side_mid, E1, E2 in M. lra.
  - destruct H as (F1 & F2 & F3). destruct (piece_side a e r P) as (u & v & U & UV & V & E1 & E2). unfold behind. rewrite E1, E2. split; [apply mix_nonpos; lra|]. split; [apply mix_nonpos; lra|]. pose proof (piece_behind a e r P (conj F1 (conj F2 F3))) as M. rewrite side_mid, E1, E2 in M. lra.
Qed.
Lemma along_piece : forall a e r, piece_of e r -> along a e -> along a r.
Proof.
  intros a e r P [A1 A2]. destruct (piece_side a e r P) as (u & v & U & UV & V & E1 & E2). rewrite E1 in A1. rewrite E2 in A2. set (p := side a (fst r)) in *. set (q := side a (snd r)) in *.
  assert (K : (v - u) * (q - p) == 0) by lra. destruct (Qmult_integral _ _ K) as [Z|Z]; [lra|]. assert (ZP : p == 0). { assert (E : u * (q - p) == 0) by (rewrite Z; ring). lra. } split; fold p q; lra.
Qed.
Lemma strict_step : forall (A : list (seg * bool)) M Z, (forall a, In a A -> strict a M) -> exists e, 0 < e < 1 /\ forall a, In a A -> strict a (lerp M Z e).
Proof.
  intros A M Z H. destruct (small_step (map fst A) M Z) as (e & E & S). exists e. split; [exact E|]. intros a I. specialize (S e ltac:(lra) (fst a) (in_map fst A a I)). specialize (H a I). unfold strict in *. destruct (snd a); tauto.
Qed.

Lemma reach_inside : forall planes, (forall s, In s planes -> proper s) -> no_two_on_a_line planes -> forall X o items t, solid_of planes o items t -> NoDup (map it_index items) -> forall A c,
  (forall a it, In a A -> In it items -> it_used it = false -> within a (it_seg it)) -> (exists W, forall a, In a A -> strict a W) -> reach planes X t c ->
  exists W, (forall a, In a A -> strict a W) /\ forall u, 0 < u <= 1 -> point_in_solid_space planes t (lerp X W u) = c.
Proof.
  intros planes PP NT X o items t H. induction H as [o items U W|o items k it r front back co f b W E U NR P HF IHF HB IHB]; intros ND A c AW (W0 & HW) R.
  - inversion R as [sol ix E1 E2| |]; subst. exists W0. split; [exact HW|]. intros u _. reflexivity.
  - assert (IN : In it items) by exact (nth_error_In _ _ E). destruct (W it IN) as (r' & NR' & PR & PC). assert (r' = r) by congruence. subst r'.
    pose proof (piece_same _ _ PC) as SL. assert (MID : side r (mid (it_seg it)) == 0) by (rewrite side_mid; destruct (same_along _ _ SL) as [-> ->]; ring).
    assert (MA : forall a, In a A -> strict a (mid (it_seg it))) by (intros a I; apply within_mid, (AW a it I IN U)).
    pose proof ND as ND'. rewrite <- (set_used_index items k) in ND'. destruct (pa_idx _ _ _ _ _ _ P ND') as [NF NB].
    (* an unused piece is off the line *)
    assert (OFF : forall ch y, In y (set_used k items) -> comes ch y -> it_used ch = false -> ~ along r (it_seg ch) /\ In y items /\ it_used y = false).
    { intros ch y Y (CU & CI & CP) UC. destruct (set_used_in _ _ _ _ E Y) as [J| ->]; [|unfold mark in CU; cbn in CU; congruence]. split; [|split; [exact J|congruence]].
      intro AL. destruct (W y J) as (ry & NY & PRY & PCY). pose proof (along_piece _ _ _ (piece_trans _ _ _ CP PCY) AL) as [L1 L2].
      destruct (Nat.eq_dec (it_index it) (it_index y)) as [EI|EI].
      - (* same index: y is marked in set_used, but unused *)
        assert (MK : y = mark it). { pose proof (set_used_mark items k it E) as IM. clear - ND' Y IM EI. revert ND' Y IM. generalize (set_used k items). intros l ND Y IM. induction l as [|z l IH]; [destruct Y|]. cbn in ND. inversion ND as [|z' l' N1 N2]; subst. destruct Y as [->|Y], IM as [IM|IM]; [exact IM| | |exact (IH N2 Y IM)].
          - exfalso. apply N1. change (it_index y) with (it_index y). rewrite <- EI. change (it_index it) with (it_index (mark it)). apply in_map. exact IM.
          - exfalso. subst z. apply N1. change (it_index (mark it)) with (it_index it). rewrite EI. apply in_map. exact Y. }
        rewrite MK in CU. unfold mark in CU. cbn in CU. congruence.
      - exact (NT _ _ _ _ EI NR NY (conj L1 L2)). }
    inversion R as [|i ix f' b' c' SX RF|i ix f' b' c' SX RB]; subst; rewrite (nth_error_nth planes _ no_seg NR) in SX.
    + destruct (IHF NF ((r, true) :: A) c) as (W1 & S1 & L1); [| |exact RF|].
      * intros a ch [<- |IA] C UC; destruct (pa_front _ _ _ _ _ _ P ch C) as (TF & y & Y & CY); destruct (OFF ch y Y CY UC) as (NA & IY & UY).
        -- destruct TF as [F|S]; [exact F|]. exfalso. apply NA, same_along, S.
        -- apply (within_piece a _ (it_seg y)); [exact (AW a y IA IY UY)|exact (proj2 (proj2 CY))].
      * destruct (off_point r PR) as (Z & HZ). destruct (strict_step A _ Z MA) as (e & EE & SE). exists (lerp (mid (it_seg it)) Z e). intros a [<- |IA]; [|exact (SE a IA)]. unfold strict. cbn [fst snd]. rewrite side_lerp, MID. assert (0 < e * side r Z) by (apply Qmult_lt_0_compat; lra). lra.
      * exists W1. split; [intros a IA; apply S1; right; exact IA|]. intros u UU. cbn [point_in_solid_space]. rewrite (nth_error_nth planes _ no_seg NR).
        pose proof (S1 (r, true) (or_introl eq_refl)) as SR. unfold strict in SR. cbn [fst snd] in SR. assert (0 < side r (lerp X W1 u)). { rewrite side_lerp. assert (0 < u * side r W1) by (apply Qmult_lt_0_compat; lra). assert (0 <= (1 - u) * side r X) by (apply Qmult_le_0_compat; lra). lra. }
        pose proof (plane_dist_side r (lerp X W1 u)). destruct (Qltb_spec 0 (plane_dist r (lerp X W1 u))) as [L|L]; [apply L1; exact UU|lra].
    + destruct (IHB NB ((r, false) :: A) c) as (W1 & S1 & L1); [| |exact RB|].
      * intros a ch [<- |IA] C UC; destruct (pa_back _ _ _ _ _ _ P ch C) as (TF & y & Y & CY); destruct (OFF ch y Y CY UC) as (NA & IY & UY).
        -- destruct TF as [F|S]; [exact F|]. exfalso. apply NA, anti_along, S.
        -- apply (within_piece a _ (it_seg y)); [exact (AW a y IA IY UY)|exact (proj2 (proj2 CY))].
      * destruct (off_point_neg r PR) as (Z & HZ). destruct (strict_step A _ Z MA) as (e & EE & SE). exists (lerp (mid (it_seg it)) Z e). intros a [<- |IA]; [|exact (SE a IA)]. unfold strict. cbn [fst snd]. rewrite side_lerp, MID. assert (0 < e * - side r Z) by (apply Qmult_lt_0_compat; lra). lra.
      * exists W1. split; [intros a IA; apply S1; right; exact IA|]. intros u UU. cbn [point_in_solid_space]. rewrite (nth_error_nth planes _ no_seg NR).
        pose proof (S1 (r, false) (or_introl eq_refl)) as SR. unfold strict in SR. cbn [fst snd] in SR. assert (side r (lerp X W1 u) < 0). { rewrite side_lerp. assert (0 < u * - side r W1) by (apply Qmult_lt_0_compat; lra). assert (0 <= (1 - u) * - side r X) by (apply Qmult_le_0_compat; lra). lra. }
        pose proof (plane_dist_side r (lerp X W1 u)). destruct (Qltb_spec 0 (plane_dist r (lerp X W1 u))) as [L|L]; [lra|]. destruct (Qltb_spec (plane_dist r (lerp X W1 u)) 0) as [L2|L2]; [apply L1; exact UU|lra].
Qed.

Lemma start_index : forall segs, map it_index (start segs) = seq 0 (length segs).
Proof. intro segs. unfold start. rewrite map_map. cbn. apply map_id. Qed.
Lemma reach_leafy : forall planes X t c, reach planes X t c -> c <> on_boundary.
Proof. intros planes X t c R. induction R as [sol ix| |]; [destruct sol; discriminate|assumption|assumption]. Qed.
Lemma reach_right : forall segs E t X, segs <> [] -> (forall s, In s segs -> proper s) -> no_two_on_a_line segs -> solid_of segs o_root (start segs) t -> empty_space segs E -> ~ on_any segs X ->
  forall c, reach segs X t c -> match c with in_solid => ~ E X | in_empty_space => E X | on_boundary => False end.
Proof.
  intros segs E t X NE P NT H ES NX c R. destruct (reach_inside segs P NT X _ _ _ H) with (A := @nil (seg * bool)) (c := c) as (W & _ & L); [rewrite start_index; apply seq_NoDup|intros ? ? []|exists X; intros ? []|exact R|].
  destruct (small_step (framed segs) X W) as (e & EE & S). specialize (S e ltac:(lra)). specialize (L e ltac:(lra)). pose proof (off_stays segs X _ P NX S) as NO. pose proof (off_ok segs E t _ NE P H ES NO) as OK. rewrite L in OK.
  pose proof (proj2 ES X (lerp X W e) (off_path segs X _ P NX S)) as EQ. destruct c; [tauto|tauto|]. exact (reach_leafy _ _ _ _ R eq_refl).
Qed.
Lemma off_exact : forall segs E t X, segs <> [] -> (forall s, In s segs -> proper s) -> no_two_on_a_line segs -> solid_of segs o_root (start segs) t -> empty_space segs E -> ~ on_any segs X ->
  point_in_solid_space segs t X <> on_boundary.
Proof.
  intros segs E t X NE P NT H ES NX. pose proof (reach_right segs E t X NE P NT H ES NX) as ALL.
  destruct (reach_some segs X t) as (c & R). pose proof (ALL c R) as AC. rewrite (reach_all segs X t c); [destruct c; [discriminate|discriminate|contradiction]|].
  intros d RD. pose proof (ALL d RD) as AD. destruct c, d; tauto.
Qed.

(** ** Selection rules *)
Lemma autopartition_selects : selects_unused autopartition_policy.
Proof.
  intro items. unfold autopartition_policy. assert (G : forall l k, match autopartition_from k l with Some m => exists j it, m = (k + j)%nat /\ nth_error l j = Some it /\ it_used it = false | None => forall it, In it l -> it_used it = true end).
  { induction l as [|it l IH]; intro k; cbn [autopartition_from]; [intros ? []|]. destruct (it_used it) eqn:U.
    - specialize (IH (S k)). destruct (autopartition_from (S k) l) as [m|]; [destruct IH as (j & x & -> & N & UX); exists (S j), x; split; [lia|]; split; assumption|]. intros x [<- |I]; auto.
    - exists 0%nat, it. split; [lia|]. split; [reflexivity|exact U]. }
  specialize (G items 0%nat). destruct (autopartition_from 0 items); [|exact G]. destruct G as (j & it & -> & N & U). exists it. auto.
Qed.
Lemma scored_selects : selects_unused scored_selector_policy.
Proof.
  intro items. unfold scored_selector_policy. assert (G : forall all l k best, (match best with Some (_, i) => exists it, nth_error items i = Some it /\ it_used it = false | None => True end) -> (forall j it, nth_error l j = Some it -> nth_error items (k + j) = Some it) ->
    match scored_loop all k l best with Some m => exists it, nth_error items m = Some it /\ it_used it = false | None => best = None /\ forall it, In it l -> it_used it = true end).
  { intros all. induction l as [|it l IH]; intros k best B L; cbn [scored_loop]; [destruct best as [[q i]|]; [exact B|split; [reflexivity|intros ? []]]|].
    assert (L' : forall j x, nth_error l j = Some x -> nth_error items (S k + j) = Some x) by (intros j x N; rewrite Nat.add_succ_comm; apply (L (S j)); exact N).
    assert (H0 : nth_error items k = Some it) by (rewrite <- (Nat.add_0_r k); apply (L 0%nat); reflexivity).
    destruct (it_used it) eqn:U.
    - specialize (IH (S k) best B L'). destruct (scored_loop all (S k) l best); [exact IH|]. destruct IH as [-> IH]. split; [reflexivity|]. intros x [<- |I]; auto.
    - cbv zeta. assert (NEW : match scored_loop all (S k) l (Some (score all k (it_seg it), k)) with Some m => exists it, nth_error items m = Some it /\ it_used it = false | None => False end).
      { specialize (IH (S k) (Some (score all k (it_seg it), k)) (ex_intro _ it (conj H0 U)) L'). destruct (scored_loop all (S k) l (Some (score all k (it_seg it), k))); [exact IH|destruct IH; discriminate]. }
      destruct best as [[q i]|].
      + destruct (Qltb (score all k (it_seg it)) q).
        * destruct (scored_loop all (S k) l (Some (score all k (it_seg it), k))); [exact NEW|contradiction].
        * specialize (IH (S k) (Some (q, i)) B L'). destruct (scored_loop all (S k) l (Some (q, i))); [exact IH|destruct IH; discriminate].
      + destruct (scored_loop all (S k) l (Some (score all k (it_seg it), k))); [exact NEW|contradiction]. }
  specialize (G items items 0%nat None I (fun j it N => N)). destruct (scored_loop items 0 items None); [exact G|exact (proj2 G)].
Qed.

(** The scored rule takes an unused segment of least score. *)
Lemma scored_least : forall items k, scored_selector_policy items = Some k -> forall j jt, nth_error items j = Some jt -> it_used jt = false -> exists it, nth_error items k = Some it /\ score items k (it_seg it) <= score items j (it_seg jt).
Proof.
  intros items. unfold scored_selector_policy.
  assert (G : forall l k best m, (match best with Some (q, i) => exists it, nth_error items i = Some it /\ q = score items i (it_seg it) | None => True end) -> (forall j it, nth_error l j = Some it -> nth_error items (k + j) = Some it) ->
    scored_loop items k l best = Some m -> exists it, nth_error items m = Some it /\ (match best with Some (q, _) => score items m (it_seg it) <= q | None => True end) /\ forall j jt, nth_error l j = Some jt -> it_used jt = false -> score items m (it_seg it) <= score items (k + j) (it_seg jt)).
  { induction l as [|it l IH]; intros k best m B L E; cbn [scored_loop] in E.
    - destruct best as [[q i]|]; [|discriminate]. injection E as <-. destruct B as (x & N & ->). exists x. split; [exact N|]. split; [lra|]. intros [|j] jt J; discriminate.
    - assert (L' : forall j x, nth_error l j = Some x -> nth_error items (S k + j) = Some x) by (intros j x N; rewrite Nat.add_succ_comm; apply (L (S j)); exact N).
      assert (H0 : nth_error items k = Some it) by (rewrite <- (Nat.add_0_r k); apply (L 0%nat); reflexivity).
      assert (TAIL : forall m x, (it_used it = false -> score items m (it_seg x) <= score items k (it_seg it)) -> (forall j jt, nth_error l j = Some jt -> it_used jt = false -> score items m (it_seg x) <= score items (S k + j) (it_seg jt)) ->
        forall j jt, nth_error (it :: l) j = Some jt -> it_used jt = false -> score items m (it_seg x) <= score items (k + j) (it_seg jt)).
      { intros m' x H1 H2 [|j] jt J U; cbn in J; [injection J as <-; rewrite Nat.add_0_r; auto|]. rewrite <- Nat.add_succ_comm. auto. }
      destruct (it_used it) eqn:U.
      + destruct (IH (S k) best m B L' E) as (x & N & Q1 & Q2). exists x. split; [exact N|]. split; [exact Q1|]. apply TAIL; [discriminate|exact Q2].
      + cbv zeta in E. assert (NEW : match Some (score items k (it_seg it), k) with Some (q, i) => exists it, nth_error items i = Some it /\ q = score items i (it_seg it) | None => True end) by (exists it; auto).
        destruct best as [[q i]|]; [destruct (Qltb_spec (score items k (it_seg it)) q) as [LT|LT]|].
        * destruct (IH (S k) (Some (score items k (it_seg it), k)) m NEW L' E) as (x & N & Q1 & Q2). exists x. split; [exact N|]. split; [lra|]. apply TAIL; [intros _; exact Q1|exact Q2].
        * destruct (IH (S k) (Some (q, i)) m B L' E) as (x & N & Q1 & Q2). exists x. split; [exact N|]. split; [exact Q1|]. apply TAIL; [intros _; lra|exact Q2].
        * destruct (IH (S k) (Some (score items k (it_seg it), k)) m NEW L' E) as (x & N & Q1 & Q2). exists x. split; [exact N|]. split; [exact I|]. apply TAIL; [intros _; exact Q1|exact Q2]. }
  intros k E j jt J U. destruct (G items 0%nat None k I (fun j it N => N) E) as (x & N & _ & Q2). exists x. split; [exact N|]. apply (Q2 j jt J U).
Qed.

(** ** Convex rooms *)
Lemma room_edges : forall p, convex_ccw p -> (3 <= length p)%nat -> (forall s, In s (polygon_edges p) -> proper s) /\ no_two_on_a_line (polygon_edges p) /\ empty_space (polygon_edges p) (strictly_inside p) /\ polygon_edges p <> [] /\ length (polygon_edges p) = length p.
Proof.
  intros p C L. assert (LE : length (polygon_edges p) = length p) by (unfold polygon_edges; rewrite map_length, seq_length; reflexivity).
  assert (NTH : forall i a, nth_error (polygon_edges p) i = Some a -> (i < length p)%nat /\ a = pedge p i).
  { intros i a E. assert (I : (i < length p)%nat) by (rewrite <- LE; apply nth_error_Some; congruence). split; [exact I|]. assert (M : nth_error (polygon_edges p) i = Some (pedge p i)); [|congruence]. unfold polygon_edges, pedge. apply (map_nth_error (fun i => (pnth p i, pnth p (S i mod length p)))). rewrite (nth_error_nth' _ 0%nat) by (rewrite seq_length; exact I). rewrite seq_nth by exact I. reflexivity. }
  split; [intros s I; apply edges_In in I; destruct I as (i & I & ->); apply edge_proper; assumption|]. split.
  { intros i j a b N A B [Z1 Z2]. destruct (NTH _ _ A) as [I ->], (NTH _ _ B) as [J ->]. destruct (edges_front p i j C L I J N) as (F1 & F2 & F3). lra. }
  split; [|split; [intro N; rewrite N in LE; cbn in LE; lia|exact LE]]. split; [exact (convex_region p C L)|].
  assert (G : forall P Y, (forall t, 0 <= t <= 1 -> ~ on_any (polygon_edges p) (lerp P Y t)) -> strictly_inside p P -> strictly_inside p Y).
  { intros P Y CL SI. rewrite strictly_sides in * by lia. intros i I. destruct (Qlt_le_dec 0 (side (pedge p i) Y)) as [K|K]; [exact K|exfalso].
    destruct (first_exit (polygon_edges p) P Y) as (t & T & (e & IE & Z) & AL); [intros e IE; apply edges_In in IE; destruct IE as (j & J & ->); exact (SI j J)|exists (pedge p i); split; [apply edges_In; exists i; auto|exact K]|].
    apply (CL t ltac:(lra)). exists e. split; [exact IE|]. apply edges_In in IE. destruct IE as (j & J & ->). apply hull_edge; try assumption. apply all_sides. exact AL. }
  intros P Y CL. split; [apply G; exact CL|]. apply G. intros t T O. apply (CL (1 - t) ltac:(lra)). refine (on_any_pteq _ _ _ _ O). unfold lerp, vadd, vscale, vsub. split; cbn [px py]; ring.
Qed.
