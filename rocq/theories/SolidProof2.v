(** The tree that construction yields, and generic points. *)
From Verif Require Import Base CmpModel OrientModel OrientSpec OrientProof PolygonModel PolygonSpec PolygonProof BspModel BspSpec BspProof BspProof2 BspProof3 SolidModel SolidSpec SolidProof.
From Coq Require Import Lia.

Definition unused (it : item) : bool := negb (it_used it).
Definition mark (it : item) : item := (it_seg it, true, it_index it).
Lemma set_used_in : forall items k it x, nth_error items k = Some it -> In x (set_used k items) -> In x items \/ x = mark it.
Proof.
  induction items as [|[[e u] i] items IH]; intros k it x E I; [destruct k; discriminate|]. destruct k as [|k]; cbn in E, I.
  - injection E as <-. destruct I as [<- |I]; [right; reflexivity|left; right; exact I].
  - destruct I as [<- |I]; [left; left; reflexivity|]. destruct (IH k it x E I); [left; right; assumption|right; assumption].
Qed.
Lemma set_used_mark : forall items k it, nth_error items k = Some it -> In (mark it) (set_used k items).
Proof.
  induction items as [|[[e u] i] items IH]; intros k it E; [destruct k; discriminate|]. destruct k as [|k]; cbn in E |- *; [injection E as <-; left; reflexivity|right; apply IH; exact E].
Qed.
Lemma set_used_keeps : forall items k x, In x items -> exists y, In y (set_used k items) /\ it_seg y = it_seg x /\ it_index y = it_index x.
Proof.
  induction items as [|[[e u] i] items IH]; intros k x I; [destruct I|]. destruct k as [|k]; cbn.
  - destruct I as [<- |I]; [exists (e, true, i); auto|exists x; auto].
  - destruct I as [<- |I]; [exists (e, u, i); auto|]. destruct (IH k x I) as (y & Y & E). exists y; auto.
Qed.
Lemma set_used_index : forall items k, map it_index (set_used k items) = map it_index items.
Proof. induction items as [|[[e u] i] items IH]; intros k; [destruct k; reflexivity|]. destruct k as [|k]; cbn [set_used map]; [reflexivity|rewrite IH; reflexivity]. Qed.
Lemma set_used_count : forall items k it, nth_error items k = Some it -> it_used it = false -> (length (filter unused (set_used k items)) < length (filter unused items))%nat.
Proof.
  induction items as [|[[e u] i] items IH]; intros k it E U; [destruct k; discriminate|]. destruct k as [|k]; cbn in E; cbn [set_used filter].
  - injection E as <-. cbn in U. subst u. cbn. lia.
  - specialize (IH k it E U). destruct (unused (e, u, i)); cbn [length]; lia.
Qed.

Inductive solid_of (planes : list seg) : node_orientation -> list item -> solid_bsp -> Prop :=
  | so_leaf : forall o items, (forall it, In it items -> it_used it = true) -> (forall it, In it items -> wf_item planes it) -> solid_of planes o items (Leaf (is_back o) (map it_index items))
  | so_node : forall o items k it r front back co f b, (forall it, In it items -> wf_item planes it) ->
      nth_error items k = Some it -> it_used it = false -> nth_error planes (it_index it) = Some r ->
      parted planes r (set_used k items) front back co -> solid_of planes o_front front f -> solid_of planes o_back back b ->
      solid_of planes o items (Split (it_index it) co f b).

Lemma wf_set_used : forall planes items k it, nth_error items k = Some it -> (forall x, In x items -> wf_item planes x) -> forall x, In x (set_used k items) -> wf_item planes x.
Proof.
  intros planes items k it E W x I. destruct (set_used_in _ _ _ _ E I) as [J| ->]; [exact (W x J)|]. exact (W it (nth_error_In _ _ E)).
Qed.
Lemma build_solid_of : forall planes sel, selects_unused sel -> forall fuel o items, (length (filter unused items) < fuel)%nat -> (forall it, In it items -> wf_item planes it) ->
  exists t, build_tree planes sel fuel o items = Some t /\ solid_of planes o items t.
Proof.
  intros planes sel SEL. induction fuel as [|fuel IH]; intros o items L W; [lia|]. cbn [build_tree]. destruct items as [|i0 items0] eqn:EI.
  - exists (Leaf (is_back o) []). split; [reflexivity|]. apply (so_leaf planes o []); intros ? [].
  - rewrite <- EI in *. clear EI i0 items0. pose proof (SEL items) as S. destruct (sel items) as [k|].
    + destruct S as (it & E & U). rewrite E. destruct (W it (nth_error_In _ _ E)) as (r & NR & PR & PC). cbv zeta. rewrite (nth_error_nth planes _ no_seg NR).
      pose proof (wf_set_used planes items k it E W) as W'. destruct (partition_ok planes r (set_used k items) PR W') as (front & back & co & EP & P & _ & _ & FL). rewrite EP.
      destruct (FL unused) as [F1 F2]; [reflexivity|]. pose proof (set_used_count items k it E U) as CT. unfold item in *.
      destruct (IH o_front front) as (tf & Ef & Sf); [lia| |]. { intros c C. destruct (pa_front _ _ _ _ _ _ P c C) as (_ & x & X & CX). exact (wf_comes _ _ _ CX (W' x X)). }
      destruct (IH o_back back) as (tb & Eb & Sb); [lia| |]. { intros c C. destruct (pa_back _ _ _ _ _ _ P c C) as (_ & x & X & CX). exact (wf_comes _ _ _ CX (W' x X)). }
      rewrite Ef, Eb. eexists. split; [reflexivity|]. apply (so_node planes o items k it r front back co); assumption.
    + exists (Leaf (is_back o) (map it_index items)). split; [reflexivity|]. apply so_leaf; assumption.
Qed.

Lemma built_solid_of : forall planes sel, selects_unused sel -> forall fuel o items t, (forall it, In it items -> wf_item planes it) -> build_tree planes sel fuel o items = Some t -> solid_of planes o items t.
Proof.
  intros planes sel SEL. induction fuel as [|fuel IH]; intros o items t W E0; [discriminate|]. cbn [build_tree] in E0. destruct items as [|i0 items0] eqn:EI.
  - injection E0 as <-. apply (so_leaf planes o []); intros ? [].
  - rewrite <- EI in *. clear EI i0 items0. pose proof (SEL items) as S. destruct (sel items) as [k|].
    + destruct S as (it & E & U). rewrite E in E0. destruct (W it (nth_error_In _ _ E)) as (r & NR & PR & PC). cbv zeta in E0. rewrite (nth_error_nth planes _ no_seg NR) in E0.
      pose proof (wf_set_used planes items k it E W) as W'. destruct (partition_ok planes r (set_used k items) PR W') as (front & back & co & EP & P & _). rewrite EP in E0.
      destruct (build_tree planes sel fuel o_front front) as [tf|] eqn:Ef; [|discriminate]. destruct (build_tree planes sel fuel o_back back) as [tb|] eqn:Eb; [|discriminate]. injection E0 as <-.
      apply (so_node planes o items k it r front back co); try assumption; [apply IH with (2 := Ef)|apply IH with (2 := Eb)]; intros c C.
      * destruct (pa_front _ _ _ _ _ _ P c C) as (_ & x & X & CX). exact (wf_comes _ _ _ CX (W' x X)).
      * destruct (pa_back _ _ _ _ _ _ P c C) as (_ & x & X & CX). exact (wf_comes _ _ _ CX (W' x X)).
    + injection E0 as <-. apply so_leaf; assumption.
Qed.

(** ** Points on no line *)
Definition generic (planes : list seg) (X : pt) : Prop := forall r, In r planes -> ~ side r X == 0.
Definition front_of (a e : seg) : Prop := in_front a e \/ same_line a e.
Lemma on_segs : forall items X, on_any (segs_of items) X <-> exists it, In it items /\ on_segment (fst (it_seg it)) (snd (it_seg it)) X.
Proof.
  intros items X. unfold on_any, segs_of. split.
  - intros (s & I & O). apply in_map_iff in I. destruct I as (it & <- & I). exists it. auto.
  - intros (it & I & O). exists (it_seg it). split; [apply in_map; exact I|exact O].
Qed.
Lemma to_front_on : forall a e X, to_front a e -> on_segment (fst e) (snd e) X -> 0 <= side a X.
Proof. intros a e X [F|S] O; [exact (front_on _ _ _ F O)|]. rewrite (along_on _ _ _ (same_along _ _ S) O). lra. Qed.
Lemma to_back_on : forall a e X, to_back a e -> on_segment (fst e) (snd e) X -> side a X <= 0.
Proof. intros a e X [F|S] O; [exact (behind_on _ _ _ F O)|]. rewrite (along_on _ _ _ (anti_along _ _ S) O). lra. Qed.
Lemma front_piece : forall a e r, front_of a r -> piece_of e r -> front_of a e.
Proof.
  intros a e r [(F1 & F2 & F3)|(k & K & H)] P.
  - left. destruct (piece_side a e r P) as (u & v & U & UV & V & E1 & E2). unfold in_front. rewrite E1, E2. set (p := side a (fst r)) in *. set (q := side a (snd r)) in *.
    split; [apply mix_nonneg; lra|]. split; [apply mix_nonneg; lra|]. pose proof (piece_front a e r P (conj F1 (conj F2 F3))) as M. rewrite side_mid, E1, E2 in M. fold p q in M. lra.
  - right. destruct (piece_same _ _ P) as (k' & K' & H'). exists (k' * k). split; [apply Qmult_lt_0_compat; assumption|]. intro X. rewrite H', H. ring.
Qed.
Lemma mid_front : forall a e, front_of a e -> 0 <= side a (mid e).
Proof. intros a e [(A & B & C)|S]; rewrite side_mid; [lra|]. destruct (same_along _ _ S) as [-> ->]. lra. Qed.

Definition points_right (planes : list seg) (items : list item) (X : pt) (c : solid_class) : Prop :=
  exists d it, In it items /\ piece_of d (it_seg it) /\ clear (segs_of items) (mid d) X /\
    match c with in_solid => side d X < 0 | in_empty_space => 0 < side d X | on_boundary => False end.
Definition is_node (t : solid_bsp) : Prop := match t with Leaf _ _ => False | Split _ _ _ _ => True end.

Lemma on_parted : forall planes a items front back co k0 X, parted planes a (set_used k0 items) front back co -> on_any (segs_of items) X -> on_any (segs_of front) X \/ on_any (segs_of back) X.
Proof.
  intros planes a items front back co k0 X P H. apply on_segs in H. destruct H as (it & I & O). destruct (set_used_keeps items k0 it I) as (y & Y & E1 & _). rewrite <- E1 in O.
  destruct (pa_cover _ _ _ _ _ _ P y X Y O) as (c & [C|C] & _ & OC); [left|right]; apply on_segs; exists c; auto.
Qed.
Lemma clear_front : forall planes a items front back co k0 M X, parted planes a (set_used k0 items) front back co -> 0 <= side a M -> 0 < side a X -> clear (segs_of front) M X -> clear (segs_of items) M X.
Proof.
  intros planes a items front back co k0 M X P SM SX C u U H. assert (Z : 0 < side a (lerp M X u)). { rewrite side_lerp. assert (0 <= (1 - u) * side a M) by (apply Qmult_le_0_compat; lra). assert (0 < u * side a X) by (apply Qmult_lt_0_compat; lra). lra. }
  destruct (on_parted _ _ _ _ _ _ _ _ P H) as [F|B]; [exact (C u U F)|]. apply on_segs in B. destruct B as (it & I & O). pose proof (to_back_on _ _ _ (proj1 (pa_back _ _ _ _ _ _ P it I)) O). lra.
Qed.
Lemma clear_back : forall planes a items front back co k0 M X, parted planes a (set_used k0 items) front back co -> side a M <= 0 -> side a X < 0 -> clear (segs_of back) M X -> clear (segs_of items) M X.
Proof.
  intros planes a items front back co k0 M X P SM SX C u U H. assert (Z : side a (lerp M X u) < 0). { rewrite side_lerp. assert (0 <= (1 - u) * - side a M) by (apply Qmult_le_0_compat; lra). assert (0 < u * - side a X) by (apply Qmult_lt_0_compat; lra). lra. }
  destruct (on_parted _ _ _ _ _ _ _ _ P H) as [F|B]; [|exact (C u U B)]. apply on_segs in F. destruct F as (it & I & O). pose proof (to_front_on _ _ _ (proj1 (pa_front _ _ _ _ _ _ P it I)) O). lra.
Qed.

Lemma comes_set_used : forall items k it c y, nth_error items k = Some it -> In y (set_used k items) -> comes c y ->
  exists x, In x items /\ piece_of (it_seg c) (it_seg x) /\ it_index c = it_index x /\ ((it_used c = true -> it_used x = true) \/ x = it).
Proof.
  intros items k it c y E I (U & IX & P). destruct (set_used_in _ _ _ _ E I) as [J| ->].
  - exists y. repeat split; try assumption. left. congruence.
  - exists it. split; [exact (nth_error_In _ _ E)|]. split; [exact P|]. split; [exact IX|right; reflexivity].
Qed.

Lemma generic_settles : forall planes o items t, solid_of planes o items t -> is_node t -> forall X A, generic planes X ->
  (forall a, In a A -> 0 < side a X) -> (forall a it, In a A -> In it items -> front_of a (it_seg it)) -> (forall it, In it items -> it_used it = true -> exists a, In a A /\ along a (it_seg it)) ->
  points_right planes items X (point_in_solid_space planes t X).
Proof.
  intros planes o items t H. induction H as [o items U W|o items k it r front back co f b W E U NR P HF IHF HB IHB]; intros N X A G AX AF AU; [destruct N|].
  cbn [point_in_solid_space]. rewrite (nth_error_nth planes _ no_seg NR). pose proof (plane_dist_side r X) as D. pose proof (G r (nth_error_In _ _ NR)) as GR.
  assert (IN : In it items) by exact (nth_error_In _ _ E). destruct (W it IN) as (r' & NR' & PR & PC). assert (r' = r) by congruence. subst r'.
  pose proof (piece_same _ _ PC) as SL. assert (MID : side r (mid (it_seg it)) == 0) by (rewrite side_mid; destruct (same_along _ _ SL) as [-> ->]; ring).
  assert (BYA : forall Z a f, In a A -> 0 <= side a (mid (it_seg it)) -> along a (it_seg f) -> on_segment (fst (it_seg f)) (snd (it_seg f)) (lerp (mid (it_seg it)) X Z) -> 0 < Z <= 1 -> False).
  { intros Z a f0 I M AL O ZZ. pose proof (along_on _ _ _ AL O) as S. rewrite side_lerp in S. pose proof (AX a I). assert (0 < Z * side a X) by (apply Qmult_lt_0_compat; lra). assert (0 <= (1 - Z) * side a (mid (it_seg it))) by (apply Qmult_le_0_compat; lra). lra. }
  assert (MA : forall a, In a A -> 0 <= side a (mid (it_seg it))) by (intros a I; apply mid_front, (AF a it I IN)).
  destruct (Qltb_spec 0 (plane_dist r X)) as [L|L].
  - (* front *) assert (SX : 0 < side r X) by lra.
    assert (USED : forall c, In c front -> it_used c = true -> exists a, In a (r :: A) /\ along a (it_seg c)).
    { intros c C UC. destruct (pa_front _ _ _ _ _ _ P c C) as (_ & y & Y & CY). destruct (comes_set_used items k it c y E Y CY) as (x & IX & PX & _ & [UX| ->]).
      - destruct (AU x IX (UX UC)) as (a & IA & AL). exists a. split; [right; exact IA|]. destruct (piece_side a _ _ PX) as (p & q & _ & _ & _ & E1 & E2). destruct AL as [A1 A2]. split; [rewrite E1, A1, A2|rewrite E2, A1, A2]; ring.
      - exists r. split; [left; reflexivity|]. destruct (piece_side r _ _ PX) as (p & q & _ & _ & _ & E1 & E2). destruct (same_along _ _ SL) as [A1 A2]. split; [rewrite E1, A1, A2|rewrite E2, A1, A2]; ring. }
    inversion HF as [o' items' U' W' EO|o' items' k' it' r'' front' back' co' f' b' W' E' U' NR'' P' HF' HB']; subst.
    + cbn [point_in_solid_space is_back]. exists (it_seg it), it. split; [exact IN|]. split; [apply piece_refl|]. split.
      * apply (clear_front _ _ _ _ _ _ _ _ _ P); [lra|exact SX|]. intros u UU H. apply on_segs in H. destruct H as (c & C & O). destruct (USED c C (U' c C)) as (a & [<- |IA] & AL).
        -- pose proof (along_on _ _ _ AL O) as S. rewrite side_lerp, MID in S. assert (0 < u * side r X) by (apply Qmult_lt_0_compat; lra). lra.
        -- exact (BYA u a c IA (MA a IA) AL O UU).
      * destruct SL as (kk & K & HS). rewrite HS. apply Qmult_lt_0_compat; assumption.
    + destruct (IHF I X (r :: A) G) as (d & x & IX & PX & CX & SG).
      * intros a [<- |IA]; auto.
      * intros a c [<- |IA] C; destruct (pa_front _ _ _ _ _ _ P c C) as (TF & y & Y & CY); [exact TF|]. destruct (comes_set_used items k it c y E Y CY) as (z & IZ & PZ & _). exact (front_piece _ _ _ (AF a z IA IZ) PZ).
      * exact USED.
      * destruct (pa_front _ _ _ _ _ _ P x IX) as (TF & y & Y & CY). destruct (comes_set_used items k it x y E Y CY) as (z & IZ & PZ & _).
        exists d, z. split; [exact IZ|]. split; [exact (piece_trans _ _ _ PX PZ)|]. split; [|exact SG]. apply (clear_front _ _ _ _ _ _ _ _ _ P); [|exact SX|exact CX]. apply mid_front. exact (front_piece _ _ _ TF PX).
  - destruct (Qltb_spec (plane_dist r X) 0) as [L2|L2]; [|exfalso; lra]. assert (SX : side r X < 0) by lra.
    assert (USED : forall c, In c back -> it_used c = true -> exists a, In a A /\ along a (it_seg c)).
    { intros c C UC. destruct (pa_back _ _ _ _ _ _ P c C) as (TB & y & Y & CY). destruct (set_used_in _ _ _ _ E Y) as [J| ->].
      - destruct CY as (UY & _ & PY). destruct (AU y J) as (a & IA & AL); [congruence|]. exists a. split; [exact IA|]. destruct (piece_side a _ _ PY) as (p & q & _ & _ & _ & E1 & E2). destruct AL as [A1 A2]. split; [rewrite E1, A1, A2|rewrite E2, A1, A2]; ring.
      - exfalso. destruct CY as (_ & _ & PY). cbn [mark it_seg fst] in PY. fold (it_seg it) in PY. assert (SLc : same_line r (it_seg c)). { destruct (piece_same _ _ PY) as (k1 & K1 & H1), SL as (k2 & K2 & H2). exists (k1 * k2). split; [apply Qmult_lt_0_compat; assumption|]. intro Y'. rewrite H1, H2. ring. }
        destruct TB as [(B1 & B2 & B3)|(k1 & K1 & H1)]; [destruct (same_along _ _ SLc) as [S1 S2]; lra|]. destruct SLc as (k2 & K2 & H2). pose proof (H1 X) as Q1. pose proof (H2 X) as Q2. assert (0 < k1 * - side r X) by (apply Qmult_lt_0_compat; lra). assert (0 < k2 * - side r X) by (apply Qmult_lt_0_compat; lra). lra. }
    inversion HB as [o' items' U' W' EO|o' items' k' it' r'' front' back' co' f' b' W' E' U' NR'' P' HF' HB']; subst.
    + cbn [point_in_solid_space is_back]. exists (it_seg it), it. split; [exact IN|]. split; [apply piece_refl|]. split.
      * apply (clear_back _ _ _ _ _ _ _ _ _ P); [lra|exact SX|]. intros u UU H. apply on_segs in H. destruct H as (c & C & O). destruct (USED c C (U' c C)) as (a & IA & AL). exact (BYA u a c IA (MA a IA) AL O UU).
      * destruct SL as (kk & K & HS). rewrite HS. assert (0 < kk * - side r X) by (apply Qmult_lt_0_compat; lra). lra.
    + destruct (IHB I X A G AX) as (d & x & IX & PX & CX & SG).
      * intros a c IA C; destruct (pa_back _ _ _ _ _ _ P c C) as (TF & y & Y & CY). destruct (comes_set_used items k it c y E Y CY) as (z & IZ & PZ & _). exact (front_piece _ _ _ (AF a z IA IZ) PZ).
      * exact USED.
      * destruct (pa_back _ _ _ _ _ _ P x IX) as (TF & y & Y & CY). destruct (comes_set_used items k it x y E Y CY) as (z & IZ & PZ & _).
        exists d, z. split; [exact IZ|]. split; [exact (piece_trans _ _ _ PX PZ)|]. split; [|exact SG]. apply (clear_back _ _ _ _ _ _ _ _ _ P); [|exact SX|exact CX].
        destruct (piece_side r d _ PX) as (p & q & P0 & PQ & Q1 & E1 & E2). rewrite side_mid, E1, E2. destruct TF as [(B1 & B2 & B3)|AL]; [|destruct (anti_along _ _ AL) as [-> ->]; lra].
        pose proof (mix_nonpos _ _ p ltac:(lra) B1 B2). pose proof (mix_nonpos _ _ q ltac:(lra) B1 B2). lra.
Qed.

(** ** The whole tree *)
Definition start (segs : list seg) : list item := map (fun i => (nth i segs no_seg, false, i)) (seq 0 (length segs)).
Lemma start_in : forall segs it, In it (start segs) <-> exists i s, nth_error segs i = Some s /\ it = (s, false, i).
Proof.
  intros segs it. unfold start. rewrite in_map_iff. split.
  - intros (i & <- & I). apply in_seq in I. destruct (nth_error segs i) as [s|] eqn:E; [|apply nth_error_None in E; lia]. exists i, s. split; [exact E|]. rewrite (nth_error_nth _ _ no_seg E). reflexivity.
  - intros (i & s & E & ->). exists i. split; [rewrite (nth_error_nth _ _ no_seg E); reflexivity|]. apply in_seq. assert (nth_error segs i <> None) by congruence. apply nth_error_Some in H. lia.
Qed.
Lemma start_wf : forall segs, (forall s, In s segs -> proper s) -> forall it, In it (start segs) -> wf_item segs it.
Proof. intros segs P it I. apply start_in in I. destruct I as (i & s & E & ->). exists s. split; [exact E|]. split; [exact (P s (nth_error_In _ _ E))|apply piece_refl]. Qed.
Lemma start_on : forall segs X, on_any (segs_of (start segs)) X <-> on_any segs X.
Proof.
  intros segs X. rewrite on_segs. split.
  - intros (it & I & O). apply start_in in I. destruct I as (i & s & E & ->). exists s. split; [exact (nth_error_In _ _ E)|exact O].
  - intros (s & I & O). apply In_nth_error in I. destruct I as (i & E). exists (s, false, i). split; [apply start_in; exists i, s; auto|exact O].
Qed.
Lemma start_count : forall segs, length (filter unused (start segs)) = length segs.
Proof.
  intro segs. unfold start. assert (H : forall l, filter unused (map (fun i => (nth i segs no_seg, false, i)) l) = map (fun i => (nth i segs no_seg, false, i)) l) by (induction l as [|x l IH]; cbn; [reflexivity|rewrite IH; reflexivity]). rewrite H, map_length, seq_length. reflexivity.
Qed.
Lemma start_node : forall segs t, segs <> [] -> solid_of segs o_root (start segs) t -> is_node t.
Proof.
  intros segs t N H. inversion H as [o items U W EO|]; subst; [|exact I]. exfalso. destruct segs as [|s segs]; [congruence|]. assert (J : In (s, false, 0%nat) (start (s :: segs))) by (apply start_in; exists 0%nat, s; auto). specialize (U _ J). discriminate.
Qed.
Lemma generic_ok : forall segs E t X, segs <> [] -> solid_of segs o_root (start segs) t -> left_of_boundary segs E -> generic segs X ->
  match point_in_solid_space segs t X with in_solid => ~ E X | in_empty_space => E X | on_boundary => False end.
Proof.
  intros segs E t X NE H LB G. destruct (generic_settles segs o_root _ t H (start_node _ _ NE H) X [] G) as (d & it & I & P & C & S); [intros ? []|intros ? ? []| |].
  { intros it I U. apply start_in in I. destruct I as (i & s & _ & ->). discriminate. }
  apply start_in in I. destruct I as (i & s & ES & ->). cbn [it_seg fst] in P. assert (C' : forall t, 0 < t <= 1 -> ~ on_any segs (lerp (mid d) X t)) by (intros u U O; apply (C u U); apply start_on; exact O).
  destruct (LB s (mid d) X (nth_error_In _ _ ES) (mid_inside _ _ P) C') as [L1 L2]. destruct (piece_same _ _ P) as (k & K & HS). pose proof (HS X) as SX.
  destruct (point_in_solid_space segs t X); [apply L2; nra|apply L1; nra|exact S].
Qed.
