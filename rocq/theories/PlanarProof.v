From Verif Require Import Base CmpModel OrientModel OrientSpec OrientProof DistModel DistSpec LinIntModel LinIntSpec LinIntProof PolygonModel PolygonSpec PolygonProof PlanarModel PlanarSpec.
From Coq Require Import Lia Sorting.Sorted.

(** * The answer of one intersection *)
Lemma segseg_cases : forall A B C D, nonzero (vsub B A) -> nonzero (vsub D C) -> exists ty pts,
  segment_segment_intersection direct A B C D = Some (ty, pts) /\
  (is_non_crossing ty = true /\ ~ meet A B C D \/ is_non_crossing ty = false /\ meet A B C D /\ describes A B C D ty pts).
Proof.
  intros A B C D N1 N2. destruct (segseg_ok A B C D N1 N2) as (ty & pts & E & H). exists ty, pts. split; [exact E|]. cbv zeta in H.
  destruct ty; cbn [is_non_crossing describes]; cbv zeta.
  - contradiction.
  - left. split; [reflexivity|]. intros (X & H1 & H2). destruct H as [_ H]. apply (H X). split; assumption.
  - right. split; [reflexivity|]. split; [|exact H]. destruct H as (X & _ & S & _). exists X. apply S. apply pteq_refl.
  - right. split; [reflexivity|]. split; [|exact H]. destruct H as (X & Y & _ & S & _). exists X. apply S. exists 0. split; [lra|]. apply pteq_sym, lerp_0.
  - right. split; [reflexivity|]. destruct H as (X & EP & S & EX & _). split; [exists X; apply S; apply pteq_refl|]. exists X. auto.
Qed.
Lemma meet_sym : forall A B C D, meet A B C D <-> meet C D A B.
Proof. intros. unfold meet. split; intros (X & H1 & H2); exists X; split; assumption. Qed.

(** * Visiting the sides *)
(** The side of [ps] given by a pair of indices. *)
Definition side_at (ps : list pt) (s : nat * nat) (C D : pt) : Prop := nth_error ps (fst s) = Some C /\ nth_error ps (snd s) = Some D.
Definition good_sides (ps : list pt) (idx : list (nat * nat)) : Prop :=
  forall s, In s idx -> exists C D, side_at ps s C D /\ nonzero (vsub D C).
Definition hit_side (h : hit) : nat * nat := (h_i h, h_j h).
Definition hit_ok (A B : pt) (ps : list pt) (h : hit) : Prop :=
  exists C D, side_at ps (hit_side h) C D /\ describes A B C D (h_type h) (h_points h).
Definition side_meets (A B : pt) (ps : list pt) (s : nat * nat) : Prop := exists C D, side_at ps s C D /\ meet A B C D.

Lemma describes_meet : forall A B C D ty pts, describes A B C D ty pts -> meet A B C D.
Proof.
  intros A B C D ty pts H. destruct ty; cbn in H; try contradiction.
  - destruct H as (X & _ & S & _). exists X. apply S, pteq_refl.
  - destruct H as (X & Y & _ & S & _). exists X. apply S. exists 0. split; [lra|]. apply pteq_sym, lerp_0.
  - destruct H as (X & _ & S & _). exists X. apply S, pteq_refl.
Qed.

(** The sides that are met, in the order of the list. *)
Inductive sublist {X : Type} : list X -> list X -> Prop :=
| sub_nil : forall l, sublist [] l
| sub_skip : forall l m x, sublist l m -> sublist l (x :: m)
| sub_take : forall l m x, sublist l m -> sublist (x :: l) (x :: m).

(** What happens whatever the visitor says: the hits are a prefix of all the hits, of the length
    at which the visitor first says stop. *)
Lemma sides_loop_ok : forall A B ps idx, nonzero (vsub B A) -> good_sides ps idx ->
  exists all : list hit, Forall (hit_ok A B ps) all /\ sublist (map hit_side all) idx /\
    (forall s, In s idx -> (In s (map hit_side all) <-> side_meets A B ps s)) /\
    forall stop b0 hits0, exists k, (k <= length all)%nat /\
      sides_loop direct stop A B ps idx b0 hits0 = Some (b0 || negb (Nat.eqb (length all) 0), hits0 ++ firstn k all) /\
      (k = length all \/ ((0 < k)%nat /\ stop (hits0 ++ firstn k all) = true)) /\
      (forall m, (0 < m < k)%nat -> stop (hits0 ++ firstn m all) = false).
Proof.
  intros A B ps idx N. induction idx as [|[i j] idx IH]; intros G.
  - exists []. split; [constructor|]. split; [constructor|]. split; [intros s []|]. intros stop b0 hits0. exists 0%nat. cbn.
    rewrite orb_false_r, app_nil_r. split; [lia|]. split; [reflexivity|]. split; [left; reflexivity|]. lia.
  - destruct (G (i, j) (or_introl eq_refl)) as (C & D & (SC & SD) & ND). cbn [fst snd] in SC, SD.
    destruct IH as (all & OK & SUB & IFF & RUN); [intros s I; apply G; right; exact I|].
    destruct (segseg_cases A B C D N ND) as (ty & pts & E & [[T NM]|(T & M & DS)]).
    + exists all. split; [exact OK|]. split; [apply sub_skip, SUB|]. split.
      * intros s [<-|I].
        -- split.
           ++ intro H. exfalso. apply in_map_iff in H as (h & EH & IH). rewrite Forall_forall in OK. destruct (OK h IH) as (C' & D' & [S1 S2] & DS).
              rewrite EH in S1, S2. cbn [fst snd] in S1, S2. assert (C' = C) by congruence. assert (D' = D) by congruence. subst. apply NM, (describes_meet _ _ _ _ _ _ DS).
           ++ intros (C' & D' & [S1 S2] & M). exfalso. cbn [fst snd] in S1, S2. assert (C' = C) by congruence. assert (D' = D) by congruence. subst. contradiction.
        -- apply IFF, I.
      * intros stop b0 hits0. destruct (RUN stop b0 hits0) as (k & K). exists k. cbn [sides_loop]. rewrite SC, SD, E, T. exact K.
    + exists (mkhit ty i j pts :: all). split; [constructor; [exists C, D; split; [split; assumption|exact DS]|exact OK]|].
      split; [apply sub_take, SUB|]. split.
      * intros s [<-|I].
        -- split; [|left; reflexivity]. intros _. exists C, D. split; [split; assumption|exact M].
        -- split.
           ++ intros [<-|H]; [exists C, D; split; [split; assumption|exact M]|]. apply IFF; assumption.
           ++ intro H. right. apply IFF; assumption.
      * intros stop b0 hits0. cbn [sides_loop]. rewrite SC, SD, E, T. cbv zeta.
        destruct (stop (hits0 ++ [mkhit ty i j pts])) eqn:ST.
        -- exists 1%nat. cbn [length firstn Nat.eqb negb]. rewrite orb_true_r. split; [lia|]. split; [reflexivity|]. split; [right; split; [lia|exact ST]|]. lia.
        -- destruct (RUN stop true (hits0 ++ [mkhit ty i j pts])) as (k & K1 & K2 & K3 & K4). exists (S k). cbn [length firstn Nat.eqb negb]. rewrite orb_true_r.
           split; [lia|]. split; [rewrite K2; cbn [orb]; rewrite <- app_assoc; reflexivity|]. split.
           ++ destruct K3 as [K3|[K3 K3']]; [left; lia|right; split; [lia|]]. rewrite <- app_assoc in K3'. exact K3'.
           ++ intros m M'. destruct m as [|[|m]]; [lia|exact ST|]. rewrite <- (K4 (S m)); [|lia]. rewrite <- app_assoc. reflexivity.
Qed.

Lemma good_polyline : forall ps, proper_polyline ps -> good_sides ps (polyline_indices (length ps)).
Proof.
  intros ps P s I. unfold polyline_indices in I. apply in_map_iff in I as (i & <- & I). apply in_seq in I.
  destruct (nth_error ps i) as [C|] eqn:EC; [|apply nth_error_None in EC; lia]. destruct (nth_error ps (S i)) as [D|] eqn:ED; [|apply nth_error_None in ED; lia].
  exists C, D. split; [split; assumption|]. apply (P i). split; assumption.
Qed.
Lemma in_polyline_indices : forall n i j, In (i, j) (polyline_indices n) <-> j = S i /\ (S i < n)%nat.
Proof.
  intros n i j. unfold polyline_indices. rewrite in_map_iff. split.
  - intros (x & E & I). apply in_seq in I. injection E as E1 E2. split; [congruence|]. lia.
  - intros [-> H]. exists i. split; [reflexivity|]. apply in_seq. lia.
Qed.
Lemma border_indices_ok : forall n k i, (2 <= n)%nat -> (i + k = n)%nat ->
  border_indices k i (S i mod n) n = map (fun i => (i, (S i mod n)%nat)) (seq i k).
Proof.
  intros n. induction k as [|k IH]; intros i L E; [reflexivity|]. cbn [border_indices seq map]. f_equal.
  rewrite <- IH by lia. f_equal. destruct (Nat.eq_dec (S i) n) as [W|W].
  - rewrite W, Nat.mod_same by lia. assert (k = 0%nat) by lia. subst k. rewrite Nat.mod_small by lia.
    replace (S n) with (1 + 1 * n)%nat by lia. rewrite Nat.mod_add by lia. rewrite Nat.mod_small by lia. reflexivity.
  - rewrite (Nat.mod_small (S i)) by lia. reflexivity.
Qed.
Lemma in_polygon_indices : forall n i j, In (i, j) (map (fun i => (i, (S i mod n)%nat)) (seq 0 n)) <-> j = (S i mod n)%nat /\ (i < n)%nat.
Proof.
  intros n i j. rewrite in_map_iff. split.
  - intros (x & E & I). apply in_seq in I. injection E as E1 E2. subst. split; [reflexivity|]. lia.
  - intros [-> H]. exists i. split; [reflexivity|]. apply in_seq. lia.
Qed.
Lemma good_polygon : forall ps, proper_polygon ps -> good_sides ps (map (fun i => (i, (S i mod length ps)%nat)) (seq 0 (length ps))).
Proof.
  intros ps P [i j] I. apply in_polygon_indices in I as [-> I]. exists (pnth ps i), (pnth ps (S i mod length ps)).
  pose proof (edge_at ps i I) as E. split; [exact E|]. exact (P _ _ _ E).
Qed.
Lemma side_polyline : forall ps i j C D, In (i, j) (polyline_indices (length ps)) -> (side_at ps (i, j) C D <-> polyline_edge ps i C D).
Proof. intros ps i j C D I. apply in_polyline_indices in I as [-> I]. unfold side_at, polyline_edge. cbn [fst snd]. tauto. Qed.
Lemma polyline_edge_index : forall ps i C D, polyline_edge ps i C D -> In (i, S i) (polyline_indices (length ps)).
Proof. intros ps i C D [_ H]. apply in_polyline_indices. split; [reflexivity|]. apply nth_error_Some. congruence. Qed.
Lemma polygon_edge_index : forall ps i C D, polygon_edge ps i C D -> In (i, (S i mod length ps)%nat) (map (fun i => (i, (S i mod length ps)%nat)) (seq 0 (length ps))).
Proof. intros ps i C D [H _]. apply in_polygon_indices. split; [reflexivity|]. apply nth_error_Some. congruence. Qed.

Lemma sublist_in {X : Type} : forall (l m : list X), sublist l m -> forall x, In x l -> In x m.
Proof. induction 1; intros y I; [destruct I|right; auto|destruct I as [<-|I]; [left; reflexivity|right; auto]]. Qed.
Lemma sublist_sorted : forall (l m : list (nat * nat)), sublist l m -> StronglySorted lt (map fst m) -> StronglySorted lt (map fst l).
Proof.
  induction 1 as [l|l m x S IH|l m x S IH]; intro H; cbn; [constructor| |].
  - inversion H; subst. auto.
  - cbn in H. inversion H as [|? ? H1 H2]; subst. constructor; [auto|]. rewrite Forall_forall in *. intros y I. apply H2.
    apply in_map_iff in I as (z & <- & I). apply in_map. exact (sublist_in _ _ S _ I).
Qed.
Lemma seq_sorted : forall k i, StronglySorted lt (seq i k).
Proof. induction k; intro i; cbn; constructor; [auto|]. rewrite Forall_forall. intros x I. apply in_seq in I. lia. Qed.
Lemma indices_sorted : forall (f : nat -> nat) i k, StronglySorted lt (map fst (map (fun i => (i, f i)) (seq i k))).
Proof. intros. rewrite map_map. cbn. rewrite map_id. apply seq_sorted. Qed.


Lemma visit_polyline : forall A B ps, nonzero (vsub B A) -> proper_polyline ps -> exists all : list hit,
  visits A B (polyline_edge ps) S all /\
  forall stop, exists k, (k <= length all)%nat /\
    segment_polyline_intersect direct stop A B ps = Some (negb (Nat.eqb (length all) 0), firstn k all) /\
    (k = length all \/ ((0 < k)%nat /\ stop (firstn k all) = true)) /\ (forall m, (0 < m < k)%nat -> stop (firstn m all) = false).
Proof.
  intros A B ps N P. destruct (sides_loop_ok A B ps _ N (good_polyline ps P)) as (all & OK & SUB & IFF & RUN).
  exists all. split; [|intro stop; exact (RUN stop false [])]. split; [|split].
  - intros h I. assert (IN : In (hit_side h) (polyline_indices (length ps))) by (apply (sublist_in _ _ SUB), in_map, I).
    unfold hit_side in IN. pose proof IN as IN2. apply in_polyline_indices in IN2 as [J _]. split; [exact J|].
    rewrite Forall_forall in OK. destruct (OK h I) as (C & D & SA & DS). exists C, D. split; [|exact DS]. apply (side_polyline ps _ _ C D IN), SA.
  - replace (map h_i all) with (map fst (map hit_side all)) by (rewrite map_map; reflexivity). apply (sublist_sorted _ _ SUB). apply indices_sorted.
  - intros i C D E. pose proof (polyline_edge_index _ _ _ _ E) as IN. specialize (IFF _ IN). split.
    + intro I. apply in_map_iff in I as (h & <- & I). assert (IH : In (hit_side h) (polyline_indices (length ps))) by (apply (sublist_in _ _ SUB), in_map, I).
      unfold hit_side in IH. apply in_polyline_indices in IH as [J _]. assert (EH : hit_side h = (h_i h, S (h_i h))) by (unfold hit_side; rewrite J; reflexivity).
      rewrite <- EH in IFF. destruct IFF as [IFF _]. destruct (IFF (in_map _ _ _ I)) as (C' & D' & SA & M).
      rewrite EH in SA. destruct SA as [S1 S2], E. cbn [fst snd] in S1, S2. assert (C' = C) by congruence. assert (D' = D) by congruence. subst. exact M.
    + intro M. assert (I : In (i, S i) (map hit_side all)) by (apply IFF; exists C, D; split; [exact E|exact M]).
      apply in_map_iff in I as (h & EH & I). apply in_map_iff. exists h. split; [|exact I]. unfold hit_side in EH. congruence.
Qed.
Lemma visit_polygon : forall A B ps, nonzero (vsub B A) -> (2 <= length ps)%nat -> proper_polygon ps -> exists all : list hit,
  visits A B (polygon_edge ps) (fun i => (S i mod length ps)%nat) all /\
  forall stop, exists k, (k <= length all)%nat /\
    segment_polygon_border_intersect direct stop A B ps = Some (negb (Nat.eqb (length all) 0), firstn k all) /\
    (k = length all \/ ((0 < k)%nat /\ stop (firstn k all) = true)) /\ (forall m, (0 < m < k)%nat -> stop (firstn m all) = false).
Proof.
  intros A B ps N L P. destruct (sides_loop_ok A B ps _ N (good_polygon ps P)) as (all & OK & SUB & IFF & RUN).
  exists all. split.
  2:{ intro stop. unfold segment_polygon_border_intersect. assert (EQ : border_indices (length ps) 0 1 (length ps) = map (fun i => (i, (S i mod length ps)%nat)) (seq 0 (length ps))).
      { rewrite <- (border_indices_ok (length ps) (length ps) 0) by lia. f_equal. rewrite Nat.mod_small; lia. }
      rewrite EQ. exact (RUN stop false []). }
  split; [|split].
  - intros h I. assert (IN : In (hit_side h) (map (fun i => (i, (S i mod length ps)%nat)) (seq 0 (length ps)))) by (apply (sublist_in _ _ SUB), in_map, I).
    unfold hit_side in IN. apply in_polygon_indices in IN as [J _]. split; [exact J|].
    rewrite Forall_forall in OK. destruct (OK h I) as (C & D & SA & DS). exists C, D. split; [|exact DS]. destruct SA as [S1 S2]. unfold hit_side in S1, S2. cbn [fst snd] in S1, S2. rewrite J in S2. split; assumption.
  - replace (map h_i all) with (map fst (map hit_side all)) by (rewrite map_map; reflexivity). apply (sublist_sorted _ _ SUB). apply (indices_sorted (fun i => (S i mod length ps)%nat)).
  - intros i C D E. pose proof (polygon_edge_index _ _ _ _ E) as IN. specialize (IFF _ IN). split.
    + intro I. apply in_map_iff in I as (h & <- & I). assert (IH : In (hit_side h) (map (fun i => (i, (S i mod length ps)%nat)) (seq 0 (length ps)))) by (apply (sublist_in _ _ SUB), in_map, I).
      unfold hit_side in IH. apply in_polygon_indices in IH as [J _]. assert (EH : hit_side h = (h_i h, (S (h_i h) mod length ps)%nat)) by (unfold hit_side; rewrite J; reflexivity).
      rewrite <- EH in IFF. destruct IFF as [IFF _]. destruct (IFF (in_map _ _ _ I)) as (C' & D' & [S1 S2] & M).
      rewrite EH in S1, S2. cbn [fst snd] in S1, S2. destruct E. assert (C' = C) by congruence. assert (D' = D) by congruence. subst. exact M.
    + intro M. assert (I : In (i, (S i mod length ps)%nat) (map hit_side all)) by (apply IFF; exists C, D; split; [exact E|exact M]).
      apply in_map_iff in I as (h & EH & I). apply in_map_iff. exists h. split; [|exact I]. unfold hit_side in EH. congruence.
Qed.
Lemma visits_some : forall A B (edge : nat -> pt -> pt -> Prop) succ all, visits A B edge succ all ->
  (negb (Nat.eqb (length all) 0) = true <-> exists i C D, edge i C D /\ meet A B C D).
Proof.
  intros A B edge succ all (V1 & _ & V3). split.
  - destruct all as [|h all]; [discriminate|]. intros _. destruct (V1 h (or_introl eq_refl)) as (_ & C & D & E & DS). exists (h_i h), C, D. split; [exact E|exact (describes_meet _ _ _ _ _ _ DS)].
  - intros (i & C & D & E & M). apply (V3 i C D E) in M. destruct all; [destruct M|reflexivity].
Qed.

(** ** Two polylines *)
Lemma polyline_loop_ok : forall A B stop idx, proper_polyline B -> good_sides A idx ->
  (exists l1 i j l2 P Q all k, idx = l1 ++ (i, j) :: l2 /\ side_at A (i, j) P Q /\ visits P Q (polyline_edge B) S all /\ all <> [] /\
     (forall s P' Q' e C D, In s l1 -> side_at A s P' Q' -> polyline_edge B e C D -> ~ meet P' Q' C D) /\
     (0 < k <= length all)%nat /\
     (k = length all \/ stop (map (pair i) (firstn k all)) = true) /\ (forall m, (0 < m < k)%nat -> stop (map (pair i) (firstn m all)) = false) /\
     polyline_loop direct stop A B idx [] = Some (true, map (pair i) (firstn k all)))
  \/ ((forall s P Q e C D, In s idx -> side_at A s P Q -> polyline_edge B e C D -> ~ meet P Q C D) /\
      polyline_loop direct stop A B idx [] = Some (false, [])).
Proof.
  intros A B stop idx PB. induction idx as [|[i j] idx IH]; intro G.
  - right. split; [intros ? ? ? ? ? ? []|reflexivity].
  - destruct (G (i, j) (or_introl eq_refl)) as (P & Q & [SP SQ] & NQ). cbn [fst snd] in SP, SQ.
    destruct (visit_polyline P Q B NQ PB) as (all & V & RUN).
    destruct (RUN (fun inner => stop (map (pair i) inner))) as (k & K1 & K2 & K3 & K4).
    destruct all as [|h all].
    + assert (NM : forall P' Q' e C D, side_at A (i, j) P' Q' -> polyline_edge B e C D -> ~ meet P' Q' C D).
      { intros P' Q' e C D [H1 H2] E M. cbn [fst snd] in H1, H2. assert (P' = P) by congruence. assert (Q' = Q) by congruence. subst. destruct V as (_ & _ & V). apply (V e C D E) in M. destruct M. }
      assert (STEP : polyline_loop direct stop A B ((i, j) :: idx) [] = polyline_loop direct stop A B idx []).
      { cbn [polyline_loop]. rewrite SP, SQ. cbn [app]. rewrite K2. cbn [length Nat.eqb negb]. destruct k; reflexivity. }
      destruct IH as [(l1 & i1 & j1 & l2 & P1 & Q1 & all1 & k1 & H1 & H2 & H3 & H4 & H5 & H6)|[H1 H2]]; [intros s I; apply G; right; exact I| |].
      * left. exists ((i, j) :: l1), i1, j1, l2, P1, Q1, all1, k1. rewrite STEP. split; [rewrite H1; reflexivity|]. split; [exact H2|]. split; [exact H3|]. split; [exact H4|].
        split; [|exact H6]. intros s P' Q' e C D [<-|I]; [apply NM|apply H5, I].
      * right. rewrite STEP. split; [|exact H2]. intros s P' Q' e C D [<-|I]; [apply NM|apply H1, I].
    + left. exists [], i, j, idx, P, Q, (h :: all), k. split; [reflexivity|]. split; [split; assumption|]. split; [exact V|]. split; [discriminate|].
      split; [intros ? ? ? ? ? ? []|]. assert (KP : (0 < k)%nat) by (destruct K3 as [->|[K3 _]]; cbn; lia). split; [lia|].
      split; [destruct K3 as [K3|[_ K3]]; [left|right]; assumption|].
      split; [exact K4|]. cbn [polyline_loop]. rewrite SP, SQ. cbn [app]. rewrite K2. cbn [length Nat.eqb negb]. f_equal. f_equal.
      destruct k; [lia|]. reflexivity.
Qed.
Lemma seq_split : forall k i l1 x l2, seq i k = l1 ++ x :: l2 -> l1 = seq i (x - i) /\ (i <= x < i + k)%nat.
Proof.
  induction k as [|k IH]; intros i l1 x l2 E; [destruct l1; discriminate|]. cbn in E. destruct l1 as [|y l1]; cbn in E; injection E as E1 E2.
  - subst. rewrite Nat.sub_diag. split; [reflexivity|lia].
  - subst y. apply IH in E2 as [E2 L]. split; [|lia]. replace (x - i)%nat with (S (x - S i)) by lia. cbn. rewrite <- E2. reflexivity.
Qed.
Lemma map_split {X Y : Type} : forall (f : X -> Y) l l1 y l2, map f l = l1 ++ y :: l2 -> exists k1 x k2, l = k1 ++ x :: k2 /\ map f k1 = l1 /\ f x = y /\ map f k2 = l2.
Proof.
  intros f. induction l as [|a l IH]; intros l1 y l2 E; [destruct l1; discriminate|]. destruct l1 as [|b l1]; cbn in E; injection E as E1 E2.
  - exists [], a, l. auto.
  - destruct (IH _ _ _ E2) as (k1 & x & k2 & H1 & H2 & H3 & H4). exists (a :: k1), x, k2. subst. auto.
Qed.
(** The first side of A that meets B, and what is heard of it. *)
Lemma polylines_ok : forall A B stop, proper_polyline A -> proper_polyline B ->
  (exists i P Q all k, polyline_edge A i P Q /\ visits P Q (polyline_edge B) S all /\ all <> [] /\
     (forall i' P' Q' e C D, (i' < i)%nat -> polyline_edge A i' P' Q' -> polyline_edge B e C D -> ~ meet P' Q' C D) /\
     (0 < k <= length all)%nat /\
     (k = length all \/ stop (map (pair i) (firstn k all)) = true) /\ (forall m, (0 < m < k)%nat -> stop (map (pair i) (firstn m all)) = false) /\
     polyline_polyline_intersect direct stop A B = Some (true, map (pair i) (firstn k all)))
  \/ ((forall i P Q e C D, polyline_edge A i P Q -> polyline_edge B e C D -> ~ meet P Q C D) /\
      polyline_polyline_intersect direct stop A B = Some (false, [])).
Proof.
  intros A B stop PA PB. destruct (polyline_loop_ok A B stop _ PB (good_polyline A PA)) as [(l1 & i & j & l2 & P & Q & all & k & EL & SA & V & NE & BEF & K & R)|[H R]].
  - left. assert (IN : In (i, j) (polyline_indices (length A))) by (rewrite EL; apply in_or_app; right; left; reflexivity).
    exists i, P, Q, all, k. split; [apply (side_polyline A _ _ P Q IN), SA|]. split; [exact V|]. split; [exact NE|]. split; [|split; [exact K|exact R]].
    intros i' P' Q' e C D LT E. apply (BEF (i', S i')); [|exact E]. unfold polyline_indices in EL. apply map_split in EL as (k1 & x & k2 & E1 & <- & E3 & _).
    injection E3 as E3 _. subst x. apply seq_split in E1 as [-> L]. apply in_map_iff. exists i'. split; [reflexivity|]. apply in_seq. lia.
  - right. split; [|exact R]. intros i P Q e C D E. apply (H (i, S i)); [exact (polyline_edge_index _ _ _ _ E)|exact E].
Qed.
