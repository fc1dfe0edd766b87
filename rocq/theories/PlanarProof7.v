From Verif Require Import Base CmpModel OrientModel OrientSpec OrientProof DistModel DistSpec LinIntModel LinIntSpec LinIntProof PolygonModel PolygonSpec PolygonProof PolygonBorderProof PlanarModel PlanarSpec PlanarProof PlanarProof2 PlanarProof4 PlanarProof5 PlanarProof6.
From Coq Require Import Lia.

Section Containment.
Variable eps : Q.
Variable qs : list pt.
Hypothesis SP : simple_polygon qs.
Variable ps : list pt.
Variable sides : list (nat * nat).
Hypothesis good : good_sides ps sides.

Lemma containment_by_ok : exists b, containment_by direct eps ps qs sides = Some b /\
  (b = true -> (exists v, In v ps /\ in_region qs v) /\ forall s A B, In s sides -> side_at ps s A B ->
     (in_region qs A <-> in_region qs B) /\ (in_region qs A -> forall X, on_segment A B X -> in_region qs X)) /\
  ((exists v, In v ps /\ in_region qs v) -> (forall s A B X, In s sides -> side_at ps s A B -> on_segment A B X -> in_region qs X) -> b = true).
Proof.
  unfold containment_by. set (inside := fun p => negb (is_exterior (point_polygon_containment_or_on_border direct eps p qs))).
  assert (INS : forall p, inside p = true <-> in_region qs p).
  { intro p. unfold inside. rewrite negb_true_iff. pose proof (exterior_char eps qs p SP) as H. destruct (is_exterior _).
    - split; [discriminate|]. intro R. exfalso. exact (proj1 H eq_refl R).
    - split; [|reflexivity]. intros _. destruct (region_dec qs p (proj1 SP)) as [R|R]; [exact R|]. apply H in R. discriminate. }
  assert (EX : existsb inside ps = true <-> exists v, In v ps /\ in_region qs v).
  { rewrite existsb_exists. split; intros (v & I & H); exists v; (split; [exact I|apply INS, H]). }
  destruct (existsb inside ps).
  - assert (FV : forall s, In s sides -> exists r A B, side_at ps s A B /\ search (fun j => is_crossing_out direct eps ps qs (fst s) (snd s) j) (seq 0 (length qs)) = Some r /\
      (r = true -> exists Z, on_segment A B Z /\ ~ in_region qs Z) /\
      (r = false -> (in_region qs A <-> in_region qs B) /\ (in_region qs A -> forall X, on_segment A B X -> in_region qs X))).
    { intros s I. destruct (good s I) as (A & B & [EA EB] & N). destruct (side_result eps qs SP A B N ps (fst s) (snd s) EA EB) as (r & E & RT & RF). exists r, A, B.
      split; [split; assumption|]. split; [exact E|]. split; [exact RT|]. intro R. destruct (RF R) as [ALL|MISS].
      - split; [|auto]. split; intros _; apply ALL; [apply end_on|apply start_on].
      - pose proof (misses_constant qs SP A B MISS) as MC. split; [split; apply MC; (apply start_on || apply end_on)|]. intros H X OX. exact (MC A X (start_on A B) OX H). }
    destruct (search_ok (fun s : nat * nat => search (fun j => is_crossing_out direct eps ps qs (fst s) (snd s) j) (seq 0 (length qs))) sides) as (r & ER & IR).
    { intros s I. destruct (FV s I) as (v & _ & _ & _ & E & _). exists v. exact E. }
    rewrite ER. exists (negb r). split; [reflexivity|]. split.
    + intro R. apply negb_true_iff in R. split; [apply EX; reflexivity|]. intros s A B I [EA EB]. destruct (FV s I) as (v & A' & B' & [EA' EB'] & E & _ & F).
      assert (A' = A) by congruence. assert (B' = B) by congruence. subst A' B'. apply F. destruct v; [|reflexivity]. exfalso. assert (r = true) by (apply IR; exists s; split; assumption). congruence.
    + intros _ ALL. apply negb_true_iff. destruct r; [|reflexivity]. exfalso. destruct (proj1 IR eq_refl) as (s & I & E). destruct (FV s I) as (v & A & B & SA & E2 & T & _).
      assert (v = true) by congruence. destruct (T H) as (Z & OZ & NZ). exact (NZ (ALL s A B Z I SA OZ)).
  - exists false. split; [reflexivity|]. split; [discriminate|]. intros H. apply EX in H. discriminate.
Qed.
End Containment.

Lemma chain_all : forall (R : nat -> Prop) n, (forall i, (S i < n)%nat -> (R i <-> R (S i))) -> forall k, (k < n)%nat -> R k -> forall m, (m < n)%nat -> R m.
Proof.
  intros R n H. assert (Z : forall k, (k < n)%nat -> (R 0%nat <-> R k)).
  { induction k as [|k IH]; intro L; [tauto|]. rewrite IH by lia. apply H, L. }
  intros k L RK m LM. apply (Z m LM). apply (Z k L). exact RK.
Qed.

Lemma polyline_containment_ok : forall eps pline pgon, simple_polygon pgon -> proper_polyline pline ->
  exists b, polygon_polyline_containment direct eps pline pgon = Some b /\
  (b = true <-> pline <> [] /\ (forall v, In v pline -> in_region pgon v) /\ forall X, on_polyline pline X -> in_region pgon X).
Proof.
  intros eps pline pgon SP PP. destruct (containment_by_ok eps pgon SP pline _ (good_polyline pline PP)) as (b & E & T & F). exists b. split; [exact E|]. split.
  - intro HB. destruct (T HB) as ((v & I & RV) & ALL). split; [intros ->; destruct I|].
    assert (VERT : forall w, In w pline -> in_region pgon w).
    { apply In_nth_error in I as (k & EK). intros w IW. apply In_nth_error in IW as (m & EM).
      assert (LK : (k < length pline)%nat) by (apply nth_error_Some; congruence). assert (LM : (m < length pline)%nat) by (apply nth_error_Some; congruence).
      assert (G : (fun i => forall x, nth_error pline i = Some x -> in_region pgon x) m).
      { refine (chain_all (fun i => forall x, nth_error pline i = Some x -> in_region pgon x) (length pline) _ k LK _ m LM); [|intros x EX; assert (x = v) by congruence; subst; exact RV].
        intros i Hi. destruct (polyline_edge_at pline i Hi) as (A & B & EA & EB). destruct (ALL (i, S i) A B) as [IFF _]; [apply in_polyline_indices; split; [reflexivity|lia]|split; assumption|].
        split; intros H x EX.
        - assert (x = B) by congruence. subst. apply IFF, H, EA.
        - assert (x = A) by congruence. subst. apply IFF, H, EB. }
      exact (G w EM). }
    split; [exact VERT|]. intros X (i & A & B & EI & OX). destruct (ALL (i, S i) A B) as [_ H]; [exact (polyline_edge_index _ _ _ _ EI)|exact EI|]. apply H; [|exact OX]. apply VERT. destruct EI as [EA _]. exact (nth_error_In _ _ EA).
  - intros (NE & V & O). apply F.
    + destruct pline as [|v r]; [congruence|]. exists v. split; [left; reflexivity|apply V; left; reflexivity].
    + intros [i j] A B X I SA OX. apply O. apply (side_polyline _ _ _ _ _ I) in SA. exists i, A, B. split; assumption.
Qed.

Lemma polygon_containment_ok : forall eps p1 p2, simple_polygon p2 -> proper_polygon p1 ->
  exists b, polygon_polygon_containment direct eps p1 p2 = Some b /\
  (b = true <-> p1 <> [] /\ forall X, on_polygon p1 X -> in_region p2 X).
Proof.
  intros eps p1 p2 SP PP. destruct (containment_by_ok eps p2 SP p1 _ (good_polygon p1 PP)) as (b & E & T & F). exists b. split; [exact E|]. split.
  - intro HB. destruct (T HB) as ((v & I & RV) & ALL). split; [intros ->; destruct I|].
    assert (VERT : forall w, In w p1 -> in_region p2 w).
    { apply In_nth_error in I as (k & EK). intros w IW. apply In_nth_error in IW as (m & EM).
      assert (LK : (k < length p1)%nat) by (apply nth_error_Some; congruence). assert (LM : (m < length p1)%nat) by (apply nth_error_Some; congruence).
      assert (G : (fun i => forall x, nth_error p1 i = Some x -> in_region p2 x) m).
      { refine (chain_all (fun i => forall x, nth_error p1 i = Some x -> in_region p2 x) (length p1) _ k LK _ m LM); [|intros x EX; assert (x = v) by congruence; subst; exact RV].
        intros i Hi. assert (Li : (i < length p1)%nat) by lia. destruct (edge_at p1 i Li) as [EA EB]. set (A := pnth p1 i) in *. set (B := pnth p1 (S i mod length p1)) in *.
        assert (EB' : nth_error p1 (S i) = Some B) by (rewrite <- EB; f_equal; symmetry; apply Nat.mod_small, Hi).
        destruct (ALL (i, (S i mod length p1)%nat) A B) as [IFF _]; [apply in_polygon_indices; split; [reflexivity|lia]|split; assumption|].
        split; intros H x EX.
        - assert (x = B) by congruence. subst x. apply IFF, H, EA.
        - assert (x = A) by congruence. subst x. apply IFF, H, EB'. }
      exact (G w EM). }
    intros X (i & A & B & EI & OX). destruct (ALL (i, (S i mod length p1)%nat) A B) as [_ H]; [exact (polygon_edge_index _ _ _ _ EI)|exact EI|]. apply H; [|exact OX]. apply VERT. destruct EI as [EA _]. exact (nth_error_In _ _ EA).
  - intros (NE & O). apply F.
    + destruct p1 as [|v r]; [congruence|]. exists v. split; [left; reflexivity|]. apply O. destruct (vertex_edge (v :: r) v (or_introl eq_refl)) as (i & B & EI). exists i, v, B. split; [exact EI|apply start_on].
    + intros [i j] A B X I SA OX. apply in_polygon_indices in I as [-> _]. apply O. exists i, A, B. split; [exact SA|exact OX].
Qed.
