(** Polylines and polygons under an absolute tolerance: no common point is missed. *)
From Verif Require Import Base CmpModel OrientModel OrientSpec OrientProof DistModel DistSpec LinIntModel LinIntSpec LinIntProof PolygonModel PolygonSpec PolygonProof PlanarModel PlanarSpec PlanarProof PlanarProof2 PlanarProof3 TolSpec TolProof LinIntProps.
From Coq Require Import Lia.

Section Tol.
Variable tol : Q.
Hypothesis T : 0 <= tol.
Let cmp := absolute tol.

Lemma tol_defined : forall A B C D, exists ty pts, segment_segment_intersection cmp A B C D = Some (ty, pts) /\ (meet A B C D -> is_non_crossing ty = false).
Proof.
  intros A B C D. destruct (C18_never_invalid cmp tol A B C D T (or_intror (or_introl eq_refl))) as (ty & pts & E & _). exists ty, pts. split; [exact E|].
  intros (X & H1 & H2). destruct (segments_not_missed tol A B C D X T H1 H2) as (ty' & pts' & E' & K). fold cmp in E'. rewrite E in E'. injection E' as <- <-.
  destruct K as [ ->|[ ->| ->] ]; reflexivity.
Qed.
Lemma sides_loop_tol : forall stop A B ps idx, (forall i j, In (i, j) idx -> exists C D, nth_error ps i = Some C /\ nth_error ps j = Some D) -> forall seen hits,
  exists b hits', sides_loop cmp stop A B ps idx seen hits = Some (b, hits') /\ (seen = true -> b = true) /\ incl hits hits' /\
    (forall i j C D, In (i, j) idx -> nth_error ps i = Some C -> nth_error ps j = Some D -> meet A B C D ->
       b = true /\ ((forall l, stop l = false) -> exists h, In h hits' /\ h_i h = i /\ h_j h = j)).
Proof.
  intros stop A B ps. induction idx as [|[i j] idx IH]; intros V seen hits; cbn [sides_loop].
  - exists seen, hits. split; [reflexivity|]. split; [auto|]. split; [apply incl_refl|]. intros i j C D [].
  - destruct (V i j (or_introl eq_refl)) as (C & D & E1 & E2). rewrite E1, E2. destruct (tol_defined A B C D) as (ty & pts & E & M). rewrite E.
    assert (V' : forall i j, In (i, j) idx -> exists C D, nth_error ps i = Some C /\ nth_error ps j = Some D) by (intros; apply V; right; assumption).
    destruct (is_non_crossing ty) eqn:NC.
    + destruct (IH V' seen hits) as (b & hits' & EL & S1 & S2 & S3). exists b, hits'. split; [exact EL|]. split; [exact S1|]. split; [exact S2|].
      intros i' j' C' D' [I|I] N1 N2 MM; [|exact (S3 i' j' C' D' I N1 N2 MM)]. injection I as <- <-. rewrite E1 in N1. rewrite E2 in N2. injection N1 as <-. injection N2 as <-. apply M in MM. discriminate.
    + cbv zeta. set (h := mkhit ty i j pts). destruct (stop (hits ++ [h])) eqn:ST.
      * exists true, (hits ++ [h]). split; [reflexivity|]. split; [reflexivity|]. split; [apply incl_appl, incl_refl|]. intros i' j' C' D' _ _ _ _. split; [reflexivity|]. intro N. rewrite N in ST. discriminate.
      * destruct (IH V' true (hits ++ [h])) as (b & hits' & EL & S1 & S2 & S3). exists b, hits'. split; [exact EL|]. split; [intros _; apply S1; reflexivity|].
        split; [intros x I; apply S2, in_or_app; left; exact I|]. intros i' j' C' D' [I|I] N1 N2 MM; [|exact (S3 i' j' C' D' I N1 N2 MM)]. injection I as <- <-. split; [apply S1; reflexivity|].
        intros _. exists h. split; [apply S2, in_or_app; right; left; reflexivity|split; reflexivity].
Qed.
Lemma segment_polyline_tol : forall stop A B ps, exists b hits, segment_polyline_intersect cmp stop A B ps = Some (b, hits) /\
  forall i C D, polyline_edge ps i C D -> meet A B C D -> b = true /\ ((forall l, stop l = false) -> In i (map h_i hits)).
Proof.
  intros stop A B ps. unfold segment_polyline_intersect. destruct (sides_loop_tol stop A B ps (polyline_indices (length ps))) with (seen := false) (hits := @nil hit) as (b & hits & E & _ & _ & K).
  - intros i j I. apply in_polyline_indices in I. destruct I as [ -> I]. destruct (polyline_edge_at ps i I) as (C & D & E1 & E2). exists C, D. split; assumption.
  - exists b, hits. split; [exact E|]. intros i C D ED M. destruct (K i (S i) C D (polyline_edge_index _ _ _ _ ED) (proj1 ED) (proj2 ED) M) as [K1 K2]. split; [exact K1|].
    intro N. destruct (K2 N) as (h & I & <- & _). apply in_map, I.
Qed.
Lemma segment_border_tol : forall stop A B ps, (2 <= length ps)%nat -> exists b hits, segment_polygon_border_intersect cmp stop A B ps = Some (b, hits) /\
  forall i C D, polygon_edge ps i C D -> meet A B C D -> b = true /\ ((forall l, stop l = false) -> In i (map h_i hits)).
Proof.
  intros stop A B ps L. unfold segment_polygon_border_intersect. assert (EQ : border_indices (length ps) 0 1 (length ps) = map (fun i => (i, (S i mod length ps)%nat)) (seq 0 (length ps))).
  { rewrite <- (border_indices_ok (length ps) (length ps) 0) by lia. f_equal. rewrite Nat.mod_small; lia. }
  rewrite EQ. destruct (sides_loop_tol stop A B ps (map (fun i => (i, (S i mod length ps)%nat)) (seq 0 (length ps)))) with (seen := false) (hits := @nil hit) as (b & hits & E & _ & _ & K).
  - intros i j I. apply in_map_iff in I. destruct I as (x & I & J). injection I as <- <-. apply in_seq in J. pose proof (edge_at ps x ltac:(lia)) as [E1 E2]. eexists _, _. split; eassumption.
  - exists b, hits. split; [exact E|]. intros i C D ED M. assert (IN : In (i, (S i mod length ps)%nat) (map (fun i => (i, (S i mod length ps)%nat)) (seq 0 (length ps)))).
    { apply in_map_iff. exists i. split; [reflexivity|]. apply in_seq. assert (i < length ps)%nat by (apply nth_error_Some; destruct ED; congruence). lia. }
    destruct (K i _ C D IN (proj1 ED) (proj2 ED) M) as [K1 K2]. split; [exact K1|]. intro N. destruct (K2 N) as (h & I & <- & _). apply in_map, I.
Qed.
Lemma polyline_polyline_tol : forall stop A B, exists b hits, polyline_polyline_intersect cmp stop A B = Some (b, hits) /\ (forall X, on_polyline A X -> on_polyline B X -> b = true).
Proof.
  intros stop A B. unfold polyline_polyline_intersect.
  assert (G : forall idx hits, (forall i j, In (i, j) idx -> exists C D, nth_error A i = Some C /\ nth_error A j = Some D) -> exists b hits', polyline_loop cmp stop A B idx hits = Some (b, hits') /\
    (hits <> [] -> b = true) /\ forall i j P Q k C D, In (i, j) idx -> nth_error A i = Some P -> nth_error A j = Some Q -> polyline_edge B k C D -> meet P Q C D -> b = true).
  { induction idx as [|[i j] idx IH]; intros hits V; cbn [polyline_loop].
    - eexists _, _. split; [reflexivity|]. split; [destruct hits; [congruence|reflexivity]|]. intros i j P Q k C D [].
    - destruct (V i j (or_introl eq_refl)) as (P & Q & E1 & E2). rewrite E1, E2. destruct (segment_polyline_tol (fun inner => stop (hits ++ map (pair i) inner)) P Q B) as (b & inner & E & K). rewrite E. cbv zeta.
      assert (BI : b = true -> inner <> []).
      { intros ->. clear - E. unfold segment_polyline_intersect in E. 
        assert (G : forall idx seen hs r hs', (seen = true -> hs <> []) -> sides_loop cmp (fun inner => stop (hits ++ map (pair i) inner)) P Q B idx seen hs = Some (r, hs') -> r = true -> hs' <> []).
        { induction idx as [|[x y] idx IH]; intros seen hs r hs' H L R; cbn [sides_loop] in L; [injection L as <- <-; apply H, R|].
          destruct (nth_error B x) as [C|]; [|discriminate]. destruct (nth_error B y) as [D|]; [|discriminate]. destruct (segment_segment_intersection cmp P Q C D) as [ [ty pts]|]; [|discriminate].
          destruct (is_non_crossing ty); [exact (IH seen hs r hs' H L R)|]. cbv zeta in L. destruct (stop _); [injection L as <- <-; destruct hs; discriminate|].
          apply (IH true (hs ++ [mkhit ty x y pts]) r hs'); try assumption. intros _. destruct hs; discriminate. }
        exact (G _ false [] true inner ltac:(discriminate) E eq_refl). }
      destruct b.
      + eexists _, _. split; [reflexivity|]. assert (NE : hits ++ map (pair i) inner <> []) by (specialize (BI eq_refl); destruct hits; [destruct inner; [congruence|discriminate]|discriminate]).
        destruct (hits ++ map (pair i) inner); [congruence|]. split; auto.
      + destruct (IH (hits ++ map (pair i) inner)) as (b & hits' & EL & S1 & S2); [intros; apply V; right; assumption|]. exists b, hits'. split; [exact EL|]. split; [intro N; apply S1; destruct hits; [congruence|discriminate]|].
        intros i' j' P' Q' k C D [I|I] N1 N2 ED M; [|exact (S2 i' j' P' Q' k C D I N1 N2 ED M)]. injection I as <- <-. rewrite E1 in N1. rewrite E2 in N2. injection N1 as <-. injection N2 as <-. destruct (K k C D ED M) as [K1 _]. discriminate. }
  destruct (G (polyline_indices (length A)) []) as (b & hits & E & _ & K).
  - intros i j I. apply in_polyline_indices in I. destruct I as [ -> I]. destruct (polyline_edge_at A i I) as (C & D & E1 & E2). exists C, D. split; assumption.
  - exists b, hits. split; [exact E|]. intros X (i & P & Q & EA & X1) (k & C & D & EB & X2). apply (K i (S i) P Q k C D (polyline_edge_index _ _ _ _ EA) (proj1 EA) (proj2 EA) EB). exists X. split; assumption.
Qed.
Lemma simple_tol : forall ps, (2 <= length ps)%nat -> exists b, is_polygon_simple cmp ps = Some b /\ (b = true -> far_sides_disjoint ps).
Proof.
  intros ps L. unfold is_polygon_simple. cbv zeta. destruct (Nat.ltb_spec (length ps) 2); [lia|]. set (n := length ps) in *.
  match goal with |- context [search ?g _] => set (f := g) end.
  assert (F : forall i j, (i < n)%nat -> (j < n)%nat -> exists b, f (i, j) = Some b /\ (meet (pnth ps i) (pnth ps (S i mod n)) (pnth ps j) (pnth ps (S j mod n)) -> ~ neighbours n i j -> b = true)).
  { intros i j Hi Hj. pose proof (edge_at ps i Hi) as E1. pose proof (edge_at ps j Hj) as E2. fold n in E1, E2. unfold f, next, intersecting, sides_meet. destruct E1 as [E1 E1'], E2 as [E2 E2']. fold n in E1', E2'. rewrite E1, E1', E2, E2'.
    destruct (tol_defined (pnth ps i) (pnth ps (S i mod n)) (pnth ps j) (pnth ps (S j mod n))) as (ty & pts & E & M). rewrite E. eexists. split; [reflexivity|].
    intros MM NN. rewrite (M MM). cbn [negb andb]. apply negb_true_iff. destruct (adjacent n i j) eqn:AD; [exfalso; apply NN, adjacent_ok, AD|reflexivity]. }
  destruct (search_ok f (simple_indices n)) as (r & ER & IR).
  { intros [i j] I. apply in_simple_indices in I. destruct (F i j) as (b & E & _); [lia|lia|]. exists b; exact E. }
  exists (negb r). rewrite ER. split; [reflexivity|]. rewrite negb_true_iff.
  intros R i j A B C D NE NN E1 E2 M. assert (TR : r = true); [|congruence]. apply IR.
  apply edge_pnth in E1 as (Hi & -> & ->). apply edge_pnth in E2 as (Hj & -> & ->). fold n in Hi, Hj, M, NN.
  assert (G : forall i j, (i < j)%nat -> (j < n)%nat -> ~ neighbours n i j -> meet (pnth ps i) (pnth ps (S i mod n)) (pnth ps j) (pnth ps (S j mod n)) -> exists x, In x (simple_indices n) /\ f x = Some true).
  { intros a b LT LB NAB MAB. exists (a, b). split.
    - apply in_simple_indices. split; [|lia]. destruct (Nat.eq_dec (S a) b) as [Eab|]; [|lia]. exfalso. apply NAB. left. rewrite Eab. apply Nat.mod_small. lia.
    - destruct (F a b) as (v & EV & IV); [lia|lia|]. rewrite EV. f_equal. apply IV; assumption. }
  destruct (Nat.lt_total i j) as [LT|[EQ|LT]]; [exact (G i j LT Hj NN M)|contradiction|]. apply (G j i LT Hi).
  + rewrite neighbours_sym. exact NN.
  + apply meet_sym, M.
Qed.
Lemma self_tol : forall ps, exists b l, polyline_self_intersection cmp ps = Some (b, l) /\ (b = true <-> l <> []) /\
  forall i j A B C D, (S i < j)%nat -> polyline_edge ps i A B -> polyline_edge ps j C D -> meet A B C D -> exists ty xs, In (i, j, ty, xs) l.
Proof.
  intro ps. unfold polyline_self_intersection. destruct (Nat.ltb_spec (length ps) 3) as [S3|S3].
  { exists false, []. split; [reflexivity|]. split; [split; congruence|]. intros i j A B C D L E1 E2 _. exfalso. assert (S j < length ps)%nat by (apply nth_error_Some; destruct E2; congruence). lia. }
  assert (G : forall idx, (forall i j, In (i, j) idx -> exists A B C D, polyline_edge ps i A B /\ polyline_edge ps j C D) -> exists l, self_loop cmp ps idx = Some l /\
    forall i j A B C D, In (i, j) idx -> (S i < j)%nat -> polyline_edge ps i A B -> polyline_edge ps j C D -> meet A B C D -> exists ty xs, In (i, j, ty, xs) l).
  { induction idx as [|[i j] idx IH]; intro V; cbn [self_loop].
    - exists []. split; [reflexivity|]. intros i j A B C D [].
    - destruct (V i j (or_introl eq_refl)) as (A & B & C & D & [EA EB] & [EC ED]). unfold sides_meet. rewrite EA, EB, EC, ED. destruct (tol_defined A B C D) as (ty & pts & E & M). rewrite E.
      destruct IH as (l & EL & K); [intros; apply V; right; assumption|]. rewrite EL. cbv zeta. eexists. split; [reflexivity|].
      intros i' j' A' B' C' D' [I|I] L E1 E2 MM.
      + injection I as <- <-. destruct E1 as [F1 F2], E2 as [F3 F4]. rewrite EA in F1. rewrite EB in F2. rewrite EC in F3. rewrite ED in F4. injection F1 as <-. injection F2 as <-. injection F3 as <-. injection F4 as <-.
        rewrite (M MM). assert (AD : (Nat.eqb (S i) j || Nat.eqb (S j) i) = false) by (apply orb_false_iff; split; apply Nat.eqb_neq; lia). rewrite AD. cbn [negb andb orb]. exists ty, pts. left. reflexivity.
      + destruct (K i' j' A' B' C' D' I L E1 E2 MM) as (ty' & xs' & IN). exists ty', xs'. destruct (negb _ && _); [right|]; exact IN. }
  destruct (G (self_indices (length ps))) as (l & EL & K).
  { intros i j I. apply in_self_indices in I. destruct (polyline_edge_at ps i) as (A & B & E1); [lia|]. destruct (polyline_edge_at ps j) as (C & D & E2); [lia|]. exists A, B, C, D. split; assumption. }
  rewrite EL. eexists _, l. split; [reflexivity|]. split; [destruct l; split; congruence|]. intros i j A B C D L E1 E2 M. apply (K i j A B C D); try assumption. apply in_self_indices. assert (S j < length ps)%nat by (apply nth_error_Some; destruct E2; congruence). lia.
Qed.
Lemma holes_tol : forall outer holes, (forall ps, In ps (outer :: holes) -> (3 <= length ps)%nat) -> exists b, is_polygon_with_holes_simple cmp outer holes = Some b /\
  (b = true -> (forall ps, In ps (outer :: holes) -> far_sides_disjoint ps) /\ loops_apart (outer :: holes)).
Proof.
  intros outer holes H. unfold is_polygon_with_holes_simple. set (l := outer :: holes) in *. set (f := fun ps => option_map negb (is_polygon_simple cmp ps)).
  assert (FV : forall ps, In ps l -> exists b, f ps = Some b /\ (b = false -> far_sides_disjoint ps)).
  { intros ps I. destruct (simple_tol ps) as (b & E & IB); [specialize (H ps I); lia|]. exists (negb b). unfold f. rewrite E. split; [reflexivity|]. intro N. apply IB. destruct b; [reflexivity|discriminate]. }
  destruct (search_ok f l) as (r & ER & IR); [intros ps I; destruct (FV ps I) as (b & E & _); exists b; exact E|]. rewrite ER.
  destruct r; [exists false; split; [reflexivity|discriminate]|].
  assert (FAR : forall ps, In ps l -> far_sides_disjoint ps).
  { intros ps I. destruct (FV ps I) as (b & E & K). apply K. destruct b; [|reflexivity]. exfalso. assert (false = true); [|discriminate]. apply IR. exists ps. split; assumption. }
  destruct (to_polylines_ok l) as (cl & ECL & F2); [exact H|]. rewrite ECL.
  assert (G : exists b, disjoint_loop cmp cl = Some b /\ (b = true -> loops_apart l)); [|destruct G as (b & E & K); exists b; split; [exact E|]; intro B; split; [exact FAR|exact (K B)]].
  clear - F2 T. induction F2 as [|p cp l cl C F IH]; [exists true; split; [reflexivity|intros _; exact I]|]. cbn [disjoint_loop loops_apart].
  set (f := fun q => option_map fst (polyline_polyline_intersect cmp (fun _ => true) cp q)).
  assert (G2 : forall q, In q l -> exists cq, In cq cl /\ closes q cq).
  { clear -F. intros q I. induction F as [|a b l cl C F IH]; [destruct I|]. destruct I as [<-|I]; [exists b; split; [left; reflexivity|exact C]|].
    destruct (IH I) as (cq & Q1 & Q2). exists cq. split; [right; exact Q1|exact Q2]. }
  destruct (search_ok f cl) as (r & ER & IR); [intros cq _; unfold f; destruct (polyline_polyline_tol (fun _ => true) cp cq) as (b & h & E & _); rewrite E; exists b; reflexivity|].
  rewrite ER. destruct r; [exists false; split; [reflexivity|discriminate]|]. destruct IH as (b & E & K). exists b. split; [exact E|]. intro B. split; [|exact (K B)].
  intros q I X [ (i & P & Q & EA & X1) (j & R & S & EB & X2) ]. destruct (G2 q I) as (cq & IQ & CQ). assert (false = true); [|discriminate]. apply IR. exists cq. split; [exact IQ|]. unfold f.
  destruct (polyline_polyline_tol (fun _ => true) cp cq) as (b' & h & E' & K'). rewrite E'. cbn [option_map fst]. f_equal. apply (K' X); [exists i, P, Q; split; [apply C, EA|exact X1]|exists j, R, S; split; [apply CQ, EB|exact X2] ].
Qed.
End Tol.
