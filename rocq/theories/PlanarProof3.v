(** The memoized test of simplicity, and polygons with holes. *)
From Verif Require Import Base CmpModel OrientModel OrientSpec OrientProof DistModel DistSpec LinIntModel LinIntSpec LinIntProof PolygonModel PolygonSpec PolygonProof PlanarModel PlanarSpec PlanarProof PlanarProof2.
From Coq Require Import Lia Sorting.Sorted.

Section Memo.
Variable ps : list pt.
Let n := length ps.
Hypothesis L : (3 <= n)%nat.
Hypothesis P : proper_polygon ps.
Definition sides_touch (i k : nat) : Prop := meet (pnth ps i) (pnth ps (S i mod n)) (pnth ps k) (pnth ps (S k mod n)).
Definition cache_ok (c : answers) : Prop := forall i j k l v, In (((i, j), (k, l)), v) c ->
  (i < n)%nat /\ (k < n)%nat /\ (v = true <-> sides_touch i k).

Lemma touch_sym : forall i k, sides_touch i k <-> sides_touch k i.
Proof. intros. apply meet_sym. Qed.
Lemma key_eqb_eq : forall x y, key_eqb x y = true -> x = y.
Proof. intros [[a b] [c d]] [[e f] [g h]] H. unfold key_eqb in H. cbn [fst snd] in H. rewrite !andb_true_iff, !Nat.eqb_eq in H. destruct H as [[[-> ->] ->] ->]. reflexivity. Qed.
Lemma memo_step : forall c i k, cache_ok c -> (i < n)%nat -> (k < n)%nat -> exists b c',
  memo_intersecting direct ps c i (next n i) k (next n k) = Some (b, c') /\ cache_ok c' /\ (b = true <-> sides_touch i k).
Proof.
  intros c i k OK Hi Hk. unfold memo_intersecting. cbv zeta.
  assert (KEY : exists a b c0 d, intersection_key i (next n i) k (next n k) = ((a, b), (c0, d)) /\ (a < n)%nat /\ (c0 < n)%nat /\ (sides_touch a c0 <-> sides_touch i k)).
  { unfold intersection_key. destruct (key_lt _ _); do 4 eexists; (split; [reflexivity|]); (split; [assumption|]); (split; [assumption|]); [apply touch_sym|tauto]. }
  destruct KEY as (a & b & c0 & d & KEY & Ha & Hc & T). rewrite KEY. unfold find_answer.
  destruct (find (fun e => key_eqb (fst e) ((a, b), (c0, d))) c) as [[key v]|] eqn:F.
  - apply find_some in F as [I E]. apply key_eqb_eq in E. cbn [fst] in E. subst key. cbn [snd]. exists v, c. split; [reflexivity|]. split; [exact OK|].
    destruct (OK _ _ _ _ _ I) as (_ & _ & V). rewrite V. exact T.
  - pose proof (edge_at ps i Hi) as E1. pose proof (edge_at ps k Hk) as E2.
    destruct (intersecting_ok ps i (S i mod n) k (S k mod n) _ _ _ _ (proj1 E1) (proj2 E1) (proj1 E2) (proj2 E2) (P _ _ _ E1) (P _ _ _ E2)) as (v & EB & IB).
    unfold next. rewrite EB. exists v, ((((a, b), (c0, d)), v) :: c). split; [reflexivity|]. split; [|exact IB].
    intros i' j' k' l' v' [I|I]; [|exact (OK _ _ _ _ _ I)]. injection I as <- <- <- <- <-. split; [exact Ha|]. split; [exact Hc|]. rewrite T. exact IB.
Qed.
Lemma mod_back : forall i q, (i < n)%nat -> (0 < q <= n)%nat -> ((i + q) mod n = i <-> q = n)%nat.
Proof.
  intros i q Hi Hq. destruct (Nat.lt_ge_cases (i + q) n) as [S|S].
  - rewrite Nat.mod_small by exact S. lia.
  - replace (i + q)%nat with ((i + q - n) + 1 * n)%nat by lia. rewrite Nat.mod_add by lia. rewrite Nat.mod_small by lia. lia.
Qed.
Lemma succ_mod_succ : forall a, (S (a mod n) mod n = S a mod n)%nat.
Proof. intro a. change (S (a mod n)) with (1 + a mod n)%nat. rewrite Nat.add_mod_idemp_r by lia. reflexivity. Qed.
Lemma memo_inner_ok : forall fuel i p c, (i < n)%nat -> (2 <= p)%nat -> (p < n)%nat -> (n <= p + 1 + fuel)%nat -> cache_ok c -> exists b c',
  memo_inner fuel direct ps i (next n i) ((i + p) mod n) ((i + S p) mod n) c = Some (b, c') /\ cache_ok c' /\
  (b = true <-> exists q, (p <= q)%nat /\ (q < n - 1)%nat /\ sides_touch i ((i + q) mod n)).
Proof.
  induction fuel as [|fuel IH]; intros i p c Hi P2 Pn F OK; cbn [memo_inner].
  - assert (p = n - 1)%nat by lia. destruct (Nat.eqb_spec ((i + S p) mod n) i) as [E|E].
    + exists false, c. split; [reflexivity|]. split; [exact OK|]. split; [discriminate|]. intros (q & Q1 & Q2 & _). lia.
    + exfalso. apply E. apply mod_back; lia.
  - destruct (Nat.eqb_spec ((i + S p) mod n) i) as [E|E].
    + apply mod_back in E; [|exact Hi|lia]. exists false, c. split; [reflexivity|]. split; [exact OK|]. split; [discriminate|]. intros (q & Q1 & Q2 & _). lia.
    + assert (PL : (S p < n)%nat) by (destruct (Nat.eq_dec (S p) n) as [W|]; [exfalso; apply E; apply mod_back; lia|lia]).
      assert (NK : next n ((i + p) mod n) = ((i + S p) mod n)%nat) by (unfold next; rewrite succ_mod_succ; f_equal; lia).
      destruct (memo_step c i ((i + p) mod n) OK Hi) as (b & c' & EM & OK' & IB); [apply Nat.mod_upper_bound; lia|]. rewrite NK in EM. rewrite EM.
      destruct b.
      * exists true, c'. split; [reflexivity|]. split; [exact OK'|]. split; [|reflexivity]. intros _. exists p. split; [lia|]. split; [lia|]. apply IB. reflexivity.
      * assert (NL : next n ((i + S p) mod n) = ((i + S (S p)) mod n)%nat) by (unfold next; rewrite succ_mod_succ; f_equal; lia).
        change (length ps) with n. rewrite NL. destruct (IH i (S p) c' Hi) as (b & c'' & EI & OK'' & IB'); [lia|lia|lia|exact OK'|].
        exists b, c''. split; [exact EI|]. split; [exact OK''|]. rewrite IB'. split.
        -- intros (q & Q1 & Q2 & Q3). exists q. split; [lia|]. split; assumption.
        -- intros (q & Q1 & Q2 & Q3). exists q. split; [|split; assumption]. destruct (Nat.eq_dec q p) as [EQ|]; [|lia]. subst q. apply IB in Q3. discriminate.
Qed.
Lemma far_offsets : forall i k, (i < n)%nat -> ((exists q, (2 <= q)%nat /\ (q < n - 1)%nat /\ k = (i + q) mod n)%nat <-> (k < n)%nat /\ k <> i /\ ~ neighbours n i k).
Proof.
  intros i k Hi. unfold neighbours. split.
  - intros (q & Q1 & Q2 & ->). split; [apply Nat.mod_upper_bound; lia|]. split; [intro E; apply mod_back in E; lia|]. intros [E|E].
    + replace (S i) with (i + 1)%nat in E by lia. destruct (Nat.lt_ge_cases (i + q) n) as [S|S].
      * rewrite (Nat.mod_small (i + q)) in E by exact S. rewrite Nat.mod_small in E; lia.
      * replace (i + q)%nat with ((i + q - n) + 1 * n)%nat in E by lia. rewrite Nat.mod_add, (Nat.mod_small (i + q - n)) in E by lia.
        destruct (Nat.eq_dec (i + 1) n) as [W|W]; [rewrite W, Nat.mod_same in E; lia|rewrite Nat.mod_small in E; lia].
    + rewrite succ_mod_succ in E. replace (S (i + q)) with (i + S q)%nat in E by lia. apply mod_back in E; lia.
  - intros (Hk & NE & NN). destruct (Nat.lt_total i k) as [LT|[EQ|LT]]; [|congruence|].
    + exists (k - i)%nat. replace (i + (k - i))%nat with k by lia. split; [|split; [|symmetry; apply Nat.mod_small, Hk]].
      * destruct (Nat.eq_dec (S i) k) as [W|]; [|lia]. exfalso. apply NN. left. rewrite W. apply Nat.mod_small, Hk.
      * destruct (Nat.eq_dec (k - i) (n - 1)) as [W|]; [|lia]. exfalso. apply NN. right. replace (S k) with n by lia. rewrite Nat.mod_same by lia. lia.
    + exists (k + n - i)%nat. replace (i + (k + n - i))%nat with (k + 1 * n)%nat by lia. split; [|split; [|rewrite Nat.mod_add, Nat.mod_small; lia]].
      * destruct (Nat.eq_dec (k + n - i) 1) as [W|]; [|lia]. exfalso. apply NN. left. replace (S i) with n by lia. rewrite Nat.mod_same by lia. lia.
      * destruct (Nat.eq_dec (k + n - i) (n - 1)) as [W|]; [|lia]. exfalso. apply NN. right. rewrite Nat.mod_small; lia.
Qed.
Lemma memo_outer_ok : forall idx c, cache_ok c -> (forall i j, In (i, j) idx -> (i < n)%nat /\ j = next n i) -> exists b, memo_outer direct ps idx c = Some b /\
  (b = true <-> forall i j k, In (i, j) idx -> (k < n)%nat -> k <> i -> ~ neighbours n i k -> ~ sides_touch i k).
Proof.
  induction idx as [|[i j] idx IH]; intros c OK G.
  - exists true. split; [reflexivity|]. split; [|reflexivity]. intros _ ? ? ? [].
  - destruct (G i j (or_introl eq_refl)) as [Hi ->]. cbn [memo_outer]. cbv zeta. change (length ps) with n.
    assert (K1 : next n (next n i) = ((i + 2) mod n)%nat) by (unfold next; rewrite succ_mod_succ; f_equal; lia).
    assert (K2 : next n ((i + 2) mod n) = ((i + 3) mod n)%nat) by (unfold next; rewrite succ_mod_succ; f_equal; lia).
    rewrite K1, K2. destruct (memo_inner_ok n i 2 c Hi) as (b & c' & E & OK' & IB); [lia|lia|lia|exact OK|]. rewrite E.
    assert (IB2 : b = true <-> exists k, (k < n)%nat /\ k <> i /\ ~ neighbours n i k /\ sides_touch i k).
    { rewrite IB. split.
      - intros (q & Q1 & Q2 & Q3). assert (FO : exists q0, (2 <= q0)%nat /\ (q0 < n - 1)%nat /\ ((i + q) mod n = (i + q0) mod n)%nat) by (exists q; auto).
        apply (far_offsets i _ Hi) in FO as (F1 & F2 & F3). exists ((i + q) mod n)%nat. auto.
      - intros (k & F1 & F2 & F3 & F4). destruct (proj2 (far_offsets i k Hi)) as (q & Q1 & Q2 & ->); [auto|]. exists q. auto. }
    destruct b.
    + exists false. split; [reflexivity|]. split; [discriminate|]. intro H. destruct (proj1 IB2 eq_refl) as (k & F1 & F2 & F3 & F4). exfalso. exact (H i _ k (or_introl eq_refl) F1 F2 F3 F4).
    + destruct (IH c' OK') as (b & EB & IB'); [intros i' j' I; apply G; right; exact I|]. exists b. split; [exact EB|]. rewrite IB'. split.
      * intros H i' j' k [I|I] F1 F2 F3 F4; [|exact (H i' j' k I F1 F2 F3 F4)]. injection I as <- <-. assert (false = true) by (apply IB2; exists k; auto). discriminate.
      * intros H i' j' k I. apply (H i' j' k). right. exact I.
Qed.
End Memo.
Lemma memo_ok : forall ps, (3 <= length ps)%nat -> proper_polygon ps -> is_polygon_simple_memoized direct ps = is_polygon_simple direct ps.
Proof.
  intros ps L P. destruct (simple_ok ps L P) as (b & E & I). rewrite E. unfold is_polygon_simple_memoized.
  assert (IDX : forall i j, In (i, j) (memo_indices (length ps)) <-> (i < length ps)%nat /\ j = next (length ps) i).
  { intros i j. unfold memo_indices. rewrite in_map_iff. split.
    - intros (x & EX & IX). apply in_seq in IX. destruct x as [|x]; injection EX as <- <-; (split; [lia|]); unfold next.
      + replace (S (length ps - 1)) with (length ps) by lia. rewrite Nat.mod_same; lia.
      + rewrite Nat.mod_small; lia.
    - intros [Hi ->]. exists (next (length ps) i). split; [|apply in_seq; split; [lia|apply Nat.mod_upper_bound; lia]]. f_equal.
      unfold next. destruct (Nat.eq_dec (S i) (length ps)) as [W|W]; [rewrite W, Nat.mod_same; lia|rewrite Nat.mod_small by lia; reflexivity]. }
  destruct (memo_outer_ok ps L P (memo_indices (length ps)) []) as (b' & E' & I'); [intros ? ? ? ? ? []|intros i j; apply IDX|].
  rewrite E'. f_equal. apply bool_iff. rewrite I, I'. split.
  - intros H i j A B C D NE NN E1 E2 M. apply edge_pnth in E1 as (Hi & -> & ->). apply edge_pnth in E2 as (Hj & -> & ->).
    apply (H i (next (length ps) i) j); [apply IDX; auto|exact Hj|congruence|exact NN|exact M].
  - intros H i j k IN Hk NE NN M. apply IDX in IN as [Hi _]. refine (H i k _ _ _ _ _ NN (edge_at ps i Hi) (edge_at ps k Hk) M). congruence.
Qed.

(** ** Polygons with holes *)
Lemma closed_edge : forall ps a r i A B, ps = a :: r -> (polyline_edge (ps ++ [a]) i A B <-> polygon_edge ps i A B).
Proof.
  intros ps a r i A B E. assert (L : (1 <= length ps)%nat) by (rewrite E; cbn; lia). unfold polyline_edge, polygon_edge.
  assert (HD : nth_error ps 0 = Some a) by (rewrite E; reflexivity).
  destruct (Nat.lt_ge_cases (S i) (length ps)) as [S1|S1].
  - rewrite !nth_error_app1 by lia. rewrite Nat.mod_small by exact S1. tauto.
  - destruct (Nat.eq_dec (S i) (length ps)) as [W|W].
    + rewrite nth_error_app1 by lia. rewrite W, Nat.mod_same by lia. rewrite nth_error_app2 by lia. rewrite Nat.sub_diag, HD. cbn. tauto.
    + split; intros [H1 H2]; exfalso.
      * assert (S i < length (ps ++ [a]))%nat by (apply nth_error_Some; congruence). rewrite app_length in *. cbn in *. lia.
      * assert (i < length ps)%nat by (apply nth_error_Some; congruence). lia.
Qed.
(** Each loop, and the closed polyline made of it. *)
Definition closes (ps cl : list pt) : Prop := forall i A B, polyline_edge cl i A B <-> polygon_edge ps i A B.
Lemma to_polylines_ok : forall l, (forall ps, In ps l -> (3 <= length ps)%nat) -> exists cl, to_polylines l = Some cl /\ Forall2 closes l cl.
Proof.
  induction l as [|ps l IH]; intro H; [exists []; split; [reflexivity|constructor]|].
  destruct IH as (cl & E & F); [intros q Q0; apply H; right; exact Q0|]. pose proof (H ps (or_introl eq_refl)) as L.
  destruct ps as [|a r]; [cbn in L; lia|]. cbn [to_polylines to_polyline]. rewrite E. eexists. split; [reflexivity|]. constructor; [|exact F].
  intros i A B. apply (closed_edge (a :: r) a r). reflexivity.
Qed.
Lemma closes_proper : forall ps cl, closes ps cl -> proper_polygon ps -> proper_polyline cl.
Proof. intros ps cl C P i A B E. apply (P i). apply C, E. Qed.
Lemma closed_meet : forall p cp q cq, closes p cp -> closes q cq -> proper_polygon p -> proper_polygon q -> forall stop, exists b h,
  polyline_polyline_intersect direct stop cp cq = Some (b, h) /\ (b = true <-> exists X, on_polygon p X /\ on_polygon q X).
Proof.
  intros p cp q cq C1 C2 P1 P2 stop. destruct (polylines_ok cp cq stop (closes_proper _ _ C1 P1) (closes_proper _ _ C2 P2)) as [(i & A & B & all & k & E & V & NE & _ & _ & _ & _ & R)|[H R]]; rewrite R; do 2 eexists; (split; [reflexivity|]).
  - split; [|reflexivity]. intros _. destruct all as [|h all]; [congruence|]. destruct V as (V & _). destruct (V h (or_introl eq_refl)) as (_ & C & D & E2 & DS).
    destruct (describes_meet _ _ _ _ _ _ DS) as (X & X1 & X2). exists X. split; [exists i, A, B; split; [apply C1, E|exact X1]|exists (h_i h), C, D; split; [apply C2, E2|exact X2]].
  - split; [discriminate|]. intros (X & (i & A & B & E1 & X1) & (j & C & D & E2 & X2)). exfalso. apply (H i A B j C D); [apply C1, E1|apply C2, E2|]. exists X. split; assumption.
Qed.
Lemma disjoint_ok : forall l cl, Forall2 closes l cl -> (forall ps, In ps l -> proper_polygon ps) -> exists b, disjoint_loop direct cl = Some b /\ (b = true <-> loops_apart l).
Proof.
  intros l cl F. induction F as [|p cp l cl C F IH]; intro P.
  - exists true. split; [reflexivity|]. cbn. tauto.
  - cbn [disjoint_loop loops_apart].
    set (f := fun q => option_map fst (polyline_polyline_intersect direct (fun _ => true) cp q)).
    assert (G : forall cq, In cq cl -> exists q, In q l /\ closes q cq).
    { clear -F. intros cq I. apply In_nth_error in I as (m & I). revert m I. induction F as [|a b l cl C F IH]; intros m I; [destruct m; discriminate|].
      destruct m; cbn in I; [injection I as <-; exists a; split; [left; reflexivity|exact C]|]. destruct (IH m I) as (q & Q1 & Q2). exists q. split; [right; exact Q1|exact Q2]. }
    assert (G2 : forall q, In q l -> exists cq, In cq cl /\ closes q cq).
    { clear -F. intros q I. induction F as [|a b l cl C F IH]; [destruct I|]. destruct I as [<-|I]; [exists b; split; [left; reflexivity|exact C]|].
      destruct (IH I) as (cq & Q1 & Q2). exists cq. split; [right; exact Q1|exact Q2]. }
    assert (FV : forall q cq, In q l -> closes q cq -> exists b, f cq = Some b /\ (b = true <-> exists X, on_polygon p X /\ on_polygon q X)).
    { intros q cq I CQ. destruct (closed_meet p cp q cq C CQ (P p (or_introl eq_refl)) (P q (or_intror I)) (fun _ => true)) as (b & h & E & IB).
      exists b. unfold f. rewrite E. split; [reflexivity|exact IB]. }
    destruct (search_ok f cl) as (r & ER & IR).
    { intros cq I. destruct (G cq I) as (q & Q1 & Q2). destruct (FV q cq Q1 Q2) as (b & E & _). exists b. exact E. }
    rewrite ER. assert (NB : r = false <-> forall q, In q l -> forall X, ~ (on_polygon p X /\ on_polygon q X)).
    { split.
      - intros R q I X HX. destruct (G2 q I) as (cq & I2 & CQ). destruct (FV q cq I CQ) as (b & E & IB). assert (r = true); [|congruence].
        apply IR. exists cq. split; [exact I2|]. rewrite E. f_equal. apply IB. exists X. exact HX.
      - intro H. destruct r; [|reflexivity]. exfalso. destruct (proj1 IR eq_refl) as (cq & I & E). destruct (G cq I) as (q & Q1 & Q2). destruct (FV q cq Q1 Q2) as (b & E2 & IB).
        assert (b = true) by congruence. apply IB in H0 as (X & HX). exact (H q Q1 X HX). }
    destruct r.
    + exists false. split; [reflexivity|]. split; [discriminate|]. intros [H _]. apply NB in H. discriminate.
    + destruct IH as (b & E & IB); [intros q I; apply P; right; exact I|]. exists b. split; [exact E|]. rewrite IB. split; [intro A; split; [apply NB; reflexivity|exact A]|intros [_ A]; exact A].
Qed.
Lemma holes_ok : forall outer holes, (forall ps, In ps (outer :: holes) -> (3 <= length ps)%nat /\ proper_polygon ps) ->
  exists b, is_polygon_with_holes_simple direct outer holes = Some b /\
  (b = true <-> (forall ps, In ps (outer :: holes) -> far_sides_disjoint ps) /\ loops_apart (outer :: holes)).
Proof.
  intros outer holes H. unfold is_polygon_with_holes_simple. set (l := outer :: holes) in *.
  set (f := fun ps => option_map negb (is_polygon_simple direct ps)).
  assert (FV : forall ps, In ps l -> exists b, f ps = Some b /\ (b = true <-> ~ far_sides_disjoint ps)).
  { intros ps I. destruct (H ps I) as [L P]. destruct (simple_ok ps L P) as (b & E & IB). exists (negb b). unfold f. rewrite E. split; [reflexivity|].
    rewrite negb_true_iff. split; [intros -> X; apply IB in X; discriminate|]. intro N. destruct b; [|reflexivity]. exfalso. apply N, IB. reflexivity. }
  destruct (search_ok f l) as (r & ER & IR); [intros ps I; destruct (FV ps I) as (b & E & _); exists b; exact E|]. rewrite ER.
  destruct r.
  - exists false. split; [reflexivity|]. split; [discriminate|]. intros [A _]. exfalso. destruct (proj1 IR eq_refl) as (ps & I & E). destruct (FV ps I) as (b & E2 & IB).
    assert (b = true) by congruence. apply IB in H0. apply H0, A, I.
  - destruct (to_polylines_ok l) as (cl & ECL & F2); [intros ps I; apply H, I|]. rewrite ECL. destruct (disjoint_ok l cl F2) as (b & E & IB); [intros ps I; apply H, I|].
    exists b. split; [exact E|]. rewrite IB. split; [|intros [_ A]; exact A]. intro A. split; [|exact A]. intros ps I.
    destruct (H ps I) as [L P]. destruct (simple_ok ps L P) as (b2 & E2 & IB2). apply IB2. destruct b2; [reflexivity|]. exfalso. assert (false = true); [|discriminate].
    apply IR. exists ps. split; [exact I|]. unfold f. rewrite E2. reflexivity.
Qed.
