From Verif Require Import Base CmpModel DcelModel DcelSpec DcelProof.
From Coq Require Import Arith Permutation Lia.

(** ** Components *)
Definition lab (labels : list nat) (v : nat) : nat := nth v labels 0%nat.
Definition labelled (n : nat) (E : list (nat * nat)) (labels : list nat) : Prop :=
  length labels = n /\ (forall v, (v < n)%nat -> (lab labels v < n)%nat /\ lab labels (lab labels v) = lab labels v) /\
  (forall s t, In (s, t) E -> lab labels s = lab labels t) /\
  (forall P u v, closed_set E P -> (u < n)%nat -> (v < n)%nat -> lab labels u = lab labels v -> P u -> P v).

Lemma relabel_ok : forall n E labels e, labelled n E labels -> (fst e < n)%nat -> (snd e < n)%nat -> (forall s t, In (s, t) E -> (s < n)%nat /\ (t < n)%nat) -> labelled n (E ++ [e]) (relabel labels e).
Proof.
  intros n E labels [s t] (LN & ID & EQ & CN) LS LT BE. cbn [fst snd] in *. unfold relabel. cbn [fst snd]. fold (lab labels s). fold (lab labels t).
  set (a := lab labels s). set (b := lab labels t). set (f := fun l => if Nat.eqb l (max a b) then min a b else l).
  assert (LAB : forall v, (v < n)%nat -> lab (map f labels) v = f (lab labels v)). { intros v L. unfold lab. rewrite (nth_indep _ 0%nat (f 0%nat)); [apply map_nth|rewrite map_length; lia]. }
  assert (FM : f (min a b) = min a b). { unfold f. destruct (Nat.eqb_spec (min a b) (max a b)); reflexivity. }
  destruct (ID s LS) as [AS IA]. destruct (ID t LT) as [BT IB]. fold a in AS, IA. fold b in BT, IB.
  assert (IM : lab labels (min a b) = min a b). { destruct (Nat.min_spec a b) as [[_ ->]|[_ ->]]; assumption. }
  assert (FV : forall v, (v < n)%nat -> (f (lab labels v) < n)%nat /\ lab labels (f (lab labels v)) = f (lab labels v)). { intros v L. destruct (ID v L). unfold f. destruct (Nat.eqb_spec (lab labels v) (max a b)); split; try assumption. lia. }
  split; [rewrite map_length; exact LN|]. split; [|split].
  - intros v L. rewrite (LAB v L). destruct (FV v L) as [F1 F2]. split; [exact F1|]. rewrite (LAB _ F1), F2. unfold f at 2 3. destruct (Nat.eqb_spec (lab labels v) (max a b)) as [Q|Q]; [exact FM|]. unfold f. destruct (Nat.eqb_spec (lab labels v) (max a b)); [congruence|reflexivity].
  - intros x y I. apply in_app_or in I. destruct I as [I|[I|[]]].
    + destruct (BE x y I). rewrite !LAB by assumption. rewrite (EQ x y I). reflexivity.
    + injection I as <- <-. rewrite !LAB by assumption. fold a. fold b. unfold f. destruct (Nat.eqb_spec a (max a b)); destruct (Nat.eqb_spec b (max a b)); lia.
  - intros P u v CP LU LV Q PU. rewrite !LAB in Q by assumption.
    assert (CE : closed_set E P) by (intros x y I; apply CP; apply in_or_app; left; exact I). assert (ST : P s <-> P t) by (apply CP; apply in_or_app; right; left; reflexivity).
    destruct (Nat.eq_dec (lab labels u) (lab labels v)) as [K|K]; [exact (CN P u v CE LU LV K PU)|].
    assert (AB : (lab labels u = a /\ lab labels v = b) \/ (lab labels u = b /\ lab labels v = a)). { unfold f in Q. destruct (Nat.eqb_spec (lab labels u) (max a b)); destruct (Nat.eqb_spec (lab labels v) (max a b)); try lia. }
    destruct AB as [[KA KB]|[KA KB]].
    + apply (CN P t v CE LT LV); [symmetry; exact KB|]. apply ST. exact (CN P u s CE LU LS KA PU).
    + apply (CN P s v CE LS LV); [symmetry; exact KB|]. apply ST. exact (CN P u t CE LU LT KA PU).
Qed.
Lemma component_labels_ok : forall n E, (forall s t, In (s, t) E -> (s < n)%nat /\ (t < n)%nat) -> labelled n E (component_labels n E).
Proof.
  intros n E. unfold component_labels. induction E as [|e E IH] using rev_ind; intro B.
  - cbn. assert (LAB : forall v, (v < n)%nat -> lab (seq 0 n) v = v) by (intros v L; unfold lab; rewrite seq_nth; [reflexivity|exact L]). split; [apply seq_length|]. split; [intros v L; rewrite !LAB by assumption; auto|]. split; [intros ? ? []|]. intros P u v _ LU LV Q. rewrite !LAB in Q by assumption. subst. auto.
  - rewrite fold_left_app. cbn [fold_left]. apply relabel_ok.
    + apply IH. intros s t I. apply B. apply in_or_app. left. exact I.
    + destruct e as [s t]. apply (B s t). apply in_or_app. right. left. reflexivity.
    + destruct e as [s t]. apply (B s t). apply in_or_app. right. left. reflexivity.
    + intros s t I. apply B. apply in_or_app. left. exact I.
Qed.

Definition class (n : nat) (labels : list nat) (r0 r : nat) : list nat := filter (fun v => Nat.eqb (nth v labels r0) r) (seq 0 n).
Lemma class_in : forall n labels r0 r v, length labels = n -> (In v (class n labels r0 r) <-> (v < n)%nat /\ lab labels v = r).
Proof.
  intros n labels r0 r v LN. unfold class. rewrite filter_In, in_seq, Nat.eqb_eq. split; intros [A B].
  - split; [lia|]. unfold lab. rewrite <- B. apply nth_indep. lia.
  - split; [lia|]. rewrite <- B. unfold lab. apply nth_indep. lia.
Qed.

Lemma components_ok : forall d, let E := half_edges d in let n := length (positions d) in
  comp_vertices d = n -> comp_edges d = E -> (0 < n)%nat -> (forall s t, In (s, t) E -> (s < n)%nat /\ (t < n)%nat) ->
  exists comps, components d = Some comps /\ (forall C, In C comps -> is_component E C /\ (length C <= n)%nat) /\ NoDup (concat comps) /\ (forall v, (v < n)%nat -> In v (concat comps)).
Proof.
  intros d E n CV CE NP B. unfold components. rewrite CV, CE. fold n. fold E. pose proof (component_labels_ok n E B) as (LN & ID & EQ & CN). set (labels := component_labels n E) in *.
  assert (RIN : forall r, In r (component_roots n E) <-> (r < n)%nat /\ lab labels r = r). { intro r. unfold component_roots. rewrite filter_In, in_seq, Nat.eqb_eq. fold labels. unfold lab. intuition lia. }
  assert (RN : NoDup (component_roots n E)) by (unfold component_roots; apply NoDup_filter; apply seq_NoDup).
  destruct (component_roots n E) as [|r0 roots] eqn:R.
  - exfalso. destruct (ID 0%nat NP) as [I1 I2]. destruct (proj2 (RIN (lab labels 0%nat)) (conj I1 I2)).
  - rewrite Nat.ltb_irrefl. eexists. split; [reflexivity|]. change (map _ (r0 :: roots)) with (map (class n labels r0) (r0 :: roots)). clear R.
    set (rs := r0 :: roots) in *. split; [|split].
    + intros C I. apply in_map_iff in I. destruct I as (r & <- & I). apply RIN in I. destruct I as [RL RR]. split; [|unfold class; apply (Nat.le_trans _ (length (seq 0 n))); [|rewrite seq_length; lia]].
      * split; [unfold class; apply NoDup_filter; apply seq_NoDup|]. split; [|split].
        -- intro Z. assert (K : In r (class n labels r0 r)) by (apply class_in; auto). rewrite Z in K. destruct K.
        -- intros s t I. destruct (B s t I) as [BS BT]. rewrite !class_in by exact LN. rewrite (EQ s t I). intuition.
        -- intros P u v CP IU PU IV. rewrite class_in in IU by exact LN. rewrite class_in in IV by exact LN. destruct IU as [LU QU]. destruct IV as [LV QV]. apply (CN P u v CP LU LV); [congruence|exact PU].
      * clear. induction (seq 0 n) as [|x l IH]; [cbn; lia|]. cbn. destruct (Nat.eqb _ _); cbn; lia.
    + assert (D : forall l, NoDup l -> NoDup (concat (map (class n labels r0) l))).
      { induction l as [|r l IHl]; intro NL; [constructor|]. inversion NL as [|? ? N1 N2]; subst. cbn.
        assert (G : forall (a b : list nat), NoDup a -> NoDup b -> (forall x, In x a -> In x b -> False) -> NoDup (a ++ b)). { induction a as [|x a IHa]; intros b NA NB DI; [exact NB|]. inversion NA as [|? ? M1 M2]; subst. cbn. constructor; [intro I; apply in_app_or in I; destruct I as [I|I]; [exact (M1 I)|exact (DI x (or_introl eq_refl) I)]|]. apply IHa; [exact M2|exact NB|]. intros y I J. exact (DI y (or_intror I) J). }
        apply G; [unfold class; apply NoDup_filter; apply seq_NoDup|exact (IHl N2)|]. intros x I J. rewrite class_in in I by exact LN. destruct I as [_ Q]. apply in_concat in J. destruct J as (C & IC & IX). apply in_map_iff in IC. destruct IC as (r' & <- & IR). rewrite class_in in IX by exact LN. destruct IX as [_ Q']. subst. exact (N1 IR). }
      exact (D rs RN).
    + intros v L. apply in_concat. destruct (ID v L) as [I1 I2]. exists (class n labels r0 (lab labels v)). split; [apply in_map; apply RIN; auto|]. apply class_in; auto.
Qed.

(** ** Vertices *)
Lemma same_key : forall p q, negb (point_less q p) && negb (point_less p q) = true <-> p =p= q.
Proof.
  intros p q. unfold point_less. cbn. unfold pteq. rewrite andb_true_iff, !negb_true_iff. split.
  - intros [A B]. revert A B. repeat qcase; intros A B; try discriminate; try (split; lra); lra.
  - intros [A B]. repeat qcase; try lra; split; reflexivity.
Qed.
Lemma find_vertex_some : forall p l k v, find_vertex p l k = Some v -> (k <= v < k + length l)%nat /\ p =p= nth (v - k) l (mkpt 0 0).
Proof.
  intros p l. induction l as [|q l IH]; intros k v H; [discriminate|]. cbn [find_vertex] in H. destruct (negb (point_less q p) && negb (point_less p q)) eqn:K.
  - injection H as <-. split; [cbn; lia|]. rewrite Nat.sub_diag. cbn. apply same_key. exact K.
  - apply IH in H. destruct H as [L Q]. split; [cbn [length]; lia|]. replace (v - k)%nat with (S (v - S k)) by lia. exact Q.
Qed.
Lemma find_vertex_none : forall p l k, find_vertex p l k = None -> forall q, In q l -> ~ p =p= q.
Proof.
  intros p l. induction l as [|q l IH]; intros k H x I; [destruct I|]. cbn [find_vertex] in H. destruct (negb (point_less q p) && negb (point_less p q)) eqn:K; [discriminate|]. destruct I as [<- |I]; [|exact (IH (S k) H x I)]. intro Q. apply same_key in Q. congruence.
Qed.

(** The state after the segments [segs] have been added. *)
Definition seg_at (d : dcel) (e : nat * nat) : pt * pt := (position d (fst e), position d (snd e)).
Definition holds (segs : list (pt * pt)) (d : dcel) : Prop :=
  distinct_points (positions d) /\ comp_vertices d = length (positions d) /\ comp_edges d = half_edges d /\
  (forall s t, In (s, t) (half_edges d) -> (s < length (positions d))%nat /\ (t < length (positions d))%nat) /\
  (forall v, (v < length (positions d))%nat -> exists w, In (v, w) (half_edges d) \/ In (w, v) (half_edges d)) /\
  Forall2 same_seg segs (map (seg_at d) (half_edges d)).

Lemma add_vertex_ok : forall d p v d', distinct_points (positions d) -> comp_vertices d = length (positions d) -> add_vertex d p = (v, d') ->
  (exists more, positions d' = positions d ++ more /\ (length (positions d') <= S (length (positions d)))%nat /\ forall w, (length (positions d) <= w < length (positions d'))%nat -> w = v) /\
  half_edges d' = half_edges d /\ comp_edges d' = comp_edges d /\ comp_vertices d' = length (positions d') /\ distinct_points (positions d') /\
  (v < length (positions d'))%nat /\ p =p= position d' v.
Proof.
  intros d p v d' DP CV H. unfold add_vertex in H. destruct (find_vertex p (positions d) 0) as [w|] eqn:F.
  - injection H as <- <-. apply find_vertex_some in F. destruct F as [L Q]. rewrite Nat.sub_0_r in Q. split; [exists []; rewrite app_nil_r; split; [reflexivity|]; split; [lia|intros; lia]|]. repeat (split; [first [reflexivity|assumption]|]). split; [lia|exact Q].
  - injection H as <- <-. cbn [positions half_edges comp_edges comp_vertices]. pose proof (find_vertex_none _ _ _ F) as NI. rewrite app_length. cbn [length]. split; [exists [p]; split; [reflexivity|]; split; [lia|intros; lia]|]. split; [reflexivity|]. split; [reflexivity|]. split; [rewrite CV; lia|]. split.
    + intros i j a b A B Q. assert (G : forall i j a b, (i < length (positions d))%nat -> nth_error (positions d ++ [p]) i = Some a -> nth_error (positions d ++ [p]) j = Some b -> a =p= b -> i = j).
      { clear i j a b A B Q. intros i j a b LI A B Q. rewrite nth_error_app1 in A by exact LI. destruct (Nat.lt_ge_cases j (length (positions d))) as [LJ|LJ]; [rewrite nth_error_app1 in B by exact LJ; exact (DP i j a b A B Q)|]. exfalso. rewrite nth_error_app2 in B by exact LJ. destruct (j - length (positions d))%nat as [|k]; [|destruct k; discriminate]. injection B as <-. apply (NI a (nth_error_In _ _ A)). apply pteq_sym. exact Q. }
      destruct (Nat.lt_ge_cases i (length (positions d))) as [LI|LI]; [exact (G i j a b LI A B Q)|]. destruct (Nat.lt_ge_cases j (length (positions d))) as [LJ|LJ]; [symmetry; exact (G j i b a LJ B A (pteq_sym _ _ Q))|].
      assert (LA : (i < length (positions d ++ [p]))%nat) by (apply nth_error_Some; congruence). assert (LB : (j < length (positions d ++ [p]))%nat) by (apply nth_error_Some; congruence). rewrite app_length in LA, LB. cbn in LA, LB. lia.
    + split; [lia|]. unfold position. cbn [positions]. rewrite app_nth2 by lia. rewrite Nat.sub_diag. apply pteq_refl.
Qed.
Lemma position_more : forall d d' more v, positions d' = positions d ++ more -> (v < length (positions d))%nat -> position d' v = position d v.
Proof. intros d d' more v Q L. unfold position. rewrite Q. apply app_nth1. exact L. Qed.

Lemma add_edge_ok : forall segs d e, holds segs d -> holds (segs ++ [e]) (add_edge d e).
Proof.
  intros segs d [p q] (DP & CV & CE & B & U & F). unfold add_edge. cbn [fst snd].
  destruct (add_vertex d p) as [s d1] eqn:A1. destruct (add_vertex d1 q) as [t d2] eqn:A2.
  destruct (add_vertex_ok _ _ _ _ DP CV A1) as ((m1 & P1 & L1 & W1) & H1 & C1 & V1 & D1 & S1 & Q1).
  destruct (add_vertex_ok _ _ _ _ D1 V1 A2) as ((m2 & P2 & L2 & W2) & H2 & C2 & V2 & D2 & S2 & Q2).
  assert (LE1 : (length (positions d) <= length (positions d1))%nat) by (rewrite P1, app_length; lia). assert (LE2 : (length (positions d1) <= length (positions d2))%nat) by (rewrite P2, app_length; lia).
  unfold holds. cbn [positions half_edges comp_vertices comp_edges]. split; [exact D2|]. split; [rewrite V2; lia|]. split; [rewrite C2, C1, H2, H1, CE; reflexivity|]. split; [|split].
  - intros x y I. rewrite H2, H1 in I. apply in_app_or in I. destruct I as [I|[I|[]]]; [destruct (B x y I); lia|]. injection I as <- <-. lia.
  - intros v L. rewrite H2, H1. destruct (Nat.lt_ge_cases v (length (positions d))) as [LV|LV]; [destruct (U v LV) as (w & [I|I]); exists w; [left|right]; apply in_or_app; left; exact I|].
    destruct (Nat.lt_ge_cases v (length (positions d1))) as [LV1|LV1]; [rewrite (W1 v (conj LV LV1)); exists t; left; apply in_or_app; right; left; reflexivity|]. rewrite (W2 v (conj LV1 L)). exists s. right. apply in_or_app. right. left. reflexivity.
  - rewrite H2, H1, map_app. apply Forall2_app.
    + assert (G : map (seg_at (mkdcel (positions d2) (half_edges d ++ [(s, t)]) (Nat.max (comp_vertices d2) (S (Nat.max s t))) (comp_edges d2 ++ [(s, t)]) (polygons d2) (polylines d2))) (half_edges d) = map (seg_at d) (half_edges d)).
      { apply map_ext_in. intros [x y] I. destruct (B x y I). unfold seg_at. cbn [fst snd]. unfold position. cbn [positions]. rewrite P2, P1, <- app_assoc, !app_nth1 by lia. reflexivity. }
      rewrite G. exact F.
    + constructor; [|constructor]. split; cbn [fst snd].
      * change (p =p= position d2 s). rewrite (position_more d1 d2 m2 s P2) by lia. exact Q1.
      * exact Q2.
Qed.
Lemma empty_holds : holds [] empty_dcel.
Proof. unfold holds, empty_dcel. cbn. split; [intros [|i] j p q A; discriminate|]. split; [reflexivity|]. split; [reflexivity|]. split; [intros ? ? []|]. split; [intros; lia|constructor]. Qed.
Lemma adds_hold : forall segs before d, holds before d -> holds (before ++ segs) (fold_left add_edge segs d).
Proof. induction segs as [|e segs IH]; intros before d H; [rewrite app_nil_r; exact H|]. cbn [fold_left]. replace (before ++ e :: segs) with ((before ++ [e]) ++ segs) by (rewrite <- app_assoc; reflexivity). apply IH. apply add_edge_ok. exact H. Qed.
Lemma length_add : forall d e, holds [] empty_dcel -> (length (positions (add_edge d e)) <= length (positions d) + 2)%nat.
Proof.
  intros d [p q] _. unfold add_edge, add_vertex. cbn [fst snd]. destruct (find_vertex p (positions d) 0) as [v|].
  - destruct (find_vertex q (positions d) 0); cbn [positions]; rewrite ?app_length; cbn; lia.
  - cbn [positions]. destruct (find_vertex q _ 0); cbn [positions]; rewrite ?app_length; cbn; rewrite ?app_length; cbn; lia.
Qed.
Lemma length_adds : forall segs d, (length (positions (fold_left add_edge segs d)) <= length (positions d) + 2 * length segs)%nat.
Proof. induction segs as [|e segs IH]; intro d; [cbn; lia|]. cbn [fold_left length]. pose proof (IH (add_edge d e)). pose proof (length_add d e empty_holds). lia. Qed.

(** ** The chains *)
Lemma nodup_fst_edges : forall segs d, holds segs d ->
  (forall i j a b, nth_error segs i = Some a -> nth_error segs j = Some b -> fst a =p= fst b -> i = j) -> NoDup (map fst (half_edges d)).
Proof.
  intros segs d (_ & _ & _ & B & _ & F) ST. apply NoDup_nth_error. intros i j L Q. rewrite map_length in L.
  assert (G : forall i e, nth_error (half_edges d) i = Some e -> exists a, nth_error segs i = Some a /\ same_seg a (seg_at d e)).
  { clear - F. revert segs F. induction (half_edges d) as [|x l IH]; intros segs F [|i] e H; try discriminate; inversion F; subst; cbn in H; [injection H as <-; eexists; split; [reflexivity|assumption]|]. destruct (IH _ H4 i e H) as (a & A1 & A2). exists a. auto. }
  destruct (nth_error (half_edges d) i) as [e|] eqn:EI; [|apply nth_error_Some in L; congruence]. rewrite (map_nth_error fst _ _ EI) in Q.
  destruct (nth_error (half_edges d) j) as [e'|] eqn:EJ; [|exfalso; assert (N : nth_error (map fst (half_edges d)) j = None) by (apply nth_error_None; rewrite map_length; apply nth_error_None; exact EJ); congruence]. rewrite (map_nth_error fst _ _ EJ) in Q. injection Q as Q.
  destruct (G i e EI) as (a & A1 & A2 & _). destruct (G j e' EJ) as (b & B1 & B2 & _). apply (ST i j a b A1 B1). apply (pteq_trans _ _ _ A2). apply pteq_sym. unfold seg_at in *. cbn [fst] in *. rewrite Q. exact B2.
Qed.
Lemma nodup_snd_edges : forall segs d, holds segs d ->
  (forall i j a b, nth_error segs i = Some a -> nth_error segs j = Some b -> snd a =p= snd b -> i = j) -> NoDup (map snd (half_edges d)).
Proof.
  intros segs d (_ & _ & _ & B & _ & F) ST. apply NoDup_nth_error. intros i j L Q. rewrite map_length in L.
  assert (G : forall i e, nth_error (half_edges d) i = Some e -> exists a, nth_error segs i = Some a /\ same_seg a (seg_at d e)).
  { clear - F. revert segs F. induction (half_edges d) as [|x l IH]; intros segs F [|i] e H; try discriminate; inversion F; subst; cbn in H; [injection H as <-; eexists; split; [reflexivity|assumption]|]. destruct (IH _ H4 i e H) as (a & A1 & A2). exists a. auto. }
  destruct (nth_error (half_edges d) i) as [e|] eqn:EI; [|apply nth_error_Some in L; congruence]. rewrite (map_nth_error snd _ _ EI) in Q.
  destruct (nth_error (half_edges d) j) as [e'|] eqn:EJ; [|exfalso; assert (N : nth_error (map snd (half_edges d)) j = None) by (apply nth_error_None; rewrite map_length; apply nth_error_None; exact EJ); congruence]. rewrite (map_nth_error snd _ _ EJ) in Q. injection Q as Q.
  destruct (G i e EI) as (a & A1 & _ & A2). destruct (G j e' EJ) as (b & B1 & _ & B2). apply (ST i j a b A1 B1). apply (pteq_trans _ _ _ A2). apply pteq_sym. unfold seg_at in *. cbn [snd] in *. rewrite Q. exact B2.
Qed.
Lemma combine_map : forall (A B : Type) (f : A -> B) (l m : list A), combine (map f l) (map f m) = map (fun e => (f (fst e), f (snd e))) (combine l m).
Proof. intros A B f l. induction l as [|x l IH]; intros [|y m]; try reflexivity. cbn. f_equal. apply IH. Qed.
Lemma open_map : forall d l, open_sides (map (position d) l) = map (seg_at d) (open_sides l).
Proof. intros d l. unfold open_sides. replace (tl (map (position d) l)) with (map (position d) (tl l)) by (destruct l; reflexivity). apply combine_map. Qed.
Lemma closed_map : forall d l, closed_sides (map (position d) l) = map (seg_at d) (closed_sides l).
Proof. intros d [|a l]; [reflexivity|]. unfold closed_sides. cbn [map]. change [position d a] with (map (position d) [a]). rewrite <- map_app. change (position d a :: map (position d) l) with (map (position d) (a :: l)). apply combine_map. Qed.
Lemma distinct_map : forall d l, distinct_points (positions d) -> NoDup l -> (forall v, In v l -> (v < length (positions d))%nat) -> distinct_points (map (position d) l).
Proof.
  intros d l DP N B i j p q HI HJ Q.
  assert (G : forall i p, nth_error (map (position d) l) i = Some p -> exists v, nth_error l i = Some v /\ nth_error (positions d) v = Some p).
  { clear i j p q HI HJ Q. intros i p H. destruct (nth_error l i) as [v|] eqn:E.
    - exists v. split; [reflexivity|]. rewrite (map_nth_error _ _ _ E) in H. injection H as <-. unfold position. apply nth_error_nth'. apply B. exact (nth_error_In _ _ E).
    - exfalso. assert (K : nth_error (map (position d) l) i = None) by (apply nth_error_None; rewrite map_length; apply nth_error_None; exact E). congruence. }
  destruct (G i p HI) as (v & V1 & V2). destruct (G j q HJ) as (w & W1 & W2). pose proof (DP v w p q V2 W2 Q) as EQ. subst w. apply (proj1 (NoDup_nth_error l) N); [apply nth_error_Some; congruence|congruence].
Qed.

Lemma calculate_ok : forall segs d fuel, holds segs d -> (length (positions d) <= fuel)%nat ->
  (forall i j a b, nth_error segs i = Some a -> nth_error segs j = Some b -> fst a =p= fst b -> i = j) ->
  (forall i j a b, nth_error segs i = Some a -> nth_error segs j = Some b -> snd a =p= snd b -> i = j) ->
  exists d', calculate_point_sequences fuel d = Done d' /\ holds segs d' /\ positions d' = positions d /\ joined segs (polylines d') (polygons d').
Proof.
  intros segs d fuel HO LF SF SS. pose proof (nodup_fst_edges _ _ HO SF) as NF. pose proof (nodup_snd_edges _ _ HO SS) as NS. pose proof HO as (DP & CV & CE & B & U & F). unfold calculate_point_sequences.
  destruct (positions d) as [|p0 ps] eqn:PD.
  - eexists. split; [reflexivity|]. cbn [polylines polygons positions]. assert (HE : half_edges d = []). { destruct (half_edges d) as [|[s t] l]; [reflexivity|]. destruct (B s t (or_introl eq_refl)). cbn in *. lia. } rewrite HE in F. cbn in F. inversion F; subst. split; [|split; [reflexivity|]].
    + unfold holds. cbn [positions comp_vertices comp_edges half_edges]. rewrite HE in *. split; [exact DP|]. split; [exact CV|]. split; [exact CE|]. split; [intros ? ? []|]. split; [cbn; intros; lia|constructor].
    + split; [exists []; split; constructor|]. split; [intros [|i] j p q A; discriminate|]. split; intros ? [].
  - assert (NP : (0 < length (positions d))%nat) by (rewrite PD; cbn; lia). rewrite <- PD in *. clear p0 ps PD.
    destruct (components_ok d CV CE) as (comps & CO & CC & CN & CA); [exact NP|exact B|].
    rewrite CO. destruct (sequences_ok (half_edges d) NF NS fuel comps) as (lines & gons & S & P & (S1 & S2 & S3 & S4) & LO & GO); [intros C I; destruct (CC C I); split; [assumption|lia]|exact CN|]. rewrite S.
    eexists. split; [reflexivity|]. cbn [polylines polygons positions]. split; [exact HO|]. split; [reflexivity|].
    assert (PE : Permutation (half_edges d) (flat_map open_sides lines ++ flat_map closed_sides gons)). { apply NoDup_Permutation; [exact (nodup_fst _ NF)|exact S1|]. intros [s t]. split; [intro I; apply (S4 _ I); apply CA; exact (proj1 (B s t I))|apply S2]. }
    assert (LT : forall v, In v (concat lines ++ concat gons) -> (v < length (positions d))%nat). { intros v I. apply (Permutation_in _ P) in I. apply in_concat in I. destruct I as (C & IC & IV). destruct (CC C IC) as [(_ & _ & CL & _) _].
      clear - CO IC IV. unfold components in CO. destruct (component_roots _ _) as [|r0 roots]; [discriminate|]. destruct (Nat.ltb _ _); [discriminate|]. injection CO as <-. destruct IC as [<- |IC]; [|apply in_map_iff in IC; destruct IC as (r & <- & _)]; apply filter_In in IV; destruct IV as [IV _]; apply in_seq in IV; lia. }
    split; [|split; [|split]].
    + exists (map (seg_at d) (half_edges d)). split; [exact F|]. rewrite (Permutation_map (seg_at d) PE). rewrite map_app. apply Permutation_app.
      * clear. induction lines as [|l lines IH]; [constructor|]. cbn [flat_map map]. rewrite map_app, open_map. apply Permutation_app_head. exact IH.
      * clear. induction gons as [|l gons IH]; [constructor|]. cbn [flat_map map]. rewrite map_app, closed_map. apply Permutation_app_head. exact IH.
    + rewrite <- !concat_map, <- map_app. apply distinct_map; [exact DP| |exact LT]. exact (Permutation_NoDup (Permutation_sym P) CN).
    + intros l I. apply in_map_iff in I. destruct I as (k & <- & I). rewrite map_length. destruct (LO k I) as (C & v & IC & PK & IV & NV & (_ & _ & _ & SO)).
      assert (VL : (v < length (positions d))%nat). { apply LT. apply in_or_app. left. apply in_concat. exists k. split; [exact I|]. apply (Permutation_in _ (Permutation_sym PK)). exact IV. }
      destruct (U v VL) as (w & [E|E]); [|destruct (NV w E)]. specialize (SO (v, w) E IV). destruct k as [|a [|b k]]; [destruct SO|destruct SO|cbn; lia].
    + intros l I. apply in_map_iff in I. destruct I as (k & <- & I). rewrite map_length. pose proof (GO k I). destruct k; [congruence|cbn; lia].
Qed.
