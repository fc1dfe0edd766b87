(** One event, and the whole sweep. *)
From Verif Require Import Base CmpModel CmpProof OrientModel OrientSpec OrientProof DistModel LinIntModel LinIntSpec LinIntProof SweepModel SweepSpec SweepProof1 SweepProof2 SweepProof3.
From Coq Require Import Arith Sorting.Sorted.

Lemma first_pair_in : forall uc line a b, first_pair uc line = Some (a, b) -> In a line /\ In b line.
Proof.
  intros uc line. induction line as [|x line IH]; intros a b H; [discriminate|]. destruct line as [|y line]; [discriminate|].
  cbn [first_pair] in H. destruct (ids_mem y uc); [injection H as <- <-; cbn; auto|]. destruct (IH a b H) as [H1 H2]. split; right; assumption.
Qed.
Lemma first_pair_at : forall uc pre a b suf, (forall x, In x pre -> ~ In x uc) -> ~ In a uc -> In b uc -> first_pair uc (pre ++ a :: b :: suf) = Some (a, b).
Proof.
  intros uc pre a b suf Hp Ha Hb. induction pre as [|x pre IH].
  - cbn. rewrite (proj2 (ids_mem_in b uc) Hb). reflexivity.
  - assert (IH' := IH (fun y Y => Hp y (or_intror Y))). destruct pre as [|y pre].
    + cbn [app first_pair] in *. destruct (ids_mem a uc) eqn:M; [apply ids_mem_in in M; contradiction|]. exact IH'.
    + cbn [app first_pair] in *. destruct (ids_mem y uc) eqn:M; [apply ids_mem_in in M; exfalso; apply (Hp y); [right; left; reflexivity|exact M]|]. exact IH'.
Qed.
Lemma firstn_skipn_place : forall {A} (lb m1 m2 la : list A), firstn (length lb + length m1) (lb ++ (m1 ++ m2) ++ la) = lb ++ m1 /\
  skipn (length lb + length m1) (lb ++ (m1 ++ m2) ++ la) = m2 ++ la.
Proof.
  intros A lb m1 m2 la. replace (lb ++ (m1 ++ m2) ++ la) with ((lb ++ m1) ++ m2 ++ la) by (rewrite <- !app_assoc; reflexivity).
  rewrite <- app_length. split; [rewrite firstn_app, Nat.sub_diag, firstn_all, app_nil_r; reflexivity|rewrite skipn_app, Nat.sub_diag, skipn_all; reflexivity].
Qed.
Lemma filter_ext_in' : forall {A} (f g : A -> bool) l, (forall a, In a l -> f a = g a) -> filter f l = filter g l.
Proof. intros A f g l H. apply filter_ext_in, H. Qed.

Section Sweep.
Variable segs : list seg.
Let n := length segs.
Let sg_ i := seg_at segs i.
Hypothesis HD : forall i, (i < n)%nat -> hpos (dir (sg_ i)).
Variable tree : place.
Hypothesis HT : search_tree tree.

Definition neighbours (p : pt) (q : queue) (i j : nat) : Prop := ord_after (sg_ i) (sg_ j) p /\ queued segs p q i j.

(** The sweep after the event [p]. *)
Record state_ok (p : pt) (q : queue) (line : list nat) : Prop := mkstate_ok {
  s_queue : queue_ok segs p q;
  s_line : forall i, In i line <-> (i < n)%nat /\ ~ lexlt p (fst (sg_ i)) /\ lexlt p (snd (sg_ i));
  s_nodup : NoDup line;
  s_chain : chain (neighbours p q) line }.

Lemma in_line_covers : forall p e u q line i, state_ok p ((e, u) :: q) line -> In i line -> (i < n)%nat /\ lexlt (fst (sg_ i)) e /\ ~ lexlt (snd (sg_ i)) e.
Proof.
  intros p e u q line i I' H. apply (s_line _ _ _ I') in H. destruct H as (H1 & H2 & H3). split; [exact H1|].
  assert (Q := s_queue _ _ _ I'). split.
  - apply lexlt_trans' with p; [exact H2|]. apply (q_after _ _ _ Q e u). left. reflexivity.
  - apply (sorted_min e u q); [apply (q_sorted _ _ _ Q)|]. apply (q_second _ _ _ Q); assumption.
Qed.
Lemma lexlt_asym : forall a b, lexlt a b -> ~ lexlt b a.
Proof. intros a b L1 L2. apply (lexlt_irrefl a). eapply lexlt_trans; eassumption. Qed.

(** Neighbours that still have to cross do so at the next event or later. *)
Lemma no_early_meeting : forall p e u q line i j, state_ok p ((e, u) :: q) line -> In i line -> In j line -> neighbours p ((e, u) :: q) i j ->
  cross (dir (sg_ i)) (dir (sg_ j)) < 0 -> ~ lexlt (meet (sg_ i) (sg_ j)) e.
Proof.
  intros p e u q line i j I' Hi Hj [O X] C L. destruct (in_line_covers _ _ _ _ _ _ I' Hi) as (Ni & Ai & Bi). destruct (in_line_covers _ _ _ _ _ _ I' Hj) as (Nj & Aj & Bj).
  assert (N : ~ cross (dir (sg_ i)) (dir (sg_ j)) == 0) by lra.
  assert (Lp : lexlt p (meet (sg_ i) (sg_ j))) by (destruct O as [[O1 O2]|[[O1 O2]|[O1 O2]]]; [lra|exact O2|lra]).
  assert (R : forall k, In k line -> height (sg_ k) (meet (sg_ i) (sg_ j)) == 0 -> on_segment (fst (sg_ k)) (snd (sg_ k)) (meet (sg_ i) (sg_ j))).
  { intros k Hk H. destruct (in_line_covers _ _ _ _ _ _ I' Hk) as (Nk & Ak & Bk). apply in_range_on; [apply HD, Nk|exact H| |].
    - apply (s_line _ _ _ I') in Hk. destruct Hk as (_ & Hk & _). apply lexlt_asym. apply lexlt_trans' with p; assumption.
    - intro G. apply Bk. eapply lexlt_trans; eassumption. }
  assert (G : inq (meet (sg_ i) (sg_ j)) ((e, u) :: q)).
  { apply X; [exact N| | |exact Lp]; apply R; try assumption; [apply meet_1, N|apply meet_2, N]. }
  exact (sorted_min _ _ _ _ (q_sorted _ _ _ (s_queue _ _ _ I')) G L).
Qed.
Lemma line_sides : forall p e u q line z, state_ok p ((e, u) :: q) line -> lexlt p z -> ~ lexlt e z ->
  chain (fun i j => (side (sg_ j) z <= side (sg_ i) z)%Z) line.
Proof.
  intros p e u q line z I' L1 L2. apply (chain_impl (neighbours p ((e, u) :: q))); [|apply (s_chain _ _ _ I')].
  intros i j Hi Hj Nb. destruct (in_line_covers _ _ _ _ _ _ I' Hi) as (Ni & _). destruct (in_line_covers _ _ _ _ _ _ I' Hj) as (Nj & _).
  apply ord_side with p; [apply HD, Ni|apply HD, Nj|apply Nb|exact L1|]. intros C W.
  apply (no_early_meeting _ _ _ _ _ _ _ I' Hi Hj Nb C). eapply lexlt_trans''; eassumption.
Qed.

(** Segments going through the event and on. *)
Definition fan_member (e : pt) (i : nat) : Prop := (i < n)%nat /\ ~ lexlt e (fst (sg_ i)) /\ lexlt e (snd (sg_ i)) /\ side (sg_ i) e = 0%Z.
Definition apart (e : pt) (i : nat) : Prop := (i < n)%nat /\ covers (sg_ i) e /\ side (sg_ i) e <> 0%Z.
Definition fan_order (i j : nat) : Prop := 0 <= cross (dir (sg_ i)) (dir (sg_ j)).

Lemma fan_covers : forall e i, fan_member e i -> covers (sg_ i) e.
Proof. intros e i (_ & H1 & H2 & _). split; [exact H1|apply lexlt_asym, H2]. Qed.

Lemma insert_one : forall t e i lb m la, fan_member e i -> ~ In i m ->
  (forall k, In k lb -> apart e k /\ (0 < side (sg_ k) e)%Z) -> (forall k, In k la -> apart e k /\ (side (sg_ k) e < 0)%Z) -> (forall k, In k m -> fan_member e k) ->
  chain fan_order m ->
  exists m', line_insert direct tree t segs e i (lb ++ m ++ la) = Some (lb ++ m' ++ la) /\ chain fan_order m' /\ (forall k, In k m' <-> k = i \/ In k m) /\ (NoDup m -> NoDup m').
Proof.
  intros t e i lb m la Fi Ni Hb Ha Hm C. assert (Ci := fan_covers e i Fi). destruct Fi as (Fi1 & Fi2 & Fi3 & Fi4).
  assert (NiX : forall k, apart e k -> i <> k) by (intros k (_ & _ & K) ->; contradiction).
  set (f := fun k => match ordinate_compare direct e i (seg_at segs i) k (seg_at segs k) with Some b => b | None => false end).
  assert (Fa : forall k, apart e k -> ordinate_compare direct e i (seg_at segs i) k (seg_at segs k) = Some (side (sg_ k) e <? 0)%Z).
  { intros k A. destruct A as (K1 & K2 & K3). apply cmp_apart; try assumption; [apply HD, Fi1|apply HD, K1|]. apply NiX. repeat split; assumption || apply K2. }
  assert (Ff : forall k, In k m -> exists b, ordinate_compare direct e i (seg_at segs i) k (seg_at segs k) = Some b /\ (b = true -> fan_order i k) /\ (b = false -> fan_order k i)).
  { intros k Hk. assert (Ck := fan_covers e k (Hm k Hk)). destruct (Hm k Hk) as (K1 & K2 & K3 & K4). apply (cmp_fan i k (sg_ i) (sg_ k) e); try assumption; [apply HD, Fi1|apply HD, K1|]. intros ->. contradiction. }
  unfold line_insert. rewrite (all_some_map _ f).
  2:{ intros k Hk. apply in_app_iff in Hk. destruct Hk as [Hk|Hk]; [|apply in_app_iff in Hk; destruct Hk as [Hk|Hk]]; unfold f.
      - rewrite (Fa k (proj1 (Hb k Hk))). reflexivity.
      - destruct (Ff k Hk) as (b & E & _). rewrite E. reflexivity.
      - rewrite (Fa k (proj1 (Ha k Hk))). reflexivity. }
  assert (Fb : forall k, In k lb -> f k = false).
  { intros k Hk. destruct (Hb k Hk) as [A S]. unfold f. rewrite (Fa k A). apply Z.ltb_ge. lia. }
  assert (Fu : forall k, In k la -> f k = true).
  { intros k Hk. destruct (Ha k Hk) as [A S]. unfold f. rewrite (Fa k A). apply Z.ltb_lt. lia. }
  destruct (place_between tree t i f lb m la HT Fb Fu) as (m1 & m2 & Em & Ek & K1 & K2). cbv zeta. rewrite Ek. subst m.
  destruct (firstn_skipn_place lb m1 m2 la) as [G1 G2]. rewrite G1, G2. exists (m1 ++ i :: m2). split; [rewrite <- !app_assoc; reflexivity|].
  apply chain_app in C. destruct C as (C1 & C2 & _).
  assert (O1 : forall k, lst m1 = Some k -> fan_order k i).
  { intros k Hk. destruct (Ff k) as (b & E & _ & B); [apply in_app_iff; left; apply lst_in, Hk|]. apply B. specialize (K1 k Hk). unfold f in K1. rewrite E in K1. exact K1. }
  assert (O2 : forall k, hd_error m2 = Some k -> fan_order i k).
  { intros k Hk. destruct (Ff k) as (b & E & B & _); [apply in_app_iff; right; apply hd_in, Hk|]. apply B. specialize (K2 k Hk). unfold f in K2. rewrite E in K2. exact K2. }
  split; [|split].
  - apply chain_app. split; [exact C1|]. split.
    + destruct m2 as [|k m2]; [exact I|]. split; [apply O2; reflexivity|exact C2].
    + intros a b Ea Eb. cbn in Eb. injection Eb as <-. apply O1, Ea.
  - intro k. rewrite !in_app_iff. cbn. intuition.
  - intro ND. apply NoDup_Add with (a := i) (l := m1 ++ m2); [apply Add_app|]. split; assumption.
Qed.
Lemma insert_fan : forall t e ids lb m la, (forall i, In i ids -> fan_member e i /\ ~ In i m) -> NoDup ids ->
  (forall k, In k lb -> apart e k /\ (0 < side (sg_ k) e)%Z) -> (forall k, In k la -> apart e k /\ (side (sg_ k) e < 0)%Z) -> (forall k, In k m -> fan_member e k) ->
  chain fan_order m -> NoDup m ->
  exists m', insert_all direct tree t segs e ids (lb ++ m ++ la) = Some (lb ++ m' ++ la) /\ chain fan_order m' /\ (forall k, In k m' <-> In k ids \/ In k m) /\ NoDup m'.
Proof.
  intros t e ids lb. induction ids as [|i ids IH]; intros m la Hi ND Hb Ha Hm C NM.
  - exists m. split; [reflexivity|]. split; [exact C|]. split; [|exact NM]. intro k. cbn. tauto.
  - cbn [insert_all]. destruct (Hi i (or_introl eq_refl)) as [Fi Ni]. destruct (insert_one t e i lb m la Fi Ni Hb Ha Hm C) as (m1 & E1 & C1 & M1 & N1). rewrite E1.
    inversion ND as [|x y Nx Ny]; subst. destruct (IH m1 la) as (m2 & E2 & C2 & M2 & N2); try assumption.
    + intros k Hk. destruct (Hi k (or_intror Hk)) as [Fk Nk]. split; [exact Fk|]. rewrite M1. intros [->|G]; contradiction.
    + intros k Hk. apply M1 in Hk. destruct Hk as [->|Hk]; [exact Fi|apply Hm, Hk].
    + apply N1, NM.
    + exists m2. split; [exact E2|]. split; [exact C2|]. split; [|exact N2]. intro k. rewrite M2, M1. cbn. intuition.
Qed.

Lemma new_events_ok : forall t e u q uc lb m la, queue_ok segs e q -> (forall k, In k m <-> In k uc) -> (forall k, In k m -> (k < n)%nat) ->
  (forall k, In k lb -> apart e k /\ (0 < side (sg_ k) e)%Z /\ ~ In k uc) -> (forall k, In k la -> apart e k /\ (side (sg_ k) e < 0)%Z /\ ~ In k uc) ->
  exists q', new_events direct tree t segs e uc (lb ++ m ++ la) ((e, u) :: q) = Some ((e, u) :: q') /\ queue_ok segs e q' /\ (forall z, inq z q -> inq z q') /\
    (forall a b, lst lb = Some a -> hd_error (m ++ la) = Some b -> queued segs e q' a b) /\
    (forall a b, lst (lb ++ m) = Some a -> hd_error la = Some b -> queued segs e q' a b).
Proof.
  intros t e u q uc lb m la Q Hm Nm Hb Ha. unfold new_events.
  assert (NL : forall k, In k (lb ++ m ++ la) -> (k < n)%nat).
  { intros k Hk. apply in_app_iff in Hk. destruct Hk as [Hk|Hk]; [apply (proj1 (Hb k Hk))|]. apply in_app_iff in Hk. destruct Hk as [Hk|Hk]; [apply Nm, Hk|apply (proj1 (Ha k Hk))]. }
  destruct (Nat.ltb_spec (length (lb ++ m ++ la)) 2) as [Short|Long].
  { exists q. split; [reflexivity|]. split; [exact Q|]. split; [tauto|]. rewrite !app_length in Short. split; intros a b A B.
    - apply lst_in in A. apply hd_in in B. destruct lb; [destruct A|]. destruct m as [|x m]; [destruct la; [destruct B|]|]; cbn in Short; lia.
    - apply lst_in in A. apply hd_in in B. destruct la; [destruct B|]. destruct lb as [|x lb]; [destruct m; [destruct A|]|]; cbn in Short; lia. }
  destruct uc as [|u0 uc].
  - assert (Em : m = []) by (destruct m as [|x m]; [reflexivity|]; destruct (proj1 (Hm x) (or_introl eq_refl))). subst m. cbn [app] in *.
    set (g := fun k => (0 <? side (sg_ k) e)%Z).
    assert (E : lower_bound_for_event direct tree t segs e (lb ++ la) = Some (length lb)).
    { unfold lower_bound_for_event. cbv zeta. rewrite (all_some_map _ g).
      2:{ intros k Hk. assert (A : apart e k) by (apply in_app_iff in Hk; destruct Hk as [Hk|Hk]; [apply (Hb k Hk)|apply (Ha k Hk)]).
          destruct A as (A1 & A2 & A3). apply (cmp_probe (length segs) k (sg_ k) e); try assumption; [apply HD, A1|]. unfold n in A1. lia. }
      f_equal. rewrite map_map. destruct (place_between tree t (length segs) (fun k => negb (g k)) lb [] la HT) as (m1 & m2 & Em & Ek & _).
      - intros k Hk. destruct (Hb k Hk) as (_ & S & _). unfold g. rewrite (proj2 (Z.ltb_lt _ _) S). reflexivity.
      - intros k Hk. destruct (Ha k Hk) as (_ & S & _). unfold g. rewrite (proj2 (Z.ltb_ge _ _)) by lia. reflexivity.
      - symmetry in Em. apply app_eq_nil in Em. destruct Em as [-> ->]. cbn [app length] in Ek. rewrite Ek. lia. }
    rewrite E. rewrite app_nil_r in *.
    destruct (length lb) as [|k] eqn:Elb.
    + exists q. split; [reflexivity|]. split; [exact Q|]. split; [tauto|]. destruct lb; [|discriminate]. split; intros a b A; discriminate A.
    + destruct (lst lb) as [a|] eqn:La; [|exfalso; destruct lb as [|x lb]; [discriminate|]; destruct (exists_last (l := x :: lb) ltac:(discriminate)) as (l' & y & Ey); rewrite Ey, lst_snoc in La; discriminate].
      destruct (lst_split _ _ La) as (lb' & Eb'). assert (Lk : length lb' = k) by (rewrite Eb', app_length in Elb; cbn in Elb; lia).
      assert (N1 : nth_error (lb ++ la) k = Some a).
      { rewrite Eb', <- app_assoc, nth_error_app2 by lia. rewrite Lk, Nat.sub_diag. reflexivity. }
      assert (N2 : nth_error (lb ++ la) (S k) = hd_error la).
      { rewrite nth_error_app2 by lia. rewrite Elb, Nat.sub_diag. destruct la; reflexivity. }
      rewrite N1, N2. destruct (hd_error la) as [b|] eqn:Hd.
      * destruct (process_ok segs HD e u q a b Q) as (q' & P1 & P2 & P3 & P4).
        { apply NL, in_app_iff. left. apply lst_in, La. } { apply NL, in_app_iff. right. apply hd_in, Hd. }
        exists q'. split; [exact P1|]. split; [exact P2|]. split; [exact P3|]. split; intros a' b' A B; injection A as <-; injection B as <-; exact P4.
      * exists q. split; [reflexivity|]. split; [exact Q|]. split; [tauto|]. split; intros a' b' A B; discriminate B.
  - remember (u0 :: uc) as w eqn:Ew. assert (Mn : exists x, In x m) by (exists u0; apply Hm; subst w; left; reflexivity). clear Ew.
    assert (One : forall a b q0, queue_ok segs e q0 -> In a (lb ++ m ++ la) -> In b (lb ++ m ++ la) -> exists q1, process_new_events direct segs e a b ((e, u) :: q0) = Some ((e, u) :: q1) /\
       queue_ok segs e q1 /\ (forall z, inq z q0 -> inq z q1) /\ queued segs e q1 a b).
    { intros a b q0 Q0 A B. apply process_ok; [exact HD|exact Q0|apply NL, A|apply NL, B]. }
    assert (St1 : exists q1, match first_pair w (lb ++ m ++ la) with Some (s1, s2) => process_new_events direct segs e s1 s2 ((e, u) :: q) | None => Some ((e, u) :: q) end = Some ((e, u) :: q1) /\
       queue_ok segs e q1 /\ (forall z, inq z q -> inq z q1) /\ (forall a b, lst lb = Some a -> hd_error (m ++ la) = Some b -> queued segs e q1 a b)).
    { destruct (first_pair w (lb ++ m ++ la)) as [[s1 s2]|] eqn:FP.
      - destruct (first_pair_in _ _ _ _ FP) as [I1 I2]. destruct (One s1 s2 q Q I1 I2) as (q1 & P1 & P2 & P3 & P4). exists q1. split; [exact P1|]. split; [exact P2|]. split; [exact P3|].
        intros a b A B. destruct (lst_split _ _ A) as (lb' & Eb). destruct m as [|b' m]; [destruct Mn as (x & [])|]. cbn in B. injection B as ->.
        assert (F : first_pair w (lb' ++ a :: b :: m ++ la) = Some (a, b)).
        { apply first_pair_at; [intros x X; apply (Hb x); rewrite Eb; apply in_app_iff; left; exact X|apply (Hb a), lst_in, A|apply Hm; left; reflexivity]. }
        rewrite Eb, <- app_assoc in FP. cbn [app] in FP. rewrite F in FP. injection FP as <- <-. exact P4.
      - exists q. split; [reflexivity|]. split; [exact Q|]. split; [tauto|]. intros a b A B. exfalso.
        destruct (lst_split _ _ A) as (lb' & Eb). destruct m as [|b' m]; [destruct Mn as (x & [])|]. cbn in B. injection B as ->.
        assert (F : first_pair w (lb' ++ a :: b :: m ++ la) = Some (a, b)).
        { apply first_pair_at; [intros x X; apply (Hb x); rewrite Eb; apply in_app_iff; left; exact X|apply (Hb a), lst_in, A|apply Hm; left; reflexivity]. }
        rewrite Eb, <- app_assoc in FP. cbn [app] in FP. congruence. }
    destruct St1 as (q1 & E1 & Q1 & M1 & X1).
    assert (St2 : exists q2, match first_pair w (rev (lb ++ m ++ la)) with Some (s2, s1) => process_new_events direct segs e s1 s2 ((e, u) :: q1) | None => Some ((e, u) :: q1) end = Some ((e, u) :: q2) /\
       queue_ok segs e q2 /\ (forall z, inq z q1 -> inq z q2) /\ (forall a b, lst (lb ++ m) = Some a -> hd_error la = Some b -> queued segs e q2 a b)).
    { assert (Fz : forall a b, lst (lb ++ m) = Some a -> hd_error la = Some b -> first_pair w (rev (lb ++ m ++ la)) = Some (b, a)).
      { intros a b A B. destruct la as [|b' la]; [discriminate|]. cbn in B. injection B as ->. destruct (lst_split _ _ A) as (l' & E').
        assert (Ia : In a m).
        { destruct (exists_last (l := m)) as (m' & x & Em'); [destruct Mn as (x & X); destruct m; [destruct X|discriminate]|]. subst m. rewrite app_assoc in E'. apply app_inj_tail in E'. destruct E' as [_ ->]. apply in_app_iff. right. left. reflexivity. }
        rewrite app_assoc, E', rev_app_distr, rev_app_distr. cbn [rev]. rewrite <- app_assoc. cbn [app].
        apply first_pair_at; [intros x X; apply (Ha x); right; apply in_rev, X|apply (Ha b); left; reflexivity|apply Hm, Ia]. }
      destruct (first_pair w (rev (lb ++ m ++ la))) as [[s2 s1]|] eqn:FP.
      - destruct (first_pair_in _ _ _ _ FP) as [I1 I2]. apply in_rev in I1. apply in_rev in I2. destruct (One s1 s2 q1 Q1 I2 I1) as (q2 & P1 & P2 & P3 & P4). exists q2. split; [exact P1|]. split; [exact P2|]. split; [exact P3|].
        intros a b A B. specialize (Fz a b A B). injection Fz as -> ->. exact P4.
      - exists q1. split; [reflexivity|]. split; [exact Q1|]. split; [tauto|]. intros a b A B. specialize (Fz a b A B). discriminate. }
    destruct St2 as (q2 & E2 & Q2 & M2 & X2). exists q2. rewrite E1, E2.
    split; [reflexivity|]. split; [exact Q2|]. split; [intros z Z; apply M2, M1, Z|]. split; [|exact X2].
    intros a b A B. unfold queued in *. intros N O1 O2 L. apply M2. apply (X1 a b A B); assumption.
Qed.

(** The segments through a point. *)
Definition passes (z : pt) (i : nat) : Prop := (i < n)%nat /\ on_segment (fst (sg_ i)) (snd (sg_ i)) z.

Lemma event_ok : forall t p e u q line, state_ok p ((e, u) :: q) line -> exists luc q' line',
  handle_event direct tree t segs e u ((e, u) :: q) line = Some (if (1 <? length luc)%nat then [(e, luc)] else [], (e, u) :: q', line') /\
  StronglySorted lt luc /\ (forall i, In i luc <-> passes e i) /\ state_ok e q' line'.
Proof.
  intros t p e u q line I'. assert (Q := s_queue _ _ _ I'). assert (Lpe : lexlt p e) by (apply (q_after _ _ _ Q e u); left; reflexivity).
  assert (Cov : forall i, In i line -> covers (sg_ i) e).
  { intros i Hi. destruct (in_line_covers _ _ _ _ _ _ I' Hi) as (N & A & B). split; [apply lexlt_asym, A|exact B]. }
  assert (Ln : forall i, In i line -> (i < n)%nat) by (intros i Hi; apply (s_line _ _ _ I') in Hi; tauto).
  (* the sets *)
  set (l := lower_set direct segs e line). set (c := crossing_set direct segs e line).
  assert (Hl : StronglySorted lt l /\ forall i, In i l <-> In i line /\ e =p= snd (sg_ i)).
  { unfold l, lower_set. destruct (fold_ids (fun i => same_pt direct e (snd (seg_at segs i))) line [] (SSorted_nil _)) as [H1 H2]. split; [exact H1|].
    intro i. rewrite H2, same_pt_ok. cbn. tauto. }
  assert (Hc : StronglySorted lt c /\ forall i, In i c <-> In i line /\ ~ e =p= snd (sg_ i) /\ side (sg_ i) e = 0%Z).
  { unfold c, crossing_set.
    assert (Ext : forall ln acc, fold_left (fun c i => let s := seg_at segs i in if same_pt direct e (snd s) then c else if is_between direct (fst s) (snd s) e true && negb (same_pt direct e (fst s)) then ids_insert i c else c) ln acc =
       fold_left (fun c i => if negb (same_pt direct e (snd (seg_at segs i))) && (is_between direct (fst (seg_at segs i)) (snd (seg_at segs i)) e true && negb (same_pt direct e (fst (seg_at segs i)))) then ids_insert i c else c) ln acc).
    { intro ln. induction ln as [|i ln IH]; intro acc; [reflexivity|]. cbn [fold_left]. cbv zeta. destruct (same_pt direct e (snd (seg_at segs i))); cbn [negb andb]; apply IH. }
    rewrite Ext. match goal with |- context [fold_left (fun c i => if @?P i then _ else _) line []] => destruct (fold_ids P line [] (SSorted_nil _)) as [H1 H2] end.
    split; [exact H1|]. intro i. rewrite H2. cbn [In]. split.
    - intros [[]|[Hi B]]. apply andb_true_iff in B. destruct B as [B1 B2]. apply andb_true_iff in B2. destruct B2 as [B2 _]. split; [exact Hi|].
      split; [intro E; apply same_pt_ok in E; fold (sg_ i) in B1; rewrite E in B1; discriminate|].
      fold (sg_ i) in B2. rewrite (between_side (sg_ i) e (HD i (Ln i Hi)) (Cov i Hi)) in B2. apply Z.eqb_eq, B2.
    - intros (Hi & B1 & B2). right. split; [exact Hi|]. fold (sg_ i). rewrite (between_side (sg_ i) e (HD i (Ln i Hi)) (Cov i Hi)), B2. cbn [Z.eqb andb].
      destruct (same_pt direct e (snd (sg_ i))) eqn:E; [apply same_pt_ok in E; contradiction|]. cbn [negb andb].
      destruct (same_pt direct e (fst (sg_ i))) eqn:E'; [|reflexivity]. exfalso. apply same_pt_ok in E'. destruct (in_line_covers _ _ _ _ _ _ I' Hi) as (_ & A & _).
      apply (lexlt_neq _ _ A). apply pteq_sym, E'. }
  destruct Hl as [Sl Hl]. destruct Hc as [Sc Hc]. destruct (q_starts _ _ _ Q e u (or_introl eq_refl)) as [Su Hu].
  assert (Side_end : forall i, e =p= snd (sg_ i) -> side (sg_ i) e = 0%Z).
  { intros i E. unfold side. apply sg_zero. rewrite (height_compat _ _ _ E). unfold height, dir. destruct (fst (sg_ i)), (snd (sg_ i)). unfold cross, vsub; cbn. ring. }
  assert (Side_start : forall i, fst (sg_ i) =p= e -> side (sg_ i) e = 0%Z).
  { intros i E. unfold side. apply sg_zero. rewrite <- (height_compat _ _ _ E). apply height_base. }
  set (uc := ids_union u c).
  assert (Suc : StronglySorted lt uc) by (apply ids_union_sorted, Sc).
  assert (Huc : forall i, In i uc <-> fan_member e i).
  { intro i. unfold uc. rewrite ids_union_in, Hu, Hc. fold sg_. split.
    - intros [[Ni E]|(Hi & N & S0)].
      + split; [exact Ni|]. assert (D := HD i Ni). apply hpos_lexlt in D. fold (sg_ i) in E. split; [intro L; apply (lexlt_neq _ _ L), pteq_sym, E|].
        split; [eapply lexlt_compat; [exact E|apply pteq_refl|exact D]|apply Side_start, E].
      + destruct (in_line_covers _ _ _ _ _ _ I' Hi) as (Ni & A & B). split; [exact Ni|]. split; [apply lexlt_asym, A|]. split; [|exact S0].
        destruct (lex_total e (snd (sg_ i))) as [T|[T|T]]; [exact T|contradiction|contradiction].
    - intros (Ni & A & B & S0). destruct (lex_total e (fst (sg_ i))) as [T|[T|T]]; [contradiction|left; split; [exact Ni|apply pteq_sym, T]|].
      right. split; [|split; [intro E; exact (lexlt_neq _ _ B E)|exact S0]]. apply (s_line _ _ _ I'). split; [exact Ni|]. split.
      + intro L. apply (sorted_min e u q (fst (sg_ i)) (q_sorted _ _ _ Q)); [apply (q_first _ _ _ Q); assumption|exact T].
      + eapply lexlt_trans; eassumption. }
  set (luc := ids_union uc l).
  assert (Sluc : StronglySorted lt luc) by (apply ids_union_sorted, Sl).
  assert (Hluc : forall i, In i luc <-> passes e i).
  { intro i. unfold luc. rewrite ids_union_in, Huc, Hl. split.
    - intros [F|[Hi E]].
      + assert (C := fan_covers e i F). destruct F as (Ni & _ & _ & S0). split; [exact Ni|]. apply covers_on; [apply HD, Ni|exact C|exact S0].
      + split; [apply Ln, Hi|]. apply covers_on; [apply HD, Ln, Hi|apply Cov, Hi|apply Side_end, E].
    - intros [Ni O]. assert (S0 : side (sg_ i) e = 0%Z) by (apply sg_zero, on_height, O). destruct (on_range _ _ (HD i Ni) O) as [R1 R2].
      destruct (lex_total e (snd (sg_ i))) as [T|[T|T]]; [left; repeat split; assumption| |contradiction].
      right. split; [|exact T]. assert (D := HD i Ni). apply hpos_lexlt in D. apply (s_line _ _ _ I'). split; [exact Ni|]. split.
      + intro L. apply (sorted_min e u q (fst (sg_ i)) (q_sorted _ _ _ Q)); [apply (q_first _ _ _ Q); assumption|].
        eapply lexlt_compat; [apply pteq_refl|apply pteq_sym, T|exact D].
      + eapply lexlt_compat; [apply pteq_refl|exact T|exact Lpe]. }
  (* the line without the segments through the event *)
  set (lb := filter (fun i => 0 <? side (sg_ i) e)%Z line). set (lc' := filter (fun i => side (sg_ i) e =? 0)%Z line). set (la := filter (fun i => side (sg_ i) e <? 0)%Z line).
  assert (Parts : line = lb ++ lc' ++ la) by (apply (three_parts (fun i => side (sg_ i) e)), (line_sides _ _ _ _ _ e I' Lpe (lexlt_irrefl e))).
  assert (Rem : remove_all (ids_union l c) line = lb ++ [] ++ la).
  { rewrite (remove_all_filter _ _ (s_nodup _ _ _ I')).
    assert (Ext : filter (fun i => negb (ids_mem i (ids_union l c))) line = filter (fun i => negb (side (sg_ i) e =? 0)%Z) line).
    { apply filter_ext_in'. intros i Hi. f_equal. apply bool_iff. rewrite ids_mem_in, ids_union_in, Hl, Hc, Z.eqb_eq. split.
      - intros [[_ E]|(_ & _ & E)]; [apply Side_end, E|exact E].
      - intro E. destruct (same_pt direct e (snd (sg_ i))) eqn:SP; [left; split; [exact Hi|apply same_pt_ok, SP]|right]. split; [exact Hi|]. split; [|exact E].
        intro G. apply same_pt_ok in G. congruence. }
    rewrite Ext. rewrite Parts at 1. rewrite !filter_app. cbn [app].
    assert (F1 : filter (fun i => negb (side (sg_ i) e =? 0)%Z) lb = lb).
    { unfold lb. clear. induction line as [|i line IH]; [reflexivity|]. cbn [filter]. destruct (Z.ltb_spec 0 (side (sg_ i) e)); [|exact IH]. cbn [filter].
      destruct (Z.eqb_spec (side (sg_ i) e) 0); [lia|]. cbn. f_equal. exact IH. }
    assert (F2 : filter (fun i => negb (side (sg_ i) e =? 0)%Z) lc' = []).
    { unfold lc'. clear. induction line as [|i line IH]; [reflexivity|]. cbn [filter]. destruct (side (sg_ i) e =? 0)%Z eqn:E; [|exact IH]. cbn [filter]. rewrite E. exact IH. }
    assert (F3 : filter (fun i => negb (side (sg_ i) e =? 0)%Z) la = la).
    { unfold la. clear. induction line as [|i line IH]; [reflexivity|]. cbn [filter]. destruct (Z.ltb_spec (side (sg_ i) e) 0); [|exact IH]. cbn [filter].
      destruct (Z.eqb_spec (side (sg_ i) e) 0); [lia|]. cbn. f_equal. exact IH. }
    rewrite F1, F2, F3. reflexivity. }
  assert (Hlb : forall k, In k lb -> In k line /\ apart e k /\ (0 < side (sg_ k) e)%Z).
  { intros k Hk. apply filter_In in Hk. destruct Hk as [Hk S0]. apply Z.ltb_lt in S0. split; [exact Hk|]. split; [|exact S0]. split; [apply Ln, Hk|]. split; [apply Cov, Hk|lia]. }
  assert (Hla : forall k, In k la -> In k line /\ apart e k /\ (side (sg_ k) e < 0)%Z).
  { intros k Hk. apply filter_In in Hk. destruct Hk as [Hk S0]. apply Z.ltb_lt in S0. split; [exact Hk|]. split; [|exact S0]. split; [apply Ln, Hk|]. split; [apply Cov, Hk|lia]. }
  destruct (insert_fan t e uc lb [] la) as (m & Em & Cm & Hm & Nm).
  { intros i Hi. apply Huc in Hi. split; [exact Hi|intros []]. } { apply sorted_nodup, Suc. }
  { intros k Hk. apply (Hlb k Hk). } { intros k Hk. apply (Hla k Hk). } { intros k []. } { exact I. } { constructor. }
  assert (Hm' : forall k, In k m <-> In k uc) by (intro k; rewrite Hm; cbn; tauto).
  assert (Q0 : queue_ok segs e q) by (apply queue_pop with p u, Q).
  destruct (new_events_ok t e u q uc lb m la Q0 Hm') as (q' & En & Q' & Mq & X1 & X2).
  { intros k Hk. apply Hm', Huc in Hk. apply Hk. }
  { intros k Hk. destruct (Hlb k Hk) as (_ & A & B). split; [exact A|]. split; [exact B|]. rewrite Huc. intros (_ & _ & _ & S0). lia. }
  { intros k Hk. destruct (Hla k Hk) as (_ & A & B). split; [exact A|]. split; [exact B|]. rewrite Huc. intros (_ & _ & _ & S0). lia. }
  exists luc, q', (lb ++ m ++ la). split.
  { unfold handle_event. cbv zeta. fold l. fold c. fold uc. fold luc. rewrite Rem, Em, En. reflexivity. }
  split; [exact Sluc|]. split; [exact Hluc|].
  (* the new state *)
  assert (Keep : forall i, In i line -> side (sg_ i) e <> 0%Z -> ~ lexlt e (fst (sg_ i)) /\ lexlt e (snd (sg_ i))).
  { intros i Hi S0. destruct (in_line_covers _ _ _ _ _ _ I' Hi) as (_ & A & B). split; [apply lexlt_asym, A|].
    destruct (lex_total e (snd (sg_ i))) as [T|[T|T]]; [exact T|destruct (S0 (Side_end i T))|contradiction]. }
  constructor.
  - exact Q'.
  - intro i. rewrite !in_app_iff, Hm', Huc. split.
    + intros [Hi|[F|Hi]].
      * destruct (Hlb i Hi) as (H1 & (H2 & H3 & H4) & _). split; [exact H2|]. apply Keep; assumption.
      * destruct F as (F1 & F2 & F3 & F4). tauto.
      * destruct (Hla i Hi) as (H1 & (H2 & H3 & H4) & _). split; [exact H2|]. apply Keep; assumption.
    + intros (Ni & A & B). destruct (Z.eq_dec (side (sg_ i) e) 0) as [S0|S0]; [right; left; repeat split; assumption|].
      assert (Hi : In i line).
      { apply (s_line _ _ _ I'). split; [exact Ni|]. destruct (lex_total e (fst (sg_ i))) as [T|[T|T]]; [contradiction|destruct (S0 (Side_start i (pteq_sym _ _ T)))|]. split.
        - intro L. apply (sorted_min e u q (fst (sg_ i)) (q_sorted _ _ _ Q)); [apply (q_first _ _ _ Q); assumption|exact T].
        - eapply lexlt_trans; eassumption. }
      unfold lb, la. rewrite !filter_In, !Z.ltb_lt. destruct (Z.lt_total (side (sg_ i) e) 0) as [G|[G|G]]; [right; right; split; assumption|contradiction|left; split; assumption].
  - assert (Nlb : NoDup lb) by (apply NoDup_filter, (s_nodup _ _ _ I')). assert (Nla : NoDup la) by (apply NoDup_filter, (s_nodup _ _ _ I')).
    assert (D1 : forall x, In x m -> ~ In x la).
    { intros x X Y. apply Hm', Huc in X. destruct X as (_ & _ & _ & S0). destruct (Hla x Y) as (_ & _ & G). lia. }
    assert (D2 : forall x, In x lb -> ~ In x (m ++ la)).
    { intros x X Y. destruct (Hlb x X) as (_ & _ & G). apply in_app_iff in Y. destruct Y as [Y|Y]; [apply Hm', Huc in Y; destruct Y as (_ & _ & _ & S0); lia|destruct (Hla x Y) as (_ & _ & G'); lia]. }
    assert (App : forall (a b : list nat), NoDup a -> NoDup b -> (forall x, In x a -> ~ In x b) -> NoDup (a ++ b)).
    { intros a b Na Nb D. induction Na as [|x a Nx Na IH]; [exact Nb|]. cbn. constructor; [|apply IH; intros y Y; apply D; right; exact Y].
      rewrite in_app_iff. intros [G|G]; [contradiction|]. apply (D x); [left; reflexivity|exact G]. }
    apply App; [exact Nlb|apply App; assumption|exact D2].
  - assert (Ch := s_chain _ _ _ I'). rewrite Parts in Ch. apply chain_app in Ch. destruct Ch as (Ch1 & Ch2 & _). apply chain_app in Ch2. destruct Ch2 as (_ & Ch3 & _).
    assert (Old : forall part, (forall k, In k part -> In k line /\ apart e k) -> chain (neighbours p ((e, u) :: q)) part -> chain (neighbours e q') part).
    { intros part Hp C. revert C. apply chain_impl. intros i j Hi Hj Nb. destruct (Hp i Hi) as (Li & Ai1 & Ai2 & Ai3). destruct (Hp j Hj) as (Lj & Aj1 & Aj2 & Aj3).
      assert (Early := no_early_meeting _ _ _ _ _ _ _ I' Li Lj Nb). destruct Nb as [O X]. split.
      - destruct O as [[O1 O2]|[[O1 O2]|O]].
        + left. split; [exact O1|]. intro L. apply O2. eapply lexlt_trans; eassumption.
        + right; left. split; [exact O1|]. destruct (lex_total e (meet (sg_ i) (sg_ j))) as [T|[T|T]]; [exact T| |destruct (Early O1 T)].
          exfalso. apply Ai3. unfold side. apply sg_zero. rewrite (height_compat _ _ _ T). apply meet_1. lra.
        + right; right. exact O.
      - unfold queued in *. intros N O1 O2 L. assert (G := X N O1 O2 (lexlt_trans _ _ _ Lpe L)). apply inq_cons in G. destruct G as [G|G]; [destruct (lexlt_neq _ _ L G)|apply Mq, G]. }
    assert (Across : forall i j, (i < n)%nat -> (j < n)%nat -> (side (sg_ j) e < side (sg_ i) e)%Z -> queued segs e q' i j -> neighbours e q' i j).
    { intros i j Ni Nj S0 X. split; [apply side_ord; [apply HD, Ni|apply HD, Nj|exact S0]|exact X]. }
    apply chain_app. split; [|split].
    + apply Old; [|exact Ch1]. intros k Hk. destruct (Hlb k Hk) as (H1 & H2 & _). tauto.
    + apply chain_app. split; [|split].
      * apply (chain_impl fan_order); [|exact Cm]. intros i j Hi Hj O. apply Hm', Huc in Hi. apply Hm', Huc in Hj. destruct Hi as (Ni & _ & _ & Si). destruct Hj as (Nj & _ & _ & Sj). split.
        -- apply fan_ord; [apply HD, Ni|apply HD, Nj|exact Si|exact Sj|exact O].
        -- unfold queued. intros N O1 O2 L. exfalso. apply (lexlt_neq _ _ L). apply meet_unique; [exact N|apply sg_zero, Si|apply sg_zero, Sj].
      * apply Old; [|exact Ch3]. intros k Hk. destruct (Hla k Hk) as (H1 & H2 & _). tauto.
      * intros a b A B. assert (Ia := lst_in _ _ A). assert (Ib := hd_in _ _ B). apply Hm', Huc in Ia. destruct Ia as (Na & _ & _ & Sa). destruct (Hla b Ib) as (_ & (Nb & _) & Sb).
        apply Across; [exact Na|exact Nb|lia|]. apply X2; [|exact B]. destruct (lst_split _ _ A) as (m0 & ->). rewrite app_assoc. apply lst_snoc.
    + intros a b A B. assert (Ia := lst_in _ _ A). assert (Ib := hd_in _ _ B). destruct (Hlb a Ia) as (_ & (Na & _) & Sa). apply in_app_iff in Ib.
      assert (Fb : (b < n)%nat /\ (side (sg_ b) e <= 0)%Z).
      { destruct Ib as [Ib|Ib]; [apply Hm', Huc in Ib; destruct Ib as (Nb & _ & _ & Sb); split; [exact Nb|lia]|destruct (Hla b Ib) as (_ & (Nb & _) & Sb); split; [exact Nb|lia]]. }
      apply Across; [exact Na|apply Fb|lia|]. apply X1; assumption.
Qed.
End Sweep.
