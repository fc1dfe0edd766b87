(** The queue of events. *)
From Verif Require Import Base CmpModel CmpProof OrientModel OrientSpec OrientProof DistModel LinIntModel LinIntSpec LinIntProof SweepModel SweepSpec SweepProof1 SweepProof2.
From Coq Require Import Arith Sorting.Sorted.

Definition qsorted (q : queue) : Prop := StronglySorted (fun a b => lexlt (fst a) (fst b)) q.
Definition inq (z : pt) (q : queue) : Prop := exists k u, In (k, u) q /\ k =p= z.

Lemma inq_compat : forall z z' q, z =p= z' -> inq z q -> inq z' q.
Proof. intros z z' q E (k & u & H & K). exists k, u. split; [exact H|]. eapply pteq_trans; eassumption. Qed.
Lemma inq_cons : forall z k u q, inq z ((k, u) :: q) <-> k =p= z \/ inq z q.
Proof.
  intros z k u q. split.
  - intros (k' & u' & [H|H] & E); [injection H as -> ->; left; exact E|]. right. exists k', u'. split; assumption.
  - intros [H|(k' & u' & H & E)]; [exists k, u|exists k', u']; (split; [|assumption]); [left; reflexivity|right; exact H].
Qed.
Lemma lex_neither : forall a b, ~ lexlt a b -> ~ lexlt b a -> a =p= b.
Proof. intros a b H1 H2. destruct (lex_total a b) as [T|[T|T]]; [contradiction|exact T|contradiction]. Qed.
Lemma lex_less_dec : forall a b, BoolSpec (lexlt a b) (~ lexlt a b) (lex_less direct a b).
Proof. intros a b. destruct (lex_less direct a b) eqn:E; constructor; rewrite <- lex_less_ok; [exact E|congruence]. Qed.

Lemma touch_inq : forall p f q z, inq z (touch direct p f q) <-> p =p= z \/ inq z q.
Proof.
  intros p f q z. induction q as [|(k, u) q IH]; cbn [touch]; [rewrite inq_cons; tauto|].
  destruct (lex_less_dec k p) as [L|L]; [rewrite !inq_cons, IH; tauto|]. destruct (lex_less_dec p k) as [L'|L']; [rewrite !inq_cons; tauto|].
  rewrite !inq_cons. assert (E := lex_neither _ _ L L'). split; [tauto|]. intros [H|H]; [left; eapply pteq_trans; eassumption|exact H].
Qed.
Lemma touch_keys : forall p f q k u, In (k, u) (touch direct p f q) -> k = p \/ exists u', In (k, u') q.
Proof.
  intros p f q k u. induction q as [|(k', u') q IH]; cbn [touch]; [intros [H|[]]; left; congruence|].
  destruct (lex_less_dec k' p) as [L|L].
  - intros [H|H]; [right; exists u'; left; congruence|]. destruct (IH H) as [E|(u0 & E)]; [left; exact E|right; exists u0; right; exact E].
  - destruct (lex_less_dec p k') as [L'|L'].
    + intros [H|H]; [left; congruence|]. right. exists u. exact H.
    + intros [H|H]; right; [exists u'; left; congruence|exists u; right; exact H].
Qed.
Lemma touch_sorted : forall p f q, qsorted q -> qsorted (touch direct p f q).
Proof.
  intros p f q H. unfold qsorted in *. induction H as [|(k, u) q H IH F]; cbn [touch]; [repeat constructor|].
  destruct (lex_less_dec k p) as [L|L].
  - constructor; [exact IH|]. apply Forall_forall. intros (k', u') X. apply touch_keys in X. cbn. destruct X as [->|(u0 & X)]; [exact L|].
    rewrite Forall_forall in F. exact (F _ X).
  - destruct (lex_less_dec p k) as [L'|L'].
    + constructor; [constructor; assumption|]. constructor; [exact L'|]. rewrite Forall_forall in *. intros x X. eapply lexlt_trans; [exact L'|exact (F x X)].
    + constructor; assumption.
Qed.
Lemma touch_entries : forall p f q k u, qsorted q -> In (k, u) (touch direct p f q) ->
  (In (k, u) q /\ ~ k =p= p) \/ (exists u0, In (k, u0) q /\ k =p= p /\ u = f u0) \/ (k = p /\ u = f [] /\ ~ inq p q).
Proof.
  intros p f q k u S. unfold qsorted in S. induction S as [|(k', u') q S IH F]; cbn [touch].
  - intros [H|[]]. right; right. split; [congruence|]. split; [congruence|]. intros (a & b & [] & _).
  - destruct (lex_less_dec k' p) as [L|L].
    + intros [H|H].
      * injection H as <- <-. left. split; [left; reflexivity|]. apply lexlt_neq, L.
      * destruct (IH H) as [(H1 & H2)|[(u0 & H1 & H2 & H3)|(H1 & H2 & H3)]].
        -- left. split; [right; exact H1|exact H2].
        -- right; left. exists u0. split; [right; exact H1|]. tauto.
        -- right; right. split; [exact H1|]. split; [exact H2|]. rewrite inq_cons. intros [G|G]; [exact (lexlt_neq _ _ L G)|exact (H3 G)].
    + destruct (lex_less_dec p k') as [L'|L'].
      * intros [H|H].
        -- right; right. split; [congruence|]. split; [congruence|]. intros (a & b & X & E). rewrite Forall_forall in F.
           assert (G : lexlt p a) by (destruct X as [X|X]; [injection X as <- <-; exact L'|eapply lexlt_trans; [exact L'|exact (F _ X)]]).
           apply (lexlt_neq _ _ G). apply pteq_sym, E.
        -- left. split; [exact H|]. rewrite Forall_forall in F. intro E.
           assert (G : lexlt p k) by (destruct H as [X|X]; [injection X as <- <-; exact L'|eapply lexlt_trans; [exact L'|exact (F _ X)]]).
           apply (lexlt_neq _ _ G). apply pteq_sym, E.
      * assert (E := lex_neither _ _ L L'). intros [H|H].
        -- right; left. exists u'. injection H as <- <-. split; [left; reflexivity|]. split; [exact E|reflexivity].
        -- left. split; [right; exact H|]. rewrite Forall_forall in F. assert (G := F _ H). cbn in G. intro E'.
           apply (lexlt_neq _ _ G). eapply pteq_trans; [exact E|]. apply pteq_sym, E'.
Qed.
Lemma sorted_min : forall e u q z, qsorted ((e, u) :: q) -> inq z ((e, u) :: q) -> ~ lexlt z e.
Proof.
  intros e u q z S H L. apply inq_cons in H. inversion S as [|x y S' F]; subst. destruct H as [H|(k & v & H & E)].
  - apply (lexlt_neq _ _ L). apply pteq_sym, H.
  - rewrite Forall_forall in F. assert (G := F _ H). cbn in G. apply (lexlt_irrefl e). eapply lexlt_trans; [exact G|]. eapply lexlt_compat; [|apply pteq_refl|exact L].
    apply pteq_sym, E.
Qed.

(** The points the sweep can stop at: ends, and first common points of pairs. *)
Definition pair_points (s1 s2 : seg) : list pt :=
  match segment_segment_intersection direct (fst s1) (snd s1) (fst s2) (snd s2) with
  | Some (_, X :: _) => [X]
  | _ => []
  end.
Definition stops (segs : list seg) : list pt :=
  map fst segs ++ map snd segs ++ flat_map (fun s1 => flat_map (pair_points s1) segs) segs.

Lemma stops_length : forall segs, (length (stops segs) <= 2 * length segs + length segs * length segs)%nat.
Proof.
  intro segs. unfold stops. rewrite !app_length, !map_length.
  assert (P : forall s1 l, (length (flat_map (pair_points s1) l) <= length l)%nat).
  { intros s1 l. induction l as [|s2 l IH]; [apply Nat.le_refl|]. cbn [flat_map length]. rewrite app_length.
    assert (length (pair_points s1 s2) <= 1)%nat; [|lia]. unfold pair_points. destruct (segment_segment_intersection _ _ _ _ _) as [[ty [|X l']]|]; cbn; lia. }
  assert (R : forall l, (length (flat_map (fun s1 => flat_map (pair_points s1) segs) l) <= length l * length segs)%nat).
  { intro l. induction l as [|s1 l IH]; [apply Nat.le_refl|]. cbn [flat_map length]. rewrite app_length. specialize (P s1 segs). lia. }
  specialize (R segs). lia.
Qed.

Section Queue.
Variable segs : list seg.
Let n := length segs.
Let sg_ i := seg_at segs i.
Hypothesis HD : forall i, (i < n)%nat -> hpos (dir (sg_ i)).

Lemma seg_in : forall i, (i < n)%nat -> In (sg_ i) segs.
Proof. intros i H. apply nth_In, H. Qed.

(** The queue after the event [e]. *)
Record queue_ok (e : pt) (q : queue) : Prop := mkqueue_ok {
  q_sorted : qsorted q;
  q_after : forall k u, In (k, u) q -> lexlt e k;
  q_starts : forall k u, In (k, u) q -> StronglySorted lt u /\ forall i, In i u <-> (i < n)%nat /\ fst (sg_ i) =p= k;
  q_first : forall i, (i < n)%nat -> lexlt e (fst (sg_ i)) -> inq (fst (sg_ i)) q;
  q_second : forall i, (i < n)%nat -> lexlt e (snd (sg_ i)) -> inq (snd (sg_ i)) q;
  q_keys : forall k u, In (k, u) q -> In k (stops segs) }.

Lemma inq_after : forall e q z, queue_ok e q -> inq z q -> lexlt e z.
Proof. intros e q z Q (k & u & H & E). eapply lexlt_compat; [apply pteq_refl|exact E|]. exact (q_after e q Q k u H). Qed.

Lemma queue_pop : forall p e u q, queue_ok p ((e, u) :: q) -> queue_ok e q.
Proof.
  intros p e u q [S A T F1 F2 K]. inversion S as [|x y S' F]; subst. rewrite Forall_forall in F. constructor.
  - exact S'.
  - intros k v H. exact (F _ H).
  - intros k v H. apply T. right. exact H.
  - intros i Hi L. assert (G := F1 i Hi (lexlt_trans _ _ _ (A e u (or_introl eq_refl)) L)). apply inq_cons in G. destruct G as [G|G]; [destruct (lexlt_neq _ _ L G)|exact G].
  - intros i Hi L. assert (G := F2 i Hi (lexlt_trans _ _ _ (A e u (or_introl eq_refl)) L)). apply inq_cons in G. destruct G as [G|G]; [destruct (lexlt_neq _ _ L G)|exact G].
  - intros k v H. apply (K k v). right. exact H.
Qed.

Lemma queue_touch : forall e q X, queue_ok e q -> lexlt e X -> In X (stops segs) -> queue_ok e (touch direct X (fun u => u) q).
Proof.
  intros e q X [S A T F1 F2 K] L C. constructor.
  - apply touch_sorted, S.
  - intros k u H. destruct (touch_keys _ _ _ _ _ H) as [->|(u' & H')]; [exact L|exact (A _ _ H')].
  - intros k u H. destruct (touch_entries _ _ _ _ _ S H) as [(H1 & H2)|[(u0 & H1 & H2 & ->)|(-> & -> & H3)]]; [apply T, H1|apply T, H1|].
    split; [constructor|]. intro i. split; [intros []|]. intros (Hi & E). apply H3. eapply inq_compat; [exact E|]. apply F1; [exact Hi|].
    eapply lexlt_compat; [apply pteq_refl|apply pteq_sym, E|exact L].
  - intros i Hi Li. apply touch_inq. right. apply F1; assumption.
  - intros i Hi Li. apply touch_inq. right. apply F2; assumption.
  - intros k u H. destruct (touch_keys _ _ _ _ _ H) as [->|(u' & H')]; [exact C|exact (K _ _ H')].
Qed.

(** The crossing of two segments is in the queue, if it is still to come. *)
Definition queued (e : pt) (q : queue) (i j : nat) : Prop :=
  let w := meet (sg_ i) (sg_ j) in
  ~ cross (dir (sg_ i)) (dir (sg_ j)) == 0 -> on_segment (fst (sg_ i)) (snd (sg_ i)) w -> on_segment (fst (sg_ j)) (snd (sg_ j)) w -> lexlt e w -> inq w q.

Lemma process_ok : forall e u q i j, queue_ok e q -> (i < n)%nat -> (j < n)%nat -> exists q',
  process_new_events direct segs e i j ((e, u) :: q) = Some ((e, u) :: q') /\ queue_ok e q' /\ (forall z, inq z q -> inq z q') /\ queued e q' i j.
Proof.
  intros e u q i j Q Hi Hj. unfold process_new_events. destruct (Nat.eqb_spec i j) as [->|Nij].
  { exists q. split; [reflexivity|]. split; [exact Q|]. split; [tauto|]. unfold queued. intros N. exfalso. apply N. unfold cross. ring. }
  cbv zeta. fold (sg_ i). fold (sg_ j).
  destruct (segseg_ok (fst (sg_ i)) (snd (sg_ i)) (fst (sg_ j)) (snd (sg_ j)) (hpos_nonzero _ (HD i Hi)) (hpos_nonzero _ (HD j Hj))) as (ty & pts & R & Sp).
  cbv zeta in Sp.
  assert (Stop : forall X l, pts = X :: l -> In X (stops segs)).
  { intros X l E. unfold stops. rewrite !in_app_iff. right; right. apply in_flat_map. exists (sg_ i). split; [apply seg_in, Hi|].
    apply in_flat_map. exists (sg_ j). split; [apply seg_in, Hj|]. unfold pair_points. rewrite R, E. left. reflexivity. }
  assert (Hit : forall X, In X (stops segs) -> exists q',
    (if greater_than direct (px X) (px e) || (equals direct (px X) (px e) && greater_than direct (py X) (py e))
     then Some (touch direct X (fun v => v) ((e, u) :: q)) else Some ((e, u) :: q)) = Some ((e, u) :: q') /\
    queue_ok e q' /\ (forall z, inq z q -> inq z q') /\ (lexlt e X -> inq X q')).
  { intros X CX. cbn [greater_than equals direct].
    assert (D : BoolSpec (lexlt e X) (~ lexlt e X) (Qgtb (px X) (px e) || (Qeqb (px X) (px e) && Qgtb (py X) (py e)))).
    { destruct (Qgtb_spec (px X) (px e)); [constructor; left; assumption|]. cbn [orb]. destruct (Qeqb_spec (px X) (px e)); cbn [andb].
      - destruct (Qgtb_spec (py X) (py e)); constructor; [right; lra|]. intros [G|[G1 G2]]; lra.
      - constructor. intros [G|[G1 G2]]; lra. }
    destruct D as [D|D].
    - exists (touch direct X (fun v => v) q). cbn [touch]. destruct (lex_less_dec e X) as [_|N]; [|contradiction]. split; [reflexivity|].
      split; [apply queue_touch; assumption|]. split; [intros z Z; apply touch_inq; right; exact Z|]. intros _. apply touch_inq. left. apply pteq_refl.
    - exists q. split; [reflexivity|]. split; [exact Q|]. split; [tauto|]. contradiction. }
  rewrite R. destruct ty.
  - destruct Sp.
  - exists q. destruct Sp as [-> Sp]. split; [reflexivity|]. split; [exact Q|]. split; [tauto|]. unfold queued. set (w := meet (sg_ i) (sg_ j)). intros _ O1 O2 _. destruct (Sp w (conj O1 O2)).
  - destruct Sp as (X & -> & Sp & _). destruct (Hit X (Stop X [] eq_refl)) as (q' & E & Q' & M & I'). exists q'. split; [exact E|]. split; [exact Q'|]. split; [exact M|].
    unfold queued. set (w := meet (sg_ i) (sg_ j)). intros _ O1 O2 L. assert (EX : w =p= X) by (apply Sp; split; assumption). eapply inq_compat; [apply pteq_sym, EX|]. apply I'.
    eapply lexlt_compat; [apply pteq_refl|exact EX|exact L].
  - destruct Sp as (X & Y & -> & _ & P). destruct (Hit X (Stop X [Y] eq_refl)) as (q' & E & Q' & M & I'). exists q'. split; [exact E|]. split; [exact Q'|]. split; [exact M|].
    unfold queued. intros N. exfalso. apply N. unfold dir. apply parallel_cross; [apply hpos_nonzero, HD, Hi|apply hpos_nonzero, HD, Hj|exact P].
  - destruct Sp as (X & -> & Sp & _). destruct (Hit X (Stop X [] eq_refl)) as (q' & E & Q' & M & I'). exists q'. split; [exact E|]. split; [exact Q'|]. split; [exact M|].
    unfold queued. set (w := meet (sg_ i) (sg_ j)). intros _ O1 O2 L. assert (EX : w =p= X) by (apply Sp; split; assumption). eapply inq_compat; [apply pteq_sym, EX|]. apply I'.
    eapply lexlt_compat; [apply pteq_refl|exact EX|exact L].
Qed.

(** The first queue. *)
Record built (m : nat) (q : queue) : Prop := mkbuilt {
  b_sorted : qsorted q;
  b_starts : forall k u, In (k, u) q -> StronglySorted lt u /\ forall i, In i u <-> (i < m)%nat /\ fst (sg_ i) =p= k;
  b_ends : forall i, (i < m)%nat -> inq (fst (sg_ i)) q /\ inq (snd (sg_ i)) q;
  b_keys : forall k u, In (k, u) q -> In k (stops segs) }.

Lemma built_step : forall m q, (m < n)%nat -> built m q -> built (S m) (touch direct (snd (sg_ m)) (fun u => u) (touch direct (fst (sg_ m)) (ids_insert m) q)).
Proof.
  intros m q Hm [S T E K]. assert (S1 := touch_sorted (fst (sg_ m)) (ids_insert m) q S).
  assert (Own : In (fst (sg_ m)) (stops segs) /\ In (snd (sg_ m)) (stops segs)).
  { unfold stops. rewrite !in_app_iff. split; [left|right; left]; apply in_map, seg_in, Hm. }
  assert (Step1 : forall k u, In (k, u) (touch direct (fst (sg_ m)) (ids_insert m) q) -> StronglySorted lt u /\ forall i, In i u <-> (i < Datatypes.S m)%nat /\ fst (sg_ i) =p= k).
  { intros k u H. destruct (touch_entries _ _ _ _ _ S H) as [(H1 & H2)|[(u0 & H1 & H2 & ->)|(-> & -> & H3)]].
    - destruct (T _ _ H1) as [T1 T2]. split; [exact T1|]. intro i. rewrite T2. split; [intros [A B]; split; [lia|exact B]|]. intros [A B]. split; [|exact B].
      assert (i <> m) by (intros ->; apply H2, pteq_sym, B). lia.
    - destruct (T _ _ H1) as [T1 T2]. split; [apply ids_insert_sorted, T1|]. intro i. rewrite ids_insert_in, T2. split.
      + intros [->|[A B]]; [split; [lia|apply pteq_sym, H2]|split; [lia|exact B]].
      + intros [A B]. destruct (Nat.eq_dec i m) as [->|]; [left; reflexivity|right; split; [lia|exact B]].
    - split; [repeat constructor|]. intro i. cbn. split.
      + intros [<-|[]]. split; [lia|apply pteq_refl].
      + intros [A B]. destruct (Nat.eq_dec i m) as [->|Nim]; [left; reflexivity|]. exfalso. apply H3. eapply inq_compat; [exact B|]. apply E. lia. }
  assert (In1 : forall i, (i < Datatypes.S m)%nat -> inq (fst (sg_ i)) (touch direct (fst (sg_ m)) (ids_insert m) q)).
  { intros i Hi. apply touch_inq. destruct (Nat.eq_dec i m) as [->|]; [left; apply pteq_refl|right; apply E; lia]. }
  constructor.
  - apply touch_sorted, S1.
  - intros k u H. destruct (touch_entries _ _ _ _ _ S1 H) as [(H1 & H2)|[(u0 & H1 & H2 & ->)|(-> & -> & H3)]]; [apply Step1, H1|apply Step1, H1|].
    split; [constructor|]. intro i. split; [intros []|]. intros (A & B). exfalso. apply H3. eapply inq_compat; [exact B|]. apply In1, A.
  - intros i Hi. split; apply touch_inq; [right; apply In1, Hi|]. destruct (Nat.eq_dec i m) as [->|]; [left; apply pteq_refl|right]. apply touch_inq. right. apply E. lia.
  - intros k u H. destruct (touch_keys _ _ _ _ _ H) as [->|(u' & H')]; [apply Own|]. destruct (touch_keys _ _ _ _ _ H') as [->|(u2 & H2)]; [apply Own|exact (K _ _ H2)].
Qed.
Lemma built_all : forall l m q, skipn m segs = l -> (m <= n)%nat -> built m q -> built n (first_events direct m l q).
Proof.
  intro l. induction l as [|s l IH]; intros m q E Hm B.
  - assert (n - m = 0)%nat by (unfold n; rewrite <- (skipn_length m segs), E; reflexivity). replace n with m by lia. exact B.
  - assert (L : (m < n)%nat).
    { destruct (Nat.eq_dec m n) as [->|]; [|lia]. unfold n in E. rewrite skipn_all in E. discriminate. }
    assert (Es : s = sg_ m).
    { unfold sg_, seg_at. rewrite <- (firstn_skipn m segs), E, app_nth2; rewrite firstn_length_le by (unfold n in L; lia); [|lia]. rewrite Nat.sub_diag. reflexivity. }
    assert (El : skipn (S m) segs = l).
    { assert (G : skipn 1 (skipn m segs) = l) by (rewrite E; reflexivity). rewrite <- G. clear. revert segs. induction m as [|m IHm]; intro l0; [destruct l0; reflexivity|]. destruct l0; [reflexivity|]. apply IHm. }
    cbn [first_events]. subst s. apply IH; [exact El|lia|]. apply built_step; assumption.
Qed.
Lemma first_queue : forall p, (forall z, In z (stops segs) -> lexlt p z) -> queue_ok p (first_events direct 0 segs []).
Proof.
  intros p H. assert (B : built n (first_events direct 0 segs [])).
  { apply built_all; [reflexivity|lia|]. constructor; [constructor|intros k u []|lia|intros k u []]. }
  destruct B as [S T E K]. constructor; try assumption.
  - intros k u I'. apply H, (K k u I').
  - intros i Hi _. apply E, Hi.
  - intros i Hi _. apply E, Hi.
Qed.
End Queue.
