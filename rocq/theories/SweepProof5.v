(** The whole sweep. *)
From Verif Require Import Base CmpModel CmpProof OrientModel OrientSpec OrientProof DistModel LinIntModel LinIntSpec LinIntProof SweepModel SweepSpec SweepProof1 SweepProof2 SweepProof3 SweepProof4.
From Coq Require Import Arith Sorting.Sorted.

Lemma filter_shorter : forall {A} (f g : A -> bool) l x, (forall a, In a l -> g a = true -> f a = true) -> In x l -> f x = true -> g x = false ->
  (length (filter g l) < length (filter f l))%nat.
Proof.
  intros A f g l x. assert (Le : forall l, (forall a, In a l -> g a = true -> f a = true) -> (length (filter g l) <= length (filter f l))%nat).
  { intro k. induction k as [|a k IH]; intro H; [apply Nat.le_refl|]. cbn. specialize (IH (fun b B => H b (or_intror B))). assert (Ha := H a (or_introl eq_refl)).
    destruct (g a); [rewrite (Ha eq_refl); cbn; lia|]. destruct (f a); cbn; lia. }
  induction l as [|a l IH]; intros H X Fx Gx; [destruct X|]. cbn. assert (H' := fun b B => H b (or_intror B)). destruct X as [->|X].
  - rewrite Fx, Gx. cbn. specialize (Le l H'). lia.
  - specialize (IH H' X Fx Gx). assert (Ha := H a (or_introl eq_refl)). destruct (g a); [rewrite (Ha eq_refl); cbn; lia|]. destruct (f a); cbn; lia.
Qed.
Lemma two_members : forall (l : list nat) i j, In i l -> In j l -> i <> j -> (1 < length l)%nat.
Proof. intros l i j Hi Hj N. destruct l as [|a [|b l]]; [destruct Hi| |cbn; lia]. destruct Hi as [<-|[]], Hj as [<-|[]]. contradiction. Qed.
Lemma parallel_trans : forall u v w, hpos u -> hpos v -> hpos w -> cross u v == 0 -> cross v w == 0 -> cross u w == 0.
Proof. intros u v w Hu Hv Hw C1 C2. apply sg_zero. rewrite (parallel_sg u v w Hu Hv C1). apply sg_zero, C2. Qed.

Section Sweep.
Variable segs : list seg.
Let n := length segs.
Let sg_ i := seg_at segs i.
Hypothesis HD : forall i, (i < n)%nat -> hpos (dir (sg_ i)).
Variable tree : place.
Hypothesis HT : search_tree tree.

(** Points the sweep has to stop at. *)
Definition important (z : pt) : Prop :=
  (exists i, (i < n)%nat /\ (z =p= fst (sg_ i) \/ z =p= snd (sg_ i))) \/
  (exists i j, passes segs z i /\ passes segs z j /\ ~ cross (dir (sg_ i)) (dir (sg_ j)) == 0).

Lemma no_gap : forall p e u q line z, state_ok segs p ((e, u) :: q) line -> lexlt p z -> lexlt z e -> ~ important z.
Proof.
  intros p e u q line z I' L1 L2. assert (Q := s_queue _ _ _ _ I'). assert (S := q_sorted _ _ _ Q).
  assert (NotIn : ~ inq z ((e, u) :: q)) by (intro G; exact (sorted_min _ _ _ _ S G L2)).
  assert (Ends : forall i, (i < n)%nat -> ~ (z =p= fst (sg_ i) \/ z =p= snd (sg_ i))).
  { intros i Hi [E|E]; apply NotIn; (eapply inq_compat; [apply pteq_sym, E|]); [apply (q_first _ _ _ Q)|apply (q_second _ _ _ Q)]; try assumption; (eapply lexlt_compat; [apply pteq_refl|exact E|exact L1]). }
  intros [(i & Hi & E)|(i & j & Pi & Pj & N)]; [exact (Ends i Hi E)|].
  assert (InL : forall k, passes segs z k -> In k line).
  { intros k (Nk & O). apply (s_line _ _ _ _ I'). split; [exact Nk|]. destruct (on_range _ _ (HD k Nk) O) as [R1 R2]. split.
    - intro L. destruct (lex_total z (fst (sg_ k))) as [T|[T|T]]; [exact (R1 T)|exact (Ends k Nk (or_introl T))|].
      apply (sorted_min e u q _ S (q_first _ _ _ Q k Nk L)). eapply lexlt_trans; [exact T|exact L2].
    - eapply lexlt_trans''; [exact L1|exact R2]. }
  assert (Sides := line_sides segs HD _ _ _ _ _ z I' L1 (lexlt_asym _ _ L2)).
  assert (Parts := three_parts (fun i => side (sg_ i) z) line Sides). cbv beta in Parts.
  set (c := filter (fun i => side (sg_ i) z =? 0)%Z line) in Parts.
  assert (Ch := s_chain _ _ _ _ I'). rewrite Parts in Ch. apply chain_app in Ch. destruct Ch as (_ & Ch & _). apply chain_app in Ch. destruct Ch as (Ch & _ & _).
  assert (Hc : forall k, In k c -> In k line /\ (k < n)%nat /\ side (sg_ k) z = 0%Z).
  { intros k Hk. apply filter_In in Hk. destruct Hk as [H1 H2]. split; [exact H1|]. split; [apply (s_line _ _ _ _ I') in H1; apply H1|apply Z.eqb_eq, H2]. }
  assert (Par : chain (fun a b => cross (dir (sg_ a)) (dir (sg_ b)) == 0) c).
  { revert Ch. apply chain_impl. intros a b Ia Ib [O X]. change (ord_after (sg_ a) (sg_ b) p) in O. destruct (Hc a Ia) as (La & Na & Sa). destruct (Hc b Ib) as (Lb & Nb & Sb).
    assert (Meet : ~ cross (dir (sg_ a)) (dir (sg_ b)) == 0 -> z =p= meet (sg_ a) (sg_ b)) by (intro M; apply meet_unique; [exact M|apply sg_zero, Sa|apply sg_zero, Sb]).
    destruct O as [[O1 O2]|[[O1 O2]|[O1 _]]]; [| |exact O1]; exfalso.
    - apply O2. eapply lexlt_compat; [apply pteq_refl|apply Meet; lra|exact L1].
    - assert (M : ~ cross (dir (sg_ a)) (dir (sg_ b)) == 0) by lra.
      assert (I1 := conj La Lb). destruct (no_early_meeting segs HD _ _ _ _ _ a b I' La Lb); [split; [right; left; split; assumption|exact X]|exact O1|].
      eapply lexlt_compat; [apply (Meet M)|apply pteq_refl|exact L2]. }
  assert (All : forall l, (forall k, In k l -> (k < n)%nat) -> chain (fun a b => cross (dir (sg_ a)) (dir (sg_ b)) == 0) l -> forall a b, In a l -> In b l -> cross (dir (sg_ a)) (dir (sg_ b)) == 0).
  { intros l. induction l as [|x l IH]; intros Hl C a b Ia Ib; [destruct Ia|].
    assert (Hd : forall y, In y l -> cross (dir (sg_ x)) (dir (sg_ y)) == 0).
    { intros y Iy. destruct l as [|x' l]; [destruct Iy|]. destruct C as [C1 C2].
      apply parallel_trans with (dir (sg_ x')); [apply HD, Hl; left; reflexivity|apply HD, Hl; right; left; reflexivity|apply HD, Hl; right; exact Iy|exact C1|].
      apply IH; [intros k Hk; apply Hl; right; exact Hk|exact C2|left; reflexivity|exact Iy]. }
    destruct Ia as [->|Ia], Ib as [->|Ib].
    - unfold cross. ring.
    - apply Hd, Ib.
    - rewrite cross_anti, (Hd a Ia). ring.
    - apply IH; [intros k Hk; apply Hl; right; exact Hk| |exact Ia|exact Ib]. destruct l as [|x' l]; [exact I|apply C]. }
  apply N. apply (All c); [intros k Hk; apply (Hc k Hk)|exact Par| |]; apply filter_In; (split; [apply InL; assumption|]); apply Z.eqb_eq, sg_zero, on_height; [apply Pi|apply Pj].
Qed.
Lemma no_more : forall p line z, state_ok segs p [] line -> lexlt p z -> ~ important z.
Proof.
  intros p line z I' L. assert (Q := s_queue _ _ _ _ I'). assert (Empty : forall w, ~ inq w []) by (intros w (k & u & [] & _)).
  intros [(i & Hi & [E|E])|(i & j & (Ni & Oi) & _ & _)].
  - apply (Empty (fst (sg_ i))), (q_first _ _ _ Q); [exact Hi|]. eapply lexlt_compat; [apply pteq_refl|exact E|exact L].
  - apply (Empty (snd (sg_ i))), (q_second _ _ _ Q); [exact Hi|]. eapply lexlt_compat; [apply pteq_refl|exact E|exact L].
  - apply (Empty (snd (sg_ i))), (q_second _ _ _ Q); [exact Ni|]. destruct (on_range _ _ (HD i Ni) Oi) as [_ R]. eapply lexlt_trans''; [exact L|exact R].
Qed.

Definition ahead (p : pt) : nat := length (filter (lex_less direct p) (stops segs)).

Lemma loop_ok : forall t p q line, state_ok segs p q line -> (ahead p <= t)%nat -> exists r,
  sweep_loop direct tree t segs q line = Some (Some r) /\
  StronglySorted lexlt (map fst r) /\
  (forall z ids, In (z, ids) r -> lexlt p z /\ In z (stops segs) /\ StronglySorted lt ids /\ (2 <= length ids)%nat /\ forall i, In i ids <-> passes segs z i) /\
  (forall z i j, lexlt p z -> important z -> i <> j -> passes segs z i -> passes segs z j -> exists z' ids, In (z', ids) r /\ z' =p= z).
Proof.
  intro t. induction t as [|t IH]; intros p q line I' A.
  - destruct q as [|[e u] q].
    + exists []. split; [reflexivity|]. split; [constructor|]. split; [intros z ids []|]. intros z i j L Im. destruct (no_more p line z I' L Im).
    + exfalso. assert (Q := s_queue _ _ _ _ I'). assert (K := q_keys _ _ _ Q e u (or_introl eq_refl)). assert (L := q_after _ _ _ Q e u (or_introl eq_refl)).
      unfold ahead in A. assert (G : In e (filter (lex_less direct p) (stops segs))) by (apply filter_In; split; [exact K|apply lex_less_ok, L]).
      destruct (filter (lex_less direct p) (stops segs)); [destruct G|cbn in A; lia].
  - destruct q as [|[e u] q].
    + exists []. split; [reflexivity|]. split; [constructor|]. split; [intros z ids []|]. intros z i j L Im. destruct (no_more p line z I' L Im).
    + assert (Q := s_queue _ _ _ _ I'). assert (K := q_keys _ _ _ Q e u (or_introl eq_refl)). assert (L := q_after _ _ _ Q e u (or_introl eq_refl)).
      destruct (event_ok segs HD tree HT (S t) p e u q line I') as (luc & q' & line' & E & S0 & H & I2).
      destruct (IH e q' line' I2) as (r & E2 & R1 & R2 & R3).
      { assert (F : (ahead e < ahead p)%nat); [|lia]. apply (filter_shorter (lex_less direct p) (lex_less direct e) (stops segs) e).
        - intros z _ Z. apply lex_less_ok. apply lex_less_ok in Z. eapply lexlt_trans; eassumption.
        - exact K.
        - apply lex_less_ok, L.
        - destruct (lex_less direct e e) eqn:X; [|reflexivity]. apply lex_less_ok in X. destruct (lexlt_irrefl e X). }
      cbn [sweep_loop]. rewrite E. cbn [tl]. rewrite E2. eexists. split; [reflexivity|].
      assert (Later : forall z, In z (map fst r) -> lexlt e z).
      { intros z Z. apply in_map_iff in Z. destruct Z as ((z', ids) & <- & Z). apply (R2 z' ids Z). }
      split; [|split].
      * rewrite map_app. destruct (1 <? length luc)%nat; [|exact R1]. cbn. constructor; [exact R1|]. apply Forall_forall. exact Later.
      * intros z ids Hin. apply in_app_iff in Hin. destruct Hin as [Hin|Hin].
        -- destruct (Nat.ltb_spec 1 (length luc)) as [G|G]; [|destruct Hin]. destruct Hin as [Hin|[]]. injection Hin as <- <-.
           split; [exact L|]. split; [exact K|]. split; [exact S0|]. split; [lia|exact H].
        -- destruct (R2 z ids Hin) as (G1 & G2). split; [eapply lexlt_trans; eassumption|exact G2].
      * intros z i j Lz Im N Pi Pj. destruct (lex_total z e) as [T|[T|T]].
        -- destruct (no_gap p e u q line z I' Lz T Im).
        -- exists e, luc. split; [|apply pteq_sym, T]. apply in_app_iff. left.
           assert (P : forall k, passes segs z k -> In k luc).
           { intros k (Nk & O). apply H. split; [exact Nk|]. eapply on_segment_compat; [apply pteq_refl|apply pteq_refl|exact T|exact O]. }
           assert (G := two_members luc i j (P i Pi) (P j Pj) N). rewrite (proj2 (Nat.ltb_lt _ _) G). left. reflexivity.
        -- destruct (R3 z i j T Im N Pi Pj) as (z' & ids & Hin & Ez). exists z', ids. split; [apply in_app_iff; right; exact Hin|exact Ez].
Qed.

Lemma before_all : forall l : list pt, exists p, forall z, In z l -> lexlt p z.
Proof.
  intro l. induction l as [|a l (p & IH)]; [exists (mkpt 0 0); intros z []|]. exists (mkpt (qmin (px a) (px p) - 1) 0).
  destruct (qmin_spec (px a) (px p)) as (_ & M1 & M2). intros z [<-|Z]; left; cbn; [lra|]. specialize (IH z Z). destruct IH as [G|[G _]]; lra.
Qed.
Lemma sweep_ok : forall t, (2 * n + n * n <= t)%nat -> exists r,
  sweep_loop direct tree t segs (first_events direct 0 segs []) [] = Some (Some r) /\
  StronglySorted lexlt (map fst r) /\
  (forall z ids, In (z, ids) r -> In z (stops segs) /\ StronglySorted lt ids /\ (2 <= length ids)%nat /\ forall i, In i ids <-> passes segs z i) /\
  (forall z i j, important z -> i <> j -> passes segs z i -> passes segs z j -> exists z' ids, In (z', ids) r /\ z' =p= z).
Proof.
  intros t Ht. destruct (before_all (stops segs ++ [])) as (p & Hp). rewrite app_nil_r in Hp.
  assert (I0 : state_ok segs p (first_events direct 0 segs []) []).
  { constructor; [apply first_queue; assumption| |constructor|exact I]. intro i. split; [intros []|]. intros (Ni & N & _). apply N, Hp.
    unfold stops. apply in_app_iff. left. apply in_map, seg_in, Ni. }
  destruct (loop_ok t p _ [] I0) as (r & E & R1 & R2 & R3).
  { unfold ahead. assert (F : forall (f : pt -> bool) l, (length (filter f l) <= length l)%nat).
    { intros f l. induction l as [|a l IHl]; [apply Nat.le_refl|]. cbn. destruct (f a); cbn; lia. }
    specialize (F (lex_less direct p) (stops segs)). assert (G := stops_length segs). fold n in G. lia. }
  exists r. split; [exact E|]. split; [exact R1|]. split; [intros z ids H; apply (R2 z ids H)|].
  intros z i j Im. apply R3; [|exact Im]. destruct Im as [(k & Nk & [E1|E1])|(k & l & (Nk & Ok) & _ & _)].
  - eapply lexlt_compat; [apply pteq_refl|apply pteq_sym, E1|]. apply Hp. unfold stops. apply in_app_iff. left. apply in_map, seg_in, Nk.
  - eapply lexlt_compat; [apply pteq_refl|apply pteq_sym, E1|]. apply Hp. unfold stops. rewrite !in_app_iff. right; left. apply in_map, seg_in, Nk.
  - destruct (on_range _ _ (HD k Nk) Ok) as [R _]. eapply lexlt_trans''; [|exact R]. apply Hp. unfold stops. apply in_app_iff. left. apply in_map, seg_in, Nk.
Qed.
End Sweep.
