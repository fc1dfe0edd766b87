From Coq Require Import List Bool Arith Lia.
From Verif Require Import MemoModel MemoSpec.
Import ListNotations.

Section Proof.
Variables K V : Type.
Variable lt : K -> K -> bool.
Variable fn : K -> prog K V.
Variable f : K -> V.
Variable rank : K -> nat.
Hypothesis HO : total_order lt.
Hypothesis HC : computes f rank fn.

Notation lower_bound := (lower_bound K V lt).
Notation insert_entry := (insert_entry K V lt).
Notation memo_call := (memo_call K V lt fn).
Notation memo_calls := (memo_calls K V lt fn).

Lemma lower_bound_split : forall c key a b, lower_bound c key = (a, b) -> ascending lt c ->
  c = a ++ b /\ (forall e, In e a -> lt (fst e) key = true) /\ (forall e, In e b -> lt (fst e) key = false).
Proof.
  destruct HO as (I & T & A).
  induction c as [|e c IH]; intros key a b E S; cbn in E.
  - injection E as <- <-. split; [reflexivity|split; intros ? []].
  - destruct S as [S1 S2]. destruct (lt (fst e) key) eqn:L.
    + destruct (lower_bound c key) as [a' b'] eqn:E'. injection E as <- <-.
      destruct (IH key a' b' E' S2) as (-> & H1 & H2). split; [reflexivity|]. split; [|exact H2].
      intros x [<-|Hx]; auto.
    + injection E as <- <-. split; [reflexivity|]. split; [intros ? []|].
      intros x [<-|Hx]; [exact L|]. destruct (lt (fst x) key) eqn:X; [|reflexivity].
      rewrite (T (fst e) (fst x) key) in L; auto.
Qed.

Definition has (c : list (K * V)) (k : K) : Prop := In k (map fst c).

Lemma lookup : forall c key, faithful lt f c ->
  match snd (lower_bound c key) with
  | [] => ~ has c key
  | e :: _ => if negb (lt key (fst e)) then snd e = f key /\ has c key else ~ has c key
  end.
Proof.
  intros c key [S F]. destruct HO as (I & T & A).
  destruct (lower_bound c key) as [a b] eqn:E. destruct (lower_bound_split c key a b E S) as (Ec & H1 & H2).
  cbn [snd]. destruct b as [|e b].
  - intro H. unfold has in H. rewrite Ec, app_nil_r in H. apply in_map_iff in H as (x & <- & Hx).
    specialize (H1 x Hx). rewrite I in H1; discriminate.
  - destruct (lt key (fst e)) eqn:L; cbn [negb].
    + intro H. unfold has in H. rewrite Ec in H. apply in_map_iff in H as (x & Ex & Hx).
      apply in_app_or in Hx as [Hx|[<-|Hx]].
      * specialize (H1 x Hx). rewrite Ex, I in H1; discriminate.
      * rewrite Ex, I in L; discriminate.
      * assert (Y : lt (fst e) (fst x) = true).
        { rewrite Ec in S. clear -S Hx. induction a as [|y a IH]; cbn in S; [apply S, Hx|apply IH, S]. }
        rewrite Ex in Y. pose proof (T _ _ _ L Y) as Z. rewrite I in Z; discriminate.
    + assert (Ek : key = fst e) by (apply A; [exact L|apply H2; left; reflexivity]).
      destruct e as [k v]. cbn in *. subst k. split.
      * apply F. rewrite Ec. apply in_or_app; right; left; reflexivity.
      * unfold has. rewrite Ec. apply in_map_iff. exists (key, v). split; [reflexivity|]. apply in_or_app; right; left; reflexivity.
Qed.

Lemma ascending_app : forall a b : list (K * V), ascending lt (a ++ b) <->
  ascending lt a /\ ascending lt b /\ forall x y, In x a -> In y b -> lt (fst x) (fst y) = true.
Proof.
  induction a as [|e a IH]; intro b; cbn [app ascending].
  - split; [intro H; split; [exact I|split; [exact H|intros x y []]]|tauto].
  - rewrite IH. split.
    + intros (H1 & H2 & H3 & H4). split; [split; [|exact H2]|split; [exact H3|]].
      * intros x Hx. apply H1, in_or_app; left; exact Hx.
      * intros x y [<-|Hx] Hy; [apply H1, in_or_app; right; exact Hy|apply H4; assumption].
    + intros ((H1 & H2) & H3 & H4). split; [|split; [exact H2|split; [exact H3|]]].
      * intros x Hx. apply in_app_or in Hx as [Hx|Hx]; [apply H1, Hx|apply H4; [left; reflexivity|exact Hx]].
      * intros x y Hx Hy. apply H4; [right; exact Hx|exact Hy].
Qed.

Lemma insert_ok : forall c key, faithful lt f c -> ~ has c key ->
  faithful lt f (insert_entry c key (f key)) /\ forall k, has (insert_entry c key (f key)) k <-> has c k \/ k = key.
Proof.
  intros c key [S F] N. destruct HO as (I & T & A). pose proof (lookup c key (conj S F)) as L.
  destruct (lower_bound c key) as [a b] eqn:E. destruct (lower_bound_split c key a b E S) as (Ec & H1 & H2).
  cbn [snd] in L.
  assert (R : insert_entry c key (f key) = a ++ (key, f key) :: b).
  { unfold MemoModel.insert_entry. rewrite E.
    destruct b as [|e b]; [reflexivity|]. destruct (lt key (fst e)); [reflexivity|]. exfalso. apply N, L. }
  rewrite R. subst c. apply ascending_app in S as (S1 & S2 & S3). split.
  - split.
    + apply ascending_app. split; [exact S1|]. split.
      * cbn [ascending]. split; [|exact S2]. intros x Hx. cbn [fst].
        destruct (lt key (fst x)) eqn:X; [reflexivity|]. exfalso. apply N. unfold has. apply in_map_iff. exists x.
        split; [symmetry; apply A; [exact X|apply H2, Hx]|apply in_or_app; right; exact Hx].
      * intros x y Hx [<-|Hy]; [apply H1, Hx|apply S3; assumption].
    + intros k v H. apply in_app_or in H as [H|[H|H]].
      * apply F, in_or_app; left; exact H.
      * injection H as <- <-; reflexivity.
      * apply F, in_or_app; right; exact H.
  - intro k. unfold has. rewrite !map_app. cbn [map fst]. rewrite !in_app_iff. cbn [In]. intuition congruence.
Qed.

(** What a call does: the answer, the new arguments evaluated, and the cache afterwards. *)
Definition effect (st st' : state K V) (n : nat) : Prop :=
  faithful lt f (fst st') /\
  exists new, snd st' = new ++ snd st /\ NoDup new /\
    (forall k, In k new -> rank k < n /\ ~ has (fst st) k) /\
    (forall k, has (fst st') k <-> has (fst st) k \/ In k new).

Lemma effect_refl : forall st n, faithful lt f (fst st) -> effect st st n.
Proof.
  intros st n F. split; [exact F|]. exists []. split; [reflexivity|]. split; [constructor|].
  split; [intros k []|]. intro k; cbn; tauto.
Qed.
Lemma effect_trans : forall a b c n, effect a b n -> effect b c n -> effect a c n.
Proof.
  intros a b c n (F1 & n1 & E1 & D1 & H1 & G1) (F2 & n2 & E2 & D2 & H2 & G2). split; [exact F2|].
  exists (n2 ++ n1). rewrite E2, E1, app_assoc. split; [reflexivity|]. split; [|split].
  - clear -D1 D2 H2 G1. induction D2 as [|x l Hx Hl IH]; cbn; [exact D1|]. constructor.
    + rewrite in_app_iff. intros [H|H]; [exact (Hx H)|]. destruct (H2 x (or_introl eq_refl)) as [_ N].
      apply N, G1. right; exact H.
    + apply IH. intros k Hk. apply H2; right; exact Hk.
  - intros k Hk. apply in_app_or in Hk as [Hk|Hk]; [|apply H1, Hk].
    destruct (H2 k Hk) as [R N]. split; [exact R|]. intro H. apply N, G1. left; exact H.
  - intro k. rewrite G2, G1, in_app_iff. tauto.
Qed.

Lemma effect_weaken : forall a b n m, n <= m -> effect a b n -> effect a b m.
Proof.
  intros a b n m L (F & new & E & D & H & G). split; [exact F|]. exists new. split; [exact E|]. split; [exact D|].
  split; [|exact G]. intros k Hk. destruct (H k Hk). split; [lia|assumption].
Qed.

Definition good_call (n : nat) (call : K -> state K V -> option (V * state K V)) : Prop :=
  forall k st, rank k < n -> faithful lt f (fst st) ->
    exists st', call k st = Some (f k, st') /\ effect st st' (S (rank k)) /\ has (fst st') k.

Lemma run_ok : forall call n m, m <= n -> good_call n call -> forall p st, asks_below f rank m p -> faithful lt f (fst st) ->
  exists st', run K V call p st = Some (value f p, st') /\ effect st st' m.
Proof.
  intros call n m L G. induction p as [v|k rest IH]; intros st B F; cbn [run value].
  - exists st. split; [reflexivity|]. apply effect_refl, F.
  - destruct B as [B1 B2]. destruct (G k st ltac:(lia) F) as (st1 & E1 & X1 & _). rewrite E1.
    destruct (IH (f k) st1 B2 (proj1 X1)) as (st2 & E2 & X2).
    exists st2. split; [exact E2|]. apply (effect_trans st st1 st2); [|assumption].
    apply (effect_weaken st st1 (S (rank k))); [lia|assumption].
Qed.

Lemma call_ok : forall fuel, good_call fuel (memo_call fuel).
Proof.
  induction fuel as [|fuel IH]; intros key st R F; [lia|].
  cbn [MemoModel.memo_call]. cbv zeta. pose proof (lookup (fst st) key F) as L.
  assert (Miss : ~ has (fst st) key ->
    exists st', match run K V (memo_call fuel) (fn key) (fst st, key :: snd st) with
      | Some (ret, (c, calls)) => Some (ret, (insert_entry c key ret, calls))
      | None => None
      end = Some (f key, st') /\ effect st st' (S (rank key)) /\ has (fst st') key).
  { intro N. destruct (HC key) as [HV HB].
    destruct (run_ok (memo_call fuel) fuel (rank key) ltac:(lia) IH (fn key) (fst st, key :: snd st) HB F) as ([c calls] & E & (X1 & new & X2 & X3 & X4 & X5)).
    cbn [fst snd] in *. rewrite E, HV. eexists. split; [reflexivity|].
    assert (N' : ~ has c key).
    { rewrite X5. intros [H|H]; [exact (N H)|]. apply X4 in H. lia. }
    destruct (insert_ok c key X1 N') as [Y1 Y2]. cbn [fst snd]. split; [|apply Y2; right; reflexivity].
    split; [exact Y1|]. exists (new ++ [key]). cbn [fst snd]. rewrite X2, <- app_assoc. split; [reflexivity|]. split; [|split].
    - apply NoDup_rev in X3. rewrite <- (rev_involutive (new ++ [key])). apply NoDup_rev. rewrite rev_app_distr. cbn.
      constructor; [|exact X3]. rewrite <- in_rev. intro H. apply X4 in H. lia.
    - intros k Hk. apply in_app_or in Hk as [Hk|[<-|[]]]; [|split; [lia|exact N]].
      destruct (X4 k Hk). split; [lia|assumption].
    - intro k. rewrite Y2, X5, in_app_iff. cbn [In]. intuition congruence. }
  unfold MemoModel.state, MemoModel.cache in *. revert L Miss.
  destruct (MemoModel.lower_bound K V lt (fst st) key) as [a [|e b]]; cbn [snd]; intros L Miss; [apply Miss, L|].
  destruct (lt key (fst e)); cbn [negb] in *; [apply Miss, L|].
  destruct L as [L1 L2]. exists st. rewrite L1. split; [reflexivity|]. split; [apply effect_refl, F|exact L2].
Qed.

Lemma calls_ok : forall fuel ks st, (forall k, In k ks -> rank k < fuel) -> faithful lt f (fst st) ->
  exists c new, memo_calls fuel ks st = Some (map f ks, (c, new ++ snd st)) /\ faithful lt f c /\ NoDup new /\
    (forall k, In k new -> ~ has (fst st) k) /\ (forall k, In k ks -> has c k) /\
    (forall k, has c k <-> has (fst st) k \/ In k new).
Proof.
  intros fuel ks st Hk F.
  assert (X : exists st', memo_calls fuel ks st = Some (map f ks, st') /\ effect st st' fuel /\ forall k, In k ks -> has (fst st') k).
  { revert st F. induction ks as [|k ks IH]; intros st F; cbn [MemoModel.memo_calls map].
    - exists st. split; [reflexivity|]. split; [apply effect_refl, F|intros k []].
    - assert (Rk : rank k < fuel) by (apply Hk; left; reflexivity).
      destruct (call_ok fuel k st Rk F) as (st1 & E1 & X1 & H1). rewrite E1.
      destruct (IH ltac:(intros x Hx; apply Hk; right; exact Hx) st1 (proj1 X1)) as (st2 & E2 & X2 & H2). rewrite E2.
      exists st2. split; [reflexivity|]. split.
      + apply (effect_trans st st1 st2); [|exact X2]. apply (effect_weaken _ _ (S (rank k))); [lia|exact X1].
      + intros x [<-|Hx]; [|apply H2, Hx]. destruct X2 as (_ & new & _ & _ & _ & G). apply G; left; exact H1. }
  destruct X as ([c calls] & E & (X1 & new & X2 & X3 & X4 & X5) & X6). cbn [fst snd] in *. subst calls.
  exists c, new. split; [exact E|]. split; [exact X1|]. split; [exact X3|]. split; [intros k H; apply X4, H|].
  split; [exact X6|exact X5].
Qed.
End Proof.
