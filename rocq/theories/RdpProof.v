From Coq Require Import Sorted.
From Verif Require Import Base RdpModel RdpSpec.

Lemma offset_near : forall eps A B P, ~ dot (vsub B A) (vsub B A) == 0 ->
  (near_line eps A B P <-> line_offset A B P * line_offset A B P <= eps * eps * dot (vsub B A) (vsub B A)).
Proof.
  intros eps [a1 a2] [b1 b2] [p1 p2] NZ. unfold line_offset. set (x := cross _ _).
  assert (SQ : qabs x * qabs x == x * x). { destruct (qabs_spec x) as (_ & [E|E] & _); rewrite E; ring. } rewrite SQ. clear SQ.
  set (L := dot _ _) in *. assert (LP : 0 < L). { unfold L, dot, vsub in *. cbn in *. pose proof (sq_nonneg (b1 - a1)). pose proof (sq_nonneg (b2 - a2)). lra. }
  (* |P - X|^2 L = cross^2 + (dot - t L)^2 *)
  assert (ID : forall t, dot (vsub (mkpt p1 p2) (lerp_at (mkpt a1 a2) (mkpt b1 b2) t)) (vsub (mkpt p1 p2) (lerp_at (mkpt a1 a2) (mkpt b1 b2) t)) * L
     == x * x + (dot (vsub (mkpt p1 p2) (mkpt a1 a2)) (vsub (mkpt b1 b2) (mkpt a1 a2)) - t * L) * (dot (vsub (mkpt p1 p2) (mkpt a1 a2)) (vsub (mkpt b1 b2) (mkpt a1 a2)) - t * L)).
  { intro t. unfold L, x, dot, cross, lerp_at, vadd, vscale, vsub. cbn. ring. }
  split.
  - intros (t & T). apply (Qmult_le_compat_r _ _ L) in T; [|lra]. rewrite ID in T. set (z := _ - _) in T. pose proof (sq_nonneg z). lra.
  - intro H. exists (dot (vsub (mkpt p1 p2) (mkpt a1 a2)) (vsub (mkpt b1 b2) (mkpt a1 a2)) / L).
    apply (Qmult_le_r _ _ L LP). rewrite ID. set (d := dot (vsub (mkpt p1 p2) _) _). assert (E : d - d / L * L == 0) by (field; exact NZ). rewrite E. lra.
Qed.

Lemma farthest_ok : forall ps a b k i index dmax, 0 <= dmax -> (i + k <= length ps)%nat ->
  exists idx d, farthest ps a b k i index dmax = Some (idx, d) /\ dmax <= d /\
    (forall j p, (i <= j < i + k)%nat -> nth_error ps j = Some p -> line_offset a b p <= d) /\
    ((idx = index /\ d = dmax) \/ ((i <= idx < i + k)%nat /\ exists p, nth_error ps idx = Some p /\ d = line_offset a b p /\ dmax < d)).
Proof.
  intros ps a b. induction k as [|k IH]; intros i index dmax D0 L; cbn [farthest].
  - exists index, dmax. split; [reflexivity|]. split; [lra|]. split; [intros; lia|left; auto].
  - destruct (nth_error ps i) as [p|] eqn:E; [|apply nth_error_None in E; lia].
    destruct (Qltb_spec dmax (line_offset a b p)).
    + destruct (IH (S i) i (line_offset a b p)) as (idx & d & R & M & A & C); [lra|lia|]. exists idx, d. split; [exact R|]. split; [lra|]. split.
      * intros j q J Q. destruct (Nat.eq_dec j i) as [->|N]; [rewrite E in Q; injection Q as <-; exact M|]. apply (A j q); [lia|exact Q].
      * right. destruct C as [[-> ->]|(I & q & Q & -> & LT)]; [split; [lia|]; exists p; auto|]. split; [lia|]. exists q. repeat split; auto. lra.
    + destruct (IH (S i) index dmax) as (idx & d & R & M & A & C); [lra|lia|]. exists idx, d. split; [exact R|]. split; [lra|]. split.
      * intros j q J Q'. destruct (Nat.eq_dec j i) as [->|N]; [rewrite E in Q'; injection Q' as <-; lra|]. apply (A j q); [lia|exact Q'].
      * destruct C as [[-> ->]|(I & q & Q' & -> & LT)]; [left; auto|]. right. split; [lia|]. exists q. auto.
Qed.

Lemma split_ok : forall ps s e eps, 0 <= eps -> (s < e)%nat -> (e <= length ps)%nat ->
  (split_at ps s e eps = None /\ (s + 2 < e)%nat /\ exists a b, nth_error ps s = Some a /\ nth_error ps (e - 1) = Some b /\ a =p= b) \/
  (split_at ps s e eps = Some None /\ flat_between eps ps s (e - 1)) \/
  (exists i, split_at ps s e eps = Some (Some i) /\ (s < i)%nat /\ (i < e - 1)%nat /\
     exists a b p, nth_error ps s = Some a /\ nth_error ps (e - 1) = Some b /\ nth_error ps i = Some p /\ ~ near_line eps a b p /\ ~ dot (vsub b a) (vsub b a) == 0 /\
       forall k q, (s < k < e - 1)%nat -> nth_error ps k = Some q -> line_offset a b q <= line_offset a b p).
Proof.
  intros ps s e eps E0 SE L. unfold split_at. destruct (Nat.ltb_spec (s + 2) e).
  - destruct (nth_error ps s) as [a|] eqn:A; [|apply nth_error_None in A; lia]. destruct (nth_error ps (e - 1)) as [b|] eqn:B; [|apply nth_error_None in B; lia].
    destruct (Qeqb_spec (dot (vsub b a) (vsub b a)) 0) as [Z|NZ].
    + left. split; [reflexivity|]. split; [assumption|]. exists a, b. repeat split; destruct a as [a1 a2], b as [b1 b2]; unfold dot, vsub in Z; cbn in *; pose proof (sq_nonneg (b1 - a1)); pose proof (sq_nonneg (b2 - a2)).
      * assert (b1 - a1 == 0) by (apply sq_zero; lra). lra.
      * assert (b2 - a2 == 0) by (apply sq_zero; lra). lra.
    + right. destruct (farthest_ok ps a b (e - s - 2) (s + 1) 0 0) as (i & d & R & D0 & ALL & C); [lra|lia|]. rewrite R.
      assert (Qltb eps 0 = false) as ->. { destruct (Qltb_spec eps 0); [lra|reflexivity]. } cbn [orb].
      destruct (Qltb_spec (eps * eps * dot (vsub b a) (vsub b a)) (d * d)) as [LT|GE].
      * right. exists i. split; [reflexivity|]. destruct C as [[_ ->]|(I & p & P & -> & _)].
        { exfalso. assert (0 <= dot (vsub b a) (vsub b a)) by (unfold dot; pose proof (sq_nonneg (px (vsub b a))); pose proof (sq_nonneg (py (vsub b a))); lra). pose proof (Qmult_le_0_compat (eps * eps) _ (sq_nonneg eps) H0). lra. }
        split; [lia|]. split; [lia|]. exists a, b, p. do 3 (split; [auto|]). split; [|split; [exact NZ|]].
        -- rewrite (offset_near eps a b p NZ). lra.
        -- intros k q K Q'. apply (ALL k q); [lia|exact Q'].
      * left. split; [reflexivity|]. intros k A' B' P K HA HB HP. rewrite A in HA. injection HA as <-. rewrite B in HB. injection HB as <-.
        apply (offset_near eps a b P NZ). assert (O : line_offset a b P <= d) by (apply (ALL k P); [lia|exact HP]).
        assert (0 <= line_offset a b P) by (unfold line_offset; apply qabs_spec). nra.
  - right. left. assert (Qltb eps 0 = false) as ->. { destruct (Qltb_spec eps 0); [lra|reflexivity]. } split; [reflexivity|]. unfold flat_between; intros; lia.
Qed.

(** Increasing lists of indices from s to e with the property of neighbours. *)
Inductive chain (G : nat -> nat -> Prop) : nat -> nat -> list nat -> Prop :=
| chain_one : forall s, chain G s s [s]
| chain_step : forall s a e l, (s < a)%nat -> G s a -> chain G a e l -> chain G s e (s :: l).

Lemma chain_app : forall G s a l1, chain G s a l1 -> forall c e l2, (a < c)%nat -> G a c -> chain G c e l2 -> chain G s e (l1 ++ l2).
Proof. intros G s a l1 C. induction C as [s|s b a l LT H C IH]; intros c e l2 AC GC C2; cbn [app]; [apply (chain_step G s c); assumption|]. apply (chain_step G s b); auto. apply (IH c); assumption. Qed.

(** What one range contributes: from s to the last kept index a, then e - 1. *)
Definition part (eps : Q) (ps : list pt) (s e : nat) (idx : list nat) : Prop :=
  exists a, chain (fun a c => flat_between eps ps a (c - 1)) s a idx /\ (a < e)%nat /\ flat_between eps ps a (e - 1).

Lemma range_ok : forall ndebug eps ps, 0 <= eps -> forall fuel s e acc, (s < e)%nat -> (e <= length ps)%nat -> (e - s < fuel)%nat ->
  match rdp_range fuel ndebug ps eps acc s e with
  | Thinned out => exists idx ts z, part eps ps s e idx /\ out = acc ++ ts ++ [z] /\ picked ps idx ts /\ nth_error ps (e - 1) = Some z /\ (forall a, (s + 1 < e)%nat -> In a idx -> (a < e - 1)%nat)
  | Undefined => exists i j A B, i <> j /\ nth_error ps i = Some A /\ nth_error ps j = Some B /\ A =p= B
  | Stopped => ndebug = false
  | Endless => False
  end.
Proof.
  intros ndebug eps ps E0. induction fuel as [|fuel IH]; intros s e acc SE L F; [lia|]. cbn [rdp_range].
  destruct (split_ok ps s e eps E0 SE L) as [(-> & LT & a & b & A & B & E)|[(-> & FL)|(i & -> & SI & IE & _)]].
  - exists s, (e - 1)%nat, a, b. repeat split; try assumption; try lia; apply E.
  - destruct ((s + 1 =? e)%nat && negb ndebug) eqn:ST; [apply andb_prop in ST as [_ ST]; destruct ndebug; [discriminate|reflexivity]|].
    destruct (nth_error ps s) as [a|] eqn:A; [|apply nth_error_None in A; lia]. destruct (nth_error ps (e - 1)) as [b|] eqn:B; [|apply nth_error_None in B; lia].
    exists [s], [a], b. split; [exists s; split; [constructor|split; assumption]|]. split; [reflexivity|]. split; [repeat constructor; exact A|]. split; [reflexivity|]. intros x X [<-|[]]. lia.
  - specialize (IH s i acc SI ltac:(lia) ltac:(lia)) as R1. pose proof IH as IH2.
    destruct (rdp_range fuel ndebug ps eps acc s i) as [o1| | |]; try exact R1.
    destruct R1 as (idx1 & ts1 & z1 & (a1 & C1 & A1 & F1) & -> & P1 & Z1 & _).
    destruct (acc ++ ts1 ++ [z1]) as [|h t] eqn:EQ; [destruct acc; [destruct ts1|]; discriminate|]. rewrite <- EQ. clear EQ h t.
    rewrite app_assoc, removelast_last.
    specialize (IH2 i e (acc ++ ts1) ltac:(lia) L ltac:(lia)) as R2. clear IH2.
    destruct (rdp_range fuel ndebug ps eps (acc ++ ts1) i e) as [o2| | |]; try exact R2.
    destruct R2 as (idx2 & ts2 & z2 & (a2 & C2 & A2 & F2) & -> & P2 & Z2 & B2).
    exists (idx1 ++ idx2), (ts1 ++ ts2), z2. split; [|split; [|split; [|split]]].
    + exists a2. split; [|split; assumption]. apply (chain_app _ s a1 idx1 C1 i); assumption.
    + rewrite <- !app_assoc. reflexivity.
    + apply Forall2_app; assumption.
    + exact Z2.
    + intros x X I. apply in_app_or in I as [I|I]; [|apply B2; [lia|exact I]].
      assert (LE : forall s' a' l, chain (fun a c => flat_between eps ps a (c - 1)) s' a' l -> forall y, In y l -> (y <= a')%nat).
      { clear. intros s' a' l C. induction C as [s|s a e l LT G C IH]; intros y I; [destruct I as [<-|[]]; lia|]. destruct I as [<-|I]; [|apply IH, I]. assert (a <= e)%nat; [|lia]. apply IH. inversion C; left; reflexivity. }
      pose proof (LE _ _ _ C1 x I). lia.
Qed.

Lemma chain_sorted : forall G s e l, chain G s e l -> increasing l /\ (forall x, In x l -> (s <= x <= e)%nat) /\
  (exists l', l = s :: l') /\ (exists l', l = l' ++ [e]) /\ (forall a c, neighbours l a c -> G a c /\ (a < c)%nat).
Proof.
  intros G s e l C. induction C as [s|s a e l LT GG C IH].
  - split; [repeat constructor|]. split; [intros x [<-|[]]; lia|]. split; [exists []; reflexivity|]. split; [exists []; reflexivity|].
    intros a c (l1 & l2 & E). destruct l1 as [|? [|? ?]]; discriminate.
  - destruct IH as (SO & RG & (l' & HD) & (l'' & TL) & NB). split; [|split; [|split; [|split]]].
    + constructor; [exact SO|]. apply Forall_forall. intros x X. apply RG in X. lia.
    + intros x [<-|X]; [|apply RG in X; lia]. assert (I : In a l) by (rewrite HD; left; reflexivity). apply RG in I. lia.
    + exists l. reflexivity.
    + exists (s :: l''). rewrite TL. reflexivity.
    + intros x c (l1 & l2 & E). destruct l1 as [|y l1].
      * injection E as <- E. rewrite HD in E. injection E as <- _. auto.
      * injection E as <- E. apply NB. exists l1, l2. exact E.
Qed.
Lemma rdp_split : forall fuel ndebug ps eps acc s e i, split_at ps s e eps = Some (Some i) ->
  rdp_range (S fuel) ndebug ps eps acc s e =
  match rdp_range fuel ndebug ps eps acc s i with
  | Thinned [] => Undefined
  | Thinned n1 => rdp_range fuel ndebug ps eps (removelast n1) i e
  | r => r
  end.
Proof. intros fuel ndebug ps eps acc s e i H. cbn [rdp_range]. rewrite H. reflexivity. Qed.
