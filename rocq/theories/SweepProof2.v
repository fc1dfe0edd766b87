(** The order of the sweep line at an event, and lists. *)
From Verif Require Import Base CmpModel CmpProof OrientModel OrientSpec OrientProof DistModel LinIntModel LinIntSpec LinIntProof SweepModel SweepSpec SweepProof1.
From Coq Require Import Arith Sorting.Sorted.

Definition covers (s : seg) (q : pt) : Prop := ~ lexlt q (fst s) /\ ~ lexlt (snd s) q.

Lemma hpos_nonzero : forall s, hpos (dir s) -> nonzero (vsub (snd s) (fst s)).
Proof. intros s H [E1 E2]. unfold hpos, dir in H. lra. Qed.
Lemma covers_on : forall s q, hpos (dir s) -> covers s q -> (on_segment (fst s) (snd s) q <-> side s q = 0%Z).
Proof.
  intros s q D [C1 C2]. unfold side. rewrite sg_zero. split; [apply on_height|]. intro H. apply in_range_on; assumption.
Qed.
Lemma vertical_on : forall s q, hpos (dir s) -> covers s q -> px (fst s) == px (snd s) -> side s q = 0%Z.
Proof.
  intros [[ax ay] [bx by_]] [qx qy] D [C1 C2] E. unfold side. apply sg_zero. unfold height, dir, cross, vsub, lex_before in *; cbn in *.
  assert (qx == ax); [|nra]. destruct (Qlt_le_dec qx ax) as [L|L]; [exfalso; apply C1; auto|]. destruct (Qlt_le_dec bx qx) as [L'|L']; [exfalso; apply C2; auto|]. lra.
Qed.
Lemma between_side : forall s q, hpos (dir s) -> covers s q -> is_between direct (fst s) (snd s) q true = (side s q =? 0)%Z.
Proof.
  intros s q D C. apply bool_iff. rewrite (is_between_true _ _ _ (hpos_nonzero s D)), (covers_on s q D C), Z.eqb_eq. reflexivity.
Qed.

(** The ordinate and the slope of a segment that is not vertical. *)
Lemma ordinate_ok : forall s q, ~ px (fst s) == px (snd s) -> hpos (dir s) -> exists m y,
  ordinate false s q = Some (y, Some m) /\ 0 < px (dir s) /\ height s q == px (dir s) * (py q - y) /\ m * px (dir s) == py (dir s).
Proof.
  intros [[ax ay] [bx by_]] [qx qy] N D. unfold hpos, dir, vsub in *; cbn in *. assert (P : 0 < bx - ax) by (destruct D; lra).
  unfold ordinate, y_of_x, get_slope; cbn. destruct (Qeqb_spec (bx - ax) 0) as [E|E]; [lra|].
  eexists _, _. split; [reflexivity|]. split; [exact P|]. unfold height, dir, vsub, cross; cbn. split; field; lra.
Qed.
Lemma vertical_spec : forall s, BoolSpec (px (fst s) == px (snd s)) (~ px (fst s) == px (snd s)) (is_vertical direct (fst s) (snd s)).
Proof. intro s. unfold is_vertical; cbn. apply Qeqb_spec. Qed.

Definition same_ends (s1 s2 : seg) : bool := same_pt direct (fst s1) (fst s2) && same_pt direct (snd s1) (snd s2).
Lemma same_ends_side : forall s1 s2 q, same_ends s1 s2 = true -> side s1 q = side s2 q /\ cross (dir s1) (dir s2) == 0.
Proof.
  intros s1 s2 q H. unfold same_ends in H. apply andb_true_iff in H. destruct H as [H1 H2]. apply same_pt_ok in H1. apply same_pt_ok in H2.
  destruct s1 as [[ax ay] [bx by_]], s2 as [[cx cy] [dx dy]], q as [qx qy], H1 as [E1 E2], H2 as [E3 E4]. cbn in *. split.
  - unfold side. apply sg_compat. unfold height, dir, cross, vsub; cbn. rewrite E1, E2, E3, E4. ring.
  - unfold dir, cross, vsub; cbn. rewrite E1, E2, E3, E4. ring.
Qed.

(** An element with ordinate [py q] (vertical or through [q]) against one that is not through [q]. *)
Lemma own_ordinate : forall s q, hpos (dir s) -> covers s q -> side s q = 0%Z -> exists y m, ordinate (is_vertical direct (fst s) (snd s)) s q = Some (y, m) /\ y == py q.
Proof.
  intros s q D C S. destruct (vertical_spec s) as [V|V].
  - exists (py q), None. split; reflexivity.
  - destruct (ordinate_ok s q V D) as (m & y & O & P & H & _). exists y, (Some m). split; [exact O|].
    apply sg_zero in S. rewrite S in H. symmetry in H. apply Qmult_integral in H. destruct H; lra.
Qed.

Lemma cmp_apart : forall i e si se q, hpos (dir si) -> hpos (dir se) -> covers si q -> side si q = 0%Z -> covers se q -> side se q <> 0%Z -> i <> e ->
  ordinate_compare direct q i si e se = Some (side se q <? 0)%Z.
Proof.
  intros i e si se q Di De Ci Si Ce Se Ne. unfold ordinate_compare. rewrite (proj2 (Nat.eqb_neq i e) Ne).
  fold (same_ends si se). destruct (same_ends si se) eqn:SE; [destruct (same_ends_side si se q SE); lia|].
  cbv zeta. assert (V2 : is_vertical direct (fst se) (snd se) = false).
  { destruct (vertical_spec se) as [V|V]; [|reflexivity]. destruct (Se (vertical_on se q De Ce V)). }
  rewrite V2, (between_side se q De Ce), (proj2 (Z.eqb_neq _ _) Se), !andb_false_r. cbn [andb].
  assert (Nv : ~ px (fst se) == px (snd se)) by (destruct (vertical_spec se); [discriminate|assumption]).
  unfold segment_compare. destruct (own_ordinate si q Di Ci Si) as (y1 & m1 & O1 & E1). rewrite O1.
  destruct (ordinate_ok se q Nv De) as (m2 & y2 & O2 & P2 & H2 & _). rewrite O2. cbn [less_than greater_than direct].
  unfold side in *. destruct (Z.ltb_spec (sg (height se q)) 0) as [L|L].
  - apply sg_neg in L. rewrite H2 in L. assert (G : py q < y2) by (apply Qnot_le_lt; intro G; nra). destruct (Qltb_spec y1 y2); [reflexivity|lra].
  - assert (L' : (0 < sg (height se q))%Z) by lia. apply sg_pos in L'. rewrite H2 in L'. assert (G : y2 < py q) by (apply Qnot_le_lt; intro G; nra).
    destruct (Qltb_spec y1 y2); [lra|]. cbn. destruct (Qgtb_spec y1 y2); [reflexivity|lra].
Qed.

Lemma cmp_fan : forall i e si se q, hpos (dir si) -> hpos (dir se) -> covers si q -> side si q = 0%Z -> covers se q -> side se q = 0%Z -> i <> e ->
  exists b, ordinate_compare direct q i si e se = Some b /\ (b = true -> 0 <= cross (dir si) (dir se)) /\ (b = false -> 0 <= cross (dir se) (dir si)).
Proof.
  intros i e si se q Di De Ci Si Ce Se Ne. unfold ordinate_compare. rewrite (proj2 (Nat.eqb_neq i e) Ne).
  fold (same_ends si se). destruct (same_ends si se) eqn:SE.
  { exists false. split; [reflexivity|]. split; [discriminate|]. intros _. rewrite cross_anti, (proj2 (same_ends_side si se q SE)). lra. }
  cbv zeta. rewrite (between_side se q De Ce), (between_side si q Di Ci), Si, Se. cbn [Z.eqb]. rewrite !andb_true_r.
  destruct (vertical_spec si) as [V1|V1], (vertical_spec se) as [V2|V2]; cbn [andb].
  - eexists. split; [reflexivity|]. assert (Z : cross (dir si) (dir se) == 0) by (unfold cross, dir, vsub; cbn; nra).
    assert (Z' : cross (dir se) (dir si) == 0) by (rewrite cross_anti; lra). split; intro; lra.
  - exists false. split; [reflexivity|]. split; [discriminate|]. intros _. unfold cross, dir, vsub, hpos in *; cbn in *. nra.
  - exists true. split; [reflexivity|]. split; [|discriminate]. intros _. unfold cross, dir, vsub, hpos in *; cbn in *. nra.
  - unfold segment_compare. destruct (ordinate_ok si q V1 Di) as (m1 & y1 & O1 & P1 & H1 & M1). destruct (ordinate_ok se q V2 De) as (m2 & y2 & O2 & P2 & H2 & M2).
    rewrite O1, O2. unfold side in Si, Se. apply sg_zero in Si. apply sg_zero in Se. rewrite Si in H1. rewrite Se in H2.
    symmetry in H1, H2. apply Qmult_integral in H1. apply Qmult_integral in H2.
    assert (E : y1 == y2) by (destruct H1; [lra|]; destruct H2; lra). cbn [less_than greater_than equals direct].
    destruct (Qltb_spec y1 y2); [lra|]. destruct (Qgtb_spec y1 y2); [lra|]. destruct (Qeqb_spec y1 y2); [|contradiction].
    assert (X : cross (dir si) (dir se) == px (dir si) * px (dir se) * (m2 - m1)) by (unfold cross; rewrite <- M1, <- M2; ring).
    assert (PP : 0 < px (dir si) * px (dir se)) by (apply Qmult_lt_0_compat; assumption).
    assert (XA := cross_anti (dir se) (dir si)).
    destruct (Qltb_spec m1 m2).
    + exists true. split; [reflexivity|]. split; [|discriminate]. intros _. rewrite X. apply Qmult_le_0_compat; lra.
    + destruct (Qgtb_spec m1 m2).
      * exists false. split; [reflexivity|]. split; [discriminate|]. intros _. rewrite XA, X.
        assert (0 <= px (dir si) * px (dir se) * (m1 - m2)) by (apply Qmult_le_0_compat; lra). lra.
      * eexists. split; [reflexivity|]. assert (Z : m2 - m1 == 0) by lra. rewrite XA, X, Z. split; intro; lra.
Qed.

Lemma cmp_probe : forall n e se q, hpos (dir se) -> covers se q -> side se q <> 0%Z -> e <> n ->
  ordinate_compare direct q e se n (q, mkpt (px q + 1) (py q)) = Some (0 <? side se q)%Z.
Proof.
  intros n e se q De Ce Se Ne. unfold ordinate_compare. rewrite (proj2 (Nat.eqb_neq e n) Ne).
  set (pr := (q, mkpt (px q + 1) (py q))). fold (same_ends se pr).
  assert (Spr : side pr q = 0%Z) by (unfold side, pr; apply sg_zero; apply (height_base (q, mkpt (px q + 1) (py q)))).
  destruct (same_ends se pr) eqn:SE; [destruct (same_ends_side se pr q SE); lia|]. cbv zeta.
  assert (V1 : is_vertical direct (fst se) (snd se) = false).
  { destruct (vertical_spec se) as [V|V]; [|reflexivity]. destruct (Se (vertical_on se q De Ce V)). }
  assert (V2 : is_vertical direct (fst pr) (snd pr) = false) by (destruct (vertical_spec pr) as [V|V]; [unfold pr in V; cbn in V; lra|reflexivity]).
  rewrite V1, V2. cbn [andb]. assert (Nv : ~ px (fst se) == px (snd se)) by (destruct (vertical_spec se); [discriminate|assumption]).
  unfold segment_compare. destruct (ordinate_ok se q Nv De) as (m2 & y2 & O2 & P2 & H2 & _). rewrite O2.
  assert (Nvp : ~ px (fst pr) == px (snd pr)) by (unfold pr; cbn; lra).
  assert (Dp : hpos (dir pr)) by (left; unfold pr, dir, vsub; cbn; lra).
  destruct (ordinate_ok pr q Nvp Dp) as (m1 & y1 & O1 & P1 & H1 & _). rewrite O1.
  apply sg_zero in Spr. rewrite Spr in H1. symmetry in H1. apply Qmult_integral in H1. assert (E1 : y1 == py q) by (destruct H1; lra).
  cbn [less_than greater_than direct]. unfold side in *. destruct (Z.ltb_spec 0 (sg (height se q))) as [L|L].
  - apply sg_pos in L. rewrite H2 in L. assert (G : y2 < py q) by (apply Qnot_le_lt; intro G; nra). destruct (Qltb_spec y2 y1); [reflexivity|lra].
  - assert (L' : (sg (height se q) < 0)%Z) by lia. apply sg_neg in L'. rewrite H2 in L'. assert (G : py q < y2) by (apply Qnot_le_lt; intro G; nra).
    destruct (Qltb_spec y2 y1); [lra|]. destruct (Qgtb_spec y2 y1); [reflexivity|lra].
Qed.

(** ** Neighbours in a list *)
Fixpoint chain {A} (R : A -> A -> Prop) (l : list A) : Prop :=
  match l with
  | a :: ((b :: _) as rest) => R a b /\ chain R rest
  | _ => True
  end.
Definition lst {A} (l : list A) : option A := hd_error (rev l).

Lemma lst_snoc : forall {A} (l : list A) a, lst (l ++ [a]) = Some a.
Proof. intros A l a. unfold lst. rewrite rev_unit. reflexivity. Qed.
Lemma lst_cons : forall {A} (a b : A) l, lst (a :: b :: l) = lst (b :: l).
Proof.
  intros A a b l. destruct (exists_last (l := b :: l) ltac:(discriminate)) as (l' & x & E). rewrite E, app_comm_cons, !lst_snoc. reflexivity.
Qed.
Lemma chain_app : forall {A} (R : A -> A -> Prop) l1 l2,
  chain R (l1 ++ l2) <-> chain R l1 /\ chain R l2 /\ (forall a b, lst l1 = Some a -> hd_error l2 = Some b -> R a b).
Proof.
  intros A R l1 l2. induction l1 as [|a l1 IH].
  - cbn. split; [intro H; split; [exact I|]; split; [exact H|]; discriminate|tauto].
  - destruct l1 as [|b l1].
    + cbn [app]. destruct l2 as [|c l2]; cbn [chain].
      * split; [intros _; repeat split; discriminate|tauto].
      * split.
        -- intros [H1 H2]. split; [exact I|]. split; [exact H2|]. intros x y E1 E2. unfold lst in E1; cbn in E1, E2. congruence.
        -- intros (_ & H2 & H3). split; [apply H3; reflexivity|exact H2].
    + cbn [app chain] in *. rewrite (lst_cons a b l1). split.
      * intros [H1 H2]. apply IH in H2. destruct H2 as (H2 & H3 & H4). tauto.
      * intros ((H1 & H2) & H3 & H4). split; [exact H1|]. apply IH. tauto.
Qed.
Lemma chain_impl : forall {A} (R R' : A -> A -> Prop) l, (forall a b, In a l -> In b l -> R a b -> R' a b) -> chain R l -> chain R' l.
Proof.
  intros A R R' l. induction l as [|a l IH]; [tauto|]. intros H C. destruct l as [|b l]; [exact I|]. destruct C as [C1 C2]. split.
  - apply H; cbn; auto.
  - apply IH; [|exact C2]. intros x y X Y. apply H; right; assumption.
Qed.
Lemma lst_in : forall {A} (l : list A) a, lst l = Some a -> In a l.
Proof. intros A l a H. unfold lst in H. apply in_rev. destruct (rev l); [discriminate|]. cbn in H. injection H as ->. left. reflexivity. Qed.
Lemma hd_in : forall {A} (l : list A) a, hd_error l = Some a -> In a l.
Proof. intros A l a H. destruct l; [discriminate|]. cbn in H. injection H as ->. left. reflexivity. Qed.
Lemma lst_split : forall {A} (l : list A) a, lst l = Some a -> exists l', l = l' ++ [a].
Proof. intros A l a H. unfold lst in H. destruct (rev l) as [|x r] eqn:E; [discriminate|]. injection H as ->. exists (rev r). rewrite <- (rev_involutive l), E. reflexivity. Qed.

(** A list sorted by a number decreasing from above to below: three parts. *)
Lemma three_parts : forall {A} (f : A -> Z) l, chain (fun a b => (f b <= f a)%Z) l ->
  l = filter (fun a => 0 <? f a)%Z l ++ filter (fun a => f a =? 0)%Z l ++ filter (fun a => f a <? 0)%Z l.
Proof.
  intros A f l. assert (Bound : forall m l, chain (fun a b => (f b <= f a)%Z) (m :: l) -> forall x, In x l -> (f x <= f m)%Z).
  { intros m l0. revert m. induction l0 as [|y l0 IH]; intros m C x X; [destruct X|]. destruct C as [C1 C2].
    destruct X as [<-|X]; [exact C1|]. specialize (IH y C2 x X). lia. }
  assert (Nil : forall (p : A -> bool) l, (forall x, In x l -> p x = false) -> filter p l = []).
  { intros p l0 H. induction l0 as [|y l0 IH]; [reflexivity|]. cbn. rewrite (H y (or_introl eq_refl)). apply IH. intros x X. apply H. right. exact X. }
  induction l as [|a l IH]; intro C; [reflexivity|].
  assert (C' : chain (fun a b => (f b <= f a)%Z) l) by (destruct l; [exact I|exact (proj2 C)]). specialize (IH C'). assert (B := Bound a l C).
  cbn [filter]. destruct (Z.ltb_spec 0 (f a)); [|destruct (Z.eqb_spec (f a) 0)].
  - replace (f a =? 0)%Z with false by (symmetry; apply Z.eqb_neq; lia). replace (f a <? 0)%Z with false by (symmetry; apply Z.ltb_ge; lia).
    cbn [app]. f_equal. exact IH.
  - replace (f a <? 0)%Z with false by (symmetry; apply Z.ltb_ge; lia).
    rewrite (Nil (fun a => 0 <? f a)%Z l) in * by (intros x X; apply Z.ltb_ge; specialize (B x X); lia). cbn [app] in *. f_equal. exact IH.
  - replace (f a <? 0)%Z with true by (symmetry; apply Z.ltb_lt; lia).
    rewrite (Nil (fun a => 0 <? f a)%Z l) in * by (intros x X; apply Z.ltb_ge; specialize (B x X); lia).
    rewrite (Nil (fun a => f a =? 0)%Z l) in * by (intros x X; apply Z.eqb_neq; specialize (B x X); lia). cbn [app] in *. f_equal. exact IH.
Qed.

(** ** Sets of numbers *)
Lemma ids_insert_in : forall i l x, In x (ids_insert i l) <-> x = i \/ In x l.
Proof.
  intros i l x. induction l as [|j l IH]; cbn [ids_insert]; [cbn; intuition|]. destruct (Nat.ltb_spec j i); [cbn [In]; rewrite IH; tauto|].
  destruct (Nat.ltb_spec i j); [cbn [In]; intuition|]. assert (i = j) by lia. subst j. cbn [In]. intuition.
Qed.
Lemma ids_insert_sorted : forall i l, StronglySorted lt l -> StronglySorted lt (ids_insert i l).
Proof.
  intros i l H. induction H as [|j l H IH F]; cbn [ids_insert]; [repeat constructor|]. destruct (Nat.ltb_spec j i).
  - constructor; [exact IH|]. apply Forall_forall. intros x X. apply ids_insert_in in X. destruct X as [->|X]; [exact H0|]. rewrite Forall_forall in F. auto.
  - destruct (Nat.ltb_spec i j).
    + constructor; [constructor; assumption|]. constructor; [exact H1|]. rewrite Forall_forall in *. intros x X. specialize (F x X). lia.
    + constructor; assumption.
Qed.
Lemma ids_union_in : forall a b x, In x (ids_union a b) <-> In x a \/ In x b.
Proof. intros a b x. unfold ids_union. induction a as [|i a IH]; cbn; [tauto|]. rewrite ids_insert_in, IH. intuition. Qed.
Lemma ids_union_sorted : forall a b, StronglySorted lt b -> StronglySorted lt (ids_union a b).
Proof. intros a b H. unfold ids_union. induction a as [|i a IH]; cbn; [exact H|apply ids_insert_sorted, IH]. Qed.
Lemma ids_mem_in : forall i l, ids_mem i l = true <-> In i l.
Proof.
  intros i l. unfold ids_mem. rewrite existsb_exists. split; [intros (x & X & E); apply Nat.eqb_eq in E; subst; exact X|]. intro H. exists i. split; [exact H|apply Nat.eqb_refl].
Qed.
Lemma sorted_nodup : forall l, StronglySorted lt l -> NoDup l.
Proof. intros l H. induction H as [|i l H IH F]; constructor; [|exact IH]. intro X. rewrite Forall_forall in F. specialize (F i X). lia. Qed.
Lemma fold_ids : forall (p : nat -> bool) l acc, StronglySorted lt acc ->
  StronglySorted lt (fold_left (fun c i => if p i then ids_insert i c else c) l acc) /\
  forall x, In x (fold_left (fun c i => if p i then ids_insert i c else c) l acc) <-> In x acc \/ (In x l /\ p x = true).
Proof.
  intros p l. induction l as [|i l IH]; intros acc S; cbn [fold_left]; [split; [exact S|]; cbn; tauto|].
  destruct (p i) eqn:P.
  - destruct (IH (ids_insert i acc) (ids_insert_sorted i acc S)) as [H1 H2]. split; [exact H1|]. intro x. rewrite H2, ids_insert_in. cbn.
    split; [intros [[->|X]|X]|intros [X|[[<-|X] Y]]]; tauto.
  - destruct (IH acc S) as [H1 H2]. split; [exact H1|]. intro x. rewrite H2. cbn. split; [tauto|]. intros [X|[[<-|X] Y]]; [tauto|congruence|tauto].
Qed.

Lemma line_remove_filter : forall i line, NoDup line -> line_remove i line = filter (fun e => negb (e =? i)%nat) line.
Proof.
  intros i line H. induction H as [|e line N H IH]; [reflexivity|]. cbn [line_remove filter]. destruct (Nat.eqb_spec e i) as [->|E]; cbn; [|f_equal; exact IH].
  clear IH. induction line as [|f line IH]; [reflexivity|]. cbn. destruct (Nat.eqb_spec f i) as [->|E]; [exfalso; apply N; left; reflexivity|].
  cbn. f_equal. apply IH; [|inversion H; assumption]. intro X. apply N. right. exact X.
Qed.
Lemma remove_all_filter : forall ids line, NoDup line -> remove_all ids line = filter (fun e => negb (ids_mem e ids)) line.
Proof.
  intros ids. unfold remove_all. induction ids as [|i ids IH]; intros line H; cbn [fold_left].
  - cbn. induction line as [|e line IHl]; [reflexivity|]. cbn. f_equal. apply IHl. inversion H; assumption.
  - rewrite (line_remove_filter i line H), IH by (apply NoDup_filter, H). clear. induction line as [|e line IHl]; [reflexivity|]. cbn.
    destruct (Nat.eqb_spec e i); cbn; [exact IHl|]. destruct (ids_mem e ids) eqn:M; unfold ids_mem in M; rewrite M; cbn; [exact IHl|f_equal; exact IHl].
Qed.

Lemma all_some_map : forall {A B} (f : A -> option B) (g : A -> B) l, (forall a, In a l -> f a = Some (g a)) -> all_some (map f l) = Some (map g l).
Proof.
  intros A B f g l. induction l as [|a l IH]; intro H; [reflexivity|]. cbn. rewrite (H a (or_introl eq_refl)), IH; [reflexivity|].
  intros x X. apply H. right. exact X.
Qed.

(** Where an element goes between those below and those above. *)
Lemma place_between : forall (tree : place) t i (f : nat -> bool) lb m la, search_tree tree -> (forall e, In e lb -> f e = false) -> (forall e, In e la -> f e = true) ->
  exists m1 m2, m = m1 ++ m2 /\
    tree t i (map f (lb ++ m ++ la)) = (length lb + length m1)%nat /\
    (forall e, lst m1 = Some e -> f e = false) /\ (forall e, hd_error m2 = Some e -> f e = true).
Proof.
  intros tree t i f lb m la T Hb Ha. set (k := tree t i (map f (lb ++ m ++ la))).
  destruct (T t i (map f (lb ++ m ++ la))) as (T1 & T2 & T3). fold k in T1, T2, T3. rewrite map_length, !app_length in T1.
  assert (K1 : (length lb <= k)%nat).
  { destruct (le_lt_dec (length lb) k) as [L|L]; [exact L|exfalso]. specialize (T3 ltac:(rewrite map_length, !app_length; lia)).
    rewrite nth_error_map, nth_error_app1 in T3 by exact L. destruct (nth_error lb k) as [e|] eqn:E; [|discriminate].
    cbn in T3. rewrite (Hb e (nth_error_In _ _ E)) in T3. discriminate. }
  assert (K2 : (k <= length lb + length m)%nat).
  { destruct (le_lt_dec k (length lb + length m)) as [L|L]; [exact L|exfalso]. destruct k as [|k'] eqn:Ek; [lia|].
    specialize (T2 k' eq_refl). rewrite nth_error_map, !nth_error_app2 in T2 by lia. destruct (nth_error la (k' - length lb - length m)) as [e|] eqn:E; [|discriminate].
    cbn in T2. rewrite (Ha e (nth_error_In _ _ E)) in T2. discriminate. }
  exists (firstn (k - length lb) m), (skipn (k - length lb) m). split; [symmetry; apply firstn_skipn|].
  assert (L1 : length (firstn (k - length lb) m) = (k - length lb)%nat) by (rewrite firstn_length; lia).
  split; [lia|]. split.
  - intros e E. destruct (lst_split _ _ E) as (m0 & E0). rewrite E0, app_length in L1. cbn in L1.
    destruct k as [|k'] eqn:Ek; [lia|]. specialize (T2 k' eq_refl). rewrite nth_error_map, nth_error_app2, nth_error_app1 in T2 by lia.
    assert (E1 : nth_error m (k' - length lb) = Some e).
    { rewrite <- (firstn_skipn (S k' - length lb) m), E0, <- app_assoc, nth_error_app2 by lia. replace (k' - length lb - length m0)%nat with 0%nat by lia. reflexivity. }
    rewrite E1 in T2. cbn in T2. congruence.
  - intros e E. destruct (le_lt_dec (length lb + length m) k) as [L|L]; [rewrite skipn_all2 in E by lia; discriminate|].
    specialize (T3 ltac:(rewrite map_length, !app_length; lia)). rewrite nth_error_map, nth_error_app2, nth_error_app1 in T3 by lia.
    assert (E1 : nth_error m (k - length lb) = Some e).
    { rewrite <- (firstn_skipn (k - length lb) m), nth_error_app2 by lia. rewrite L1, Nat.sub_diag. destruct (skipn (k - length lb) m); [discriminate|]. exact E. }
    rewrite E1 in T3. cbn in T3. congruence.
Qed.
