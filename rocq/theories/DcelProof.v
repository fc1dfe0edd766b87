From Verif Require Import Base CmpModel DcelModel DcelSpec.
From Coq Require Import Arith Permutation Lia.

Lemma NoDup_app_remove_r : forall (A : Type) (l m : list A), NoDup (l ++ m) -> NoDup l.
Proof. induction l as [|x l IH]; intros m N; [constructor|]. cbn in N. inversion N as [|? ? N1 N2]; subst. constructor; [intro I; apply N1; apply in_or_app; left; exact I|exact (IH m N2)]. Qed.
Lemma NoDup_app_remove_l : forall (A : Type) (l m : list A), NoDup (l ++ m) -> NoDup m.
Proof. induction l as [|x l IH]; intros m N; [exact N|]. cbn in N. inversion N as [|? ? N1 N2]; subst. exact (IH m N2). Qed.
Lemma last_app : forall (A : Type) (c : list A) t d, last (c ++ [t]) d = t.
Proof. induction c as [|x c IH]; intros t d; [reflexivity|]. cbn [app]. destruct (c ++ [t]) eqn:E; [destruct c; discriminate|]. rewrite <- E. cbn. rewrite E. rewrite <- E. apply IH. Qed.
Lemma open_fst : forall (A : Type) (l : list A), map fst (open_sides l) = removelast l.
Proof. intros A l. unfold open_sides. induction l as [|x l IH]; [reflexivity|]. destruct l as [|y l]; [reflexivity|]. cbn in *. f_equal. exact IH. Qed.
Lemma open_snd : forall (A : Type) (l : list A), map snd (open_sides l) = tl l.
Proof. intros A l. unfold open_sides. induction l as [|x l IH]; [reflexivity|]. destruct l as [|y l]; [reflexivity|]. cbn in *. f_equal. exact IH. Qed.
Lemma open_snoc : forall (A : Type) (c : list A) t u, open_sides ((c ++ [t]) ++ [u]) = open_sides (c ++ [t]) ++ [(t, u)].
Proof. intros A c t u. unfold open_sides. induction c as [|x c IH]; [reflexivity|]. destruct c as [|y c]; [reflexivity|]. cbn in *. f_equal. exact IH. Qed.
Lemma closed_open : forall (A : Type) a (l : list A) d, closed_sides (a :: l) = open_sides (a :: l) ++ [(last (a :: l) d, a)].
Proof.
  intros A a l d. unfold closed_sides, open_sides. change (tl (a :: l)) with l.
  assert (G : forall b (m : list A), combine (b :: m) (m ++ [a]) = combine (b :: m) m ++ [(last (b :: m) d, a)]).
  { intros b m. revert b. induction m as [|y m IH]; intro b; [reflexivity|]. change (combine (b :: y :: m) ((y :: m) ++ [a])) with ((b, y) :: combine (y :: m) (m ++ [a])). rewrite IH. reflexivity. }
  apply G.
Qed.
Lemma in_hd_tl : forall (l : list nat) u, In u l -> u <> hd 0%nat l -> In u (tl l).
Proof. intros [|x l] u I N; [destruct I|]. destruct I as [<- |I]; [destruct N; reflexivity|exact I]. Qed.
Lemma in_tl_prev : forall (l : list nat) u, In u (tl l) -> exists w, In (w, u) (open_sides l).
Proof. intros l u I. rewrite <- open_snd in I. apply in_map_iff in I. destruct I as ((w & x) & E & I). cbn in E. subst. exists w. exact I. Qed.
Lemma in_init_next : forall (l : list nat) u, In u (removelast l) -> exists w, In (u, w) (open_sides l).
Proof. intros l u I. rewrite <- open_fst in I. apply in_map_iff in I. destruct I as ((x & w) & E & I). cbn in E. subst. exists w. exact I. Qed.
Lemma open_in : forall (l : list nat) u w, In (u, w) (open_sides l) -> In u l /\ In w l.
Proof.
  intros l u w I. split.
  - unfold open_sides in I. exact (in_combine_l _ _ _ _ I).
  - unfold open_sides in I. apply in_combine_r in I. destruct l; [destruct I|right; exact I].
Qed.

Section Graph.
Variable E : list (nat * nat).
Hypothesis NF : NoDup (map fst E).
Hypothesis NS : NoDup (map snd E).

Lemma nodup_map_inj : forall (f : nat * nat -> nat), NoDup (map f E) -> forall a b, In a E -> In b E -> f a = f b -> a = b.
Proof.
  intro f. generalize E. induction E0 as [|e l IH]; intros N a b IA IB EQ; [destruct IA|]. cbn in N. inversion N as [|? ? N1 N2]; subst. destruct IA as [<- |IA]; destruct IB as [<- |IB]; [reflexivity|exfalso; apply N1; rewrite EQ; apply in_map; exact IB|exfalso; apply N1; rewrite <- EQ; apply in_map; exact IA|exact (IH N2 a b IA IB EQ)].
Qed.
Lemma out_unique : forall s t u, In (s, t) E -> In (s, u) E -> t = u.
Proof. intros s t u A B. pose proof (nodup_map_inj fst NF _ _ A B eq_refl). congruence. Qed.
Lemma in_unique : forall s t u, In (s, u) E -> In (t, u) E -> s = t.
Proof. intros s t u A B. pose proof (nodup_map_inj snd NS _ _ A B eq_refl). congruence. Qed.
Lemma first_out_some : forall t u, first_out E t = Some u -> In (t, u) E.
Proof.
  intros t u H. unfold first_out in H. destruct (find _ E) as [[a b]|] eqn:F; [|discriminate]. cbn in H. injection H as <-. apply find_some in F. destruct F as [I Q]. cbn in Q. apply Nat.eqb_eq in Q. subst. exact I.
Qed.
Lemma first_out_none : forall t u, first_out E t = None -> ~ In (t, u) E.
Proof.
  intros t u H I. unfold first_out in H. destruct (find _ E) as [[a b]|] eqn:F; [discriminate|]. pose proof (find_none _ _ F _ I) as Q. cbn in Q. apply Nat.eqb_neq in Q. congruence.
Qed.
Lemma in_degree_zero : forall v, in_degree E v = 0%nat <-> forall w, ~ In (w, v) E.
Proof.
  intro v. unfold in_degree. split.
  - intros H w I. destruct (filter (fun e => Nat.eqb (snd e) v) E) eqn:F; [|discriminate]. assert (K : In (w, v) []) by (rewrite <- F; apply filter_In; split; [exact I|cbn; apply Nat.eqb_refl]). destruct K.
  - intro H. destruct (filter (fun e => Nat.eqb (snd e) v) E) as [|[a b] l] eqn:F; [reflexivity|]. assert (K : In (a, b) (filter (fun e => Nat.eqb (snd e) v) E)) by (rewrite F; left; reflexivity). apply filter_In in K. destruct K as [I Q]. cbn in Q. apply Nat.eqb_eq in Q. subst. destruct (H a I).
Qed.

(** The set [P] contains both ends of an edge or none. *)
Definition closed_set (P : nat -> Prop) : Prop := forall s t, In (s, t) E -> (P s <-> P t).
(** [C] is a connected component. *)
Definition is_component (C : list nat) : Prop :=
  NoDup C /\ C <> [] /\ closed_set (fun v => In v C) /\
  forall P u v, closed_set P -> In u C -> P u -> In v C -> P v.

Lemma back_head : forall c t u, NoDup (c ++ [t]) -> incl (open_sides (c ++ [t])) E -> In (t, u) E -> In u (c ++ [t]) -> u = hd 0%nat (c ++ [t]).
Proof.
  intros c t u N I ET IU. destruct (Nat.eq_dec u (hd 0%nat (c ++ [t]))) as [Q|Q]; [exact Q|exfalso].
  destruct (in_tl_prev _ _ (in_hd_tl _ _ IU Q)) as (w & W). pose proof (in_unique _ _ _ ET (I _ W)) as EW. subst w.
  assert (K : In t (map fst (open_sides (c ++ [t])))) by (apply in_map_iff; exists (t, u); auto). rewrite open_fst, removelast_last in K. apply NoDup_remove in N. rewrite app_nil_r in N. tauto.
Qed.
Lemma chain_closed : forall l, l <> [] -> incl (open_sides l) E ->
  (((forall w, ~ In (w, hd 0%nat l) E) /\ (forall w, ~ In (last l 0%nat, w) E)) \/ In (last l 0%nat, hd 0%nat l) E) -> closed_set (fun v => In v l).
Proof.
  intros l NE I K s t ES. destruct (@exists_last _ l NE) as (c & x & ->). rewrite last_app in K. split; intro IN.
  - destruct (Nat.eq_dec s x) as [-> |N].
    + destruct K as [[_ K]|K]; [destruct (K t ES)|]. rewrite (out_unique _ _ _ ES K). destruct c; left; reflexivity.
    + apply in_app_or in IN. destruct IN as [IN|[IN|[]]]; [|congruence]. rewrite <- (removelast_last c x) in IN. destruct (in_init_next _ _ IN) as (w & W). rewrite (out_unique _ _ _ ES (I _ W)). apply (open_in _ _ _ W).
  - destruct (Nat.eq_dec t (hd 0%nat (c ++ [x]))) as [Q|N].
    + destruct K as [[K _]|K]; [rewrite Q in ES; destruct (K s ES)|]. rewrite Q in ES. rewrite (in_unique _ _ _ ES K). apply in_or_app. right. left. reflexivity.
    + destruct (in_tl_prev _ _ (in_hd_tl _ _ IN N)) as (w & W). rewrite (in_unique _ _ _ ES (I _ W)). apply (open_in _ _ _ W).
Qed.

Lemma filter_out_perm : forall (l : list nat) t, NoDup l -> In t l -> Permutation l (t :: filter (fun v => negb (Nat.eqb v t)) l).
Proof.
  induction l as [|x l IH]; intros t N I; [destruct I|]. inversion N as [|? ? N1 N2]; subst. cbn. destruct (Nat.eqb_spec x t) as [-> |Q].
  - cbn. assert (F : filter (fun v => negb (Nat.eqb v t)) l = l). { clear - N1. induction l as [|y l IH]; [reflexivity|]. cbn. destruct (Nat.eqb_spec y t) as [-> |Q]; [destruct N1; left; reflexivity|]. cbn. f_equal. apply IH. intro I. apply N1. right. exact I. } rewrite F. reflexivity.
  - cbn. destruct I as [-> |I]; [congruence|]. rewrite (IH t N2 I) at 1. apply perm_swap.
Qed.
Lemma filter_out_length : forall (l : list nat) t, NoDup l -> In t l -> length l = S (length (filter (fun v => negb (Nat.eqb v t)) l)).
Proof. intros l t N I. rewrite (Permutation_length (filter_out_perm l t N I)) at 1. reflexivity. Qed.

(** What the walk relies on: the chain starts where no edge ends, or all vertices have an edge
    out. *)
Definition start_ok (C : list nat) (h : nat) : Prop := (forall w, ~ In (w, h) E) \/ (forall v, In v C -> exists u, In (v, u) E).

Lemma walk_ok : forall C, is_component C -> forall fuel comp c t, (length comp <= fuel)%nat -> NoDup comp -> Permutation ((c ++ [t]) ++ comp) C -> incl (open_sides (c ++ [t])) E ->
  start_ok C (hd 0%nat (c ++ [t])) ->
  exists out, walk fuel E comp t (c ++ [t]) = Some out /\ Permutation out C /\ incl (open_sides out) E /\ hd 0%nat out = hd 0%nat (c ++ [t]) /\ out <> [].
Proof.
  intros C (NC & _ & CC & CN). induction fuel as [|fuel IH]; intros comp c t L NCo PM IO ST.
  - destruct comp; [|cbn in L; lia]. rewrite app_nil_r in PM. exists (c ++ [t]). split; [reflexivity|]. split; [exact PM|]. split; [exact IO|]. split; [reflexivity|]. destruct c; discriminate.
  - destruct comp as [|x comp]; [rewrite app_nil_r in PM; exists (c ++ [t]); split; [reflexivity|]; split; [exact PM|]; split; [exact IO|]; split; [reflexivity|]; destruct c; discriminate|].
    assert (NA : NoDup ((c ++ [t]) ++ x :: comp)) by (apply (Permutation_NoDup (Permutation_sym PM)); exact NC).
    assert (NCh : NoDup (c ++ [t])) by (apply NoDup_app_remove_r in NA; exact NA).
    assert (TC : In t C) by (apply (Permutation_in _ PM); apply in_or_app; left; apply in_or_app; right; left; reflexivity).
    assert (HC : In (hd 0%nat (c ++ [t])) C) by (apply (Permutation_in _ PM); apply in_or_app; left; destruct c; left; reflexivity).
    assert (NCL : ~ closed_set (fun v => In v (c ++ [t]))).
    { intro K. assert (IX : In x (c ++ [t])) by (apply (CN _ t x K TC); [apply in_or_app; right; left; reflexivity|apply (Permutation_in _ PM); apply in_or_app; right; left; reflexivity]).
      apply NoDup_remove_2 in NA. apply NA. apply in_or_app. left. exact IX. }
    cbn [walk]. destruct (first_out E t) as [u|] eqn:FO.
    + pose proof (first_out_some _ _ FO) as EU. assert (UC : In u C) by (apply (CC _ _ EU); exact TC).
      assert (NU : ~ In u (c ++ [t])). { intro IU. pose proof (back_head _ _ _ NCh IO EU IU) as Q. destruct ST as [ST|ST]; [rewrite <- Q in ST; exact (ST t EU)|]. apply NCL. apply chain_closed; [destruct c; discriminate|exact IO|]. right. rewrite last_app, <- Q. exact EU. }
      assert (IU : In u (x :: comp)) by (apply (Permutation_in _ (Permutation_sym PM)) in UC; apply in_app_or in UC; tauto).
      assert (EX : existsb (Nat.eqb u) (x :: comp) = true) by (apply existsb_exists; exists u; split; [exact IU|apply Nat.eqb_refl]). rewrite EX.
      pose proof (filter_out_length _ _ NCo IU) as FL. pose proof (filter_out_perm _ _ NCo IU) as FP.
      destruct (IH (filter (fun v => negb (Nat.eqb v u)) (x :: comp)) (c ++ [t]) u) as (out & W & PO & I2 & H2 & N2).
      * cbn [length] in *. lia.
      * apply NoDup_filter. exact NCo.
      * rewrite <- PM. rewrite <- !app_assoc. apply Permutation_app_head. apply Permutation_app_head. cbn [app]. symmetry. exact FP.
      * rewrite open_snoc. intros e I. apply in_app_or in I. destruct I as [I|[<- |[]]]; [exact (IO e I)|exact EU].
      * replace (hd 0%nat ((c ++ [t]) ++ [u])) with (hd 0%nat (c ++ [t])) by (destruct c; reflexivity). exact ST.
      * exists out. split; [exact W|]. split; [exact PO|]. split; [exact I2|]. split; [|exact N2]. rewrite H2. destruct c; reflexivity.
    + exfalso. destruct ST as [ST|ST].
      * apply NCL. apply chain_closed; [destruct c; discriminate|exact IO|]. left. split; [exact ST|]. intros w. rewrite last_app. apply first_out_none. exact FO.
      * destruct (ST t TC) as (u & EU). exact (first_out_none t u FO EU).
Qed.

Lemma cycle_out : forall C, is_component C -> (forall v, In v C -> exists w, In (w, v) E) -> forall v, In v C -> exists u, In (v, u) E.
Proof.
  intros C (NC & _ & CC & _) HI.
  set (EC := filter (fun e => if in_dec Nat.eq_dec (snd e) C then true else false) E).
  assert (SUB : forall e, In e EC <-> In e E /\ In (snd e) C). { intro e. unfold EC. rewrite filter_In. destruct (in_dec Nat.eq_dec (snd e) C); intuition congruence. }
  assert (NFC : NoDup (map fst EC)). { unfold EC. clear - NF. induction E as [|e l IH]; [constructor|]. cbn in *. inversion NF as [|? ? N1 N2]; subst. destruct (in_dec Nat.eq_dec (snd e) C); [|exact (IH N2)]. cbn. constructor; [|exact (IH N2)]. intro I. apply N1. apply in_map_iff in I. destruct I as (x & Q & I). apply filter_In in I. rewrite <- Q. apply in_map. tauto. }
  assert (LE : (length C <= length EC)%nat). { rewrite <- (map_length snd EC). apply NoDup_incl_length; [exact NC|]. intros v I. destruct (HI v I) as (w & W). apply in_map_iff. exists (w, v). split; [reflexivity|]. apply SUB. auto. }
  assert (INC : incl (map fst EC) C). { intros v I. apply in_map_iff in I. destruct I as ([s t] & Q & I). cbn in Q. subst. apply SUB in I. destruct I as [I J]. cbn in J. apply (CC _ _ I). exact J. }
  assert (COV : incl C (map fst EC)) by (apply NoDup_length_incl; [exact NFC|rewrite map_length; exact LE|exact INC]).
  intros v I. apply COV in I. apply in_map_iff in I. destruct I as ([s t] & Q & I). cbn in Q. subst. exists t. apply SUB in I. tauto.
Qed.

Lemma find_start_some : forall C v, find_start E C = Some v -> In v C /\ forall w, ~ In (w, v) E.
Proof. intros C v H. unfold find_start in H. apply find_some in H. destruct H as [I Q]. split; [exact I|]. apply in_degree_zero. apply Nat.eqb_eq. exact Q. Qed.
Lemma find_start_none : forall C, find_start E C = None -> forall v, In v C -> exists w, In (w, v) E.
Proof.
  intros C H v I. unfold find_start in H. pose proof (find_none _ _ H v I) as Q. cbn in Q. apply Nat.eqb_neq in Q.
  unfold in_degree in Q. destruct (filter (fun e => Nat.eqb (snd e) v) E) as [|[a b] l] eqn:F; [destruct Q; reflexivity|]. assert (K : In (a, b) (filter (fun e => Nat.eqb (snd e) v) E)) by (rewrite F; left; reflexivity). apply filter_In in K. destruct K as [J Z]. cbn in Z. apply Nat.eqb_eq in Z. subst. exists a. exact J.
Qed.

(** The sides of a component's chain are its edges. *)
Definition sides_of (C : list nat) (S : list (nat * nat)) : Prop := NoDup S /\ incl S E /\ (forall e, In e S -> In (fst e) C) /\ forall e, In e E -> In (fst e) C -> In e S.

Lemma nodup_fst : forall (S : list (nat * nat)), NoDup (map fst S) -> NoDup S.
Proof. intros S H. exact (NoDup_map_inv _ _ H). Qed.
Lemma removelast_nodup : forall (l : list nat), NoDup l -> NoDup (removelast l).
Proof. intros l N. destruct l as [|a l]; [exact N|]. destruct (@exists_last _ (a :: l)) as (c & x & Q); [discriminate|]. rewrite Q in *. rewrite removelast_last. apply NoDup_app_remove_r in N. exact N. Qed.

Lemma open_chain_ok : forall C fuel, is_component C -> (length C <= fuel)%nat -> forall v, find_start E C = Some v ->
  exists out, walk fuel E (filter (fun w => negb (Nat.eqb w v)) C) v [v] = Some out /\ Permutation out C /\ sides_of C (open_sides out).
Proof.
  intros C fuel CO L v FS. destruct (find_start_some _ _ FS) as [IV NV]. pose proof CO as (NC & _ & CC & CN).
  pose proof (filter_out_perm _ _ NC IV) as FP. pose proof (filter_out_length _ _ NC IV) as FL.
  destruct (walk_ok C CO fuel (filter (fun w => negb (Nat.eqb w v)) C) [] v) as (out & W & PO & IO & HO & NO).
  - lia.
  - apply NoDup_filter. exact NC.
  - symmetry. exact FP.
  - intros e [].
  - left. exact NV.
  - exists out. split; [exact W|]. split; [exact PO|]. assert (N2 : NoDup out) by (apply (Permutation_NoDup (Permutation_sym PO)); exact NC). split.
    + apply nodup_fst. rewrite open_fst. apply removelast_nodup. exact N2.
    + split; [exact IO|]. split; [intros [s t] I; apply (Permutation_in _ PO); exact (proj1 (open_in _ _ _ I))|].
      intros [s t] I IC. cbn in IC. destruct (CC _ _ I) as [F _]. specialize (F IC). assert (IT : In t out) by (apply (Permutation_in _ (Permutation_sym PO)); exact F).
      assert (NH : t <> hd 0%nat out). { intro Q. rewrite HO in Q. cbn in Q. subst. exact (NV s I). }
      destruct (in_tl_prev _ _ (in_hd_tl _ _ IT NH)) as (w & Wd). rewrite (in_unique _ _ _ I (IO _ Wd)). exact Wd.
Qed.
Lemma closed_chain_ok : forall C fuel, is_component C -> (length C <= fuel)%nat -> find_start E C = None ->
  exists out, walk fuel E (filter (fun w => negb (Nat.eqb w (hd 0%nat C))) C) (hd 0%nat C) [hd 0%nat C] = Some out /\ Permutation out C /\ sides_of C (closed_sides out).
Proof.
  intros C fuel CO L FS. pose proof (find_start_none _ FS) as HI. pose proof (cycle_out C CO HI) as HO. pose proof CO as (NC & NE & CC & CN).
  set (v := hd 0%nat C) in *. assert (IV : In v C) by (unfold v; destruct C; [congruence|left; reflexivity]).
  pose proof (filter_out_perm _ _ NC IV) as FP. pose proof (filter_out_length _ _ NC IV) as FL.
  destruct (walk_ok C CO fuel (filter (fun w => negb (Nat.eqb w v)) C) [] v) as (out & W & PO & IO & HD & NO).
  - lia.
  - apply NoDup_filter. exact NC.
  - symmetry. exact FP.
  - intros e [].
  - right. exact HO.
  - exists out. split; [exact W|]. split; [exact PO|]. assert (N2 : NoDup out) by (apply (Permutation_NoDup (Permutation_sym PO)); exact NC).
    assert (LAST : In (last out 0%nat, hd 0%nat out) E).
    { destruct (@exists_last _ out NO) as (c & t & Q). subst out. rewrite last_app. assert (TC : In t C) by (apply (Permutation_in _ PO); apply in_or_app; right; left; reflexivity). destruct (HO t TC) as (u & EU). assert (UC : In u C) by (apply (CC _ _ EU); exact TC). rewrite <- (back_head c t u N2 IO EU); [exact EU|apply (Permutation_in _ (Permutation_sym PO)); exact UC]. }
    destruct out as [|a l]; [congruence|]. rewrite (closed_open _ a l 0%nat).
    assert (INC : incl (open_sides (a :: l) ++ [(last (a :: l) 0%nat, a)]) E). { intros e I. apply in_app_or in I. destruct I as [I|[<- |[]]]; [exact (IO e I)|exact LAST]. }
    split; [|split; [exact INC|split]].
    + apply nodup_fst. rewrite map_app, open_fst. cbn [map fst]. rewrite <- app_removelast_last; [exact N2|discriminate].
    + intros e I. apply in_app_or in I. destruct I as [I|[<- |[]]]; apply (Permutation_in _ PO); [destruct e; exact (proj1 (open_in _ _ _ I))|]. cbn [fst]. clear. revert a. induction l as [|y l IH]; intro a; [left; reflexivity|]. right. exact (IH y).
    + intros [s t] I IC. cbn in IC. destruct (CC _ _ I) as [F _]. specialize (F IC). assert (IT : In t (a :: l)) by (apply (Permutation_in _ (Permutation_sym PO)); exact F). apply in_or_app.
      destruct (Nat.eq_dec t a) as [-> |NA]; [right; left; f_equal; exact (eq_sym (in_unique _ _ _ I LAST))|left].
      destruct (in_tl_prev _ _ (in_hd_tl _ _ IT NA)) as (w & Wd). rewrite (in_unique _ _ _ I (IO _ Wd)). exact Wd.
Qed.

Lemma sequences_ok : forall fuel comps, (forall C, In C comps -> is_component C /\ (length C <= fuel)%nat) -> NoDup (concat comps) ->
  exists lines gons, sequences fuel E comps = Some (lines, gons) /\ Permutation (concat lines ++ concat gons) (concat comps) /\
    sides_of (concat comps) (flat_map open_sides lines ++ flat_map closed_sides gons) /\
    (forall l, In l lines -> exists C v, In C comps /\ Permutation l C /\ In v C /\ (forall w, ~ In (w, v) E) /\ sides_of C (open_sides l)) /\ (forall l, In l gons -> l <> []).
Proof.
  intros fuel. induction comps as [|C comps IH]; intros H N.
  - exists [], []. split; [reflexivity|]. split; [reflexivity|]. split; [|split; intros ? []]. split; [constructor|]. split; [intros ? []|]. split; [intros ? []|intros e _ []].
  - destruct IH as (lines & gons & S & P & (S1 & S2 & S3 & S4) & LO & GO); [intros D I; apply H; right; exact I|cbn in N; apply NoDup_app_remove_l in N; exact N|].
    destruct (H C (or_introl eq_refl)) as [CO L]. cbn [concat] in N.
    assert (DIS : forall v, In v C -> In v (concat comps) -> False). { intros v I J. clear - N I J. induction C as [|x C IH]; [destruct I|]. inversion N as [|? ? N1 N2]; subst. destruct I as [-> |I]; [apply N1; apply in_or_app; right; exact J|exact (IH N2 I)]. }
    assert (JOIN : forall T U, sides_of C T -> sides_of (concat comps) U -> sides_of (concat (C :: comps)) (T ++ U)).
    { intros T U (T1 & T2 & T3 & T4) (U1 & U2 & U3 & U4). split; [|split; [|split]].
      - clear - T1 U1 T3 U3 DIS. induction T as [|e T IHT]; [exact U1|]. inversion T1 as [|? ? N1 N2]; subst. cbn. constructor.
        + intro I. apply in_app_or in I. destruct I as [I|I]; [exact (N1 I)|]. apply (DIS (fst e)); [apply T3; left; reflexivity|apply U3; exact I].
        + apply IHT; [exact N2|]. intros x I. apply T3. right. exact I.
      - intros e I. apply in_app_or in I. destruct I; auto.
      - intros e I. cbn [concat]. apply in_or_app. apply in_app_or in I. destruct I; auto.
      - intros e I J. cbn [concat] in J. apply in_or_app. apply in_app_or in J. destruct J; auto. }
    assert (PERM : forall D S' S'', Permutation S' S'' -> sides_of D S' -> sides_of D S''). { intros D S' S'' PS (A1 & A2 & A3 & A4). split; [exact (Permutation_NoDup PS A1)|]. split; [intros e I; apply A2; apply (Permutation_in _ (Permutation_sym PS)); exact I|]. split; [intros e I; apply A3; apply (Permutation_in _ (Permutation_sym PS)); exact I|]. intros e I J. apply (Permutation_in _ PS). auto. }
    cbn [sequences]. rewrite S. destruct (find_start E C) as [v|] eqn:FS.
    + destruct (open_chain_ok C fuel CO L v FS) as (out & W & PO & SO). rewrite W. exists (out :: lines), gons. split; [reflexivity|]. split; [cbn [concat]; rewrite <- app_assoc; apply Permutation_app; assumption|]. split.
      * cbn [flat_map]. rewrite <- app_assoc. apply JOIN; [exact SO|split; [exact S1|split; [exact S2|split; assumption]]].
      * split; [|exact GO]. intros l [<- |I].
        -- exists C, v. split; [left; reflexivity|]. split; [exact PO|]. destruct (find_start_some _ _ FS) as [IV NV]. auto.
        -- destruct (LO l I) as (D & w & ID & R). exists D, w. split; [right; exact ID|exact R].
    + destruct (closed_chain_ok C fuel CO L FS) as (out & W & PO & SO). rewrite W. exists lines, (out :: gons). split; [reflexivity|]. split.
      * cbn [concat]. rewrite (Permutation_app_swap_app (concat lines) out (concat gons)). apply Permutation_app; assumption.
      * split.
        -- cbn [flat_map]. apply (PERM _ (closed_sides out ++ (flat_map open_sides lines ++ flat_map closed_sides gons))); [apply Permutation_app_swap_app|]. apply JOIN; [exact SO|split; [exact S1|split; [exact S2|split; assumption]]].
        -- split; [intros l I; destruct (LO l I) as (D & w & ID & R); exists D, w; split; [right; exact ID|exact R]|]. intros l [<- |I]; [|exact (GO l I)]. intro Q. subst. apply Permutation_nil in PO. subst. destruct CO as (_ & NE & _). congruence.
Qed.
End Graph.
