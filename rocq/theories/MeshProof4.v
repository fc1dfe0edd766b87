From Verif Require Import RBase AngleModel MeshModel MeshSpec MeshProof3.
From Coq Require Import Sorting.Sorted.

(** ** The map of directed edges *)
Lemma key_eq_spec : forall a b, reflect (a = b) (key_eq a b).
Proof. intros [a b] [c d]. unfold key_eq. cbn [fst snd]. destruct (Nat.eqb_spec a c), (Nat.eqb_spec b d); cbn; constructor; congruence. Qed.
Definition klt (a b : edge_key) : Prop := (fst a < fst b)%nat \/ (fst a = fst b /\ snd a < snd b)%nat.
Lemma key_lt_spec : forall a b, reflect (klt a b) (key_lt a b).
Proof.
  intros [a b] [c d]. unfold key_lt, klt. cbn [fst snd]. destruct (Nat.ltb_spec0 a c), (Nat.eqb_spec a c), (Nat.ltb_spec0 b d); cbn; constructor; lia.
Qed.
Lemma klt_total : forall a b, a <> b -> klt a b \/ klt b a.
Proof. intros [a b] [c d] N. unfold klt. cbn [fst snd]. assert (a <> c \/ b <> d) by (destruct (Nat.eq_dec a c), (Nat.eq_dec b d); [subst; contradiction|auto|auto|auto]). lia. Qed.
Lemma klt_trans : forall a b c, klt a b -> klt b c -> klt a c.
Proof. unfold klt. lia. Qed.
Lemma klt_irrefl : forall a, ~ klt a a.
Proof. unfold klt. lia. Qed.
Definition kv_lt (a b : edge_key * list adj_item) : Prop := klt (fst a) (fst b).
Lemma push_back_keys : forall m k x kv, In kv (push_back m k x) -> fst kv = k \/ exists kv', In kv' m /\ fst kv' = fst kv.
Proof.
  induction m as [|[k' xs] m IH]; intros k x kv H; cbn [push_back] in H.
  - destruct H as [<-|[]]. left. reflexivity.
  - destruct (key_eq_spec k' k) as [->|NE].
    + destruct H as [<-|H]; [left; reflexivity|]. right. exists kv. split; [right; exact H|reflexivity].
    + destruct (key_lt_spec k k').
      * destruct H as [<-|H]; [left; reflexivity|]. right. exists kv. split; [exact H|reflexivity].
      * destruct H as [<-|H]; [right; exists (k', xs); split; [left; reflexivity|reflexivity]|].
        destruct (IH k x kv H) as [G|(kv' & G1 & G2)]; [left; exact G|]. right. exists kv'. split; [right; exact G1|exact G2].
Qed.
Lemma push_back_sorted : forall m k x, StronglySorted kv_lt m -> StronglySorted kv_lt (push_back m k x).
Proof.
  induction m as [|[k' xs] m IH]; intros k x S; cbn [push_back]; [repeat constructor|].
  inversion S as [|? ? S' F]; subst. destruct (key_eq_spec k' k) as [->|NE].
  - constructor; [exact S'|]. exact F.
  - destruct (key_lt_spec k k') as [L|L].
    + constructor; [exact S|]. constructor; [exact L|]. rewrite Forall_forall in F. apply Forall_forall. intros kv I. apply (klt_trans _ k'); [exact L|apply (F kv I)].
    + constructor; [apply IH, S'|]. apply Forall_forall. intros kv I. destruct (push_back_keys m k x kv I) as [G|(kv' & G1 & G2)].
      * unfold kv_lt. cbn [fst]. rewrite G. destruct (klt_total k' k NE); [assumption|contradiction].
      * rewrite Forall_forall in F. specialize (F kv' G1). unfold kv_lt in *. rewrite <- G2. exact F.
Qed.
Lemma find_not_before : forall m k, StronglySorted kv_lt m -> (forall kv, In kv m -> klt k (fst kv)) -> find_edge m k = None.
Proof.
  induction m as [|[k' xs] m IH]; intros k S H; cbn [find_edge]; [reflexivity|]. destruct (key_eq_spec k' k) as [->|].
  - exfalso. apply (klt_irrefl k). apply (H (k, xs)). left. reflexivity.
  - inversion S; subst. apply IH; [assumption|]. intros kv I. apply H. right. exact I.
Qed.
Lemma find_push_back : forall m k x k', StronglySorted kv_lt m ->
  find_edge (push_back m k x) k' = if key_eq k k' then Some (match find_edge m k with Some xs => xs ++ [x] | None => [x] end) else find_edge m k'.
Proof.
  induction m as [|[k0 xs] m IH]; intros k x k' S; cbn [push_back find_edge]; [reflexivity|].
  inversion S as [|? ? S' F]; subst. destruct (key_eq_spec k0 k) as [->|NE]; cbn [find_edge].
  - destruct (key_eq_spec k k'); reflexivity.
  - destruct (key_lt_spec k k0) as [L|L]; cbn [find_edge].
    + assert (N : find_edge m k = None) by (apply find_not_before; [exact S'|]; intros kv I; rewrite Forall_forall in F; apply (klt_trans _ k0); [exact L|apply (F kv I)]).
      rewrite N. destruct (key_eq_spec k k'); reflexivity.
    + rewrite IH by exact S'. destruct (key_eq_spec k0 k') as [->|]; [|reflexivity]. destruct (key_eq_spec k k') as [->|]; [contradiction|reflexivity].
Qed.
Lemma find_in : forall m k xs, StronglySorted kv_lt m -> (In (k, xs) m <-> find_edge m k = Some xs).
Proof.
  induction m as [|[k0 ys] m IH]; intros k xs S; cbn [find_edge In]; [split; [intros []|discriminate]|].
  inversion S as [|? ? S' F]; subst. destruct (key_eq_spec k0 k) as [->|NE].
  - split; [|intro E; inversion E; auto]. intros [E|I]; [congruence|]. exfalso. rewrite Forall_forall in F. apply (klt_irrefl k). apply (F _ I).
  - rewrite <- IH by exact S'. split; [intros [E|I]; [congruence|exact I]|auto].
Qed.

(** What is stored: [items m k] lists the sides with directed edge [k]. *)
Definition items (m : edge_map) (k : edge_key) : list adj_item := match find_edge m k with Some xs => xs | None => [] end.
Lemma items_push_back : forall m k x k', StronglySorted kv_lt m -> items (push_back m k x) k' = if key_eq k k' then items m k' ++ [x] else items m k'.
Proof.
  intros m k x k' S. unfold items. rewrite find_push_back by exact S. destruct (key_eq_spec k k') as [->|]; [|reflexivity]. destruct (find_edge m k'); reflexivity.
Qed.
Lemma in_items_push_back : forall m k x k' y, StronglySorted kv_lt m -> (In y (items (push_back m k x) k') <-> In y (items m k') \/ (k = k' /\ x = y)).
Proof.
  intros m k x k' y S. rewrite items_push_back by exact S. destruct (key_eq_spec k k') as [E|E]; [|tauto]. rewrite in_app_iff. cbn [In]. tauto.
Qed.
Lemma edges_of_ok : forall l i0 m, StronglySorted kv_lt m -> StronglySorted kv_lt (edges_of i0 l m) /\
  forall k j s, In (j, s) (items (edges_of i0 l m) k) <-> In (j, s) (items m k) \/ exists n t, j = (i0 + n)%nat /\ nth_error l n = Some t /\ directed_edge t s = Some k.
Proof.
  induction l as [|[[a b] c] l IH]; intros i0 m S; cbn [edges_of].
  - split; [exact S|]. intros k j s. split; [auto|]. intros [H|(n & t & _ & E & _)]; [exact H|destruct n; discriminate].
  - set (m1 := push_back m (a, b) (i0, 0%nat)). assert (S1 : StronglySorted kv_lt m1) by (apply push_back_sorted, S).
    set (m2 := push_back m1 (b, c) (i0, 1%nat)). assert (S2 : StronglySorted kv_lt m2) by (apply push_back_sorted, S1).
    set (m3 := push_back m2 (c, a) (i0, 2%nat)). assert (S3 : StronglySorted kv_lt m3) by (apply push_back_sorted, S2).
    destruct (IH (Datatypes.S i0) m3 S3) as [A B]. split; [exact A|]. intros k j s. rewrite B.
    assert (I3 : In (j, s) (items m3 k) <-> In (j, s) (items m k) \/ (j = i0 /\ directed_edge (a, b, c) s = Some k)).
    { unfold m3. rewrite in_items_push_back by exact S2. unfold m2. rewrite in_items_push_back by exact S1. unfold m1. rewrite in_items_push_back by exact S. split.
      - intros [[[H|[E H]]|[E H]]|[E H]]; [left; exact H|right..]; inversion H; subst j s k; split; reflexivity.
      - intros [H|[-> H]]; [auto|]. destruct s as [|[|[|s]]]; cbn [directed_edge] in H; inversion H; subst k; auto. }
    rewrite I3. split.
    + intros [[H|[-> H]]|(n & t & -> & E & D)]; [auto|right; exists 0%nat, (a, b, c); split; [lia|]; split; [reflexivity|exact H]|].
      right. exists (Datatypes.S n), t. split; [lia|]. split; [exact E|exact D].
    + intros [H|(n & t & -> & E & D)]; [auto|]. destruct n as [|n]; cbn [nth_error] in E.
      * inversion E. subst t. left. right. split; [lia|exact D].
      * right. exists n, t. split; [lia|]. split; [exact E|exact D].
Qed.

(** ** The links *)
Definition links (all : edge_map) : list (adj_item * adj_item) :=
  flat_map (fun item => match find_edge all (snd (fst item), fst (fst item)) with
                        | Some l => flat_map (fun i => map (fun j => (i, j)) l) (snd item) | None => [] end) all.
Lemma fold_flat : forall {A B S} (f : S -> B -> S) (g : A -> list B) l s, fold_left f (flat_map g l) s = fold_left (fun s a => fold_left f (g a) s) l s.
Proof. intros A B S f g. induction l as [|a l IH]; intro s; cbn [flat_map fold_left]; [reflexivity|]. rewrite fold_left_app. apply IH. Qed.
Lemma fold_map : forall {A B S} (f : S -> B -> S) (g : A -> B) l s, fold_left f (map g l) s = fold_left (fun s a => f s (g a)) l s.
Proof. intros A B S f g. induction l as [|a l IH]; intro s; cbn [map fold_left]; [reflexivity|]. apply IH. Qed.
Lemma fold_ext : forall {A S} (f g : S -> A -> S) l, (forall s a, f s a = g s a) -> forall s, fold_left f l s = fold_left g l s.
Proof. intros A S f g l H. induction l as [|a l IH]; intro s; cbn [fold_left]; [reflexivity|]. rewrite H. apply IH. Qed.
Lemma create_links : forall l, create_adjacency_matrix l = fold_left link (links (edges_of 0 l [])) (fun _ _ => None).
Proof.
  intro l. unfold create_adjacency_matrix, links. cbv zeta. set (all := edges_of 0 l []). rewrite fold_flat. apply fold_ext. intros a [key itrigs]. unfold link_item. cbn [fst snd].
  destruct (find_edge all (snd key, fst key)) as [ys|]; [|reflexivity]. rewrite fold_flat. apply fold_ext. intros a' i. rewrite fold_map. reflexivity.
Qed.
Lemma in_links : forall l x y, In (x, y) (links (edges_of 0 l [])) <-> shares_edge l (fst x) (snd x) (fst y) (snd y).
Proof.
  intros l [i s] [j s']. destruct (edges_of_ok l 0 [] (SSorted_nil _)) as [S E]. set (all := edges_of 0 l []) in *. cbn [fst snd].
  assert (E' : forall k j s, In (j, s) (items all k) <-> exists t, nth_error l j = Some t /\ directed_edge t s = Some k).
  { intros k j0 s0. rewrite E. split; [intros [[]|(n & t & -> & H)]; exists t; exact H|]. intros (t & H). right. exists j0, t. split; [reflexivity|exact H]. }
  unfold links. rewrite in_flat_map. split.
  - intros ([[a b] xs] & I & H). cbn [fst snd] in H. apply find_in in I; [|exact S]. destruct (find_edge all (b, a)) as [ys|] eqn:F; [|contradiction].
    apply in_flat_map in H. destruct H as (x & X & H). apply in_map_iff in H. destruct H as (y & EQ & Y). inversion EQ. subst x y.
    assert (Q1 : In (i, s) (items all (a, b))) by (unfold items; rewrite I; exact X). assert (Q2 : In (j, s') (items all (b, a))) by (unfold items; rewrite F; exact Y).
    apply E' in Q1. apply E' in Q2. destruct Q1 as (ti & T1 & D1), Q2 as (tj & T2 & D2). exists ti, tj, a, b. auto.
  - intros (ti & tj & a & b & T1 & T2 & D1 & D2).
    assert (Q1 : In (i, s) (items all (a, b))) by (apply E'; exists ti; auto). assert (Q2 : In (j, s') (items all (b, a))) by (apply E'; exists tj; auto).
    unfold items in Q1, Q2. destruct (find_edge all (a, b)) as [xs|] eqn:F1; [|contradiction]. destruct (find_edge all (b, a)) as [ys|] eqn:F2; [|contradiction].
    exists ((a, b), xs). split; [apply find_in; assumption|]. cbn [fst snd]. rewrite F2. apply in_flat_map. exists (i, s). split; [exact Q1|]. apply in_map_iff. exists (j, s'). auto.
Qed.
Lemma shares_sym : forall l i s j s', shares_edge l i s j s' -> shares_edge l j s' i s.
Proof. intros l i s j s' (ti & tj & a & b & A & B & C & D). exists tj, ti, b, a. auto. Qed.
Lemma link_some : forall L a i s j, fold_left link L a i s = Some j -> a i s = Some j \/ exists x y, In (x, y) L /\ ((x = (i, s) /\ fst y = j) \/ (y = (i, s) /\ fst x = j)).
Proof.
  induction L as [|[x y] L IH]; intros a i s j H; cbn [fold_left] in H; [left; exact H|]. destruct (IH _ _ _ _ H) as [G|(x' & y' & I & G)].
  - unfold link, set_adj in G. cbn [fst snd] in G. destruct x as [xi xs], y as [yi ys]. cbn [fst snd] in G.
    destruct (Nat.eqb_spec i yi), (Nat.eqb_spec s ys); cbn [andb] in G.
    1: { right. exists (xi, xs), (yi, ys). split; [left; reflexivity|right; cbn [fst]; split; congruence]. }
    all: destruct (Nat.eqb_spec i xi), (Nat.eqb_spec s xs); cbn [andb] in G; [|left; exact G|left; exact G|left; exact G];
      right; exists (xi, xs), (yi, ys); (split; [left; reflexivity|left; cbn [fst]; split; congruence]).
  - right. exists x', y'. split; [right; exact I|exact G].
Qed.
Lemma link_keeps : forall L a i s, a i s <> None -> fold_left link L a i s <> None.
Proof.
  induction L as [|[x y] L IH]; intros a i s H; cbn [fold_left]; [exact H|]. apply IH. unfold link, set_adj. cbn [fst snd].
  destruct (Nat.eqb i (fst y) && Nat.eqb s (snd y)); [discriminate|]. destruct (Nat.eqb i (fst x) && Nat.eqb s (snd x)); [discriminate|exact H].
Qed.
Lemma link_sets : forall L a i s y, In ((i, s), y) L -> fold_left link L a i s <> None.
Proof.
  induction L as [|p L IH]; intros a i s y I; [contradiction|]. cbn [fold_left]. destruct I as [->|I]; [|apply (IH _ i s y I)].
  apply link_keeps. unfold link, set_adj. cbn [fst snd]. rewrite !Nat.eqb_refl. cbn [andb]. destruct (Nat.eqb i (fst y) && Nat.eqb s (snd y)); discriminate.
Qed.
Lemma adjacency_sound : forall l i s j, create_adjacency_matrix l i s = Some j -> exists s', shares_edge l i s j s'.
Proof.
  intros l i s j H. rewrite create_links in H. apply link_some in H. destruct H as [H|([xi xs] & [yi ys] & I & H)]; [discriminate|].
  apply in_links in I. cbn [fst snd] in I. destruct H as [[E1 E2]|[E1 E2]]; inversion E1; subst; cbn [fst] in *.
  - exists ys. exact I.
  - exists xs. apply shares_sym, I.
Qed.
Lemma adjacency_complete : forall l i s j s', shares_edge l i s j s' -> create_adjacency_matrix l i s <> None.
Proof. intros l i s j s' H. rewrite create_links. apply (link_sets _ _ i s (j, s')). apply in_links. exact H. Qed.
Lemma adjacency_manifold : forall l i s j s', manifold l -> shares_edge l i s j s' -> create_adjacency_matrix l i s = Some j.
Proof.
  intros l i s j s' M H. destruct (create_adjacency_matrix l i s) as [j'|] eqn:E; [|exfalso; apply (adjacency_complete l i s j s' H E)].
  destruct (adjacency_sound l i s j' E) as (s2 & ti & tj' & a & b & A & B & C & D). destruct H as (ti' & tj & a' & b' & A' & B' & C' & D').
  rewrite A' in A. inversion A. subst ti'. rewrite C' in C. inversion C. subst a' b'. destruct (M j' s2 j s' tj' tj (b, a) B B' D D') as [-> _]. reflexivity.
Qed.
(** ** The shared side *)
Lemma directed_edge_side : forall t s e, directed_edge t s = Some e <-> (s < 3)%nat /\ e = (side t s, side t ((s + 1) mod 3)).
Proof.
  intros [[a b] c] s e. destruct s as [|[|[|s]]]; cbn [directed_edge]; split; intro H.
  1,3,5: inversion H; split; [lia|reflexivity].
  1,2,3: destruct H as [_ ->]; reflexivity.
  - discriminate.
  - lia.
Qed.
Lemma is_adjacent_side_ok : forall i j t1 t2, (i < 3)%nat -> (j < 3)%nat ->
  (is_adjacent_side i j t1 t2 = true <-> exists a b, directed_edge t1 i = Some (a, b) /\ directed_edge t2 j = Some (b, a)).
Proof.
  intros i j t1 t2 I J. unfold is_adjacent_side. rewrite andb_true_iff, !Nat.eqb_eq. split.
  - intros [E1 E2]. exists (side t1 i), (side t1 ((i + 1) mod 3)). split; apply directed_edge_side; (split; [assumption|congruence]).
  - intros (a & b & D1 & D2). apply directed_edge_side in D1. apply directed_edge_side in D2. destruct D1 as [_ D1], D2 as [_ D2]. inversion D1. inversion D2. split; congruence.
Qed.
Definition shared (t1 t2 : itriple) (s : nat) : Prop := exists s' a b, directed_edge t1 s = Some (a, b) /\ directed_edge t2 s' = Some (b, a).
Lemma adjacent_any : forall i t1 t2, (i < 3)%nat -> (is_adjacent_side i 0 t1 t2 || is_adjacent_side i 1 t1 t2 || is_adjacent_side i 2 t1 t2 = true <-> shared t1 t2 i).
Proof.
  intros i t1 t2 I. rewrite !orb_true_iff. rewrite !is_adjacent_side_ok by lia. split.
  - intros [[(a & b & H)|(a & b & H)]|(a & b & H)]; [exists 0%nat, a, b|exists 1%nat, a, b|exists 2%nat, a, b]; exact H.
  - intros (s' & a & b & D1 & D2). assert (s' < 3)%nat by (apply directed_edge_side in D2; tauto). destruct s' as [|[|[|s']]]; [left; left|left; right|right|lia]; exists a, b; auto.
Qed.
Lemma adjacent_side_ok : forall t1 t2, match get_triangle_adjacent_side t1 t2 with
  | Some s => (s < 3)%nat /\ shared t1 t2 s /\ forall s', (s' < s)%nat -> ~ shared t1 t2 s'
  | None => forall s, ~ shared t1 t2 s
  end.
Proof.
  intros t1 t2. unfold get_triangle_adjacent_side.
  pose proof (adjacent_any 0 t1 t2 ltac:(lia)) as A0. pose proof (adjacent_any 1 t1 t2 ltac:(lia)) as A1. pose proof (adjacent_any 2 t1 t2 ltac:(lia)) as A2.
  destruct (is_adjacent_side 0 0 t1 t2 || is_adjacent_side 0 1 t1 t2 || is_adjacent_side 0 2 t1 t2); [split; [lia|]; split; [apply A0; reflexivity|intros; lia]|].
  assert (N0 : ~ shared t1 t2 0) by (intro H; apply A0 in H; discriminate).
  destruct (is_adjacent_side 1 0 t1 t2 || is_adjacent_side 1 1 t1 t2 || is_adjacent_side 1 2 t1 t2); [split; [lia|]; split; [apply A1; reflexivity|intros s' L; replace s' with 0%nat by lia; exact N0]|].
  assert (N1 : ~ shared t1 t2 1) by (intro H; apply A1 in H; discriminate).
  destruct (is_adjacent_side 2 0 t1 t2 || is_adjacent_side 2 1 t1 t2 || is_adjacent_side 2 2 t1 t2); [split; [lia|]; split; [apply A2; reflexivity|intros [|[|s']] L; [exact N0|exact N1|lia]]|].
  assert (N2 : ~ shared t1 t2 2) by (intro H; apply A2 in H; discriminate).
  intros [|[|[|s]]]; auto. intros (s' & a & b & D & _). apply directed_edge_side in D. lia.
Qed.
