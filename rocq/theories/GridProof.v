(** Proofs about grids. *)
From Verif Require Import Base BoxModel BoxSpec GridModel GridSpec.
From Coq Require Import Qround.

(** ** Truncation *)
Lemma trunc_floor : forall v, 0 <= v -> trunc v = Qfloor v.
Proof.
  intros [n d] H. unfold trunc, Qfloor; cbn [Qnum Qden].
  apply Z.quot_div_nonneg; [|reflexivity]. unfold Qle in H; cbn in H. lia.
Qed.
Lemma trunc_bounds : forall v, 0 <= v -> inject_Z (trunc v) <= v < inject_Z (trunc v) + 1.
Proof.
  intros v H. rewrite trunc_floor by assumption. split; [apply Qfloor_le|].
  pose proof (Qlt_floor v) as F. rewrite inject_Z_plus in F. exact F.
Qed.
Lemma inject_le : forall a b, inject_Z a <= inject_Z b <-> (a <= b)%Z.
Proof. intros; rewrite <- Zle_Qle; tauto. Qed.
Lemma inject_lt : forall a b, inject_Z a < inject_Z b <-> (a < b)%Z.
Proof. intros; rewrite <- Zlt_Qlt; tauto. Qed.
Lemma trunc_range : forall v n, 0 <= v -> v < inject_Z n -> (0 <= trunc v < n)%Z.
Proof.
  intros v n H0 H1. pose proof (trunc_bounds v H0) as [B1 B2]. split.
  - assert (L : inject_Z (-1) < inject_Z (trunc v)) by (change (inject_Z (-1)) with (-1 # 1); lra).
    apply (proj1 (inject_lt _ _)) in L. lia.
  - apply (proj1 (inject_lt _ _)). lra.
Qed.
Lemma trunc_unique : forall v n, inject_Z n <= v < inject_Z n + 1 -> 0 <= v -> trunc v = n.
Proof.
  intros v n [H1 H2] H0. pose proof (trunc_bounds v H0) as [B1 B2].
  assert (L1 : inject_Z n < inject_Z (trunc v + 1)) by (rewrite inject_Z_plus; change (inject_Z 1) with 1; lra).
  assert (L2 : inject_Z (trunc v) < inject_Z (n + 1)) by (rewrite inject_Z_plus; change (inject_Z 1) with 1; lra).
  apply (proj1 (inject_lt _ _)) in L1. apply (proj1 (inject_lt _ _)) in L2. lia.
Qed.
Lemma to_uint32_some : forall v, 0 <= v -> v < inject_Z two32 -> to_uint32 v = Some (trunc v).
Proof.
  intros v H0 H1. unfold to_uint32. destruct (Qltb_spec (-1) v); [|exfalso; lra].
  destruct (Qltb_spec v (inject_Z two32)); [reflexivity|exfalso; lra].
Qed.

(** ** Cell lookup *)
Lemma axis_unique : forall lo w x i i', 0 < w -> lo + inject_Z i * w <= x < lo + (inject_Z i + 1) * w ->
  lo + inject_Z i' * w <= x < lo + (inject_Z i' + 1) * w -> i = i'.
Proof.
  intros lo w x i i' Hw [A1 A2] [B1 B2].
  assert (L1 : inject_Z i < inject_Z (i' + 1)) by (rewrite inject_Z_plus; change (inject_Z 1) with 1; nra).
  assert (L2 : inject_Z i' < inject_Z (i + 1)) by (rewrite inject_Z_plus; change (inject_Z 1) with 1; nra).
  apply (proj1 (inject_lt _ _)) in L1. apply (proj1 (inject_lt _ _)) in L2. lia.
Qed.
Section Axis.
Variables lo hi w : Q.
Hypothesis Hw : 0 < w.
Hypothesis Hfit : hi - lo < inject_Z (two32 - 1) * w.

Lemma scaled_range : forall x, lo <= x <= hi -> 0 <= (x - lo) * (1 / w) < inject_Z (two32 - 1).
Proof.
  intros x Hx. assert (E : (x - lo) * (1 / w) == (x - lo) / w) by (field; lra). rewrite E.
  split; [apply Qle_shift_div_l; lra|apply Qlt_shift_div_r; lra].
Qed.
Lemma scaled_cell : forall x i, lo <= x -> (inject_Z i <= (x - lo) * (1 / w) < inject_Z i + 1 <-> lo + inject_Z i * w <= x < lo + (inject_Z i + 1) * w).
Proof.
  intros x i Hx. assert (E : (x - lo) * (1 / w) == (x - lo) / w) by (field; lra). rewrite E.
  assert (F : (x - lo) / w * w == x - lo) by (field; lra). revert F. generalize ((x - lo) / w). intros q F.
  split; intros [H1 H2]; split; nra.
Qed.
Lemma axis_index : forall x, lo <= x <= hi ->
  exists i, to_uint32 ((x - lo) * (1 / w)) = Some i /\ (0 <= i)%Z /\
    (i < trunc ((hi - lo) * (1 / w)) + 1)%Z /\ lo + inject_Z i * w <= x < lo + (inject_Z i + 1) * w.
Proof.
  intros x Hx. pose proof (scaled_range x Hx) as [S1 S2].
  exists (trunc ((x - lo) * (1 / w))). split.
  - apply to_uint32_some; [assumption|]. eapply Qlt_trans; [exact S2|]. apply (proj1 (inject_lt _ _)). reflexivity.
  - pose proof (trunc_bounds _ S1) as B. pose proof (trunc_range _ _ S1 S2) as R. split; [lia|]. split.
    + assert (Hh : lo <= hi <= hi) by lra. pose proof (scaled_range hi Hh) as [T1 T2].
      pose proof (trunc_bounds _ T1) as C.
      apply (proj1 (inject_lt _ _)). rewrite inject_Z_plus. change (inject_Z 1) with 1.
      assert (M : (x - lo) * (1 / w) <= (hi - lo) * (1 / w)).
      { apply Qmult_le_compat_r; [lra|]. apply Qle_shift_div_l; lra. }
      lra.
    + apply scaled_cell; [lra|exact B].
Qed.
Lemma axis_count : lo < hi -> exists n, to_uint32 ((hi - lo) * (1 / w)) = Some n /\ ((n + 1) mod two32 = n + 1)%Z /\
  n = trunc ((hi - lo) * (1 / w)) /\ (0 <= n)%Z /\ (n + 1 < two32)%Z /\ lo + inject_Z n * w <= hi < lo + (inject_Z n + 1) * w.
Proof.
  intro L. assert (Hh : lo <= hi <= hi) by lra.
  destruct (axis_index hi Hh) as (n & E & N0 & N1 & C). exists n.
  pose proof (scaled_range hi Hh) as [T1 T2]. pose proof (trunc_range _ _ T1 T2) as R.
  assert (En : n = trunc ((hi - lo) * (1 / w))).
  { unfold to_uint32 in E. destruct (_ && _) in E; congruence. }
  split; [exact E|]. split; [apply Z.mod_small; lia|]. split; [exact En|]. split; [exact N0|]. split; [lia|exact C].
Qed.
End Axis.

Theorem grid_lookup : forall xmin xmax ymin ymax w, good_bounds xmin xmax ymin ymax w ->
  exists g, make_grid xmin xmax ymin ymax w = Some g /\
    (forall p, is_contained g p = true <-> in_region xmin xmax ymin ymax p) /\
    (forall p, in_region xmin xmax ymin ymax p ->
      exists i j, get_x_index g (px p) = Some i /\ get_y_index g (py p) = Some j /\
        (0 <= i < g_nx g)%Z /\ (0 <= j < g_ny g)%Z /\ in_cell xmin ymin w i j p) /\
    (* the counts are tight: the far corner of the region is in the last cell *)
    in_cell xmin ymin w (g_nx g - 1) (g_ny g - 1) (mkpt xmax ymax).
Proof.
  intros xmin xmax ymin ymax w (Hw & Hx & Hy & Fx & Fy).
  destruct (axis_count xmin xmax w Hw Fx Hx) as (nx & Ex & Mx & Nx & X0 & X1 & Cx).
  destruct (axis_count ymin ymax w Hw Fy Hy) as (ny & Ey & My & Ny & Y0 & Y1 & Cy).
  eexists. split; [unfold make_grid; rewrite Ex, Ey; reflexivity|].
  cbn [g_nx g_ny]. rewrite Mx, My. split; [|split].
  - intro p. unfold is_contained, in_region; cbn [g_xmin g_xmax g_ymin g_ymax].
    rewrite !andb_true_iff. unfold Qgeb. rewrite !Qleb_le. tauto.
  - intros p [Px Py].
    destruct (axis_index xmin xmax w Hw Fx (px p) Px) as (i & Ei & I0 & I1 & Ci).
    destruct (axis_index ymin ymax w Hw Fy (py p) Py) as (j & Ej & J0 & J1 & Cj).
    exists i, j. unfold get_x_index, get_y_index; cbn [g_xmin g_ymin g_divisor].
    split; [exact Ei|]. split; [exact Ej|]. split; [lia|]. split; [lia|]. split; assumption.
  - replace (nx + 1 - 1)%Z with nx by lia. replace (ny + 1 - 1)%Z with ny by lia. split; assumption.
Qed.

Theorem cells_disjoint : forall xmin ymin w i j i' j' p, 0 < w ->
  in_cell xmin ymin w i j p -> in_cell xmin ymin w i' j' p -> i = i' /\ j = j'.
Proof.
  intros xmin ymin w i j i' j' p Hw [A1 A2] [B1 B2]. split.
  - exact (axis_unique xmin w (px p) i i' Hw A1 B1).
  - exact (axis_unique ymin w (py p) j j' Hw A2 B2).
Qed.
Theorem cells_cover : forall xmin ymin w p, 0 < w -> exists i j, in_cell xmin ymin w i j p.
Proof.
  intros xmin ymin w p Hw. exists (Qfloor ((px p - xmin) / w)), (Qfloor ((py p - ymin) / w)).
  assert (K : forall x lo, lo + inject_Z (Qfloor ((x - lo) / w)) * w <= x < lo + (inject_Z (Qfloor ((x - lo) / w)) + 1) * w).
  { intros x lo. pose proof (Qfloor_le ((x - lo) / w)) as F1. pose proof (Qlt_floor ((x - lo) / w)) as F2.
    rewrite inject_Z_plus in F2. change (inject_Z 1) with 1 in F2.
    assert (F : (x - lo) / w * w == x - lo) by (field; lra).
    revert F1 F2 F. generalize (inject_Z (Qfloor ((x - lo) / w))) ((x - lo) / w). intros f q F1 F2 F. split; nra. }
  split; apply K.
Qed.

(** ** The geometry of one cell *)
Lemma uint_succ_small : forall i, (0 <= i)%Z -> (i + 1 < two32)%Z -> inject_Z (uint_succ i) == inject_Z i + 1.
Proof. intros i H0 H1. unfold uint_succ. rewrite Z.mod_small by lia. rewrite inject_Z_plus. reflexivity. Qed.

Theorem cell_geometry : forall g i j, 0 < g_width g -> (0 <= i)%Z -> (0 <= j)%Z -> (i + 1 < two32)%Z -> (j + 1 < two32)%Z ->
  get_cell_polygon g i j = [get_cell_corner0 g i j; get_cell_corner1 g i j; get_cell_corner2 g i j; get_cell_corner3 g i j] /\
  get_cell_aabb g i j = mkbox2 (get_cell_corner0 g i j) (get_cell_corner2 g i j) /\
  (forall p, in2 (get_cell_aabb g i j) p <-> in_closed_cell (g_xmin g) (g_ymin g) (g_width g) i j p) /\
  in_cell (g_xmin g) (g_ymin g) (g_width g) i j (get_cell_centroid g i j) /\
  (forall c, In c (get_cell_polygon g i j) -> dist2 (get_cell_centroid g i j) c == g_width g * g_width g * (1 # 2)).
Proof.
  intros g i j Hw I0 J0 I1 J1.
  pose proof (uint_succ_small i I0 I1) as Ei. pose proof (uint_succ_small j J0 J1) as Ej.
  split; [reflexivity|]. split; [reflexivity|]. split; [|split].
  - intro p. unfold in2, in_closed_cell, get_cell_aabb; cbn [lb2 ub2 px py]. rewrite Ei, Ej. tauto.
  - unfold in_cell, get_cell_centroid; cbn [px py]. repeat split; nra.
  - intros c Hc. unfold get_cell_polygon in Hc.
    destruct Hc as [<-|[<-|[<-|[<-|[]]]]]; unfold dist2, dot, vsub, get_cell_centroid; cbn [px py]; rewrite ?Ei, ?Ej; ring.
Qed.

(** ** Dense grids *)
Lemma list_set_some : forall (A : Type) (l : list A) n v, (n < length l)%nat -> exists l', list_set l n v = Some l'.
Proof.
  intros A l. induction l as [|x l IH]; intros n v H; cbn in H; [lia|].
  destruct n as [|n]; cbn; [eauto|]. destruct (IH n v ltac:(lia)) as [l' ->]. eauto.
Qed.
Lemma list_set_nth : forall (A : Type) (l : list A) n v l', list_set l n v = Some l' ->
  length l' = length l /\ nth_error l' n = Some v /\ forall m, m <> n -> nth_error l' m = nth_error l m.
Proof.
  intros A l. induction l as [|x l IH]; intros n v l' H; [destruct n; discriminate|].
  destruct n as [|n]; cbn in H.
  - injection H as <-. split; [reflexivity|]. split; [reflexivity|]. intros [|m] M; [congruence|reflexivity].
  - destruct (list_set l n v) as [r|] eqn:E; [|discriminate]. injection H as <-.
    destruct (IH n v r E) as (L & N & O). split; [cbn; lia|]. split; [exact N|].
    intros [|m] M; [reflexivity|]. apply O. congruence.
Qed.
(** The shape width x height. *)
Definition shaped {D : Type} (a : dense D) (nx ny : Z) : Prop :=
  length a = Z.to_nat nx /\ forall i col, nth_error a i = Some col -> length col = Z.to_nat ny.
Lemma shaped_new : forall (D : Type) g (d0 : D), shaped (dense_new g d0) (g_nx g) (g_ny g).
Proof.
  intros D g d0. unfold dense_new. split; [apply repeat_length|].
  intros i col H. apply nth_error_In in H. apply repeat_spec in H. subst. apply repeat_length.
Qed.
Lemma dense_new_get : forall (D : Type) g (d0 : D) i j, (0 <= i < g_nx g)%Z -> (0 <= j < g_ny g)%Z -> dense_get (dense_new g d0) i j = Some d0.
Proof.
  intros D g d0 i j Hi Hj. unfold dense_get, dense_new.
  destruct (Z.ltb_spec i 0); [lia|]. destruct (Z.ltb_spec j 0); [lia|]. cbn [orb].
  rewrite nth_error_repeat by lia. apply nth_error_repeat. lia.
Qed.
Lemma dense_get_some : forall (D : Type) (a : dense D) nx ny i j, shaped a nx ny -> (0 <= i < nx)%Z -> (0 <= j < ny)%Z ->
  exists v, dense_get a i j = Some v.
Proof.
  intros D a nx ny i j [L S] Hi Hj. unfold dense_get.
  destruct (Z.ltb_spec i 0); [lia|]. destruct (Z.ltb_spec j 0); [lia|]. cbn [orb].
  destruct (nth_error a (Z.to_nat i)) as [col|] eqn:E.
  - specialize (S _ _ E). destruct (nth_error col (Z.to_nat j)) as [v|] eqn:F; [eauto|].
    apply nth_error_None in F. lia.
  - apply nth_error_None in E. lia.
Qed.
Lemma dense_set_ok : forall (D : Type) (a : dense D) nx ny i j v, shaped a nx ny -> (0 <= i < nx)%Z -> (0 <= j < ny)%Z ->
  exists a', dense_set a i j v = Some a' /\ shaped a' nx ny /\
    forall i' j', (0 <= i' < nx)%Z -> (0 <= j' < ny)%Z ->
      dense_get a' i' j' = if key_eqb (i, j) (i', j') then Some v else dense_get a i' j'.
Proof.
  intros D a nx ny i j v [L S] Hi Hj. unfold dense_set.
  destruct (Z.ltb_spec i 0); [lia|]. destruct (Z.ltb_spec j 0); [lia|]. cbn [orb].
  destruct (nth_error a (Z.to_nat i)) as [col|] eqn:E; [|apply nth_error_None in E; lia].
  pose proof (S _ _ E) as Lc.
  destruct (list_set_some _ col (Z.to_nat j) v ltac:(lia)) as [col' Ec]. rewrite Ec.
  destruct (list_set_some _ a (Z.to_nat i) col' ltac:(lia)) as [a' Ea]. rewrite Ea.
  destruct (list_set_nth _ _ _ _ _ Ec) as (Lc' & Nc & Oc). destruct (list_set_nth _ _ _ _ _ Ea) as (La' & Na & Oa).
  exists a'. split; [reflexivity|]. split; [split; [lia|]|].
  - intros k col0 H1. destruct (Nat.eq_dec k (Z.to_nat i)) as [->|N].
    + rewrite Na in H1. injection H1 as <-. lia.
    + rewrite (Oa k N) in H1. apply (S k). exact H1.
  - intros i' j' Hi' Hj'. unfold dense_get, key_eqb; cbn [fst snd].
    destruct (Z.ltb_spec i' 0); [lia|]. destruct (Z.ltb_spec j' 0); [lia|]. cbn [orb].
    destruct (Z.eqb_spec i i') as [<-|N]; cbn [andb].
    + rewrite Na, E. destruct (Z.eqb_spec j j') as [<-|N]; [exact Nc|]. apply Oc. lia.
    + rewrite Oa by lia. reflexivity.
Qed.

Theorem dense_access : forall (D : Type) xmin xmax ymin ymax w g (a : dense D) p v,
  good_bounds xmin xmax ymin ymax w -> make_grid xmin xmax ymin ymax w = Some g -> shaped a (g_nx g) (g_ny g) ->
  in_region xmin xmax ymin ymax p ->
  exists a', dense_set_at g a p v = Some a' /\ shaped a' (g_nx g) (g_ny g) /\
    forall q, in_region xmin xmax ymin ymax q ->
      (exists i j, in_cell xmin ymin w i j p /\ in_cell xmin ymin w i j q) /\ dense_get_at g a' q = Some v \/
      ~ (exists i j, in_cell xmin ymin w i j p /\ in_cell xmin ymin w i j q) /\ dense_get_at g a' q = dense_get_at g a q /\
      exists u, dense_get_at g a q = Some u.
Proof.
  intros D xmin xmax ymin ymax w g a p v G E S P.
  destruct (grid_lookup _ _ _ _ _ G) as (g' & E' & _ & Look & _). assert (g' = g) by congruence. subst g'.
  destruct (Look p P) as (i & j & Ei & Ej & Hi & Hj & C).
  destruct (dense_set_ok _ a _ _ i j v S Hi Hj) as (a' & Ea & S' & R).
  exists a'. unfold dense_set_at, dense_get_at. rewrite Ei, Ej. split; [exact Ea|]. split; [exact S'|].
  intros q Hq. destruct (Look q Hq) as (i' & j' & Ei' & Ej' & Hi' & Hj' & C'). rewrite Ei', Ej', (R i' j' Hi' Hj').
  assert (Hw : 0 < w) by (destruct G; assumption).
  destruct (key_eqb (i, j) (i', j')) eqn:K; unfold key_eqb in K; cbn [fst snd] in K.
  - apply andb_true_iff in K. destruct K as [K1 K2]. apply Z.eqb_eq in K1. apply Z.eqb_eq in K2. subst.
    left. split; [exists i', j'; split; assumption|reflexivity].
  - right. split; [|split; [reflexivity|exact (dense_get_some _ _ _ _ i' j' S Hi' Hj')]].
    intros (k & l & K1 & K2).
    destruct (cells_disjoint _ _ _ _ _ _ _ _ Hw C K1) as [-> ->]. destruct (cells_disjoint _ _ _ _ _ _ _ _ Hw C' K2) as [-> ->].
    rewrite !Z.eqb_refl in K. discriminate.
Qed.

(** ** Sparse grids *)
Lemma key_eqb_eq : forall a b, key_eqb a b = true <-> a = b.
Proof.
  intros [a1 a2] [b1 b2]. unfold key_eqb; cbn. rewrite andb_true_iff, !Z.eqb_eq. split; [intros [-> ->]; reflexivity|intro H; injection H; auto].
Qed.
Lemma key_eqb_refl : forall a, key_eqb a a = true.
Proof. intro a; apply key_eqb_eq; reflexivity. Qed.
Lemma key_eqb_neq : forall a b, a <> b -> key_eqb a b = false.
Proof. intros a b H. destruct (key_eqb a b) eqn:E; [|reflexivity]. apply key_eqb_eq in E. contradiction. Qed.

Section SparseProofs.
Variable D : Type.
Variable d0 : D.
Implicit Types (l : list (node D)) (h : hgrid D).

Definition wf h : Prop :=
  NoDup (map n_key (h_nodes h)) /\ NoDup (map n_addr (h_nodes h)) /\ Forall (fun n => (n_addr n < h_next h)%nat) (h_nodes h).

Lemma lookup_in : forall k l n, lookup k l = Some n -> In n l /\ n_key n = k.
Proof.
  intros k l n. induction l as [|x l IH]; cbn; [discriminate|].
  destruct (key_eqb (n_key x) k) eqn:E.
  - intro H; injection H as <-. apply key_eqb_eq in E. auto.
  - intro H. destruct (IH H). auto.
Qed.
Lemma lookup_none : forall k l, lookup k l = None <-> ~ In k (map n_key l).
Proof.
  intros k l. induction l as [|x l IH]; cbn; [tauto|].
  destruct (key_eqb (n_key x) k) eqn:E.
  - apply key_eqb_eq in E. split; [discriminate|]. intro H. exfalso. apply H. auto.
  - rewrite IH. split; [intros H [G|G]; [|contradiction]|tauto]. subst. rewrite key_eqb_refl in E. discriminate.
Qed.
Lemma lookup_unique : forall l n, NoDup (map n_key l) -> In n l -> lookup (n_key n) l = Some n.
Proof.
  intros l n. induction l as [|x l IH]; cbn; [tauto|]. intros ND [->|H].
  - rewrite key_eqb_refl. reflexivity.
  - inversion_clear ND. rewrite key_eqb_neq; [auto|]. intro E. apply H0. rewrite E. apply in_map. exact H.
Qed.
Lemma read_in : forall l n, NoDup (map n_addr l) -> In n l -> read l (n_addr n) = Some (n_data n).
Proof.
  intros l n. induction l as [|x l IH]; cbn; [tauto|]. intros ND [->|H].
  - rewrite Nat.eqb_refl. reflexivity.
  - inversion_clear ND. destruct (Nat.eqb_spec (n_addr x) (n_addr n)) as [E|E]; [|auto].
    exfalso. apply H0. rewrite E. apply in_map. exact H.
Qed.
Lemma write_in : forall l n v, NoDup (map n_addr l) -> NoDup (map n_key l) -> In n l ->
  exists l', write l (n_addr n) v = Some l' /\ map n_key l' = map n_key l /\ map n_addr l' = map n_addr l /\
    lookup (n_key n) l' = Some (mknode (n_key n) (n_addr n) v) /\
    forall k, k <> n_key n -> lookup k l' = lookup k l.
Proof.
  intros l n v. induction l as [|x l IH]; cbn; [tauto|]. intros NA NK H.
  inversion_clear NA. inversion_clear NK.
  destruct (Nat.eqb_spec (n_addr x) (n_addr n)) as [E|E].
  - assert (x = n).
    { destruct H as [H|H]; [exact H|]. exfalso. apply H0. rewrite E. apply in_map. exact H. }
    subst x. eexists. split; [reflexivity|]. cbn. split; [reflexivity|]. split; [reflexivity|].
    rewrite key_eqb_refl. split; [reflexivity|]. intros k K. rewrite key_eqb_neq by congruence. reflexivity.
  - destruct H as [H|H]; [congruence|]. destruct (IH H1 H3 H) as (l' & W & K1 & K2 & L & O). rewrite W.
    eexists. split; [reflexivity|]. cbn. rewrite K1, K2. split; [reflexivity|]. split; [reflexivity|].
    assert (N : n_key x <> n_key n).
    { intro G. apply H2. rewrite G. apply in_map. exact H. }
    rewrite key_eqb_neq by exact N. split; [exact L|]. intros k K. rewrite (O k K). reflexivity.
Qed.
Lemma remove_lookup : forall l k, NoDup (map n_key l) ->
  lookup k (remove_key k l) = None /\ (forall k', k' <> k -> lookup k' (remove_key k l) = lookup k' l) /\
  (forall n, In n (remove_key k l) -> In n l) /\ NoDup (map n_key (remove_key k l)).
Proof.
  intros l k. induction l as [|x l IH]; cbn; intro ND.
  - repeat split; auto.
  - assert (ND' := ND). inversion_clear ND. destruct (key_eqb (n_key x) k) eqn:E.
    + apply key_eqb_eq in E. subst k. split; [apply lookup_none; exact H|].
      split; [|split; [auto|assumption]]. intros k' K. rewrite key_eqb_neq by congruence. reflexivity.
    + destruct (IH H0) as (A & B & C & N). cbn. rewrite E. split; [exact A|]. split; [|split].
      * intros k' K. destruct (key_eqb (n_key x) k'); auto.
      * intros n [Hn|Hn]; auto.
      * constructor; [|exact N]. intro Hin. apply H. apply in_map_iff in Hin. destruct Hin as (n & E1 & I). rewrite <- E1. apply in_map. auto.
Qed.
Lemma remove_addr : forall l k, NoDup (map n_addr l) -> NoDup (map n_addr (remove_key k l)).
Proof.
  intros l k. induction l as [|x l IH]; cbn; intro ND; [constructor|].
  inversion_clear ND. destruct (key_eqb (n_key x) k); [assumption|]. cbn. constructor; [|auto].
  intro Hin. apply H. clear - Hin. induction l as [|y l IH]; cbn in *; [contradiction|].
  destruct (key_eqb (n_key y) k); cbn in *; [right; exact Hin|]. destruct Hin; auto.
Qed.

Lemma get_cell_wf : forall h i j a h', wf h -> get_cell d0 h i j = (a, h') ->
  wf h' /\ exists n, lookup (i, j) (h_nodes h') = Some n /\ n_addr n = a /\
    n_data n = (match lookup (i, j) (h_nodes h) with None => d0 | Some m => n_data m end) /\
    (forall m, lookup (i, j) (h_nodes h) = Some m -> m = n) /\
    (forall k, k <> (i, j) -> lookup k (h_nodes h') = lookup k (h_nodes h)).
Proof.
  intros h i j a h' (K & A & F) E. unfold get_cell in E.
  destruct (lookup (i, j) (h_nodes h)) as [m|] eqn:L; injection E as <- <-.
  - split; [split; auto|]. exists m. split; [exact L|]. split; [reflexivity|]. split; [reflexivity|].
    split; [intros; congruence|reflexivity].
  - split.
    + split; [|split]; cbn.
      * constructor; [apply lookup_none; exact L|exact K].
      * constructor; [|exact A]. intro H. apply in_map_iff in H. destruct H as (n & E & I).
        rewrite Forall_forall in F. specialize (F n I). lia.
      * constructor; [cbn; lia|]. eapply Forall_impl; [|exact F]. cbn; intros; lia.
    + cbn. rewrite key_eqb_refl. eexists. split; [reflexivity|]. split; [reflexivity|]. split; [reflexivity|].
      split; [discriminate|]. intros k H. rewrite key_eqb_neq by congruence. reflexivity.
Qed.

(** The abstraction: what each cell holds. *)
Definition value h (k : key) : option D := match lookup k (h_nodes h) with None => None | Some n => Some (n_data n) end.
Lemma find_value : forall h i j, wf h ->
  match find_cell h i j with None => value h (i, j) = None | Some a => exists v, value h (i, j) = Some v /\ deref h a = Some v end.
Proof.
  intros h i j (K & A & F). unfold find_cell, value. destruct (lookup (i, j) (h_nodes h)) as [n|] eqn:L; [|reflexivity].
  exists (n_data n). split; [reflexivity|]. apply lookup_in in L. apply read_in; tauto.
Qed.

Definition value_step (h : key -> option D) (o : op D) (k : key) : option D :=
  match o with
  | OGet i j => if key_eqb (i, j) k then match h k with None => Some d0 | Some v => Some v end else h k
  | OWrite i j v => if key_eqb (i, j) k then Some v else h k
  | OFind _ _ => h k
  | OErase i j => if key_eqb (i, j) k then None else h k
  | OClear => None
  end.
Lemma step_ok : forall h o, wf h -> exists h', step d0 h o = Some h' /\ wf h' /\ forall k, value h' k = value_step (value h) o k.
Proof.
  intros h o W. destruct o as [i j|i j v|i j|i j|]; cbn [step].
  - destruct (get_cell d0 h i j) as [a h'] eqn:E. destruct (get_cell_wf _ _ _ _ _ W E) as (W' & n & L & _ & V & _ & O).
    exists h'. split; [reflexivity|]. split; [exact W'|]. intro k. cbn [value_step]. unfold value.
    destruct (key_eqb (i, j) k) eqn:K.
    + apply key_eqb_eq in K. subst k. rewrite L, V. destruct (lookup (i, j) (h_nodes h)); reflexivity.
    + rewrite O; [reflexivity|]. intro X; subst. rewrite key_eqb_refl in K; discriminate.
  - destruct (get_cell d0 h i j) as [a h'] eqn:E. destruct (get_cell_wf _ _ _ _ _ W E) as (W' & n & L & Ea & V & _ & O).
    destruct (lookup_in _ _ _ L) as [I Kn]. destruct W' as (K' & A' & F').
    destruct (write_in (h_nodes h') n v A' K' I) as (l' & Wr & M1 & M2 & Ln & On).
    unfold assign. rewrite <- Ea, Wr. eexists. split; [reflexivity|]. split.
    + split; [|split]; cbn [h_nodes h_next].
      * rewrite M1; exact K'.
      * rewrite M2; exact A'.
      * apply Forall_forall. intros x Hx. rewrite Forall_forall in F'.
        assert (Ha : In (n_addr x) (map n_addr l')) by (apply in_map; exact Hx). rewrite M2 in Ha.
        apply in_map_iff in Ha. destruct Ha as (y & Ey & Iy). rewrite <- Ey. apply F'. exact Iy.
    + intro k. cbn [value_step]. unfold value; cbn [h_nodes]. destruct (key_eqb (i, j) k) eqn:K.
      * apply key_eqb_eq in K. subst k. rewrite Kn in Ln. rewrite Ln. reflexivity.
      * assert (N : k <> (i, j)) by (intro X; subst; rewrite key_eqb_refl in K; discriminate).
        rewrite On, O by (rewrite ?Kn; exact N). reflexivity.
  - exists h. split; [reflexivity|]. split; [exact W|]. reflexivity.
  - exists (erase h i j). split; [reflexivity|]. unfold erase.
    destruct (lookup (i, j) (h_nodes h)) as [n|] eqn:L.
    + destruct W as (K & A & F). destruct (remove_lookup _ (i, j) K) as (R1 & R2 & R3 & R4). split.
      * split; [exact R4|split; [apply remove_addr; exact A|]]. apply Forall_forall. intros x Hx. rewrite Forall_forall in F. apply F. cbn in Hx. auto.
      * intro k. cbn [value_step]. unfold value; cbn [h_nodes]. destruct (key_eqb (i, j) k) eqn:E.
        -- apply key_eqb_eq in E. subst k. rewrite R1. reflexivity.
        -- rewrite R2; [reflexivity|]. intro X; subst. rewrite key_eqb_refl in E; discriminate.
    + split; [exact W|]. intro k. cbn [value_step]. destruct (key_eqb (i, j) k) eqn:E; [|reflexivity].
      apply key_eqb_eq in E. subst k. unfold value. rewrite L. reflexivity.
  - exists (clear h). split; [reflexivity|]. split; [split; [|split]; constructor|]. reflexivity.
Qed.
Lemma run_ok : forall ops h, wf h -> exists h', run_ops d0 h ops = Some h' /\ wf h' /\
  forall k, value h' k = fold_left (fun f o => value_step f o) ops (value h) k.
Proof.
  induction ops as [|o ops IH]; intros h W; cbn [run_ops fold_left].
  - exists h. auto.
  - destruct (step_ok h o W) as (h1 & E & W1 & V1). rewrite E.
    destruct (IH h1 W1) as (h' & E' & W' & V'). exists h'. split; [exact E'|]. split; [exact W'|].
    intro k. rewrite V'.
    assert (X : forall os f g, (forall k, f k = g k) -> forall k, fold_left (fun f o => value_step f o) os f k = fold_left (fun f o => value_step f o) os g k).
    { induction os as [|o' os IHo]; intros f g H k'; cbn; [apply H|]. apply IHo. intro k0. unfold value_step. destruct o'; rewrite ?H; reflexivity. }
    apply X. exact V1.
Qed.
Lemma contents_fold : forall hist i j, contents d0 hist i j = fold_left (fun f o => value_step f o) (rev hist) (fun _ => None) (i, j).
Proof.
  induction hist as [|o hist IH]; intros i j; [reflexivity|].
  cbn [rev]. rewrite fold_left_app. cbn [fold_left].
  destruct o; cbn [contents value_step]; rewrite ?IH; reflexivity.
Qed.
Lemma wf_new : wf (hgrid_new (D := D)).
Proof. split; [|split]; constructor. Qed.

Theorem sparse_history : forall ops, exists h, run_ops d0 hgrid_new ops = Some h /\
  forall i j, match find_cell h i j with
              | None => contents d0 (rev ops) i j = None
              | Some a => exists v, contents d0 (rev ops) i j = Some v /\ deref h a = Some v
              end.
Proof.
  intro ops. destruct (run_ok ops hgrid_new wf_new) as (h & E & W & V). exists h. split; [exact E|].
  intros i j. assert (C : contents d0 (rev ops) i j = value h (i, j)).
  { rewrite contents_fold, rev_involutive, V. reflexivity. }
  rewrite C. apply find_value. exact W.
Qed.

Lemma step_addr : forall h o h' i j n, wf h -> keeps i j o -> step d0 h o = Some h' -> lookup (i, j) (h_nodes h) = Some n ->
  exists n', lookup (i, j) (h_nodes h') = Some n' /\ n_addr n' = n_addr n.
Proof.
  intros h o h' i j n W [K1 K2] S L. destruct o as [i' j'|i' j' v|i' j'|i' j'|]; cbn [step] in S.
  - destruct (get_cell d0 h i' j') as [a h1] eqn:E. injection S as <-. cbn.
    destruct (get_cell_wf _ _ _ _ _ W E) as (W' & m & Lm & Ea & _ & Un & O).
    destruct (key_eqb (i', j') (i, j)) eqn:KE.
    + apply key_eqb_eq in KE. injection KE as -> ->. exists m. split; [exact Lm|]. rewrite (Un n L). reflexivity.
    + exists n. split; [|reflexivity]. rewrite O; [exact L|]. intro X. rewrite X, key_eqb_refl in KE. discriminate.
  - destruct (get_cell d0 h i' j') as [a h1] eqn:E.
    destruct (get_cell_wf _ _ _ _ _ W E) as (W' & m & Lm & Ea & _ & Un & O).
    destruct (lookup_in _ _ _ Lm) as [I Kn]. destruct W' as (K' & A' & F').
    destruct (write_in (h_nodes h1) m v A' K' I) as (l' & Wr & M1 & M2 & Ln & On).
    unfold assign in S. rewrite <- Ea, Wr in S. injection S as <-. cbn [h_nodes].
    destruct (key_eqb (i', j') (i, j)) eqn:KE.
    + apply key_eqb_eq in KE. injection KE as -> ->. rewrite Kn in Ln. eexists. split; [exact Ln|]. cbn. rewrite (Un n L). reflexivity.
    + exists n. split; [|reflexivity].
      assert (N : (i, j) <> (i', j')) by (intro X; rewrite X, key_eqb_refl in KE; discriminate).
      rewrite On, O by (rewrite ?Kn; exact N). exact L.
  - injection S as <-. eauto.
  - injection S as <-. unfold erase. destruct (lookup (i', j') (h_nodes h)) as [m|] eqn:Lm; [|eauto].
    destruct W as (K & A & F). destruct (remove_lookup _ (i', j') K) as (R1 & R2 & R3 & R4).
    exists n. split; [|reflexivity]. cbn [h_nodes]. rewrite R2; [exact L|]. congruence.
  - congruence.
Qed.

(** References stay valid until their cell is erased. *)
Theorem sparse_references : forall ops1 ops2 h1 a h2 h3 i j,
  run_ops d0 hgrid_new ops1 = Some h1 -> get_cell d0 h1 i j = (a, h2) ->
  run_ops d0 h2 ops2 = Some h3 -> Forall (keeps i j) ops2 ->
  find_cell h3 i j = Some a /\ fst (get_cell d0 h3 i j) = a /\ exists v, deref h3 a = Some v.
Proof.
  intros ops1 ops2 h1 a h2 h3 i j R1 G R2 K.
  destruct (run_ok ops1 hgrid_new wf_new) as (h1' & E1 & W1 & _). assert (h1' = h1) by congruence. subst h1'.
  destruct (get_cell_wf _ _ _ _ _ W1 G) as (W2 & n & L & Ea & _).
  assert (X : forall ops h n, wf h -> Forall (keeps i j) ops -> lookup (i, j) (h_nodes h) = Some n -> forall h', run_ops d0 h ops = Some h' ->
    wf h' /\ exists n', lookup (i, j) (h_nodes h') = Some n' /\ n_addr n' = n_addr n).
  { clear. induction ops as [|o ops IH]; intros h n W F L h' R; cbn [run_ops] in R.
    - injection R as <-. eauto.
    - inversion_clear F. destruct (step_ok h o W) as (h1 & E & W1 & _). rewrite E in R.
      destruct (step_addr h o h1 i j n W H E L) as (n1 & L1 & A1).
      destruct (IH h1 n1 W1 H0 L1 h' R) as (W' & n' & L' & A'). split; [exact W'|]. exists n'. split; [exact L'|congruence]. }
  destruct (X ops2 h2 n W2 K L h3 R2) as (W3 & n' & L' & A').
  unfold find_cell, get_cell. rewrite L'. rewrite A', Ea. split; [reflexivity|]. split; [reflexivity|].
  exists (n_data n'). destruct (lookup_in _ _ _ L') as [I _]. rewrite <- Ea, <- A'. apply read_in; [|exact I]. destruct W3; tauto.
Qed.
End SparseProofs.

(** ** Bresenham's traversal *)
Local Open Scope Z_scope.

Lemma quot_sgn : forall d, d <> 0 -> Z.quot d (Z.abs d) = Z.sgn d.
Proof.
  intros d H. destruct (Z.lt_trichotomy d 0) as [L|[E|G]]; [|contradiction|].
  - rewrite (Z.abs_neq d) by lia. rewrite Z.sgn_neg by lia.
    replace d with (- (- d)) at 1 by lia. rewrite Z.quot_opp_l by lia. rewrite Z.quot_same by lia. reflexivity.
  - rewrite (Z.abs_eq d) by lia. rewrite Z.sgn_pos by lia. apply Z.quot_same. lia.
Qed.
Lemma int_ok_true : forall v, -2147483648 <= v <= 2147483647 -> int_ok v = true.
Proof. intros v H. unfold int_ok. apply andb_true_iff. split; apply Z.leb_le; lia. Qed.
Lemma ints_ok_true : forall l, Forall (fun v => -2147483648 <= v <= 2147483647) l -> ints_ok l = true.
Proof. intros l H. apply forallb_forall. intros x Hx. apply int_ok_true. rewrite Forall_forall in H. auto. Qed.

(** What the sloped loop produces, in steps of the driving (length [da]) and the other (length
    [db]) coordinate: after k driving steps the other one has moved m steps. *)
Fixpoint digital (mk : Z -> Z -> key) (a0 b0 sa sb da db k m : Z) (l : list key) : Prop :=
  match l with
  | [] => k = da /\ m = db
  | c :: l' => exists m', (m' = m \/ m' = m + 1) /\ c = mk (a0 + (k + 1) * sa) (b0 + m' * sb) /\
      2 * Z.abs ((k + 1) * db - m' * da) <= da /\ digital mk a0 b0 sa sb da db (k + 1) m' l'
  end.

Lemma slope_loop_ok : forall mk a0 b0 sa sb da db e,
  0 < db <= da -> da <= 1073741823 -> (sa = 1 \/ sa = -1) -> (sb = 1 \/ sb = -1) ->
  0 <= a0 <= 1073741823 -> 0 <= b0 <= 1073741823 -> 0 <= a0 + da * sa <= 1073741823 -> 0 <= b0 + db * sb <= 1073741823 ->
  e = a0 + da * sa ->
  forall n fuel k m, (n < fuel)%nat -> Z.of_nat n = da - k -> 0 <= k -> 0 <= m <= db ->
    2 * Z.abs (k * db - m * da) <= da ->
    exists l, slope_loop mk sa sb e (2 * db) (2 * (db - da)) fuel (a0 + k * sa) (b0 + m * sb) (2 * (k + 1) * db - da * (2 * m + 1)) = Visited l /\
      length l = n /\ digital mk a0 b0 sa sb da db k m l.
Proof.
  intros mk a0 b0 sa sb da db e D1 D2 SA SB A0 B0 A1 B1 E n.
  induction n as [|n IH]; intros fuel k m F N K M Err; (destruct fuel as [|fuel]; [lia|]); cbn [slope_loop].
  - assert (k = da) by lia. subst k. rewrite E, Z.eqb_refl. exists []. split; [reflexivity|]. split; [reflexivity|].
    cbn [digital]. split; [reflexivity|]. clear - Err D1 M. nia.
  - assert (Kd : 0 <= k < da) by lia.
    assert (X : a0 + k * sa =? e = false) by (apply Z.eqb_neq; destruct SA; subst sa; lia).
    rewrite X. clear X.
    assert (Ea : a0 + k * sa + sa = a0 + (k + 1) * sa) by ring. rewrite Ea.
    assert (Ra : 0 <= a0 + (k + 1) * sa <= 1073741823) by (destruct SA; subst sa; lia).
    assert (Mon : (k + 1) * db <= da * db) by (apply Z.mul_le_mono_nonneg_r; lia).
    assert (Rb : forall m', 0 <= m' <= db -> 0 <= b0 + m' * sb <= 1073741823) by (intros; destruct SB; subst sb; lia).
    destruct (Z.ltb_spec (2 * (k + 1) * db - da * (2 * m + 1)) 0) as [P|P].
    + assert (Err' : 2 * Z.abs ((k + 1) * db - m * da) <= da).
      { replace ((k + 1) * db) with (k * db + db) by ring. replace (2 * (k + 1) * db - da * (2 * m + 1)) with (2 * (k * db) + 2 * db - 2 * (m * da) - da) in P by ring.
        clear - D1 Err P. revert Err P. generalize (k * db) (m * da). intros. lia. }
      assert (Ep : 2 * (k + 1) * db - da * (2 * m + 1) + 2 * db = 2 * (k + 1 + 1) * db - da * (2 * m + 1)) by ring.
      rewrite Ep. rewrite ints_ok_true.
      2:{ constructor; [lia|]. constructor; [|constructor].
          replace (2 * (k + 1 + 1) * db - da * (2 * m + 1)) with (2 * ((k + 1) * db) + 2 * db - 2 * (m * da) - da) by ring.
          clear - D1 D2 Err'. revert Err'. generalize ((k + 1) * db) (m * da). intros. lia. }
      destruct (IH fuel (k + 1) m ltac:(lia) ltac:(lia) ltac:(lia) M Err') as (l & R & L & Dg).
      rewrite R. cbn [visit]. exists (mk (a0 + (k + 1) * sa) (b0 + m * sb) :: l). split; [reflexivity|].
      split; [cbn; lia|]. cbn [digital]. exists m. auto.
    + assert (Err' : 2 * Z.abs ((k + 1) * db - (m + 1) * da) <= da).
      { replace ((k + 1) * db) with (k * db + db) by ring. replace ((m + 1) * da) with (m * da + da) by ring.
        replace (2 * (k + 1) * db - da * (2 * m + 1)) with (2 * (k * db) + 2 * db - 2 * (m * da) - da) in P by ring.
        clear - D1 Err P. revert Err P. generalize (k * db) (m * da). intros. lia. }
      assert (M' : 0 <= m + 1 <= db).
      { split; [lia|]. clear - Mon P D1. nia. }
      assert (Eb : b0 + m * sb + sb = b0 + (m + 1) * sb) by ring. rewrite Eb.
      specialize (Rb (m + 1) M').
      assert (Ep : 2 * (k + 1) * db - da * (2 * m + 1) + 2 * (db - da) = 2 * (k + 1 + 1) * db - da * (2 * (m + 1) + 1)) by ring.
      rewrite Ep. rewrite ints_ok_true.
      2:{ constructor; [lia|]. constructor; [lia|]. constructor; [|constructor].
          replace (2 * (k + 1 + 1) * db - da * (2 * (m + 1) + 1)) with (2 * ((k + 1) * db) + 2 * db - 2 * ((m + 1) * da) - da) by ring.
          clear - D1 D2 Err'. revert Err'. generalize ((k + 1) * db) ((m + 1) * da). intros. lia. }
      destruct (IH fuel (k + 1) (m + 1) ltac:(lia) ltac:(lia) ltac:(lia) M' Err') as (l & R & L & Dg).
      rewrite R. cbn [visit]. exists (mk (a0 + (k + 1) * sa) (b0 + (m + 1) * sb) :: l). split; [reflexivity|].
      split; [cbn; lia|]. cbn [digital]. exists (m + 1). auto.
Qed.

Lemma straight_loop_ok : forall mk a0 b0 sa sb da e,
  0 <= da -> da <= 1073741823 -> (sa = 1 \/ sa = -1) -> 0 <= a0 <= 1073741823 -> 0 <= a0 + da * sa <= 1073741823 ->
  e = a0 + da * sa ->
  forall n fuel k, (n < fuel)%nat -> Z.of_nat n = da - k -> 0 <= k ->
    exists l, straight_loop mk sa e fuel (a0 + k * sa) = Visited l /\ length l = n /\
      digital (fun a _ => mk a) a0 b0 sa sb da 0 k 0 l.
Proof.
  intros mk a0 b0 sa sb da e D0 D2 SA A0 A1 E n.
  induction n as [|n IH]; intros fuel k F N K; (destruct fuel as [|fuel]; [lia|]); cbn [straight_loop].
  - assert (k = da) by lia. subst k. rewrite E, Z.eqb_refl. exists []. repeat split; lia.
  - assert (X : a0 + k * sa =? e = false) by (apply Z.eqb_neq; destruct SA; subst sa; lia).
    rewrite X. clear X. assert (Ea : a0 + k * sa + sa = a0 + (k + 1) * sa) by ring. rewrite Ea.
    rewrite int_ok_true by (destruct SA; subst sa; lia).
    destruct (IH fuel (k + 1) ltac:(lia) ltac:(lia) ltac:(lia)) as (l & R & L & Dg).
    rewrite R. cbn [visit]. eexists. split; [reflexivity|]. split; [cbn; lia|]. cbn [digital].
    exists 0. split; [auto|]. split; [reflexivity|]. split; [lia|exact Dg].
Qed.

Section Digital.
Variable mk : Z -> Z -> key.
Variables a0 b0 sa sb da db : Z.
Definition cell (k m : Z) : key := mk (a0 + k * sa) (b0 + m * sb).
Lemma digital_length : forall l k m, digital mk a0 b0 sa sb da db k m l -> Z.of_nat (length l) = da - k.
Proof.
  induction l as [|c l IH]; intros k m H; cbn [digital] in H.
  - cbn. lia.
  - destruct H as (m' & _ & _ & _ & H). apply IH in H. cbn [length]. lia.
Qed.
Lemma digital_last : forall l k m, digital mk a0 b0 sa sb da db k m l ->
  nth_error (cell k m :: l) (length l) = Some (cell da db).
Proof.
  induction l as [|c l IH]; intros k m H; cbn [digital] in H.
  - destruct H as [-> ->]. reflexivity.
  - destruct H as (m' & _ & E & _ & H). cbn [length nth_error]. apply IH in H. rewrite E. exact H.
Qed.
Lemma digital_steps : forall l k m, digital mk a0 b0 sa sb da db k m l -> forall i c c',
  nth_error (cell k m :: l) i = Some c -> nth_error (cell k m :: l) (S i) = Some c' ->
  exists k' m' m'', c = cell k' m' /\ c' = cell (k' + 1) m'' /\ (m'' = m' \/ m'' = m' + 1).
Proof.
  induction l as [|x l IH]; intros k m H i c c' H1 H2; cbn [digital] in H.
  - destruct i; discriminate.
  - destruct H as (m' & M & E & _ & H). destruct i as [|i].
    + cbn in H1, H2. injection H1 as <-. injection H2 as <-. exists k, m, m'. rewrite E. auto.
    + cbn [nth_error] in H1, H2. subst x. exact (IH (k + 1) m' H i c c' H1 H2).
Qed.
Lemma digital_near : forall l k m, digital mk a0 b0 sa sb da db k m l -> forall c, In c l ->
  exists k' m', c = cell k' m' /\ 2 * Z.abs (k' * db - m' * da) <= da.
Proof.
  induction l as [|x l IH]; intros k m H c Hc; [contradiction|]. cbn [digital] in H.
  destruct H as (m' & _ & E & N & H). destruct Hc as [<-|Hc]; [exists (k + 1), m'; auto|exact (IH _ _ H c Hc)].
Qed.
End Digital.

Lemma digital_line_x : forall x1 y1 x2 y2 l, Z.abs (y2 - y1) <= Z.abs (x2 - x1) -> x2 - x1 <> 0 ->
  digital (fun a b => (a, b)) x1 y1 (Z.sgn (x2 - x1)) (Z.sgn (y2 - y1)) (Z.abs (x2 - x1)) (Z.abs (y2 - y1)) 0 0 l ->
  digital_line x1 y1 x2 y2 ((x1, y1) :: l).
Proof.
  intros x1 y1 x2 y2 l Hd Hx H.
  assert (C0 : cell (fun a b => (a, b)) x1 y1 (Z.sgn (x2 - x1)) (Z.sgn (y2 - y1)) 0 0 = (x1, y1)) by (unfold cell; f_equal; ring).
  pose proof (digital_length _ _ _ _ _ _ _ _ _ _ H) as L. pose proof (digital_last _ _ _ _ _ _ _ _ _ _ H) as La.
  pose proof (digital_steps _ _ _ _ _ _ _ _ _ _ H) as St. pose proof (digital_near _ _ _ _ _ _ _ _ _ _ H) as Ne.
  rewrite C0 in *. clear C0 H.
  pose proof (Z.abs_sgn (x2 - x1)) as Ax. pose proof (Z.abs_sgn (y2 - y1)) as Ay.
  split; [reflexivity|]. split.
  { cbn [length]. replace (S (length l) - 1)%nat with (length l) by lia. etransitivity; [exact La|]. unfold cell. f_equal. f_equal; lia. }
  split; [cbn [length]; lia|]. split.
  - intros k c c' H1 H2. destruct (St k c c' H1 H2) as (k' & m' & m'' & -> & -> & M). unfold toward, cell; cbn [fst snd].
    split; [right; ring|]. split; [destruct M as [->| ->]; [left; ring|right; ring]|].
    destruct (Z.ltb_spec (Z.abs (x2 - x1)) (Z.abs (y2 - y1))); [lia|]. intro E.
    assert (Z.sgn (x2 - x1) = 0) by (rewrite <- E; ring). lia.
  - intros c Hc. unfold within_half_cell. destruct Hc as [<-|Hc].
    + cbn [fst snd]. replace ((y1 - y1) * (x2 - x1) - (x1 - x1) * (y2 - y1)) with 0 by ring. cbn. lia.
    + destruct (Ne c Hc) as (k' & m' & -> & N). unfold cell; cbn [fst snd].
      replace ((y1 + m' * Z.sgn (y2 - y1) - y1) * (x2 - x1) - (x1 + k' * Z.sgn (x2 - x1) - x1) * (y2 - y1))
        with (- (Z.sgn (x2 - x1) * Z.sgn (y2 - y1)) * (k' * Z.abs (y2 - y1) - m' * Z.abs (x2 - x1))).
      2:{ clear - Ax Ay. revert Ax Ay. generalize (Z.abs (x2 - x1)) (Z.sgn (x2 - x1)) (Z.abs (y2 - y1)) (Z.sgn (y2 - y1)). intros a s b t Ax Ay. rewrite <- Ax, <- Ay. ring. }
      rewrite Z.abs_mul. rewrite Z.abs_opp, Z.abs_mul.
      assert (S1 : 0 <= Z.abs (Z.sgn (x2 - x1)) <= 1) by lia. assert (S2 : 0 <= Z.abs (Z.sgn (y2 - y1)) <= 1) by lia.
      pose proof (Z.abs_nonneg (k' * Z.abs (y2 - y1) - m' * Z.abs (x2 - x1))) as P0. revert N S1 S2 P0. generalize (Z.abs (k' * Z.abs (y2 - y1) - m' * Z.abs (x2 - x1))) (Z.abs (Z.sgn (x2 - x1))) (Z.abs (Z.sgn (y2 - y1))).
      intros n s1 s2 N S1 S2 P0. assert (D1 : s1 = 0 \/ s1 = 1) by lia. assert (D2 : s2 = 0 \/ s2 = 1) by lia. destruct D1, D2; subst; lia.
Qed.
Lemma digital_line_y : forall x1 y1 x2 y2 l, Z.abs (x2 - x1) < Z.abs (y2 - y1) ->
  digital (fun a b => (b, a)) y1 x1 (Z.sgn (y2 - y1)) (Z.sgn (x2 - x1)) (Z.abs (y2 - y1)) (Z.abs (x2 - x1)) 0 0 l ->
  digital_line x1 y1 x2 y2 ((x1, y1) :: l).
Proof.
  intros x1 y1 x2 y2 l Hd H.
  assert (C0 : cell (fun a b => (b, a)) y1 x1 (Z.sgn (y2 - y1)) (Z.sgn (x2 - x1)) 0 0 = (x1, y1)) by (unfold cell; f_equal; ring).
  pose proof (digital_length _ _ _ _ _ _ _ _ _ _ H) as L. pose proof (digital_last _ _ _ _ _ _ _ _ _ _ H) as La.
  pose proof (digital_steps _ _ _ _ _ _ _ _ _ _ H) as St. pose proof (digital_near _ _ _ _ _ _ _ _ _ _ H) as Ne.
  rewrite C0 in *. clear C0 H.
  pose proof (Z.abs_sgn (x2 - x1)) as Ax. pose proof (Z.abs_sgn (y2 - y1)) as Ay.
  split; [reflexivity|]. split.
  { cbn [length]. replace (S (length l) - 1)%nat with (length l) by lia. etransitivity; [exact La|]. unfold cell. f_equal. f_equal; lia. }
  split; [cbn [length]; lia|]. split.
  - intros k c c' H1 H2. destruct (St k c c' H1 H2) as (k' & m' & m'' & -> & -> & M). unfold toward, cell; cbn [fst snd].
    split; [destruct M as [->| ->]; [left; ring|right; ring]|]. split; [right; ring|].
    destruct (Z.ltb_spec (Z.abs (x2 - x1)) (Z.abs (y2 - y1))); [|lia]. intro E.
    assert (Z.sgn (y2 - y1) = 0) by (rewrite <- E; ring). lia.
  - intros c Hc. unfold within_half_cell. destruct Hc as [<-|Hc].
    + cbn [fst snd]. replace ((y1 - y1) * (x2 - x1) - (x1 - x1) * (y2 - y1)) with 0 by ring. cbn. lia.
    + destruct (Ne c Hc) as (k' & m' & -> & N). unfold cell; cbn [fst snd].
      replace ((y1 + k' * Z.sgn (y2 - y1) - y1) * (x2 - x1) - (x1 + m' * Z.sgn (x2 - x1) - x1) * (y2 - y1))
        with (Z.sgn (x2 - x1) * Z.sgn (y2 - y1) * (k' * Z.abs (x2 - x1) - m' * Z.abs (y2 - y1))).
      2:{ clear - Ax Ay. revert Ax Ay. generalize (Z.abs (x2 - x1)) (Z.sgn (x2 - x1)) (Z.abs (y2 - y1)) (Z.sgn (y2 - y1)). intros a s b t Ax Ay. rewrite <- Ax, <- Ay. ring. }
      rewrite Z.abs_mul. rewrite Z.abs_mul.
      assert (S1 : 0 <= Z.abs (Z.sgn (x2 - x1)) <= 1) by lia. assert (S2 : 0 <= Z.abs (Z.sgn (y2 - y1)) <= 1) by lia.
      pose proof (Z.abs_nonneg (k' * Z.abs (x2 - x1) - m' * Z.abs (y2 - y1))) as P0. revert N S1 S2 P0. generalize (Z.abs (k' * Z.abs (x2 - x1) - m' * Z.abs (y2 - y1))) (Z.abs (Z.sgn (x2 - x1))) (Z.abs (Z.sgn (y2 - y1))).
      intros n s1 s2 N S1 S2 P0. assert (D1 : s1 = 0 \/ s1 = 1) by lia. assert (D2 : s2 = 0 \/ s2 = 1) by lia. destruct D1, D2; subst; lia.
Qed.

Lemma digital_ext : forall mk mk' a0 b0 sa sb da db l k m, (forall k m, mk (a0 + k * sa) (b0 + m * sb) = mk' (a0 + k * sa) (b0 + m * sb)) ->
  digital mk a0 b0 sa sb da db k m l -> digital mk' a0 b0 sa sb da db k m l.
Proof.
  intros mk mk' a0 b0 sa sb da db l. induction l as [|c l IH]; intros k m E H; cbn [digital] in *; [exact H|].
  destruct H as (m' & M & -> & N & H). exists m'. split; [exact M|]. split; [apply E|]. split; [exact N|]. exact (IH _ _ E H).
Qed.

Theorem bresenham_ok : forall x1 y1 x2 y2 fuel,
  0 <= x1 < 1073741824 -> 0 <= y1 < 1073741824 -> 0 <= x2 < 1073741824 -> 0 <= y2 < 1073741824 ->
  Z.max (Z.abs (x2 - x1)) (Z.abs (y2 - y1)) < Z.of_nat fuel ->
  exists l, bresenham fuel x1 y1 x2 y2 = Visited l /\ digital_line x1 y1 x2 y2 l.
Proof.
  intros x1 y1 x2 y2 fuel X1 Y1 X2 Y2 F. unfold bresenham. cbv zeta.
  rewrite (ints_ok_true [x1; y1; x2; y2; x2 - x1; y2 - y1]) by (repeat constructor; lia). cbn [negb].
  destruct (Z.eqb_spec (x2 - x1) 0) as [Ex|Ex]; destruct (Z.eqb_spec (y2 - y1) 0) as [Ey|Ey]; cbn [andb].
  - eexists. split; [reflexivity|]. assert (x2 = x1) by lia. assert (y2 = y1) by lia. subst.
    split; [reflexivity|]. split; [reflexivity|]. split; [cbn [length]; lia|]. split.
    + intros [|[|k]] c c' H1 H2; discriminate.
    + intros c [<-|[]]. unfold within_half_cell; cbn [fst snd]. replace ((y1 - y1) * (x1 - x1) - (x1 - x1) * (y1 - y1)) with 0 by ring. cbn. lia.
  - rewrite (int_ok_true (Z.abs (y2 - y1))) by lia. cbn [negb]. rewrite quot_sgn by assumption.
    pose proof (Z.abs_sgn (y2 - y1)) as Ay.
    destruct (straight_loop_ok (fun y => (x1, y)) y1 x1 (Z.sgn (y2 - y1)) (Z.sgn (x2 - x1)) (Z.abs (y2 - y1)) y2 ltac:(lia) ltac:(lia) ltac:(lia) ltac:(lia) ltac:(lia) ltac:(lia)
      (Z.to_nat (Z.abs (y2 - y1))) fuel 0 ltac:(lia) ltac:(lia) ltac:(lia)) as (l & R & _ & Dg).
    replace (y1 + 0 * Z.sgn (y2 - y1)) with y1 in R by ring. rewrite R. cbn [visit].
    eexists. split; [reflexivity|]. apply digital_line_y; [lia|].
    replace (Z.abs (x2 - x1)) with 0 by lia. eapply digital_ext; [|exact Dg].
    intros k m. cbn. rewrite Ex. cbn [Z.sgn]. f_equal. ring.
  - rewrite (int_ok_true (Z.abs (x2 - x1))) by lia. cbn [negb]. rewrite quot_sgn by assumption.
    pose proof (Z.abs_sgn (x2 - x1)) as Ax.
    destruct (straight_loop_ok (fun x => (x, y1)) x1 y1 (Z.sgn (x2 - x1)) (Z.sgn (y2 - y1)) (Z.abs (x2 - x1)) x2 ltac:(lia) ltac:(lia) ltac:(lia) ltac:(lia) ltac:(lia) ltac:(lia)
      (Z.to_nat (Z.abs (x2 - x1))) fuel 0 ltac:(lia) ltac:(lia) ltac:(lia)) as (l & R & _ & Dg).
    replace (x1 + 0 * Z.sgn (x2 - x1)) with x1 in R by ring. rewrite R. cbn [visit].
    eexists. split; [reflexivity|]. apply digital_line_x; [lia|lia|].
    replace (Z.abs (y2 - y1)) with 0 by lia. eapply digital_ext; [|exact Dg].
    intros k m. cbn. rewrite Ey. cbn [Z.sgn]. f_equal. ring.
  - rewrite !quot_sgn by assumption.
    rewrite (ints_ok_true [Z.abs (x2 - x1); Z.abs (y2 - y1)]) by (repeat constructor; lia). cbn [negb].
    pose proof (Z.abs_sgn (x2 - x1)) as Ax. pose proof (Z.abs_sgn (y2 - y1)) as Ay.
    destruct (Z.ltb_spec (Z.abs (x2 - x1)) (Z.abs (y2 - y1))) as [L|L].
    + rewrite ints_ok_true by (repeat constructor; lia). cbn [negb].
      destruct (slope_loop_ok (fun a b => (b, a)) y1 x1 (Z.sgn (y2 - y1)) (Z.sgn (x2 - x1)) (Z.abs (y2 - y1)) (Z.abs (x2 - x1)) y2
        ltac:(lia) ltac:(lia) ltac:(lia) ltac:(lia) ltac:(lia) ltac:(lia) ltac:(lia) ltac:(lia) ltac:(lia)
        (Z.to_nat (Z.abs (y2 - y1))) fuel 0 0 ltac:(lia) ltac:(lia) ltac:(lia) ltac:(lia) ltac:(cbn; lia)) as (l & R & _ & Dg).
      replace (y1 + 0 * Z.sgn (y2 - y1)) with y1 in R by ring. replace (x1 + 0 * Z.sgn (x2 - x1)) with x1 in R by ring.
      replace (2 * (0 + 1) * Z.abs (x2 - x1) - Z.abs (y2 - y1) * (2 * 0 + 1)) with (2 * Z.abs (x2 - x1) - Z.abs (y2 - y1)) in R by ring.
      rewrite R. cbn [visit]. eexists. split; [reflexivity|]. apply digital_line_y; assumption.
    + rewrite ints_ok_true by (repeat constructor; lia). cbn [negb].
      destruct (slope_loop_ok (fun a b => (a, b)) x1 y1 (Z.sgn (x2 - x1)) (Z.sgn (y2 - y1)) (Z.abs (x2 - x1)) (Z.abs (y2 - y1)) x2
        ltac:(lia) ltac:(lia) ltac:(lia) ltac:(lia) ltac:(lia) ltac:(lia) ltac:(lia) ltac:(lia) ltac:(lia)
        (Z.to_nat (Z.abs (x2 - x1))) fuel 0 0 ltac:(lia) ltac:(lia) ltac:(lia) ltac:(lia) ltac:(cbn; lia)) as (l & R & _ & Dg).
      replace (x1 + 0 * Z.sgn (x2 - x1)) with x1 in R by ring. replace (y1 + 0 * Z.sgn (y2 - y1)) with y1 in R by ring.
      replace (2 * (0 + 1) * Z.abs (y2 - y1) - Z.abs (x2 - x1) * (2 * 0 + 1)) with (2 * Z.abs (y2 - y1) - Z.abs (x2 - x1)) in R by ring.
      rewrite R. cbn [visit]. eexists. split; [reflexivity|]. apply digital_line_x; assumption.
Qed.

Theorem dense_history : forall (D : Type) (d0 : D) xmin xmax ymin ymax w g ws,
  good_bounds xmin xmax ymin ymax w -> make_grid xmin xmax ymin ymax w = Some g ->
  Forall (fun pv => in_region xmin xmax ymin ymax (fst pv)) ws ->
  exists a, write_all g (dense_new g d0) ws = Some a /\
    forall q, in_region xmin xmax ymin ymax q -> exists v, dense_get_at g a q = Some v /\ latest xmin ymin w d0 q ws v.
Proof.
  intros D d0 xmin xmax ymin ymax w g ws G E F.
  assert (X : exists a, write_all g (dense_new g d0) ws = Some a /\ shaped a (g_nx g) (g_ny g) /\
    forall q, in_region xmin xmax ymin ymax q -> exists v, dense_get_at g a q = Some v /\ latest xmin ymin w d0 q ws v).
  2:{ destruct X as (a & X1 & _ & X2). eauto. }
  induction F as [|[p v] r P F IH]; cbn [write_all fst] in *.
  - eexists. split; [reflexivity|]. split; [apply shaped_new|]. intros q Q. exists d0. split; [|constructor].
    destruct (grid_lookup _ _ _ _ _ G) as (g' & E' & _ & L & _). assert (g' = g) by congruence. subst g'.
    destruct (L q Q) as (i & j & Ei & Ej & Ri & Rj & _). unfold dense_get_at. rewrite Ei, Ej. apply dense_new_get; assumption.
  - destruct IH as (a & E1 & S1 & R1). rewrite E1.
    destruct (dense_access D xmin xmax ymin ymax w g a p v G E S1 P) as (a' & E2 & S2 & R2).
    exists a'. split; [exact E2|]. split; [exact S2|]. intros q Q.
    destruct (R2 q Q) as [[C ->]|[C [-> _]]].
    + exists v. split; [reflexivity|]. apply latest_here. exact C.
    + destruct (R1 q Q) as (u & -> & L). exists u. split; [reflexivity|]. apply latest_before; assumption.
Qed.

Theorem bresenham_segment_ok : forall xmin xmax ymin ymax w g s t,
  good_bounds xmin xmax ymin ymax w -> make_grid xmin xmax ymin ymax w = Some g ->
  g_nx g <= 1073741824 -> g_ny g <= 1073741824 ->
  in_region xmin xmax ymin ymax s -> in_region xmin xmax ymin ymax t ->
  exists x1 y1 x2 y2, in_cell xmin ymin w x1 y1 s /\ in_cell xmin ymin w x2 y2 t /\
    forall fuel, Z.max (g_nx g) (g_ny g) < Z.of_nat fuel ->
      exists l, bresenham_segment_traversal fuel g s t = Visited l /\ digital_line x1 y1 x2 y2 l.
Proof.
  intros xmin xmax ymin ymax w g s t G E NX NY S T.
  destruct (grid_lookup _ _ _ _ _ G) as (g' & E' & _ & L & _). assert (g' = g) by congruence. subst g'.
  destruct (L s S) as (x1 & y1 & X1 & Y1 & RX1 & RY1 & C1). destruct (L t T) as (x2 & y2 & X2 & Y2 & RX2 & RY2 & C2).
  exists x1, y1, x2, y2. split; [exact C1|]. split; [exact C2|]. intros fuel F.
  unfold bresenham_segment_traversal. rewrite X1, Y1, X2, Y2. apply bresenham_ok; lia.
Qed.
