(** Proofs about the walk along a segment. *)
From Verif Require Import Base CmpModel BoxModel BoxSpec ClipModel ClipSpec ClipProof GridModel GridSpec GridProof FloodSpec VoxelModel VoxelSpec.

(** ** One axis of the index walk *)
Definition past (st e i : Z) : bool := ((0 <? st) && (e <? i) || (st <? 0) && (i <? e))%Z.
Lemma beyond_past : forall sI sJ ie je i j, beyond sI sJ ie je i j = past sI ie i || past sJ je j.
Proof. intros. unfold beyond, past. rewrite !orb_assoc. reflexivity. Qed.

Definition axis_ok (W i0 e st out : Z) (n : nat) : Prop :=
  (0 <= i0 < W /\ 0 <= e < W /\ W < two32 /\ e = i0 + Z.of_nat n * st /\ (st = 1 /\ out = W \/ st = -1 /\ out = -1))%Z.
Lemma axis_before : forall W i0 e st out n m, axis_ok W i0 e st out n -> (m < n)%nat ->
  ((i0 + Z.of_nat m * st + st) mod two32 = i0 + Z.of_nat (S m) * st)%Z /\
  ((i0 + Z.of_nat (S m) * st) =? out mod two32)%Z = false.
Proof.
  intros W i0 e st out n m (A & B & C & D & E) L. split.
  - replace (i0 + Z.of_nat m * st + st)%Z with (i0 + Z.of_nat (S m) * st)%Z by lia. apply Z.mod_small.
    destruct E as [[-> ->]|[-> ->]]; lia.
  - apply Z.eqb_neq. destruct E as [[-> ->]|[-> ->]].
    + rewrite (Z.mod_small W) by lia. lia.
    + change ((-1) mod two32)%Z with (two32 - 1)%Z. lia.
Qed.
Lemma axis_within : forall W i0 e st out n m, axis_ok W i0 e st out n -> (m <= n)%nat -> past st e (i0 + Z.of_nat m * st) = false.
Proof.
  intros W i0 e st out n m (A & B & C & D & E) L. unfold past. destruct E as [[-> ->]|[-> ->]]; cbn [Z.ltb Z.compare andb orb].
  - destruct (Z.ltb_spec e (i0 + Z.of_nat m * 1)); [lia|reflexivity].
  - destruct (Z.ltb_spec (i0 + Z.of_nat m * -1) e); [lia|reflexivity].
Qed.
Lemma axis_after : forall W i0 e st out n, axis_ok W i0 e st out n ->
  ((i0 + Z.of_nat n * st + st) mod two32 =? out mod two32)%Z = true \/ past st e ((i0 + Z.of_nat n * st + st) mod two32) = true.
Proof.
  intros W i0 e st out n (A & B & C & D & E). rewrite <- D. unfold past. destruct E as [[-> ->]|[-> ->]]; cbn [Z.ltb Z.compare andb orb].
  - right. rewrite Z.mod_small by lia. destruct (Z.ltb_spec e (e + 1)); [reflexivity|lia].
  - destruct (Z.eq_dec e 0) as [->|N]; [left; reflexivity|right]. rewrite Z.mod_small by lia.
    destruct (Z.ltb_spec (e + -1) e); [reflexivity|lia].
Qed.

(** ** The sloped walk, by crossing times *)
Definition at_step (T dt : Q) (m : nat) : Q := T + inject_Z (Z.of_nat m) * dt.
Lemma at_step_S : forall T dt m, at_step T dt (S m) == at_step T dt m + dt.
Proof. intros. unfold at_step. rewrite Nat2Z.inj_succ. unfold Z.succ. rewrite inject_Z_plus. change (inject_Z 1) with 1. ring. Qed.
Lemma at_step_mono : forall T dt m n, 0 < dt -> (m <= n)%nat -> at_step T dt m <= at_step T dt n.
Proof.
  intros T dt m n H L. induction L as [|n L IH]; [lra|]. rewrite at_step_S. lra.
Qed.

Section Sloped.
Variables Wx Wy i0 j0 ie je stI stJ outI outJ : Z.
Variables nx ny : nat.
Variables Ex Ey dtx dty a b : Q.  (* the entry times of the first column and row *)
Hypothesis AX : axis_ok Wx i0 ie stI outI nx.
Hypothesis AY : axis_ok Wy j0 je stJ outJ ny.
Hypothesis Dx : 0 < dtx.
Hypothesis Dy : 0 < dty.
Hypothesis X1 : forall m, (m < nx)%nat -> at_step Ex dtx (S m) <= b.
Hypothesis X2 : b <= at_step Ex dtx (S nx).
Hypothesis Y1 : forall m, (m < ny)%nat -> at_step Ey dty (S m) <= b.
Hypothesis Y2 : b <= at_step Ey dty (S ny).
Hypothesis Hab : a <= b.

Definition vcell (m k : nat) : key := ((i0 + Z.of_nat m * stI)%Z, (j0 + Z.of_nat k * stJ)%Z).
Definition in_slabs (m k : nat) (t : Q) : Prop :=
  at_step Ex dtx m <= t <= at_step Ex dtx (S m) /\ at_step Ey dty k <= t <= at_step Ey dty (S k).
Definition meets_now (m k : nat) : Prop :=
  at_step Ex dtx m <= at_step Ey dty (S k) /\ at_step Ey dty k <= at_step Ex dtx (S m) /\
  a <= at_step Ex dtx (S m) /\ a <= at_step Ey dty (S k) /\ at_step Ex dtx m <= b /\ at_step Ey dty k <= b.
Inductive path : nat -> nat -> list (nat * nat) -> Prop :=
| path_end : forall m k, path m k []
| path_x : forall m k l, path (S m) k l -> path m k ((S m, k) :: l)
| path_y : forall m k l, path m (S k) l -> path m k ((m, S k) :: l).

Lemma meets_common : forall m k, meets_now m k -> exists t, a <= t <= b /\ in_slabs m k t.
Proof.
  intros m k (M1 & M2 & M3 & M4 & M5 & M6). unfold in_slabs.
  pose proof (at_step_S Ex dtx m) as S1. pose proof (at_step_S Ey dty k) as S2.
  destruct (Qlt_le_dec (at_step Ex dtx m) a) as [L1|L1].
  - destruct (Qlt_le_dec (at_step Ey dty k) a) as [L2|L2].
    + exists a. repeat split; lra.
    + exists (at_step Ey dty k). repeat split; lra.
  - destruct (Qlt_le_dec (at_step Ey dty k) (at_step Ex dtx m)) as [L2|L2].
    + exists (at_step Ex dtx m). repeat split; lra.
    + exists (at_step Ey dty k). repeat split; lra.
Qed.

Lemma voxel_loop_ok : forall fuel m k tx ty, (m <= nx)%nat -> (k <= ny)%nat -> (nx - m + (ny - k) < fuel)%nat ->
  tx == at_step Ex dtx (S m) -> ty == at_step Ey dty (S k) -> meets_now m k ->
  exists l, voxel_loop outI outJ stI stJ ie je dtx dty fuel (i0 + Z.of_nat m * stI)%Z (j0 + Z.of_nat k * stJ)%Z tx ty =
      Visited (map (fun mk => vcell (fst mk) (snd mk)) l) /\
    path m k l /\ (forall c, In c l -> (fst c <= nx)%nat /\ (snd c <= ny)%nat /\ exists t, a <= t <= b /\ in_slabs (fst c) (snd c) t) /\
    (forall t, a <= t <= b -> at_step Ex dtx m <= t -> at_step Ey dty k <= t -> exists c, In c ((m, k) :: l) /\ in_slabs (fst c) (snd c) t).
Proof.
  induction fuel as [|fuel IH]; intros m k tx ty Lm Lk F Ex' Ey' M; [lia|]. cbn [voxel_loop].
  pose proof M as (M1 & M2 & M3 & M4 & M5 & M6).
  destruct (Qltb_spec tx ty) as [L|L].
  - destruct (Nat.eq_dec m nx) as [->|Nm].
    + exists []. cbn [map]. split.
      { destruct (axis_after _ _ _ _ _ _ AX) as [R|R]; [rewrite R; reflexivity|].
        destruct (_ =? _)%Z; [reflexivity|]. cbv zeta. rewrite beyond_past, R. reflexivity. }
      split; [constructor|]. split; [intros c []|]. intros t Ht Tx Ty. exists (nx, k). split; [left; reflexivity|].
      cbn [fst snd]. unfold in_slabs. repeat split; lra.
    + destruct (axis_before _ _ _ _ _ _ m AX ltac:(lia)) as [E1 E2]. rewrite E1, E2. cbv zeta.
      rewrite beyond_past, (axis_within _ _ _ _ _ _ (S m) AX) by lia. rewrite (axis_within _ _ _ _ _ _ k AY) by lia. cbn [orb].
      assert (B1 : at_step Ex dtx (S m) <= b) by (apply X1; lia).
      pose proof (at_step_S Ex dtx (S m)) as SS.
      destruct (IH (S m) k (tx + dtx) ty) as (l & R & P & C & V); [lia|lia|lia|lra|exact Ey'|unfold meets_now; repeat split; lra|].
      exists ((S m, k) :: l). split.
      { rewrite R. cbn [visit map fst snd vcell]. reflexivity. }
      split; [constructor; exact P|]. split.
      { intros c [<-|I]; [|apply C; exact I]. cbn [fst snd]. split; [lia|]. split; [lia|]. apply meets_common. unfold meets_now; repeat split; lra. }
      intros t Ht Tx Ty. destruct (Qlt_le_dec t (at_step Ex dtx (S m))) as [Lt|Lt].
      * exists (m, k). split; [left; reflexivity|]. cbn [fst snd]. unfold in_slabs. repeat split; lra.
      * destruct (V t Ht Lt Ty) as (c & I & S1). exists c. split; [right; exact I|exact S1].
  - destruct (Nat.eq_dec k ny) as [->|Nk].
    + exists []. cbn [map]. split.
      { destruct (axis_after _ _ _ _ _ _ AY) as [R|R]; [rewrite R; reflexivity|].
        destruct (_ =? _)%Z; [reflexivity|]. cbv zeta. rewrite beyond_past, R. rewrite orb_true_r. reflexivity. }
      split; [constructor|]. split; [intros c []|]. intros t Ht Tx Ty. exists (m, ny). split; [left; reflexivity|].
      cbn [fst snd]. unfold in_slabs. repeat split; lra.
    + destruct (axis_before _ _ _ _ _ _ k AY ltac:(lia)) as [E1 E2]. rewrite E1, E2. cbv zeta.
      rewrite beyond_past, (axis_within _ _ _ _ _ _ m AX) by lia. rewrite (axis_within _ _ _ _ _ _ (S k) AY) by lia. cbn [orb].
      assert (B1 : at_step Ey dty (S k) <= b) by (apply Y1; lia).
      pose proof (at_step_S Ey dty (S k)) as SS.
      destruct (IH m (S k) tx (ty + dty)) as (l & R & P & C & V); [lia|lia|lia|exact Ex'|lra|unfold meets_now; repeat split; lra|].
      exists ((m, S k) :: l). split.
      { rewrite R. cbn [visit map fst snd vcell]. reflexivity. }
      split; [constructor; exact P|]. split.
      { intros c [<-|I]; [|apply C; exact I]. cbn [fst snd]. split; [lia|]. split; [lia|]. apply meets_common. unfold meets_now; repeat split; lra. }
      intros t Ht Tx Ty. destruct (Qlt_le_dec t (at_step Ey dty (S k))) as [Lt|Lt].
      * exists (m, k). split; [left; reflexivity|]. cbn [fst snd]. unfold in_slabs. repeat split; lra.
      * destruct (V t Ht Tx Lt) as (c & I & S1). exists c. split; [right; exact I|exact S1].
Qed.
End Sloped.

(** ** Crossing times of one axis *)
Lemma inject_mono : forall a b w, 0 < w -> (a <= b)%Z -> inject_Z a * w <= inject_Z b * w.
Proof. intros a b w Hw L. apply (proj2 (inject_le _ _)) in L. nra. Qed.
Lemma cross_pos : forall x s d t, 0 < d -> ((x - s) * (1 / d) <= t <-> x <= s + t * d) /\ (t <= (x - s) * (1 / d) <-> s + t * d <= x).
Proof.
  intros x s d t Hd. assert (E : (x - s) * (1 / d) * d == x - s) by (field; lra).
  revert E. generalize ((x - s) * (1 / d)). intros q E. split; split; intro H; nra.
Qed.
Lemma cross_neg : forall x s d t, d < 0 -> ((x - s) * (1 / d) <= t <-> s + t * d <= x) /\ (t <= (x - s) * (1 / d) <-> x <= s + t * d).
Proof.
  intros x s d t Hd. assert (E : (x - s) * (1 / d) * d == x - s) by (field; lra).
  revert E. generalize ((x - s) * (1 / d)). intros q E. split; split; intro H; nra.
Qed.
Lemma inv_pos : forall d, 0 < d -> 0 < 1 / d.
Proof. intros d H. apply Qlt_shift_div_l; lra. Qed.
Lemma inv_neg : forall d, d < 0 -> 1 / d < 0.
Proof. intros d H. assert (E : 1 / d == - (1 / (- d))) by (field; lra). rewrite E. pose proof (inv_pos (- d) ltac:(lra)). lra. Qed.

Lemma axis_times : forall lo w s d a b W k e, 0 < w -> (W < two32)%Z -> (0 <= k < W)%Z -> (0 <= e < W)%Z -> a <= b ->
  lo + inject_Z k * w <= s + a * d < lo + (inject_Z k + 1) * w ->
  lo + inject_Z e * w <= s + b * d < lo + (inject_Z e + 1) * w -> k <> e ->
  ~ d == 0 /\ exists st out border n, axis_setup direct lo w d W k = (st, out, border) /\ axis_ok W k e st out n /\
    exists E, 0 < w * inject_Z st * (1 / d) /\
    (border - s) * (1 / d) == at_step E (w * inject_Z st * (1 / d)) 1 /\
    (forall m t, at_step E (w * inject_Z st * (1 / d)) m <= t <= at_step E (w * inject_Z st * (1 / d)) (S m) <->
       lo + inject_Z (k + Z.of_nat m * st) * w <= s + t * d <= lo + (inject_Z (k + Z.of_nat m * st) + 1) * w) /\
    (forall m, (m < n)%nat -> at_step E (w * inject_Z st * (1 / d)) (S m) <= b) /\
    b <= at_step E (w * inject_Z st * (1 / d)) (S n).
Proof.
  intros lo w s d a b W k e Hw HW Hk He Hab [A1 A2] [B1 B2] N.
  assert (Sk : uint_succ k = (k + 1)%Z) by (apply Z.mod_small; lia).
  destruct (Z.lt_ge_cases k e) as [L|L].
  - assert (Q1 : lo + (inject_Z k + 1) * w <= lo + inject_Z e * w).
    { pose proof (inject_mono (k + 1) e w Hw ltac:(lia)) as I. rewrite inject_Z_plus in I. change (inject_Z 1) with 1 in I. lra. }
    assert (Hd : 0 < d). { assert (0 < (b - a) * d) by lra. nra. }
    split; [lra|]. exists 1%Z, W, (lo + inject_Z (k + 1) * w), (Z.to_nat (e - k)).
    split. { unfold axis_setup. cbn [greater_than direct]. destruct (Qgtb_spec d 0); [rewrite Sk; reflexivity|exfalso; lra]. }
    split. { unfold axis_ok. split; [lia|]. split; [lia|]. split; [lia|]. split; [lia|]. left; auto. }
    exists ((lo + inject_Z k * w - s) * (1 / d)).
    assert (AT : forall m, at_step ((lo + inject_Z k * w - s) * (1 / d)) (w * inject_Z 1 * (1 / d)) m == (lo + inject_Z (k + Z.of_nat m * 1) * w - s) * (1 / d)).
    { intro m. unfold at_step. rewrite inject_Z_plus, Z.mul_1_r. change (inject_Z 1) with 1. ring. }
    assert (ATS : forall m, at_step ((lo + inject_Z k * w - s) * (1 / d)) (w * inject_Z 1 * (1 / d)) (S m) == (lo + (inject_Z (k + Z.of_nat m * 1) + 1) * w - s) * (1 / d)).
    { intro m. rewrite at_step_S, AT. change (inject_Z 1) with 1. ring. }
    pose proof (inv_pos d Hd) as Hr.
    split. { change (inject_Z 1) with 1. nra. }
    split. { rewrite (ATS 0%nat). rewrite !inject_Z_plus. change (inject_Z 1) with 1. change (inject_Z (Z.of_nat 0 * 1)) with 0. ring. }
    split. { intros m t. rewrite AT, ATS. destruct (cross_pos (lo + inject_Z (k + Z.of_nat m * 1) * w) s d t Hd) as [C1 _].
             destruct (cross_pos (lo + (inject_Z (k + Z.of_nat m * 1) + 1) * w) s d t Hd) as [_ C2]. rewrite C1, C2. tauto. }
    split.
    + intros m Lm. rewrite ATS. apply (cross_pos _ s d b Hd).
      pose proof (inject_mono (k + Z.of_nat m * 1 + 1) e w Hw ltac:(lia)) as I. rewrite inject_Z_plus in I. change (inject_Z 1) with 1 in I. lra.
    + rewrite ATS. apply (cross_pos _ s d b Hd). replace (k + Z.of_nat (Z.to_nat (e - k)) * 1)%Z with e by lia. lra.
  - assert (Q1 : lo + (inject_Z e + 1) * w <= lo + inject_Z k * w).
    { pose proof (inject_mono (e + 1) k w Hw ltac:(lia)) as I. rewrite inject_Z_plus in I. change (inject_Z 1) with 1 in I. lra. }
    assert (Hd : d < 0). { assert (0 < (b - a) * - d) by lra. nra. }
    split; [lra|]. exists (-1)%Z, (-1)%Z, (lo + inject_Z k * w), (Z.to_nat (k - e)).
    split. { unfold axis_setup. cbn [greater_than direct]. destruct (Qgtb_spec d 0); [exfalso; lra|reflexivity]. }
    split. { unfold axis_ok. split; [lia|]. split; [lia|]. split; [lia|]. split; [lia|]. right; auto. }
    exists ((lo + (inject_Z k + 1) * w - s) * (1 / d)).
    assert (AT : forall m, at_step ((lo + (inject_Z k + 1) * w - s) * (1 / d)) (w * inject_Z (-1) * (1 / d)) m == (lo + (inject_Z (k + Z.of_nat m * -1) + 1) * w - s) * (1 / d)).
    { intro m. unfold at_step. rewrite inject_Z_plus, inject_Z_mult. change (inject_Z (-1)) with (-1 # 1). ring. }
    assert (ATS : forall m, at_step ((lo + (inject_Z k + 1) * w - s) * (1 / d)) (w * inject_Z (-1) * (1 / d)) (S m) == (lo + inject_Z (k + Z.of_nat m * -1) * w - s) * (1 / d)).
    { intro m. rewrite at_step_S, AT. change (inject_Z (-1)) with (-1 # 1). ring. }
    pose proof (inv_neg d Hd) as Hr.
    split. { change (inject_Z (-1)) with (-1 # 1). nra. }
    split. { rewrite (ATS 0%nat). rewrite !inject_Z_plus. change (inject_Z (Z.of_nat 0 * -1)) with 0. ring. }
    split. { intros m t. rewrite AT, ATS. destruct (cross_neg (lo + inject_Z (k + Z.of_nat m * -1) * w) s d t Hd) as [_ C1].
             destruct (cross_neg (lo + (inject_Z (k + Z.of_nat m * -1) + 1) * w) s d t Hd) as [C2 _]. rewrite C1, C2. tauto. }
    split.
    + intros m Lm. rewrite ATS. apply (cross_neg _ s d b Hd).
      pose proof (inject_mono (e + 1) (k + Z.of_nat m * -1) w Hw ltac:(lia)) as I. rewrite inject_Z_plus in I. change (inject_Z 1) with 1 in I. lra.
    + rewrite ATS. apply (cross_neg _ s d b Hd). replace (k + Z.of_nat (Z.to_nat (k - e)) * -1)%Z with e by lia. lra.
Qed.

(** ** Straight strips *)
Lemma strip_ok : forall mk n fuel k st e, (st = 1 \/ st = -1)%Z -> e = (k + Z.of_nat n * st)%Z -> (n < fuel)%nat ->
  strip mk e fuel k = Visited (map (fun m => mk (k + Z.of_nat m * st)%Z) (seq 1 n)).
Proof.
  intros mk n. induction n as [|n IH]; intros fuel k st e S E F; (destruct fuel as [|fuel]; [lia|]); cbn [strip].
  - replace e with k by lia. rewrite Z.eqb_refl. reflexivity.
  - destruct (Z.eqb_spec k e) as [X|_]; [destruct S; lia|].
    assert (Ek : (if (k <? e)%Z then k + 1 else k - 1)%Z = (k + st)%Z).
    { destruct (Z.ltb_spec k e); destruct S; lia. }
    rewrite Ek. rewrite (IH fuel (k + st)%Z st e S) by lia. cbn [visit seq map]. f_equal. f_equal; [f_equal; lia|].
    rewrite <- (seq_shift n 1), map_map. apply map_ext. intro m. f_equal. lia.
Qed.

(** ** Paths *)
Lemma path_nth : forall m k l, path m k l -> forall q c, nth_error ((m, k) :: l) q = Some c ->
  (fst c + snd c = m + k + q)%nat /\ (m <= fst c)%nat /\ (k <= snd c)%nat.
Proof.
  intros m k l P. induction P as [m k|m k l P IH|m k l P IH]; intros [|q] c H; cbn [nth_error] in H.
  - injection H as <-. cbn; lia.
  - destruct q; discriminate.
  - injection H as <-. cbn; lia.
  - apply IH in H. cbn in *; lia.
  - injection H as <-. cbn; lia.
  - apply IH in H. cbn in *; lia.
Qed.
Lemma path_step : forall m k l, path m k l -> forall q c c', nth_error ((m, k) :: l) q = Some c -> nth_error ((m, k) :: l) (S q) = Some c' ->
  c' = (S (fst c), snd c) \/ c' = (fst c, S (snd c)).
Proof.
  intros m k l P. induction P as [m k|m k l P IH|m k l P IH]; intros [|q] c c' H H'.
  - discriminate.
  - destruct q; discriminate.
  - cbn in H, H'. injection H as <-. injection H' as <-. left; reflexivity.
  - exact (IH q c c' H H').
  - cbn in H, H'. injection H as <-. injection H' as <-. right; reflexivity.
  - exact (IH q c c' H H').
Qed.
Lemma path_seq_y : forall n m k, path m k (map (fun i => (m, i)) (seq (S k) n)).
Proof. induction n as [|n IH]; intros m k; cbn [seq map]; constructor. apply IH. Qed.
Lemma path_seq_x : forall n m k, path m k (map (fun i => (i, k)) (seq (S m) n)).
Proof. induction n as [|n IH]; intros m k; cbn [seq map]; constructor. apply IH. Qed.

Lemma path_chain : forall i0 j0 stI stJ l, (stI = 1 \/ stI = -1)%Z -> (stJ = 1 \/ stJ = -1)%Z -> path 0 0 l ->
  edge_chain (map (fun mk => vcell i0 j0 stI stJ (fst mk) (snd mk)) ((0, 0)%nat :: l)) /\
  never_turns_back (map (fun mk => vcell i0 j0 stI stJ (fst mk) (snd mk)) ((0, 0)%nat :: l)).
Proof.
  intros i0 j0 stI stJ l SI SJ P. split.
  - intros n x y H1 H2. rewrite nth_error_map in H1, H2.
    destruct (nth_error ((0, 0)%nat :: l) n) as [c|] eqn:E1; [|discriminate].
    destruct (nth_error ((0, 0)%nat :: l) (S n)) as [c'|] eqn:E2; [|discriminate].
    cbn [option_map] in H1, H2. injection H1 as <-. injection H2 as <-. unfold neighbours, vcell. cbn [fst snd].
    destruct (path_step _ _ _ P n c c' E1 E2) as [-> | ->]; cbn [fst snd]; [right|left]; destruct SI; destruct SJ; subst; lia.
  - intros n x y H1 H2. cbn [map nth_error fst snd] in H1. injection H1 as <-. rewrite nth_error_map in H2.
    destruct (nth_error ((0, 0)%nat :: l) n) as [c|] eqn:E; [|discriminate]. cbn [option_map] in H2. injection H2 as <-.
    pose proof (path_nth _ _ _ P n c E) as (A & _ & _). unfold vcell. cbn [fst snd]. destruct SI; destruct SJ; subst; lia.
Qed.

Lemma ivt : forall s d a b v, a <= b -> (s + a * d <= v <= s + b * d \/ s + b * d <= v <= s + a * d) -> exists t, a <= t <= b /\ s + t * d == v.
Proof.
  intros s d a b v H [V|V].
  - destruct (Qlt_le_dec 0 d) as [D|D].
    + exists ((v - s) * (1 / d)). assert (E : (v - s) * (1 / d) * d == v - s) by (field; lra). revert E. generalize ((v - s) * (1 / d)).
      intros q E. split; [split; nra|lra].
    + exists a. split; [lra|]. nra.
  - destruct (Qlt_le_dec d 0) as [D|D].
    + exists ((v - s) * (1 / d)). assert (E : (v - s) * (1 / d) * d == v - s) by (field; lra). revert E. generalize ((v - s) * (1 / d)).
      intros q E. split; [split; nra|lra].
    + exists a. split; [lra|]. nra.
Qed.

Lemma between_cell : forall lo w s d a b t k e, 0 < w -> a <= t <= b ->
  lo + inject_Z k * w <= s + a * d < lo + (inject_Z k + 1) * w ->
  lo + inject_Z e * w <= s + b * d < lo + (inject_Z e + 1) * w ->
  exists c, (Z.min k e <= c <= Z.max k e)%Z /\ lo + inject_Z c * w <= s + t * d < lo + (inject_Z c + 1) * w.
Proof.
  intros lo w s d a b t k e Hw Ht A B.
  destruct (cells_cover lo lo w (mkpt (s + t * d) lo) Hw) as (c & j & [C _]). cbn [px] in C. exists c. split; [|exact C].
  assert (Bt : (s + a * d <= s + t * d <= s + b * d) \/ (s + b * d <= s + t * d <= s + a * d)).
  { destruct (Qlt_le_dec 0 d); [left|right]; split; nra. }
  assert (K : forall u v x y, lo + inject_Z u * w <= x -> y < lo + (inject_Z v + 1) * w -> x <= y -> (u <= v)%Z).
  { intros u v x y H1 H2 H3. assert (L : inject_Z u < inject_Z (v + 1)) by (rewrite inject_Z_plus; change (inject_Z 1) with 1; nra).
    apply (proj1 (inject_lt _ _)) in L. lia. }
  destruct Bt as [[L1 L2]|[L1 L2]].
  - pose proof (K k c _ _ (proj1 A) (proj2 C) L1). pose proof (K c e _ _ (proj1 C) (proj2 B) L2). lia.
  - pose proof (K e c _ _ (proj1 B) (proj2 C) L1). pose proof (K c k _ _ (proj1 C) (proj2 A) L2). lia.
Qed.
Lemma crosses_cell : forall lo w s d a b k e c, 0 < w -> a <= b ->
  lo + inject_Z k * w <= s + a * d < lo + (inject_Z k + 1) * w ->
  lo + inject_Z e * w <= s + b * d < lo + (inject_Z e + 1) * w ->
  (Z.min k e <= c <= Z.max k e)%Z ->
  exists t, a <= t <= b /\ lo + inject_Z c * w <= s + t * d <= lo + (inject_Z c + 1) * w.
Proof.
  intros lo w s d a b k e c Hw Hab A B C.
  destruct (Z.eq_dec c k) as [->|Nk]; [exists a; lra|]. destruct (Z.eq_dec c e) as [->|Ne]; [exists b; lra|].
  destruct (ivt s d a b (lo + inject_Z c * w) Hab) as (t & Ht & E).
  - assert (K : forall u v, (u < v)%Z -> lo + (inject_Z u + 1) * w <= lo + inject_Z v * w).
    { intros u v L. pose proof (inject_mono (u + 1) v w Hw ltac:(lia)) as I. rewrite inject_Z_plus in I. change (inject_Z 1) with 1 in I. lra. }
    destruct (Z.lt_ge_cases k e) as [L|L].
    + left. pose proof (K k c ltac:(lia)). pose proof (K c e ltac:(lia)). split; nra.
    + right. pose proof (K c k ltac:(lia)). pose proof (K e c ltac:(lia)). split; nra.
  - exists t. split; [exact Ht|]. rewrite E. split; nra.
Qed.

(** ** The walk *)
Lemma lerp_x : forall s t u, px (lerp s t u) == px s + u * (px t - px s).
Proof. intros. unfold lerp; cbn. ring. Qed.
Lemma lerp_y : forall s t u, py (lerp s t u) == py s + u * (py t - py s).
Proof. intros. unfold lerp; cbn. ring. Qed.

Section Walk.
Variables xmin xmax ymin ymax w : Q.
Variable g : grid.
Hypothesis G : good_bounds xmin xmax ymin ymax w.
Hypothesis Eg : make_grid xmin xmax ymin ymax w = Some g.
Variables s t p q : pt.
Variables a b : Q.
Hypothesis Ha : 0 <= a.
Hypothesis Hab : a <= b.
Hypothesis Hb : b <= 1.
Hypothesis Ep : p =p= lerp s t a.
Hypothesis Eq : q =p= lerp s t b.
Hypothesis Hin : forall u, 0 <= u <= 1 -> (in_region xmin xmax ymin ymax (lerp s t u) <-> a <= u <= b).

Lemma assemble : forall i j stI stJ l nx ny,
  (stI = 1 \/ stI = -1)%Z -> (stJ = 1 \/ stJ = -1)%Z -> path 0 0 l ->
  in_cell xmin ymin w i j p ->
  (forall c, In c ((0, 0)%nat :: l) -> in_grid nx ny (vcell i j stI stJ (fst c) (snd c)) /\
     exists u, a <= u <= b /\ in_closed_cell xmin ymin w (i + Z.of_nat (fst c) * stI) (j + Z.of_nat (snd c) * stJ) (lerp s t u)) ->
  (forall u, a <= u <= b -> exists c, In c ((0, 0)%nat :: l) /\
     in_closed_cell xmin ymin w (i + Z.of_nat (fst c) * stI) (j + Z.of_nat (snd c) * stJ) (lerp s t u)) ->
  good_walk xmin xmax ymin ymax w nx ny s t ((i, j) :: map (fun mk => vcell i j stI stJ (fst mk) (snd mk)) l).
Proof.
  intros i j stI stJ l nx ny SI SJ P Cp T C.
  assert (Ehd : (i, j) = vcell i j stI stJ 0 0) by (unfold vcell; f_equal; lia).
  assert (El : (i, j) :: map (fun mk => vcell i j stI stJ (fst mk) (snd mk)) l = map (fun mk => vcell i j stI stJ (fst mk) (snd mk)) ((0, 0)%nat :: l)).
  { cbn [map fst snd]. rewrite <- Ehd. reflexivity. }
  rewrite El. destruct (path_chain i j stI stJ l SI SJ P) as [PC PN].
  split; [|split; [|split; [exact PC|split; [exact PN|split]]]].
  - intros u Hu R. apply Hin in R; [|exact Hu]. destruct (C u R) as (c & I & K). exists (vcell i j stI stJ (fst c) (snd c)). split; [|exact K].
    apply (in_map (fun mk => vcell i j stI stJ (fst mk) (snd mk))). exact I.
  - intros c I. apply in_map_iff in I. destruct I as (mk & <- & I). destruct (T mk I) as (_ & u & Hu & K).
    exists u. split; [lra|]. split; [apply Hin; [lra|exact Hu]|exact K].
  - intros c I. apply in_map_iff in I. destruct I as (mk & <- & I). apply T. exact I.
  - exists (i, j), a. split; [cbn [map nth_error fst snd]; rewrite <- Ehd; reflexivity|]. split; [lra|].
    split; [apply Hin; lra|]. split.
    + cbn [fst snd]. destruct Ep as [E1 E2]. destruct Cp as [C1 C2]. split; lra.
    + intros u' Hu R. apply Hin in R; [lra|exact Hu].
Qed.

Theorem walk_ok : forall fuel, (g_nx g + g_ny g < Z.of_nat fuel)%Z ->
  exists l, voxel_walk direct fuel g s t p q = Visited l /\ good_walk xmin xmax ymin ymax w (g_nx g) (g_ny g) s t l.
Proof.
  intros fuel F.
  destruct (grid_lookup _ _ _ _ _ G) as (g' & E' & _ & L & _). assert (g' = g) by congruence. subst g'. clear E'.
  pose proof G as (Hw & _ & _ & Fx & Fy).
  assert (GE : g_xmin g = xmin /\ g_ymin g = ymin /\ g_width g = w /\ (g_nx g < two32)%Z /\ (g_ny g < two32)%Z).
  { unfold make_grid in Eg. cbv zeta in Eg. destruct (to_uint32 ((xmax - xmin) * (1 / w))) as [n1|]; [|discriminate].
    destruct (to_uint32 ((ymax - ymin) * (1 / w))) as [n2|]; [|discriminate].
    assert (R : forall z, (z mod two32 < two32)%Z) by (intro z; apply Z.mod_pos_bound; reflexivity).
    injection Eg as <-. cbn. auto. }
  destruct GE as (G1 & G2 & G3 & G4 & G5).
  assert (Rp : in_region xmin xmax ymin ymax p).
  { assert (R : in_region xmin xmax ymin ymax (lerp s t a)) by (apply Hin; lra). destruct Ep as [E1 E2]. destruct R as [R1 R2]. split; lra. }
  assert (Rq : in_region xmin xmax ymin ymax q).
  { assert (R : in_region xmin xmax ymin ymax (lerp s t b)) by (apply Hin; lra). destruct Eq as [E1 E2]. destruct R as [R1 R2]. split; lra. }
  destruct (L p Rp) as (i & j & I1 & I2 & I3 & I4 & I5). destruct (L q Rq) as (ie & je & J1 & J2 & J3 & J4 & J5).
  unfold voxel_walk. change (to_uint32 (get_scaled_grid_coordinate_x g (px p))) with (get_x_index g (px p)).
  change (to_uint32 (get_scaled_grid_coordinate_y g (py p))) with (get_y_index g (py p)).
  change (to_uint32 (get_scaled_grid_coordinate_x g (px q))) with (get_x_index g (px q)).
  change (to_uint32 (get_scaled_grid_coordinate_y g (py q))) with (get_y_index g (py q)).
  rewrite I1, I2, J1, J2, G1, G2, G3.
  cbv zeta. set (dx := px t - px s). set (dy := py t - py s). set (sx := px s). set (sy := py s).
  assert (LX : forall u, px (lerp s t u) == sx + u * dx) by (intro; apply lerp_x).
  assert (LY : forall u, py (lerp s t u) == sy + u * dy) by (intro; apply lerp_y).
  assert (AX : xmin + inject_Z i * w <= sx + a * dx < xmin + (inject_Z i + 1) * w).
  { destruct Ep as [E1 _]. rewrite LX in E1. destruct I5 as [C _]. lra. }
  assert (AY : ymin + inject_Z j * w <= sy + a * dy < ymin + (inject_Z j + 1) * w).
  { destruct Ep as [_ E1]. rewrite LY in E1. destruct I5 as [_ C]. lra. }
  assert (BX : xmin + inject_Z ie * w <= sx + b * dx < xmin + (inject_Z ie + 1) * w).
  { destruct Eq as [E1 _]. rewrite LX in E1. destruct J5 as [C _]. lra. }
  assert (BY : ymin + inject_Z je * w <= sy + b * dy < ymin + (inject_Z je + 1) * w).
  { destruct Eq as [_ E1]. rewrite LY in E1. destruct J5 as [_ C]. lra. }
  assert (CC : forall c d u, (xmin + inject_Z c * w <= sx + u * dx <= xmin + (inject_Z c + 1) * w) ->
                (ymin + inject_Z d * w <= sy + u * dy <= ymin + (inject_Z d + 1) * w) -> in_closed_cell xmin ymin w c d (lerp s t u)).
  { intros c d u C1 C2. unfold in_closed_cell. pose proof (LX u) as E1. pose proof (LY u) as E2. split; lra. }
  clearbody sx sy dx dy.
  destruct (Z.eqb_spec i ie) as [Xi|Xi].
  - (* one column *)
    subst ie.
    assert (KX : forall u, a <= u <= b -> xmin + inject_Z i * w <= sx + u * dx <= xmin + (inject_Z i + 1) * w).
    { intros u Hu. destruct (between_cell xmin w sx dx a b u i i Hw Hu AX BX) as (c & C1 & C2). replace c with i in C2 by lia. lra. }
    assert (Hl : exists st, (st = 1 \/ st = -1)%Z /\ je = (j + Z.of_nat (Z.to_nat (Z.abs (je - j))) * st)%Z).
    { destruct (Z.lt_ge_cases j je); [exists 1%Z|exists (-1)%Z]; lia. }
    destruct Hl as (st & Hst & Hje). set (n := Z.to_nat (Z.abs (je - j))) in *.
    exists ((i, j) :: map (fun mk => vcell i j 1 st (fst mk) (snd mk)) (map (fun m => (0, m)%nat) (seq 1 n))). split.
    { destruct (Z.eqb_spec j je) as [Xj|Xj].
      - assert (n = 0%nat) by lia. replace n with 0%nat by lia. reflexivity.
      - rewrite (strip_ok _ n fuel j st je Hst Hje) by lia. cbn [visit]. rewrite map_map. apply (f_equal (fun l : list key => @Visited key ((i, j) :: l))). apply map_ext. intro m.
        unfold vcell. cbn [fst snd]. f_equal. lia. }
    assert (Mem : forall c, In c ((0, 0)%nat :: map (fun m => (0, m)%nat) (seq 1 n)) <-> fst c = 0%nat /\ (snd c <= n)%nat).
    { intro c. split.
      - intros [<-|I]; [cbn; lia|]. apply in_map_iff in I. destruct I as (m & <- & I). apply in_seq in I. cbn. lia.
      - destruct c as [c1 c2]. cbn [fst snd]. intros [-> Hc]. destruct c2 as [|c2]; [left; reflexivity|right].
        apply in_map_iff. exists (S c2). split; [reflexivity|]. apply in_seq. lia. }
    apply assemble; [auto|exact Hst|apply (path_seq_y n 0 0)|exact I5| |].
    + intros [c1 c2] I. apply Mem in I. cbn [fst snd] in *. destruct I as [-> I].
      assert (Bd : (Z.min j je <= j + Z.of_nat c2 * st <= Z.max j je)%Z) by (destruct Hst; subst st; lia).
      split; [unfold in_grid, vcell; cbn [fst snd]; lia|].
      destruct (crosses_cell ymin w sy dy a b j je (j + Z.of_nat c2 * st)%Z Hw Hab AY BY Bd) as (u & Hu & Cu).
      exists u. split; [exact Hu|]. apply CC; [|exact Cu]. replace (i + Z.of_nat 0 * 1)%Z with i by lia. apply KX. exact Hu.
    + intros u Hu. destruct (between_cell ymin w sy dy a b u j je Hw Hu AY BY) as (c & C1 & C2).
      exists (0%nat, Z.to_nat (Z.abs (c - j))). split; [apply Mem; cbn [fst snd]; lia|]. cbn [fst snd].
      replace (i + Z.of_nat 0 * 1)%Z with i by lia. replace (j + Z.of_nat (Z.to_nat (Z.abs (c - j))) * st)%Z with c by (destruct Hst; subst st; lia).
      apply CC; [apply KX; exact Hu|lra].
  - destruct (Z.eqb_spec j je) as [Xj|Xj].
    + (* one row *)
      subst je.
      assert (KY : forall u, a <= u <= b -> ymin + inject_Z j * w <= sy + u * dy <= ymin + (inject_Z j + 1) * w).
      { intros u Hu. destruct (between_cell ymin w sy dy a b u j j Hw Hu AY BY) as (c & C1 & C2). replace c with j in C2 by lia. lra. }
      assert (Hl : exists st, (st = 1 \/ st = -1)%Z /\ ie = (i + Z.of_nat (Z.to_nat (Z.abs (ie - i))) * st)%Z).
      { destruct (Z.lt_ge_cases i ie); [exists 1%Z|exists (-1)%Z]; lia. }
      destruct Hl as (st & Hst & Hje). set (n := Z.to_nat (Z.abs (ie - i))) in *.
      exists ((i, j) :: map (fun mk => vcell i j st 1 (fst mk) (snd mk)) (map (fun m => (m, 0)%nat) (seq 1 n))). split.
      { rewrite (strip_ok _ n fuel i st ie Hst Hje) by lia. cbn [visit]. rewrite map_map. apply (f_equal (fun l : list key => @Visited key ((i, j) :: l))). apply map_ext. intro m.
        unfold vcell. cbn [fst snd]. f_equal. lia. }
      assert (Mem : forall c, In c ((0, 0)%nat :: map (fun m => (m, 0)%nat) (seq 1 n)) <-> snd c = 0%nat /\ (fst c <= n)%nat).
      { intro c. split.
        - intros [<-|I]; [cbn; lia|]. apply in_map_iff in I. destruct I as (m & <- & I). apply in_seq in I. cbn. lia.
        - destruct c as [c1 c2]. cbn [fst snd]. intros [-> Hc]. destruct c1 as [|c1]; [left; reflexivity|right].
          apply in_map_iff. exists (S c1). split; [reflexivity|]. apply in_seq. lia. }
      apply assemble; [exact Hst|auto|apply (path_seq_x n 0 0)|exact I5| |].
      * intros [c1 c2] I. apply Mem in I. cbn [fst snd] in *. destruct I as [-> I].
        assert (Bd : (Z.min i ie <= i + Z.of_nat c1 * st <= Z.max i ie)%Z) by (destruct Hst; subst st; lia).
        split; [unfold in_grid, vcell; cbn [fst snd]; lia|].
        destruct (crosses_cell xmin w sx dx a b i ie (i + Z.of_nat c1 * st)%Z Hw Hab AX BX Bd) as (u & Hu & Cu).
        exists u. split; [exact Hu|]. apply CC; [exact Cu|]. replace (j + Z.of_nat 0 * 1)%Z with j by lia. apply KY. exact Hu.
      * intros u Hu. destruct (between_cell xmin w sx dx a b u i ie Hw Hu AX BX) as (c & C1 & C2).
        exists (Z.to_nat (Z.abs (c - i)), 0%nat). split; [apply Mem; cbn [fst snd]; lia|]. cbn [fst snd].
        replace (j + Z.of_nat 0 * 1)%Z with j by lia. replace (i + Z.of_nat (Z.to_nat (Z.abs (c - i))) * st)%Z with c by (destruct Hst; subst st; lia).
        apply CC; [lra|apply KY; exact Hu].
    + (* sloped *)
      destruct (axis_times xmin w sx dx a b (g_nx g) i ie Hw G4 I3 J3 Hab AX BX Xi) as (Ndx & stI & outI & bX & nx & SX & OX & Ex & Px & TX & SlX & X1 & X2).
      destruct (axis_times ymin w sy dy a b (g_ny g) j je Hw G5 I4 J4 Hab AY BY Xj) as (Ndy & stJ & outJ & bY & ny & SY & OY & Ey & Py & TY & SlY & Y1 & Y2).
      cbv zeta. rewrite SX, SY.
      destruct (Qeqb_spec dx 0) as [|_]; [contradiction|]. destruct (Qeqb_spec dy 0) as [|_]; [contradiction|]. cbn [orb].
      set (dtx := w * inject_Z stI * (1 / dx)) in *. set (dty := w * inject_Z stJ * (1 / dy)) in *. clearbody dtx dty.
      assert (A0 : at_step Ex dtx 0 <= a <= at_step Ex dtx 1). { apply (SlX 0%nat a). replace (i + Z.of_nat 0 * stI)%Z with i by lia. lra. }
      assert (B0 : at_step Ey dty 0 <= a <= at_step Ey dty 1). { apply (SlY 0%nat a). replace (j + Z.of_nat 0 * stJ)%Z with j by lia. lra. }
      assert (Ni : (Z.of_nat nx < g_nx g)%Z). { destruct OX as (O1 & O2 & O3 & O4 & [[-> _]|[-> _]]); lia. }
      assert (Nj : (Z.of_nat ny < g_ny g)%Z). { destruct OY as (O1 & O2 & O3 & O4 & [[-> _]|[-> _]]); lia. }
      destruct (voxel_loop_ok (g_nx g) (g_ny g) i j ie je stI stJ outI outJ nx ny Ex Ey dtx dty a b OX OY Px Py X1 X2 Y1 Y2 Hab fuel 0 0
        ((bX - sx) * (1 / dx)) ((bY - sy) * (1 / dy)) ltac:(lia) ltac:(lia) ltac:(lia) TX TY) as (l & R & P & C & V).
      { unfold meets_now. repeat split; lra. }
      replace (i + Z.of_nat 0 * stI)%Z with i in R by lia. replace (j + Z.of_nat 0 * stJ)%Z with j in R by lia.
      rewrite R. cbn [visit]. eexists. split; [reflexivity|].
      assert (SI : (stI = 1 \/ stI = -1)%Z) by (destruct OX as (_ & _ & _ & _ & [[-> _]|[-> _]]); auto).
      assert (SJ : (stJ = 1 \/ stJ = -1)%Z) by (destruct OY as (_ & _ & _ & _ & [[-> _]|[-> _]]); auto).
      apply assemble; [exact SI|exact SJ|exact P|exact I5| |].
      * intros c I.
        assert (K : (fst c <= nx)%nat /\ (snd c <= ny)%nat /\ exists u, a <= u <= b /\ in_slabs Ex Ey dtx dty (fst c) (snd c) u).
        { destruct I as [<-|I]; [|exact (C c I)]. cbn [fst snd]. split; [lia|]. split; [lia|]. exists a. split; [lra|]. split; lra. }
        destruct K as (K1 & K2 & u & Hu & S1 & S2). split.
        -- unfold in_grid, vcell; cbn [fst snd]. destruct OX as (O1 & O2 & O3 & O4 & _). destruct OY as (Q1 & Q2 & Q3 & Q4 & _).
           destruct SI; destruct SJ; subst; lia.
        -- exists u. split; [exact Hu|]. apply CC; [apply SlX; exact S1|apply SlY; exact S2].
      * intros u Hu. destruct (V u Hu) as (c & I & S1 & S2); [lra|lra|]. exists c. split; [exact I|].
        apply CC; [apply SlX; exact S1|apply SlY; exact S2].
Qed.
End Walk.

Lemma lerp_0 : forall s t, s =p= lerp s t 0.
Proof. intros s t. unfold lerp; split; cbn; ring. Qed.
Lemma lerp_1 : forall s t, t =p= lerp s t 1.
Proof. intros s t. unfold lerp; split; cbn; ring. Qed.
Lemma region_convex : forall xmin xmax ymin ymax s t u, in_region xmin xmax ymin ymax s -> in_region xmin xmax ymin ymax t ->
  0 <= u <= 1 -> in_region xmin xmax ymin ymax (lerp s t u).
Proof.
  intros xmin xmax ymin ymax s t u [S1 S2] [T1 T2] Hu. pose proof (lerp_x s t u) as E1. pose proof (lerp_y s t u) as E2.
  revert E1 E2. unfold in_region. generalize (px (lerp s t u)) (py (lerp s t u)). intros x y E1 E2. split; split; nra.
Qed.

Theorem voxel_ok : forall xmin xmax ymin ymax w g s t fuel,
  good_bounds xmin xmax ymin ymax w -> make_grid xmin xmax ymin ymax w = Some g ->
  (g_nx g + g_ny g + 4 < Z.of_nat fuel)%Z ->
  exists l, fast_voxel_grid_traversal direct fuel g s t = Visited l /\
    (~ reaches xmin xmax ymin ymax s t -> l = []) /\
    (reaches xmin xmax ymin ymax s t -> good_walk xmin xmax ymin ymax w (g_nx g) (g_ny g) s t l).
Proof.
  intros xmin xmax ymin ymax w g s t fuel G Eg F.
  assert (Gg : g_xmin g = xmin /\ g_xmax g = xmax /\ g_ymin g = ymin /\ g_ymax g = ymax /\ (0 <= g_nx g)%Z /\ (0 <= g_ny g)%Z).
  { unfold make_grid in Eg. cbv zeta in Eg. destruct (to_uint32 ((xmax - xmin) * (1 / w))) as [n1|]; [|discriminate].
    destruct (to_uint32 ((ymax - ymin) * (1 / w))) as [n2|]; [|discriminate].
    assert (R : forall z, (0 <= z mod two32)%Z) by (intro z; apply Z.mod_pos_bound; reflexivity).
    injection Eg as <-. cbn. auto 10. }
  destruct Gg as (G1 & G2 & G3 & G4 & N1 & N2). unfold fast_voxel_grid_traversal. rewrite G1, G2, G3, G4.
  match goal with |- context [if ?c then _ else _] => destruct c eqn:Out end.
  - set (bx := mkbox2 (mkpt xmin ymin) (mkpt xmax ymax)).
    assert (Wb : window bx) by (destruct G as (_ & H1 & H2 & _); split; cbn; lra).
    assert (IR : forall p, in2 bx p <-> in_region xmin xmax ymin ymax p) by (intro p; unfold in2, in_region; cbn; tauto).
    pose proof (clip_exact s t bx fuel Wb ltac:(lia)) as C.
    destruct (cohen_sutherland_line_clip direct fuel s t bx) as [p q| | |]; try contradiction.
    + destruct C as (a & b & Ha & Hab & Hb & Ep & Eq & H).
      destruct (walk_ok xmin xmax ymin ymax w g G Eg s t p q a b Ha Hab Hb Ep Eq) with (fuel := fuel) as (l & R & Gw).
      { intros u Hu. rewrite <- IR. apply H. exact Hu. }
      { lia. }
      exists l. split; [exact R|]. split; [|auto]. intro N. exfalso. apply N. exists a. split; [lra|]. apply IR. apply H; lra.
    + exists []. split; [reflexivity|]. split; [auto|]. intros (u & Hu & I). exfalso. apply (C u Hu). apply IR. exact I.
  - unfold Qgtb in Out. repeat (apply orb_false_iff in Out; destruct Out as [Out ?]).
    repeat match goal with H : Qltb _ _ = false |- _ => apply not_true_iff_false in H; rewrite Qltb_lt in H end.
    assert (Rs : in_region xmin xmax ymin ymax s) by (split; split; apply Qnot_lt_le; assumption).
    assert (Rt : in_region xmin xmax ymin ymax t) by (split; split; apply Qnot_lt_le; assumption).
    destruct (walk_ok xmin xmax ymin ymax w g G Eg s t s t 0 1 ltac:(lra) ltac:(lra) ltac:(lra) (lerp_0 s t) (lerp_1 s t)) with (fuel := fuel) as (l & R & Gw).
    { intros u Hu. split; [intros _; exact Hu|]. intros _. apply region_convex; assumption. }
    { lia. }
    exists l. split; [exact R|]. split; [|auto]. intro N. exfalso. apply N. exists 0. split; [lra|]. apply region_convex; [exact Rs|exact Rt|lra].
Qed.

(** ** The stoppable walk *)
Section Stop.
Variable keep : list key -> bool.
Definition cut_of (calls : list key) (full stopped : trav key) : Prop :=
  match full with
  | Visited l => exists r, stopped = Visited r /\ until_stop keep calls l r
  | Overflow | TravNoFuel => stopped = full \/ exists r, stopped = Visited r
  end.
Lemma cut_visit : forall calls c full stopped,
  (keep (c :: calls) = true -> cut_of (c :: calls) full stopped) ->
  cut_of calls (visit c full) (if keep (c :: calls) then stopped else Visited (rev (c :: calls))).
Proof.
  intros calls c full stopped H. destruct (keep (c :: calls)) eqn:K.
  - specialize (H eq_refl). destruct full as [l| |]; cbn in *; [|exact H|exact H]. destruct H as (r & E & U). exists r. split; [exact E|].
    apply until_more; assumption.
  - destruct full as [l| |]; cbn; [|right; eauto|right; eauto]. exists (rev (c :: calls)). split; [reflexivity|]. apply until_stopped. exact K.
Qed.
Lemma cut_end : forall calls, cut_of calls (Visited []) (Visited (rev calls)).
Proof. intro calls. exists (rev calls). split; [reflexivity|constructor]. Qed.
Lemma stop_strip_ok : forall mk e fuel calls k, cut_of calls (strip mk e fuel k) (stop_strip keep mk e fuel calls k).
Proof.
  intros mk e fuel. induction fuel as [|fuel IH]; intros calls k; cbn [strip stop_strip]; [left; reflexivity|].
  destruct (k =? e)%Z; [apply cut_end|]. cbv zeta. apply cut_visit. intros _. apply IH.
Qed.
Lemma stop_loop_ok : forall oI oJ sI sJ ie je tdx tdy fuel calls i j tx ty,
  cut_of calls (voxel_loop oI oJ sI sJ ie je tdx tdy fuel i j tx ty) (stop_loop keep oI oJ sI sJ ie je tdx tdy fuel calls i j tx ty).
Proof.
  intros oI oJ sI sJ ie je tdx tdy fuel. induction fuel as [|fuel IH]; intros calls i j tx ty; cbn [voxel_loop stop_loop]; [left; reflexivity|].
  destruct (Qltb tx ty).
  - destruct (_ =? _)%Z; [apply cut_end|]. cbv zeta. destruct (beyond _ _ _ _ _ _); [apply cut_end|]. apply cut_visit. intros _. apply IH.
  - destruct (_ =? _)%Z; [apply cut_end|]. cbv zeta. destruct (beyond _ _ _ _ _ _); [apply cut_end|]. apply cut_visit. intros _. apply IH.
Qed.
Lemma stop_walk_ok : forall cmp fuel g s t p q, cut_of [] (voxel_walk cmp fuel g s t p q) (stop_walk keep cmp fuel g s t p q).
Proof.
  intros cmp fuel g s t p q. unfold voxel_walk, stop_walk.
  destruct (to_uint32 (get_scaled_grid_coordinate_x g (px p))) as [i|]; [|left; reflexivity].
  destruct (to_uint32 (get_scaled_grid_coordinate_y g (py p))) as [j|]; [|left; reflexivity].
  destruct (to_uint32 (get_scaled_grid_coordinate_x g (px q))) as [ie|]; [|left; reflexivity].
  destruct (to_uint32 (get_scaled_grid_coordinate_y g (py q))) as [je|]; [|left; reflexivity].
  cbv zeta. apply cut_visit. intros _.
  destruct (i =? ie)%Z; [destruct (j =? je)%Z; [apply cut_end|apply stop_strip_ok]|].
  destruct (j =? je)%Z; [apply stop_strip_ok|].
  destruct (axis_setup cmp (g_xmin g) (g_width g) (px t - px s) (g_nx g) i) as [[sI oI] bX].
  destruct (axis_setup cmp (g_ymin g) (g_width g) (py t - py s) (g_ny g) j) as [[sJ oJ] bY].
  destruct (_ || _); [left; reflexivity|]. apply stop_loop_ok.
Qed.
Theorem stoppable_ok : forall cmp fuel g s t l, fast_voxel_grid_traversal cmp fuel g s t = Visited l ->
  exists r, stoppable_fast_voxel_grid_traversal keep cmp fuel g s t = Visited r /\ until_stop keep [] l r.
Proof.
  intros cmp fuel g s t l. unfold fast_voxel_grid_traversal, stoppable_fast_voxel_grid_traversal.
  match goal with |- context [if ?c then _ else _] => destruct c end.
  - destruct (cohen_sutherland_line_clip _ _ _ _ _) as [p q| | |]; try discriminate.
    + intro E. pose proof (stop_walk_ok cmp fuel g s t p q) as C. rewrite E in C. exact C.
    + intro E. injection E as <-. exists []. split; [reflexivity|]. apply (until_end keep []).
  - intro E. pose proof (stop_walk_ok cmp fuel g s t s t) as C. rewrite E in C. exact C.
Qed.
End Stop.
