From Verif Require Import Base LupModel LupSpec.
From Coq Require Import Qfield.

(** ** Sums *)
Lemma qsum_ext : forall n f g, (forall i, (i < n)%nat -> f i == g i) -> qsum n f == qsum n g.
Proof. induction n as [|n IH]; intros f g H; [reflexivity|]. cbn [qsum]. rewrite (IH f g) by (intros; apply H; lia). rewrite (H n) by lia. reflexivity. Qed.
Lemma qsum_add : forall n f g, qsum n (fun i => f i + g i) == qsum n f + qsum n g.
Proof. induction n as [|n IH]; intros f g; cbn [qsum]; [lra|]. rewrite IH. lra. Qed.
Lemma qsum_scale : forall n c f, qsum n (fun i => c * f i) == c * qsum n f.
Proof. induction n as [|n IH]; intros c f; cbn [qsum]; [lra|]. rewrite IH. lra. Qed.
Lemma qsum_zero : forall n f, (forall i, (i < n)%nat -> f i == 0) -> qsum n f == 0.
Proof. induction n as [|n IH]; intros f H; cbn [qsum]; [reflexivity|]. rewrite (IH f) by (intros; apply H; lia). rewrite (H n) by lia. lra. Qed.
Lemma qsum_swap : forall n m (f : nat -> nat -> Q), qsum n (fun i => qsum m (fun j => f i j)) == qsum m (fun j => qsum n (fun i => f i j)).
Proof.
  induction n as [|n IH]; intros m f; cbn [qsum]; [symmetry; apply qsum_zero; reflexivity|]. rewrite IH, <- qsum_add. reflexivity.
Qed.
Lemma qsum_single : forall n k f, (k < n)%nat -> (forall i, (i < n)%nat -> i <> k -> f i == 0) -> qsum n f == f k.
Proof.
  induction n as [|n IH]; intros k f K H; [lia|]. cbn [qsum]. destruct (Nat.eq_dec k n) as [E|E].
  - subst k. rewrite qsum_zero by (intros; apply H; lia). lra.
  - rewrite (IH k) by (try lia; intros; apply H; lia). rewrite (H n) by lia. lra.
Qed.
Lemma qsum_split : forall n k f, (k <= n)%nat -> qsum n f == qsum k f + qsum (n - k) (fun i => f (k + i)%nat).
Proof.
  induction n as [|n IH]; intros k f K.
  - replace k with 0%nat by lia. cbn. lra.
  - destruct (Nat.eq_dec k (S n)) as [E|E]; [subst k; rewrite Nat.sub_diag; cbn [qsum]; lra|].
    replace (S n - k)%nat with (S (n - k)) by lia. cbn [qsum]. rewrite (IH k) by lia. replace (k + (n - k))%nat with n by lia. lra.
Qed.

(** ** Loops *)
Lemma loop_ind : forall {S : Type} (P : nat -> S -> Prop) count start body (s : S),
  P start s -> (forall i s, (start <= i < start + count)%nat -> P i s -> P (Datatypes.S i) (body i s)) ->
  P (start + count)%nat (loop count start body s).
Proof.
  intros S P. induction count as [|c IH]; intros start body s H0 H; cbn [loop]; [rewrite Nat.add_0_r; exact H0|].
  replace (start + Datatypes.S c)%nat with (Datatypes.S start + c)%nat by lia. apply IH.
  - apply H; [lia|exact H0].
  - intros i s' B Q. apply H; [lia|exact Q].
Qed.
Lemma loop_sum : forall count start (f : nat -> Q) acc, loop count start (fun j sum => sum + f j) acc == acc + qsum count (fun j => f (start + j)%nat).
Proof.
  induction count as [|c IH]; intros start f acc; cbn [loop]; [cbn [qsum]; lra|]. rewrite IH.
  rewrite (qsum_split (S c) 1) by lia. cbn [qsum]. replace (S c - 1)%nat with c by lia. rewrite Nat.add_0_r.
  rewrite (qsum_ext c (fun j => f (S start + j)%nat) (fun i => f (start + (1 + i))%nat)); [lra|].
  intros i _. replace (S start + i)%nat with (start + (1 + i))%nat by lia. reflexivity.
Qed.

(** ** Pieces of one step *)
Lemma pivot_ok : forall N k m p k_, (k < N)%nat -> pivot N k m = (p, k_) ->
  (p == 0 /\ forall i, (k <= i < N)%nat -> m i k == 0) \/
  (0 < p /\ (k <= k_ < N)%nat /\ p == qabs (m k_ k) /\ forall i, (k <= i < N)%nat -> qabs (m i k) <= p).
Proof.
  intros N k m p k_ K E. unfold pivot in E.
  pose (P := fun (n : nat) (s : Q * nat) => let '(p, k_) := s in
    (p == 0 /\ forall i, (k <= i < n)%nat -> m i k == 0) \/
    (0 < p /\ (k <= k_ < n)%nat /\ p == qabs (m k_ k) /\ forall i, (k <= i < n)%nat -> qabs (m i k) <= p)).
  pose proof (loop_ind P (N - k) k (fun i s => let '(p, k_) := s in if Qltb p (qabs (m i k)) then (qabs (m i k), i) else (p, k_)) (0, 0%nat)) as H.
  cbv zeta in H. replace (k + (N - k))%nat with N in H by lia. rewrite E in H. apply H.
  - left. split; [reflexivity|]. intros i I. lia.
  - intros i [p' k'] I S. unfold P in *. destruct (Qltb_spec p' (qabs (m i k))) as [C|C].
    + right. destruct (qabs_spec (m i k)) as (A & _). split; [destruct S as [[S _]|[S _]]; lra|]. split; [lia|]. split; [reflexivity|].
      intros j J. destruct (Nat.eq_dec j i) as [->|NE]; [lra|]. destruct S as [[S1 S2]|(S1 & _ & _ & S2)].
      * assert (Z : m j k == 0) by (apply S2; lia). destruct (qabs_spec (m j k)) as (_ & [D|D] & _); rewrite D; lra.
      * specialize (S2 j ltac:(lia)). lra.
    + destruct S as [[S1 S2]|(S1 & S3 & S4 & S2)].
      * left. split; [exact S1|]. intros j J. destruct (Nat.eq_dec j i) as [->|NE]; [|apply S2; lia].
        destruct (qabs_spec (m i k)) as (A & [D|D] & _); lra.
      * right. split; [exact S1|]. split; [lia|]. split; [exact S4|]. intros j J. destruct (Nat.eq_dec j i) as [->|NE]; [exact C|apply S2; lia].
Qed.
Definition swapped (k k_ i : nat) : nat := if Nat.eqb i k then k_ else if Nat.eqb i k_ then k else i.
Lemma swap_arr_ok : forall A (a : arr A) k k_ i, swap_arr a k k_ i = a (swapped k k_ i).
Proof.
  intros A a k k_ i. unfold swap_arr, set_arr, swapped. destruct (Nat.eqb_spec i k_), (Nat.eqb_spec i k); subst; try reflexivity.
Qed.
Lemma swap_rows_ok : forall N k k_ m i j, (k < N)%nat -> (k_ < N)%nat -> (j < N)%nat -> swap_rows N k k_ m i j = m (swapped k k_ i) j.
Proof.
  intros N k k_ m i j K K_ J. unfold swap_rows.
  pose (P := fun (n : nat) (m' : mat) => forall i j, m' i j = if Nat.ltb j n then m (swapped k k_ i) j else m i j).
  pose proof (loop_ind P N 0 (fun i m => let x := m k i in let y := m k_ i in set_mat (set_mat m k i y) k_ i x) m) as H. cbn [Nat.add] in H.
  assert (Q : P N (loop N 0 (fun i m => let x := m k i in let y := m k_ i in set_mat (set_mat m k i y) k_ i x) m)).
  { apply H.
    - intros i' j'. destruct (Nat.ltb_spec j' 0); [lia|reflexivity].
    - intros c m' C S i' j'. cbv zeta. unfold set_mat. pose proof (S i' j') as S1. pose proof (S k c) as S2. pose proof (S k_ c) as S3.
      destruct (Nat.ltb_spec c c); [lia|].
      destruct (Nat.eqb_spec j' c) as [->|NE].
      + destruct (Nat.ltb_spec c c); [lia|]. destruct (Nat.ltb_spec c (Datatypes.S c)); [|lia]. unfold swapped.
        destruct (Nat.eqb_spec i' k_) as [->|N1]; cbn [andb].
        * destruct (Nat.eqb_spec k_ k) as [->|]; congruence.
        * destruct (Nat.eqb_spec i' k); cbn [andb]; congruence.
      + rewrite !andb_false_r. rewrite S1. destruct (Nat.ltb_spec j' c), (Nat.ltb_spec j' (Datatypes.S c)); try lia; reflexivity. }
  rewrite Q. destruct (Nat.ltb_spec j N); [reflexivity|lia].
Qed.
Lemma eliminate_row_ok : forall N k i m i' j', (k < N)%nat -> (i <> k)%nat ->
  eliminate_row N k i m i' j' = if Nat.eqb i' i then
      if Nat.eqb j' k then m i k / m k k else if Nat.ltb k j' && Nat.ltb j' N then m i j' - m i k / m k k * m k j' else m i j'
    else m i' j'.
Proof.
  intros N k i m i' j' K NE. unfold eliminate_row. cbv zeta. set (m1 := set_mat m i k (m i k / m k k)).
  pose (P := fun (n : nat) (m' : mat) => forall i' j', m' i' j' = if Nat.eqb i' i then
      if Nat.eqb j' k then m i k / m k k else if Nat.ltb k j' && Nat.ltb j' n then m i j' - m i k / m k k * m k j' else m i j'
    else m i' j').
  pose proof (loop_ind P (N - S k) (S k) (fun j m => set_mat m i j (m i j - m i k * m k j)) m1) as H.
  replace (S k + (N - S k))%nat with N in H by lia. apply H.
  - intros a b. unfold m1, set_mat. destruct (Nat.eqb_spec a i) as [->|]; cbn [andb]; [|reflexivity].
    destruct (Nat.eqb_spec b k) as [->|]; [reflexivity|]. destruct (Nat.ltb_spec k b), (Nat.ltb_spec b (S k)); try lia; reflexivity.
  - intros c m' C S a b. unfold set_mat. pose proof (S a b) as S1. pose proof (S i c) as S2. pose proof (S i k) as S3. pose proof (S k c) as S4.
    rewrite Nat.eqb_refl in S2, S3. rewrite Nat.eqb_refl in S3. destruct (Nat.eqb_spec k i); [congruence|]. destruct (Nat.eqb_spec c k); [lia|].
    destruct (Nat.ltb_spec c c); [lia|]. rewrite andb_false_r in S2.
    destruct (Nat.eqb_spec a i) as [->|NA]; cbn [andb]; [|exact S1].
    destruct (Nat.eqb_spec b c) as [->|NB].
    + rewrite S2, S3, S4. destruct (Nat.eqb_spec c k); [lia|]. destruct (Nat.ltb_spec k c), (Nat.ltb_spec c (Datatypes.S c)); try lia. reflexivity.
    + rewrite S1. destruct (Nat.eqb_spec b k); [reflexivity|]. destruct (Nat.ltb_spec k b), (Nat.ltb_spec b c), (Nat.ltb_spec b (Datatypes.S c)); try lia; reflexivity.
Qed.
Lemma eliminate_ok : forall N k m i j, (k < N)%nat -> (i < N)%nat -> (j < N)%nat ->
  eliminate N k m i j = if Nat.ltb k i then
      if Nat.eqb j k then m i k / m k k else if Nat.ltb k j then m i j - m i k / m k k * m k j else m i j
    else m i j.
Proof.
  intros N k m i j K I J. unfold eliminate.
  pose (P := fun (n : nat) (m' : mat) => forall i j, (j < N)%nat -> m' i j = if Nat.ltb k i && Nat.ltb i n then
      if Nat.eqb j k then m i k / m k k else if Nat.ltb k j then m i j - m i k / m k k * m k j else m i j
    else m i j).
  pose proof (loop_ind P (N - S k) (S k) (fun i m => eliminate_row N k i m) m) as H.
  replace (S k + (N - S k))%nat with N in H by lia.
  assert (Q : P N (loop (N - S k) (S k) (fun i m => eliminate_row N k i m) m)).
  { apply H.
    - intros a b B. destruct (Nat.ltb_spec k a), (Nat.ltb_spec a (S k)); try lia; reflexivity.
    - intros c m' C S a b B. rewrite eliminate_row_ok by lia.
      pose proof (S a b B) as S1. pose proof (S c b B) as S2. pose proof (S c k K) as S3. pose proof (S k k K) as S4. pose proof (S k b B) as S5.
      destruct (Nat.ltb_spec k k); [lia|]. destruct (Nat.ltb_spec c c); [lia|]. rewrite andb_false_r in S2, S3. cbn [andb] in S4, S5.
      destruct (Nat.eqb_spec a c) as [->|NA].
      + destruct (Nat.ltb_spec k c), (Nat.ltb_spec c (Datatypes.S c)); try lia. cbn [andb]. rewrite S2, S3, S4, S5.
        destruct (Nat.eqb_spec b k); [reflexivity|]. destruct (Nat.ltb_spec b N); [|lia]. rewrite andb_true_r. destruct (Nat.ltb k b); reflexivity.
      + rewrite S1. destruct (Nat.ltb_spec k a), (Nat.ltb_spec a c), (Nat.ltb_spec a (Datatypes.S c)); try lia; reflexivity. }
  rewrite Q by exact J. destruct (Nat.ltb_spec i N); [|lia]. rewrite andb_true_r. reflexivity.
Qed.

(** ** The invariant *)
Definition remainder (m : mat) (k i j : nat) : Q := if Nat.leb k i && Nat.leb k j then m i j else 0.
Definition inv (N : nat) (A : mat) (k : nat) (m : mat) (pi : arr nat) : Prop :=
  permutes N pi /\
  (forall i j, (i < N)%nat -> (j < N)%nat -> A (pi i) j == qsum k (fun l => lower m i l * upper m l j) + remainder m k i j) /\
  (forall l, (l < k)%nat -> ~ m l l == 0) /\
  (forall i l, (l < k)%nat -> (l < i < N)%nat -> qabs (m i l) <= 1).

Lemma permutes_swap : forall N pi k k_, (k < N)%nat -> (k_ < N)%nat -> permutes N pi -> permutes N (swap_arr pi k k_).
Proof.
  intros N pi k k_ K K_ (P1 & P2 & P3).
  assert (SW : forall i, (i < N)%nat -> (swapped k k_ i < N)%nat) by (intros i I; unfold swapped; destruct (Nat.eqb i k), (Nat.eqb i k_); assumption).
  assert (INV : forall i, swapped k k_ (swapped k k_ i) = i).
  { intro i. unfold swapped. destruct (Nat.eqb_spec i k) as [->|].
    - destruct (Nat.eqb_spec k_ k) as [->|]; [reflexivity|]. rewrite Nat.eqb_refl. reflexivity.
    - destruct (Nat.eqb_spec i k_) as [->|]; [rewrite Nat.eqb_refl; reflexivity|]. destruct (Nat.eqb_spec i k); [contradiction|]. destruct (Nat.eqb_spec i k_); [contradiction|reflexivity]. }
  split; [|split].
  - intros i I. rewrite swap_arr_ok. apply P1, SW, I.
  - intros i j I J E. rewrite !swap_arr_ok in E. apply P2 in E; [|apply SW, I|apply SW, J]. rewrite <- (INV i), E. apply INV.
  - intros r R. destruct (P3 r R) as (i & I & E). exists (swapped k k_ i). split; [apply SW, I|]. rewrite swap_arr_ok, INV. exact E.
Qed.
Lemma swapped_ge : forall k k_ i, (k <= k_)%nat -> (k <= i)%nat -> (k <= swapped k k_ i)%nat.
Proof. intros k k_ i A B. unfold swapped. destruct (Nat.eqb i k), (Nat.eqb i k_); lia. Qed.
Lemma swapped_lt : forall k k_ i, (k <= k_)%nat -> (i < k)%nat -> swapped k k_ i = i.
Proof. intros k k_ i A B. unfold swapped. destruct (Nat.eqb_spec i k); [lia|]. destruct (Nat.eqb_spec i k_); [lia|reflexivity]. Qed.

Lemma inv_swap : forall N A k m pi k_, (k <= k_ < N)%nat -> inv N A k m pi -> inv N A k (swap_rows N k k_ m) (swap_arr pi k k_).
Proof.
  intros N A k m pi k_ K (P & E & D & B).
  assert (SW : forall i, (i < N)%nat -> (swapped k k_ i < N)%nat) by (intros i I; unfold swapped; destruct (Nat.eqb i k), (Nat.eqb i k_); lia).
  split; [apply permutes_swap; (assumption || lia)|]. split; [|split].
  - intros i j I J. rewrite swap_arr_ok. rewrite (E _ j (SW i I) J).
    assert (Q1 : qsum k (fun l => lower m (swapped k k_ i) l * upper m l j) == qsum k (fun l => lower (swap_rows N k k_ m) i l * upper (swap_rows N k k_ m) l j)).
    { apply qsum_ext. intros l L. unfold lower, upper. rewrite !swap_rows_ok by lia. rewrite (swapped_lt k k_ l) by lia.
      destruct (Nat.lt_ge_cases i k) as [C|C].
      - rewrite (swapped_lt k k_ i) by lia. reflexivity.
      - pose proof (swapped_ge k k_ i ltac:(lia) C). destruct (Nat.ltb_spec l i), (Nat.ltb_spec l (swapped k k_ i)); try lia. reflexivity. }
    rewrite Q1. assert (Q2 : remainder m k (swapped k k_ i) j = remainder (swap_rows N k k_ m) k i j).
    { unfold remainder. rewrite swap_rows_ok by lia. destruct (Nat.lt_ge_cases i k) as [C|C].
      - rewrite (swapped_lt k k_ i) by lia. reflexivity.
      - pose proof (swapped_ge k k_ i ltac:(lia) C). destruct (Nat.leb_spec k i), (Nat.leb_spec k (swapped k k_ i)); try lia. reflexivity. }
    rewrite Q2. reflexivity.
  - intros l L. rewrite swap_rows_ok by lia. rewrite swapped_lt by lia. apply D, L.
  - intros i l L I. rewrite swap_rows_ok by lia. apply B; [exact L|]. split; [|apply SW; lia].
    destruct (Nat.lt_ge_cases i k) as [C|C]; [rewrite (swapped_lt k k_ i) by lia; lia|]. pose proof (swapped_ge k k_ i ltac:(lia) C). lia.
Qed.
Lemma inv_eliminate : forall N A k m pi, (k < N)%nat -> inv N A k m pi -> ~ m k k == 0 ->
  (forall i, (k <= i < N)%nat -> qabs (m i k) <= qabs (m k k)) -> inv N A (S k) (eliminate N k m) pi.
Proof.
  intros N A k m pi K (P & E & D & B) Z MX. split; [exact P|]. split; [|split].
  - intros i j I J. rewrite (E i j I J). cbn [qsum].
    assert (Q1 : qsum k (fun l => lower m i l * upper m l j) == qsum k (fun l => lower (eliminate N k m) i l * upper (eliminate N k m) l j)).
    { apply qsum_ext. intros l L. unfold lower, upper. rewrite !eliminate_ok by lia.
      destruct (Nat.ltb_spec k l); [lia|]. destruct (Nat.eqb_spec l k); [lia|]. destruct (Nat.ltb k i); reflexivity. }
    rewrite Q1. set (sum := qsum k _). unfold remainder, lower, upper. rewrite !eliminate_ok by lia. rewrite Nat.eqb_refl.
    destruct (Nat.ltb_spec k k); [lia|].
    destruct (Nat.leb_spec k i), (Nat.leb_spec k j), (Nat.leb_spec (S k) i), (Nat.leb_spec (S k) j); try lia; cbn [andb];
      destruct (Nat.ltb_spec k i); try lia; destruct (Nat.eqb_spec k i); try lia; try lra.
    + destruct (Nat.eqb_spec j k); [lia|]. destruct (Nat.ltb_spec k j); [|lia]. field. exact Z.
    + assert (j = k) by lia. subst j. field. exact Z.
    + subst i. lra.
    + subst i. lra.
  - intros l L. rewrite eliminate_ok by lia. destruct (Nat.ltb_spec k l); [lia|]. destruct (Nat.eq_dec l k) as [->|]; [exact Z|apply D; lia].
  - intros i l L I. rewrite eliminate_ok by lia. destruct (Nat.eqb_spec l k) as [->|NE].
    + destruct (Nat.ltb_spec k i); [|lia]. specialize (MX i ltac:(lia)).
      destruct (qabs_spec (m k k)) as (A0 & A1 & A2 & A3). destruct (qabs_spec (m i k)) as (B0 & B1 & B2 & B3). destruct (qabs_spec (m i k / m k k)) as (C0 & C1 & C2 & C3).
      assert (EQ : (m i k / m k k) * m k k == m i k) by (field; exact Z).
      destruct (Qlt_le_dec 1 (qabs (m i k / m k k))) as [G|G]; [|exact G]. exfalso.
      assert (PK : 0 < qabs (m k k)) by (destruct A1; destruct (Qlt_le_dec 0 (qabs (m k k))); [assumption|exfalso; apply Z; lra|assumption|exfalso; apply Z; lra]).
      assert (X : qabs (m i k / m k k) * qabs (m k k) == m i k \/ qabs (m i k / m k k) * qabs (m k k) == - m i k).
      { clear - C1 A1 EQ. set (q := m i k / m k k) in *. clearbody q. destruct C1 as [C1|C1], A1 as [A1|A1]; rewrite C1, A1; [left|right|right|left]; rewrite <- EQ; ring. }
      assert (Y : qabs (m k k) < qabs (m i k / m k k) * qabs (m k k)) by (apply (Qmult_lt_r 1 _ _ PK) in G; rewrite Qmult_1_l in G; exact G).
      destruct X as [X|X]; rewrite X in Y; lra.
    + assert (l < k)%nat by lia. destruct (Nat.ltb_spec k l); [lia|]. assert (BB : qabs (m i l) <= 1) by (apply B; lia). destruct (Nat.ltb k i); exact BB.
Qed.

Lemma step_ok : forall N A k m pi, (k < N)%nat -> inv N A k m pi ->
  match lup_step N k (m, pi) with
  | Some (m', pi') => inv N A (S k) m' pi'
  | None => forall i, (k <= i < N)%nat -> m i k == 0
  end.
Proof.
  intros N A k m pi K I. unfold lup_step. destruct (pivot N k m) as [p k_] eqn:PV. apply pivot_ok in PV; [|exact K].
  destruct (Qeqb_spec p 0) as [Z|Z].
  - destruct PV as [[_ PV]|(PV & _)]; [exact PV|lra].
  - destruct PV as [[PV _]|(P0 & P1 & P2 & P3)]; [contradiction|].
    apply inv_eliminate; [exact K|apply inv_swap; assumption|..].
    + rewrite swap_rows_ok by lia. unfold swapped. rewrite Nat.eqb_refl. destruct (qabs_spec (m k_ k)) as (_ & [Q|Q] & _); intro; lra.
    + intros i C. rewrite !swap_rows_ok by lia. unfold swapped at 2. rewrite Nat.eqb_refl. rewrite <- P2. apply P3.
      split; [apply swapped_ge; lia|]. unfold swapped. destruct (Nat.eqb i k), (Nat.eqb i k_); lia.
Qed.

(** ** Throwing means singular *)
(** An upper triangular system with non-zero diagonal can be solved, whatever the later entries. *)
Lemma upper_solvable : forall k m (b : arr Q) x0, (forall l, (l < k)%nat -> ~ m l l == 0) ->
  exists x, (forall j, (k <= j)%nat -> x j = x0 j) /\ forall N l, (k <= N)%nat -> (l < k)%nat ->
    qsum N (fun j => upper m l j * x j) == b l + qsum N (fun j => if Nat.leb k j then upper m l j * x0 j else 0).
Proof.
  induction k as [|k IH]; intros m b x0 D.
  - exists x0. split; [reflexivity|]. intros; lia.
  - (* choose x k, then the rest *)
    (* unknown: rows l <= k; row k: m k k * x k + sum_{j>k} m k j x0 j = b k + sum_{j>k} ... *)
    set (xk := b k / m k k). set (x1 := set_arr x0 k xk).
    destruct (IH m (fun l => b l - m l k * xk) x1) as (x & X1 & X2); [intros; apply D; lia|].
    exists x. split.
    + intros j J. rewrite X1 by lia. unfold x1, set_arr. destruct (Nat.eqb_spec j k); [lia|reflexivity].
    + intros N l KN L. assert (Zk : ~ m k k == 0) by (apply D; lia).
      assert (SP : forall f : nat -> Q, qsum N (fun j => if Nat.leb k j then f j else 0) == f k + qsum N (fun j => if Nat.leb (S k) j then f j else 0)).
      { intro f. rewrite (qsum_ext N (fun j => if Nat.leb k j then f j else 0) (fun j => (if Nat.eqb j k then f k else 0) + (if Nat.leb (S k) j then f j else 0))).
        - rewrite qsum_add. apply Qplus_comp; [|reflexivity].
          pose proof (qsum_single N k (fun j => if Nat.eqb j k then f k else 0)) as HS. cbv beta in HS. rewrite Nat.eqb_refl in HS. apply HS; [lia|].
          intros i Hi NE. destruct (Nat.eqb_spec i k); [contradiction|reflexivity].
        - intros j J. destruct (Nat.eqb_spec j k) as [EJ|]; [rewrite EJ|]; [destruct (Nat.leb_spec k k), (Nat.leb_spec (S k) k)|destruct (Nat.leb_spec k j), (Nat.leb_spec (S k) j)]; try lia; lra. }
      assert (XK : x1 k = xk) by (unfold x1, set_arr; rewrite Nat.eqb_refl; reflexivity).
      assert (TL : qsum N (fun j => if Nat.leb (S k) j then upper m l j * x1 j else 0) == qsum N (fun j => if Nat.leb (S k) j then upper m l j * x0 j else 0)).
      { apply qsum_ext. intros j J. destruct (Nat.leb_spec (S k) j); [|reflexivity]. unfold x1, set_arr. destruct (Nat.eqb_spec j k); [lia|reflexivity]. }
      destruct (Nat.eq_dec l k) as [->|NE].
      * (* row k: only j >= k count *)
        rewrite (qsum_ext N (fun j => upper m k j * x j) (fun j => if Nat.leb k j then upper m k j * x1 j else 0)).
        -- rewrite (SP (fun j => upper m k j * x1 j)). rewrite TL, XK. unfold upper at 1. rewrite Nat.leb_refl. unfold xk. 
           assert (m k k * (b k / m k k) == b k) by (field; exact Zk). lra.
        -- intros j J. unfold upper. destruct (Nat.leb_spec k j); [rewrite X1 by lia; reflexivity|]. lra.
      * rewrite (X2 N l) by lia. rewrite (SP (fun j => upper m l j * x1 j)). rewrite TL, XK. unfold upper at 1. destruct (Nat.leb_spec l k); [|lia]. lra.
Qed.
Lemma stuck_singular : forall N A k m pi, (k < N)%nat -> inv N A k m pi -> (forall i, (k <= i < N)%nat -> m i k == 0) -> singular N A.
Proof.
  intros N A k m pi K (P & E & D & B) Z.
  set (e := fun j : nat => if Nat.eqb j k then 1 else 0).
  destruct (upper_solvable k m (fun l => - upper m l k) e D) as (x & X1 & X2).
  exists x. assert (XK : x k = 1) by (rewrite X1 by lia; unfold e; rewrite Nat.eqb_refl; reflexivity).
  split; [exists k; split; [exact K|]; rewrite XK; discriminate|].
  intros r R. destruct P as (_ & _ & P3). destruct (P3 r R) as (i & I & <-).
  rewrite (qsum_ext N _ (fun j => qsum k (fun l => lower m i l * upper m l j) * x j + remainder m k i j * x j)).
  2:{ intros j J. rewrite (E i j I J). ring. }
  rewrite qsum_add.
  assert (Q1 : qsum N (fun j => qsum k (fun l => lower m i l * upper m l j) * x j) == 0).
  { rewrite (qsum_ext N _ (fun j => qsum k (fun l => lower m i l * (upper m l j * x j)))).
    - rewrite qsum_swap. apply qsum_zero. intros l L. rewrite qsum_scale. rewrite (X2 N l) by lia.
      rewrite (qsum_single N k (fun j => if Nat.leb k j then upper m l j * e j else 0)).
      + rewrite Nat.leb_refl. unfold e. rewrite Nat.eqb_refl. ring.
      + exact K.
      + intros j J NE. destruct (Nat.leb k j); [|reflexivity]. unfold e. destruct (Nat.eqb_spec j k); [contradiction|]. ring.
    - intros j J. rewrite Qmult_comm, <- qsum_scale. apply qsum_ext. intros l _. ring. }
  assert (Q2 : qsum N (fun j => remainder m k i j * x j) == 0).
  { apply qsum_zero. intros j J. unfold remainder. destruct (Nat.leb_spec k i), (Nat.leb_spec k j); cbn [andb]; try ring.
    rewrite X1 by lia. unfold e. destruct (Nat.eqb_spec j k) as [->|]; [rewrite (Z i) by lia; ring|ring]. }
  rewrite Q1, Q2. reflexivity.
Qed.

Lemma steps_ok : forall count N A k m pi, (k + count <= N)%nat -> inv N A k m pi ->
  match lup_steps N count k (m, pi) with
  | Some (m', pi') => inv N A (k + count) m' pi'
  | None => singular N A
  end.
Proof.
  induction count as [|c IH]; intros N A k m pi K I; cbn [lup_steps]; [rewrite Nat.add_0_r; exact I|].
  pose proof (step_ok N A k m pi ltac:(lia) I) as S. destruct (lup_step N k (m, pi)) as [[m' pi']|].
  - replace (k + Datatypes.S c)%nat with (Datatypes.S k + c)%nat by lia. apply IH; [lia|exact S].
  - apply (stuck_singular N A k m pi); [lia|exact I|exact S].
Qed.
Lemma inv_start : forall N A, inv N A 0 A (fun i => i).
Proof.
  intros N A. split; [split; [auto|split; [auto|intros r R; exists r; auto]]|]. split; [|split].
  - intros i j I J. cbn [qsum]. unfold remainder. cbn [Nat.leb andb]. lra.
  - intros; lia.
  - intros; lia.
Qed.

(** ** Solving *)
Lemma solve_y_ok : forall N lu pi b i, (i < N)%nat -> qsum N (fun l => lower lu i l * solve_y N lu pi b l) == b (pi i).
Proof.
  intros N lu pi b i I. unfold solve_y.
  pose (P := fun (n : nat) (y : arr Q) => forall i, (i < n)%nat -> qsum i (fun l => lu i l * y l) + y i == b (pi i)).
  assert (Q : P N (solve_y N lu pi b)).
  { unfold solve_y. apply (loop_ind P N 0).
    - intros j J. lia.
    - intros j y J S k K. cbv zeta. rewrite (qsum_ext k _ (fun l => lu k l * y l)).
      + unfold set_arr. destruct (Nat.eqb_spec k j) as [->|].
        * rewrite loop_sum. cbn [Nat.add]. ring.
        * apply S. lia.
      + intros l L. unfold set_arr. destruct (Nat.eqb_spec l j); [lia|reflexivity]. }
  specialize (Q i I). fold (solve_y N lu pi b). set (y := solve_y N lu pi b) in *. rewrite (qsum_split N (S i)) by lia. cbn [qsum].
  rewrite (qsum_zero (N - S i)).
  - rewrite (qsum_ext i (fun l => lower lu i l * y l) (fun l => lu i l * y l)).
    + unfold lower. destruct (Nat.ltb_spec i i); [lia|]. rewrite Nat.eqb_refl. lra.
    + intros l L. unfold lower. destruct (Nat.ltb_spec l i); [reflexivity|lia].
  - intros l L. unfold lower. destruct (Nat.ltb_spec (S i + l) i); [lia|]. destruct (Nat.eqb_spec (S i + l) i); [lia|]. ring.
Qed.
Lemma solve_x_ok : forall N lu y, (forall l, (l < N)%nat -> ~ lu l l == 0) -> exists x, solve_x N lu y = Some x /\
  forall i, (i < N)%nat -> qsum N (fun j => upper lu i j * x j) == y i.
Proof.
  intros N lu y D.
  pose (P := fun (n : nat) (r : option (arr Q)) => exists x, r = Some x /\ forall i, (i < N)%nat -> (N - n <= i)%nat ->
    lu i i * x i + qsum (N - S i) (fun j => lu i (S i + j)%nat * x (S i + j)%nat) == y i).
  assert (Q : P N (solve_x N lu y)).
  { unfold solve_x. apply (loop_ind P N 0).
    - exists (fun _ => 0). split; [reflexivity|]. intros; lia.
    - intros n r NB (x & -> & S). cbv zeta. set (i := (N - 1 - n)%nat). destruct (Qeqb_spec (lu i i) 0) as [Z|Z]; [exfalso; apply (D i); [unfold i; lia|exact Z]|].
      eexists. split; [reflexivity|]. intros k K KN.
      rewrite (qsum_ext (N - Datatypes.S k) _ (fun j => lu k (Datatypes.S k + j)%nat * x (Datatypes.S k + j)%nat)).
      + unfold set_arr. destruct (Nat.eqb_spec k i) as [->|NE].
        * rewrite loop_sum. set (s := qsum _ _). field. exact Z.
        * apply S; [exact K|]. unfold i in NE. lia.
      + intros j J. unfold set_arr. destruct (Nat.eqb_spec (Datatypes.S k + j) i); [unfold i in *; lia|reflexivity]. }
  destruct Q as (x & E & S). exists x. split; [exact E|]. intros i I. rewrite <- (S i) by lia.
  rewrite (qsum_split N (Datatypes.S i)) by lia. cbn [qsum]. rewrite (qsum_zero i).
  - unfold upper at 1. rewrite Nat.leb_refl. rewrite Qplus_0_l. apply Qplus_comp; [reflexivity|]. apply qsum_ext. intros j J. unfold upper. destruct (Nat.leb_spec i (Datatypes.S i + j)); [reflexivity|lia].
  - intros j J. unfold upper. destruct (Nat.leb_spec i j); [lia|]. ring.
Qed.

Lemma solve_ok : forall N A lu pi b, permutes N pi -> (forall i j, (i < N)%nat -> (j < N)%nat -> A (pi i) j == qsum N (fun l => lower lu i l * upper lu l j)) ->
  (forall l, (l < N)%nat -> ~ lu l l == 0) -> exists x, lup_solve N lu pi b = Some x /\ solves N A b x.
Proof.
  intros N A lu pi b (P1 & P2 & P3) E D. unfold lup_solve. destruct (solve_x_ok N lu (solve_y N lu pi b) D) as (x & X & S). exists x. split; [exact X|].
  intros r R. destruct (P3 r R) as (i & I & <-).
  rewrite (qsum_ext N _ (fun j => qsum N (fun l => lower lu i l * (upper lu l j * x j)))).
  - rewrite qsum_swap. rewrite (qsum_ext N _ (fun l => lower lu i l * solve_y N lu pi b l)); [apply solve_y_ok, I|].
    intros l L. rewrite qsum_scale, (S l L). reflexivity.
  - intros j J. rewrite (E i j I J), Qmult_comm, <- qsum_scale. apply qsum_ext. intros l _. ring.
Qed.

Lemma decomposition_ok : forall N A, match lup_decomposition N A with
  | Some (lu, pi) => permutes N pi /\ (forall i j, (i < N)%nat -> (j < N)%nat -> A (pi i) j == qsum N (fun l => lower lu i l * upper lu l j)) /\
      (forall i l, (l < i < N)%nat -> qabs (lu i l) <= 1) /\ (forall l, (l < N)%nat -> ~ lu l l == 0)
  | None => singular N A
  end.
Proof.
  intros N A. pose proof (steps_ok N N A 0 A (fun i => i) (le_n _) (inv_start N A)) as H. unfold lup_decomposition. unfold arr in *.
  destruct (lup_steps N N 0 (A, fun i => i)) as [[lu pi]|]; [|exact H]. cbn [Nat.add] in H. destruct H as (P & E & D & B).
  split; [exact P|]. split; [|split; [intros i l L; apply B; lia|exact D]].
  intros i j I J. rewrite (E i j I J). unfold remainder. destruct (Nat.leb_spec N i); [lia|]. cbn [andb]. lra.
Qed.
Lemma decomposition_run_time_ok : forall N A, match lup_decomposition_run_time N A with
  | Some (lu, pi) => permutes N pi /\ (forall i j, (i < N)%nat -> (j < N)%nat -> A (pi i) j == qsum N (fun l => lower lu i l * upper lu l j)) /\
      (forall i l, (l < i < N)%nat -> qabs (lu i l) <= 1) /\ (forall l, (S l < N)%nat -> ~ lu l l == 0)
  | None => singular N A
  end.
Proof.
  intros N A. pose proof (steps_ok (N - 1) N A 0 A (fun i => i) ltac:(lia) (inv_start N A)) as H. unfold lup_decomposition_run_time. unfold arr in *.
  destruct (lup_steps N (N - 1) 0 (A, fun i => i)) as [[lu pi]|]; [|exact H]. cbn [Nat.add] in H. destruct H as (P & E & D & B).
  split; [exact P|]. split; [|split; [intros i l L; apply B; lia|intros l L; apply D; lia]].
  intros i j I J. rewrite (E i j I J). assert (N1 : forall f, qsum N f = qsum (N - 1) f + f (N - 1)%nat) by (intro f; replace N with (S (N - 1)) at 1 by lia; reflexivity). rewrite N1.
  set (sum := qsum (N - 1) _). clearbody sum. clear N1. unfold remainder, lower, upper. destruct (Nat.leb_spec (N - 1) i), (Nat.leb_spec (N - 1) j); cbn [andb];
    destruct (Nat.ltb_spec (N - 1) i); try lia; destruct (Nat.eqb_spec (N - 1) i); try lia; try lra.
  - subst i. lra.
Qed.
