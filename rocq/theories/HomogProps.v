(** C131: transformations in homogeneous coordinates. *)
From Verif Require Import HomogModel HomogSpec.

Lemma sum_ext : forall n f g, (forall i, (i < n)%nat -> f i = g i) -> sum_to f n = sum_to g n.
Proof. induction n as [|n IH]; intros f g H; cbn; [reflexivity|]. rewrite (IH f g), H by (intros; try apply H; lia). reflexivity. Qed.
Lemma sum_add : forall n f g, sum_to (fun i => f i + g i) n = sum_to f n + sum_to g n.
Proof. induction n as [|n IH]; intros; cbn; [ring|]. rewrite IH; ring. Qed.
Lemma sum_scale : forall n k f, sum_to (fun i => k * f i) n = k * sum_to f n.
Proof. induction n as [|n IH]; intros; cbn; [ring|]. rewrite IH; ring. Qed.
Lemma sum_zero : forall n f, (forall i, (i < n)%nat -> f i = 0) -> sum_to f n = 0.
Proof. induction n as [|n IH]; intros; cbn; [reflexivity|]. rewrite IH, H by (intros; try apply H; lia). ring. Qed.
Lemma sum_swap : forall n m f, sum_to (fun i => sum_to (fun j => f i j) m) n = sum_to (fun j => sum_to (fun i => f i j) n) m.
Proof.
  induction n as [|n IH]; intros m f; cbn.
  - symmetry; apply sum_zero; reflexivity.
  - rewrite IH, <- sum_add. reflexivity.
Qed.
Lemma sum_delta : forall n f k, (k < n)%nat -> sum_to (fun i => if Nat.eqb i k then f i else 0) n = f k.
Proof.
  induction n as [|n IH]; intros f k H; [lia|]. cbn. destruct (Nat.eqb_spec n k) as [->|Ne].
  - rewrite sum_zero; [ring|]. intros i Hi. destruct (Nat.eqb_spec i k); [lia|reflexivity].
  - rewrite IH by lia. ring.
Qed.

Lemma move_any : forall w n m p i, matrix_vector (S n) m (homogeneous_get w n p) i = sum_to (fun j => m i j * p j) n + m i n * w.
Proof.
  intros. unfold matrix_vector, homogeneous_get. cbn [sum_to]. rewrite Nat.eqb_refl. f_equal.
  apply sum_ext. intros j Hj. destruct (Nat.eqb_spec j n); [lia|reflexivity].
Qed.

(** A point is mapped by the upper left part and then shifted by the last column, a vector by the
    upper left part alone. *)
Theorem C131_point : forall n m p i, move_point n m p i = sum_to (fun j => m i j * p j) n + m i n.
Proof. intros. unfold move_point, as_positional_homogeneous. rewrite move_any; ring. Qed.
Theorem C131_vector : forall n m v i, move_vector n m v i = sum_to (fun j => m i j * v j) n.
Proof. intros. unfold move_vector, as_vectoral_homogeneous. rewrite move_any; ring. Qed.

(** The difference of two moved points is the moved difference. *)
Theorem C131_difference : forall n m p q i, move_point n m p i - move_point n m q i = move_vector n m (fun j => p j - q j) i.
Proof.
  intros. rewrite !C131_point, C131_vector.
  rewrite (sum_ext n (fun j => m i j * (p j - q j)) (fun j => m i j * p j + (-1) * (m i j * q j))) by (intros; ring).
  rewrite sum_add, sum_scale. ring.
Qed.

Lemma linear_compose : forall n m1 m2 p i, affine n m1 ->
  sum_to (fun j => matrix_matrix (S n) m2 m1 i j * p j) n = sum_to (fun l => m2 i l * sum_to (fun j => m1 l j * p j) n) n.
Proof.
  intros n m1 m2 p i [A1 A2]. unfold matrix_matrix. cbn [sum_to].
  rewrite (sum_ext n _ (fun j => sum_to (fun l => m2 i l * (m1 l j * p j)) n)).
  - rewrite (sum_swap n n (fun j l => m2 i l * (m1 l j * p j))). apply sum_ext. intros l _. apply sum_scale.
  - intros j Hj. rewrite A1 by exact Hj. rewrite Rmult_0_r, Rplus_0_r.
    rewrite Rmult_comm, <- sum_scale. apply sum_ext; intros; ring.
Qed.

(** Transformations compose: the product of the matrices does one after the other, when the last row
    of the first is 0, ..., 0, 1; and the product then has that last row again if both have. *)
Theorem C131_compose : forall n m1 m2, affine n m1 ->
  (forall p, same n (move_point n (matrix_matrix (S n) m2 m1) p) (move_point n m2 (move_point n m1 p))) /\
  (forall v, same n (move_vector n (matrix_matrix (S n) m2 m1) v) (move_vector n m2 (move_vector n m1 v))) /\
  (affine n m2 -> affine n (matrix_matrix (S n) m2 m1)).
Proof.
  intros n m1 m2 A. split; [|split].
  - intros p i Hi. rewrite !C131_point, linear_compose by auto.
    rewrite (sum_ext n (fun j => m2 i j * move_point n m1 p j) (fun j => m2 i j * sum_to (fun k => m1 j k * p k) n + m2 i j * m1 j n)).
    2: { intros j _. rewrite C131_point. ring. }
    rewrite sum_add. unfold matrix_matrix. cbn [sum_to]. destruct A as [_ A2]. rewrite A2. ring.
  - intros v i Hi. rewrite !C131_vector, linear_compose by auto. apply sum_ext. intros j _. rewrite C131_vector. reflexivity.
  - intros [B1 B2]. destruct A as [A1 A2]. unfold affine, matrix_matrix. cbn [sum_to]. split.
    + intros j Hj. rewrite A1, sum_zero by (try exact Hj; intros i Hi; rewrite B1 by exact Hi; ring). ring.
    + rewrite A2, B2, sum_zero by (intros i Hi; rewrite B1 by exact Hi; ring). ring.
Qed.

(** With another last row (a perspective) the product does not do one after the other: nothing ever
    divides by the extra coordinate. *)
Theorem C131_compose_refuted : exists n m1 m2 p, affine n m2 /\ ~ same n (move_point n (matrix_matrix (S n) m2 m1) p) (move_point n m2 (move_point n m1 p)).
Proof.
  exists 1%nat, (fun i j => if Nat.eqb i j then 1 else if Nat.eqb i 1 then 1 else 0), (fun i j => if Nat.eqb i j then 1 else if Nat.eqb i 0 then 5 else 0), (fun _ => 1).
  split; [split; [intros [|j] H; [reflexivity|lia]|reflexivity]|].
  intros H. specialize (H 0%nat ltac:(lia)). rewrite !C131_point in H. unfold matrix_matrix in H. cbn in H.
  unfold move_point, matrix_vector, as_positional_homogeneous, homogeneous_get in H. cbn in H. lra.
Qed.

(** The identity moves nothing. *)
Theorem C131_identity : forall n p, same n (move_point n identity p) p /\ same n (move_vector n identity p) p /\ affine n identity.
Proof.
  intros n p. unfold identity.
  assert (E : forall i, (i < n)%nat -> sum_to (fun j => (if Nat.eqb i j then 1 else 0) * p j) n = p i).
  { intros i Hi. rewrite (sum_ext n _ (fun j => if Nat.eqb j i then p j else 0)); [apply sum_delta; exact Hi|].
    intros j _. rewrite (Nat.eqb_sym i j). destruct (Nat.eqb j i); ring. }
  split; [|split; [|split]].
  - intros i Hi. rewrite C131_point, E by exact Hi. destruct (Nat.eqb_spec i n); [lia|ring].
  - intros i Hi. rewrite C131_vector, E by exact Hi. reflexivity.
  - intros j Hj. destruct (Nat.eqb_spec n j); [lia|reflexivity].
  - rewrite Nat.eqb_refl; reflexivity.
Qed.

(** A matrix with a rigid upper left part (a rotation, say) keeps all distances, in any dimension. *)
Theorem C131_rigid : forall n m p q, rigid n m -> dist_sqr n (move_point n m p) (move_point n m q) = dist_sqr n p q.
Proof.
  intros n m p q H. unfold dist_sqr. set (d := fun j => p j - q j).
  rewrite (sum_ext n _ (fun k => sum_to (fun i => sum_to (fun j => d i * d j * (m k i * m k j)) n) n)).
  - rewrite (sum_swap n n (fun k i => sum_to (fun j => d i * d j * (m k i * m k j)) n)).
    apply sum_ext. intros i Hi. rewrite (sum_swap n n (fun k j => d i * d j * (m k i * m k j))).
    rewrite (sum_ext n _ (fun j => if Nat.eqb j i then d i * d j else 0)).
    + rewrite sum_delta by exact Hi. reflexivity.
    + intros j Hj. rewrite sum_scale, H by assumption. rewrite (Nat.eqb_sym i j). destruct (Nat.eqb j i); ring.
  - intros k _. rewrite C131_difference, C131_vector. fold d.
    rewrite <- sum_scale. rewrite (sum_swap n n (fun i j => d i * d j * (m k i * m k j))).
    apply sum_ext. intros j _. rewrite Rmult_comm, <- sum_scale. apply sum_ext. intros i _. unfold d. ring.
Qed.

(** The rotation of the plane by an angle followed by a shift. *)
Definition rotation_shift (a tx ty : R) : matrixf := fun i j =>
  match i, j with
  | 0%nat, 0%nat => cos a | 0%nat, 1%nat => - sin a | 0%nat, 2%nat => tx
  | 1%nat, 0%nat => sin a | 1%nat, 1%nat => cos a | 1%nat, 2%nat => ty
  | 2%nat, 2%nat => 1 | _, _ => 0
  end.
Example C131_witness : forall a tx ty, affine 2 (rotation_shift a tx ty) /\ rigid 2 (rotation_shift a tx ty) /\
  move_point 2 (rotation_shift a tx ty) (fun i => match i with 0%nat => 1 | _ => 0 end) 0%nat = cos a + tx.
Proof.
  intros a tx ty. pose proof (sin2_cos2 a) as S2; unfold Rsqr in S2. split; [|split].
  - split; [|reflexivity]. intros [|[|j]] H; try reflexivity; lia.
  - intros [|[|i]] [|[|j]] Hi Hj; try lia; cbn; lra.
  - rewrite C131_point. cbn. ring.
Qed.

Print Assumptions C131_point.
Print Assumptions C131_vector.
Print Assumptions C131_difference.
Print Assumptions C131_compose.
Print Assumptions C131_compose_refuted.
Print Assumptions C131_identity.
Print Assumptions C131_rigid.
