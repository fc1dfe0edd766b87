(** Real vectors of any dimension, boolean comparisons on the reals and the
    comparison policies over them; used where the code takes square roots or
    trigonometric functions. *)
From Coq Require Export Reals Lra List Bool Lia.
Export ListNotations.
Open Scope R_scope.

Definition Rltb (x y : R) : bool := if Rlt_dec x y then true else false.
Definition Rleb (x y : R) : bool := if Rle_dec x y then true else false.
Definition Reqb (x y : R) : bool := if Req_EM_T x y then true else false.
Lemma Rltb_spec : forall x y, reflect (x < y) (Rltb x y).
Proof. intros; unfold Rltb; destruct (Rlt_dec x y); constructor; assumption. Qed.
Lemma Rleb_spec : forall x y, reflect (x <= y) (Rleb x y).
Proof. intros; unfold Rleb; destruct (Rle_dec x y); constructor; assumption. Qed.
Lemma Reqb_spec : forall x y, reflect (x = y) (Reqb x y).
Proof. intros; unfold Reqb; destruct (Req_EM_T x y); constructor; assumption. Qed.

(** tensor/vector.hpp, primitive/point.hpp: vectors and points as coordinate lists. *)
Definition rvec : Type := list R.
Fixpoint radd (a b : rvec) : rvec :=
  match a, b with x :: a', y :: b' => (x + y) :: radd a' b' | _, _ => [] end.
Fixpoint rsub (a b : rvec) : rvec :=
  match a, b with x :: a', y :: b' => (x - y) :: rsub a' b' | _, _ => [] end.
Definition rscale (k : R) (a : rvec) : rvec := map (fun x => k * x) a.
(** algebra/dot_product.hpp:25-60. *)
Fixpoint rdot (a b : rvec) : R :=
  match a, b with x :: a', y :: b' => x * y + rdot a' b' | _, _ => 0 end.
(** arithmetic/vector/magnitude.hpp:110-140. *)
Definition rnorm (a : rvec) : R := sqrt (rdot a a).
(** arithmetic/vector/normalize.hpp:33-45; meaningful for non-zero vectors. *)
Definition rnormalize (a : rvec) : rvec := rscale (1 / rnorm a) a.

Lemma radd_length : forall a b, length a = length b -> length (radd a b) = length a.
Proof. induction a as [|x a IH]; destruct b; simpl; intros; try discriminate; auto. Qed.
Lemma rsub_length : forall a b, length a = length b -> length (rsub a b) = length a.
Proof. induction a as [|x a IH]; destruct b; simpl; intros; try discriminate; auto. Qed.
Lemma rscale_length : forall k a, length (rscale k a) = length a.
Proof. intros; unfold rscale; apply map_length. Qed.
Lemma rdot_comm : forall a b, rdot a b = rdot b a.
Proof. induction a as [|x a IH]; destruct b; simpl; auto. rewrite IH; ring. Qed.
Lemma rdot_self_nonneg : forall a, 0 <= rdot a a.
Proof. induction a as [|x a IH]; simpl; [lra|]. pose proof (Rle_0_sqr x) as H; unfold Rsqr in H; lra. Qed.
Lemma rdot_radd_l : forall a b c, length a = length b -> length b = length c -> rdot (radd a b) c = rdot a c + rdot b c.
Proof. induction a as [|x a IH]; intros [|y b] [|z c] H1 H2; simpl in *; try discriminate; [ring|]. rewrite IH; [ring|lia|lia]. Qed.
Lemma rdot_rsub_l : forall a b c, length a = length b -> length b = length c -> rdot (rsub a b) c = rdot a c - rdot b c.
Proof. induction a as [|x a IH]; intros [|y b] [|z c] H1 H2; simpl in *; try discriminate; [ring|]. rewrite IH; [ring|lia|lia]. Qed.
Lemma rdot_rscale_l : forall k a b, rdot (rscale k a) b = k * rdot a b.
Proof. induction a as [|x a IH]; intros [|y b]; simpl; try ring. unfold rscale in IH; rewrite IH; ring. Qed.
Lemma rdot_rscale_r : forall k a b, rdot a (rscale k b) = k * rdot a b.
Proof. intros; rewrite rdot_comm, rdot_rscale_l, rdot_comm; reflexivity. Qed.
Lemma rdot_radd_r : forall a b c, length a = length b -> length b = length c -> rdot a (radd b c) = rdot a b + rdot a c.
Proof. intros; rewrite rdot_comm, rdot_radd_l by congruence. rewrite (rdot_comm b), (rdot_comm c); reflexivity. Qed.
Lemma rdot_rsub_r : forall a b c, length a = length b -> length b = length c -> rdot a (rsub b c) = rdot a b - rdot a c.
Proof. intros; rewrite rdot_comm, rdot_rsub_l by congruence. rewrite (rdot_comm b), (rdot_comm c); reflexivity. Qed.

(** utility policies over the reals: only the operations used below
    (numeric/number_comparison_policy.hpp). *)
Record rpolicy : Type := mkrpolicy {
  req : R -> R -> bool; rlt : R -> R -> bool; rgt : R -> R -> bool; rle : R -> R -> bool; rge : R -> R -> bool }.
Definition rdirect : rpolicy :=
  mkrpolicy Reqb Rltb (fun u v => Rltb v u) Rleb (fun u v => Rleb v u).
Definition rabsolute (tol : R) : rpolicy :=
  mkrpolicy (fun u v => Rleb (Rabs (u - v)) tol) (fun u v => Rltb (u - v) (- tol)) (fun u v => Rltb tol (u - v))
            (fun u v => Rleb (u - v) tol) (fun u v => Rleb (- tol) (u - v)).

(** [std::sqrt] on a negative argument is not a number ([None]). *)
Definition rsqrt_opt (x : R) : option R := if Rltb x 0 then None else Some (sqrt x).
