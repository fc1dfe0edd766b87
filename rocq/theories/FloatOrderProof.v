(** Order of points of doubles. *)
From Coq Require Import Reals Floats ZArith List Lia Bool.
Require Import Flocq.Core.Core Flocq.IEEE754.BinarySingleNaN Flocq.IEEE754.PrimFloat.
From Verif Require Import FloatModel FloatSpec FloatProof FloatProof2 FloatProof3 FloatPolyProof FloatIntervalSpec FloatIntervalProof FloatOrderModel FloatOrderSpec.
From Coq Require Import Lra.
Import ListNotations.
Local Open Scope R_scope.

Lemma eqb_key : forall x y, number x -> number y -> ((x =? y)%float = true <-> key x = key y).
Proof.
  intros x y X Y. pose proof top_pos as T. destruct (key_cases x X) as [ (FX & KX & BX)|[ (EX & KX)|(EX & KX) ] ], (key_cases y Y) as [ (FY & KY & BY)|[ (EY & KY)|(EY & KY) ] ]; set (M := top) in *; clearbody M.
  1: rewrite eqb_val, <- KX, <- KY by assumption; destruct (Req_bool_spec (key x) (key y)); split; intro; try reflexivity; try discriminate; lra.
  all: rewrite eqb_equiv, ?EX, ?EY; rewrite ?KX, ?KY in *; try (apply finite_B in FX; destruct (Prim2B x) as [[]|[]| |[] ? ? ?]; try discriminate FX); try (apply finite_B in FY; destruct (Prim2B y) as [[]|[]| |[] ? ? ?]; try discriminate FY);
    cbn; split; intro; try reflexivity; try discriminate; lra.
Qed.
(** The lexicographic order on the keys. *)
Fixpoint below (a b : list PrimFloat.float) : Prop :=
  match a, b with x :: a', y :: b' => key x < key y \/ (key x = key y /\ below a' b') | _, _ => False end.
Fixpoint same (a b : list PrimFloat.float) : Prop :=
  match a, b with x :: a', y :: b' => key x = key y /\ same a' b' | [], [] => True | _, _ => False end.
Lemma lex_below : forall a b, Forall number a -> Forall number b -> (flexicographical fdirect a b = true <-> below a b).
Proof.
  induction a as [|x a IH]; intros [|y b] A B; cbn [flexicographical below]; try (split; [discriminate|tauto]). inversion_clear A; inversion_clear B. cbn [f_lt f_eq fdirect].
  destruct (x <? y)%float eqn:L; [apply ltb_key in L; try assumption; tauto|]. assert (NL : ~ key x < key y) by (intro K; apply (ltb_key x y) in K; try assumption; congruence).
  destruct (x =? y)%float eqn:E.
  - apply eqb_key in E; try assumption. rewrite IH by assumption. tauto.
  - assert (NE : key x <> key y) by (intro K; apply (eqb_key x y) in K; try assumption; congruence). split; [discriminate|tauto].
Qed.
Lemma same_spec : forall a b, Forall number a -> Forall number b -> (same_point a b <-> same a b).
Proof.
  induction a as [|x a IH]; intros [|y b] A B; cbn [same]; unfold same_point; try (split; [intro H; inversion H|tauto]); [split; [tauto|constructor]|]. inversion_clear A; inversion_clear B.
  split.
  - intro K. inversion_clear K. split; [apply eqb_key; assumption|]. apply (IH b); assumption.
  - intros [K L]. constructor; [apply eqb_key; assumption|]. apply (IH b); assumption.
Qed.
Lemma below_irrefl : forall a b, same a b -> ~ below a b.
Proof. induction a as [|x a IH]; intros [|y b] S B; cbn in *; try tauto. destruct S as [E S]. destruct B as [L|[_ B]]; [lra|exact (IH b S B)]. Qed.
Lemma same_refl : forall a, same a a. Proof. induction a; cbn; auto. Qed.
Lemma same_sym : forall a b, same a b -> same b a.
Proof. induction a as [|x a IH]; intros [|y b] S; cbn in *; try tauto. destruct S; split; [congruence|apply IH; assumption]. Qed.
Lemma same_trans : forall a b c, same a b -> same b c -> same a c.
Proof. induction a as [|x a IH]; intros [|y b] [|z c] S T; cbn in *; try tauto. destruct S, T; split; [congruence|eapply IH; eassumption]. Qed.
Lemma below_trans : forall a b c, below a b -> below b c -> below a c.
Proof.
  induction a as [|x a IH]; intros [|y b] [|z c] S T; cbn in *; try tauto. destruct S as [S|[S S']], T as [T|[T T']]; try (left; lra). right. split; [lra|eapply IH; eassumption].
Qed.
Lemma below_cases : forall a b, length a = length b -> below a b \/ same a b \/ below b a.
Proof.
  induction a as [|x a IH]; intros [|y b] L; cbn in *; try discriminate; [tauto|]. injection L as L. destruct (Rtotal_order (key x) (key y)) as [K|[K|K]]; [tauto| |right; right; left; lra].
  destruct (IH b L) as [H|[H|H]]; [left; right; auto|right; left; auto|right; right; right; split; [lra|exact H]].
Qed.
Lemma before_below : forall a b, Forall number a -> Forall number b -> (comes_before a b <-> below a b).
Proof.
  intros a b A B. split.
  - intros (p & x & s & q & y & t & -> & -> & E & L). apply Forall_app in A as [A1 A2]. apply Forall_app in B as [B1 B2]. inversion_clear A2; inversion_clear B2. revert A1 B1. induction E as [|u v p q E E' IH]; intros A1 B1; cbn.
    + left. apply ltb_key; assumption.
    + inversion_clear A1; inversion_clear B1. right. split; [apply eqb_key; assumption|apply IH; assumption].
  - revert b B. induction a as [|x a IH]; intros [|y b] B K; cbn in K; try tauto. inversion_clear A; inversion_clear B. destruct K as [K|[E K]].
    + exists [], x, a, [], y, b. repeat split; try constructor. apply ltb_key; assumption.
    + destruct (IH ltac:(assumption) b ltac:(assumption) K) as (p & x' & s & q & y' & t & -> & -> & F & L). exists (x :: p), x', s, (y :: q), y', t. repeat split; try assumption. constructor; [apply eqb_key; assumption|exact F].
Qed.
