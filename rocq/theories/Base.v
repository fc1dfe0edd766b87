(** Shared vocabulary of the model: exact rational scalars, points and vectors
    of the plane, boolean comparisons, and the decision tactics used by the
    proofs.

    Scalars.  Geometrix is templated on the coordinate type; the model uses the
    exact rationals [Q].  Rounding of [double] is outside this model. *)
From Coq Require Export QArith Lqa Lia List Bool ZArith.
From Coq Require Import Qminmax Qabs.
Export ListNotations.
Open Scope Q_scope.

(** The C++ operators [<], [<=], [==], [>] and [>=] on the scalar type. *)
Definition Qleb (a b : Q) : bool := Qle_bool a b.
Definition Qltb (a b : Q) : bool := negb (Qle_bool b a).
Definition Qeqb (a b : Q) : bool := Qeq_bool a b.
Definition Qgtb (a b : Q) : bool := Qltb b a.
Definition Qgeb (a b : Q) : bool := Qleb b a.

Lemma Qleb_le : forall a b, Qleb a b = true <-> a <= b.
Proof. intros a b; unfold Qleb; apply Qle_bool_iff. Qed.

Lemma Qltb_lt : forall a b, Qltb a b = true <-> a < b.
Proof.
  intros a b; unfold Qltb; rewrite negb_true_iff.
  split; intro H.
  - apply Qnot_le_lt; intro Hle; apply Qle_bool_iff in Hle; congruence.
  - destruct (Qle_bool b a) eqn:E; [|reflexivity].
    apply Qle_bool_iff in E; lra.
Qed.

Lemma Qeqb_eq : forall a b, Qeqb a b = true <-> a == b.
Proof. intros a b; unfold Qeqb; apply Qeq_bool_iff. Qed.

Lemma Qleb_spec : forall a b, BoolSpec (a <= b) (b < a) (Qleb a b).
Proof.
  intros a b; destruct (Qleb a b) eqn:E; constructor.
  - apply Qleb_le; exact E.
  - apply Qnot_le_lt; intro H; apply Qleb_le in H; congruence.
Qed.

Lemma Qltb_spec : forall a b, BoolSpec (a < b) (b <= a) (Qltb a b).
Proof.
  intros a b; destruct (Qltb a b) eqn:E; constructor.
  - apply Qltb_lt; exact E.
  - apply Qnot_lt_le; intro H; apply Qltb_lt in H; congruence.
Qed.

Lemma Qeqb_spec : forall a b, BoolSpec (a == b) (~ a == b) (Qeqb a b).
Proof.
  intros a b; destruct (Qeqb a b) eqn:E; constructor.
  - apply Qeqb_eq; exact E.
  - intro H; apply Qeqb_eq in H; congruence.
Qed.

Lemma Qgtb_spec : forall a b, BoolSpec (b < a) (a <= b) (Qgtb a b).
Proof. intros a b; unfold Qgtb; apply Qltb_spec. Qed.

Lemma Qgeb_spec : forall a b, BoolSpec (b <= a) (a < b) (Qgeb a b).
Proof. intros a b; unfold Qgeb; apply Qleb_spec. Qed.

Global Arguments Qleb : simpl never.
Global Arguments Qltb : simpl never.
Global Arguments Qeqb : simpl never.
Global Arguments Qgtb : simpl never.
Global Arguments Qgeb : simpl never.
Global Arguments Qle_bool : simpl never.
Global Arguments Qeq_bool : simpl never.
Global Arguments Qplus : simpl never.
Global Arguments Qmult : simpl never.
Global Arguments Qminus : simpl never.
Global Arguments Qopp : simpl never.
Global Arguments Qdiv : simpl never.
Global Arguments Qinv : simpl never.

(** One boolean comparison of the goal (or of a hypothesis) turned into a
    proposition. *)
Ltac qcase :=
  match goal with
  | |- context [Qltb ?a ?b] => destruct (Qltb_spec a b)
  | |- context [Qleb ?a ?b] => destruct (Qleb_spec a b)
  | |- context [Qeqb ?a ?b] => destruct (Qeqb_spec a b)
  | |- context [Qgtb ?a ?b] => destruct (Qgtb_spec a b)
  | |- context [Qgeb ?a ?b] => destruct (Qgeb_spec a b)
  end.

Ltac qcase_in H :=
  match type of H with
  | context [Qltb ?a ?b] => destruct (Qltb_spec a b)
  | context [Qleb ?a ?b] => destruct (Qleb_spec a b)
  | context [Qeqb ?a ?b] => destruct (Qeqb_spec a b)
  | context [Qgtb ?a ?b] => destruct (Qgtb_spec a b)
  | context [Qgeb ?a ?b] => destruct (Qgeb_spec a b)
  end.

(** [std::min] / [std::max] on scalars ([std::min(a,b)] is [b < a ? b : a],
    [std::max(a,b)] is [a < b ? b : a]). *)
Definition qmin (a b : Q) : Q := if Qltb b a then b else a.
Definition qmax (a b : Q) : Q := if Qltb a b then b else a.

(** utility/floating_point_comparison.hpp:22-26, [absolute_value]; also used for
    [std::abs]. *)
Definition qabs (v : Q) : Q := if Qltb v 0 then - v else v.

Lemma qmin_spec : forall a b, (qmin a b == a \/ qmin a b == b) /\ qmin a b <= a /\ qmin a b <= b.
Proof. intros a b; unfold qmin; qcase; split; try split; try lra. Qed.

Lemma qmax_spec : forall a b, (qmax a b == a \/ qmax a b == b) /\ a <= qmax a b /\ b <= qmax a b.
Proof. intros a b; unfold qmax; qcase; split; try split; try lra. Qed.

Lemma qabs_spec : forall v, 0 <= qabs v /\ (qabs v == v \/ qabs v == - v) /\ v <= qabs v /\ - v <= qabs v.
Proof. intros v; unfold qabs; qcase; repeat split; try lra. Qed.

(** Points and vectors of the plane (primitive/point.hpp, tensor/vector.hpp,
    dimension 2).  The library distinguishes points from vectors by type only. *)
Record pt : Type := mkpt { px : Q; py : Q }.

(** Componentwise equality of points ([==] on the scalars). *)
Definition pteq (a b : pt) : Prop := px a == px b /\ py a == py b.
Infix "=p=" := pteq (at level 70, no associativity).

Lemma pteq_refl : forall a, a =p= a.
Proof. intro a; split; lra. Qed.
Lemma pteq_sym : forall a b, a =p= b -> b =p= a.
Proof. intros a b [H1 H2]; split; lra. Qed.
Lemma pteq_trans : forall a b c, a =p= b -> b =p= c -> a =p= c.
Proof. intros a b c [H1 H2] [H3 H4]; split; lra. Qed.

(** Point/vector arithmetic of the expression templates
    (algebra/expression.hpp): difference, sum, scaling. *)
Definition vsub (a b : pt) : pt := mkpt (px a - px b) (py a - py b).
Definition vadd (a b : pt) : pt := mkpt (px a + px b) (py a + py b).
Definition vscale (k : Q) (a : pt) : pt := mkpt (k * px a) (k * py a).
Definition vneg (a : pt) : pt := mkpt (- px a) (- py a).

(** algebra/dot_product.hpp, dimension 2. *)
Definition dot (a b : pt) : Q := px a * px b + py a * py b.

(** algebra/exterior_product.hpp, [exterior_product_area] for 2d vectors. *)
Definition cross (a b : pt) : Q := px a * py b - py a * px b.

(** arithmetic/vector/perp.hpp:47-61. *)
Definition left_normal (a : pt) : pt := mkpt (- py a) (px a).
Definition right_normal (a : pt) : pt := mkpt (py a) (- px a).

(** algorithm/distance/point_point_distance.hpp: squared distance. *)
Definition dist2 (a b : pt) : Q := dot (vsub b a) (vsub b a).

(** The point A + t (B - A). *)
Definition lerp (A B : pt) (t : Q) : pt := vadd A (vscale t (vsub B A)).

(** Points and vectors of space (dimension 3). *)
Record pt3 : Type := mkpt3 { x3 : Q; y3 : Q; z3 : Q }.
Definition pt3eq (a b : pt3) : Prop := x3 a == x3 b /\ y3 a == y3 b /\ z3 a == z3 b.
Definition vsub3 (a b : pt3) : pt3 := mkpt3 (x3 a - x3 b) (y3 a - y3 b) (z3 a - z3 b).
Definition vadd3 (a b : pt3) : pt3 := mkpt3 (x3 a + x3 b) (y3 a + y3 b) (z3 a + z3 b).
Definition vscale3 (k : Q) (a : pt3) : pt3 := mkpt3 (k * x3 a) (k * y3 a) (k * z3 a).
Definition dot3 (a b : pt3) : Q := x3 a * x3 b + y3 a * y3 b + z3 a * z3 b.
Definition dist2_3 (a b : pt3) : Q := dot3 (vsub3 b a) (vsub3 b a).

(** Booleans with the same truth conditions are equal. *)
Lemma bool_iff : forall (b c : bool), (b = true <-> c = true) -> b = c.
Proof. intros b c [H1 H2]; destruct b, c; auto; symmetry; auto. Qed.

Lemma sq_nonneg : forall a : Q, 0 <= a * a.
Proof. intro a; nra. Qed.
Lemma sq_zero : forall a : Q, a * a == 0 -> a == 0.
Proof. intros a H; destruct (Qeq_dec a 0) as [E|E]; [exact E|]. exfalso.
  destruct (Qlt_le_dec a 0); nra. Qed.
