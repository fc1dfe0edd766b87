(** The plane seen from a point: brackets of directions, cones and sides. *)
From Verif Require Import Base OrientSpec PolygonSpec.
From Coq Require Import Lqa.
Open Scope Q_scope.

Section FromO.
Variable o : pt.
Notation "[[ X , Y ]]" := (tri2 o X Y).

Lemma tri_br : forall X Y Z, tri2 X Y Z == [[X, Y]] + [[Y, Z]] - [[X, Z]].
Proof. intros. unfold tri2, cross, vsub; cbn [px py]. ring. Qed.
Lemma br_anti : forall X Y, [[Y, X]] == - [[X, Y]].
Proof. intros. unfold tri2, cross, vsub; cbn [px py]. ring. Qed.
Lemma br_same : forall X, [[X, X]] == 0.
Proof. intros. unfold tri2, cross, vsub; cbn [px py]. ring. Qed.
Lemma plucker : forall A B C D, [[A, B]] * [[C, D]] == [[A, C]] * [[B, D]] - [[A, D]] * [[B, C]].
Proof. intros. unfold tri2, cross, vsub; cbn [px py]. ring. Qed.

Lemma pos_div : forall k x, 0 < k -> 0 < k * x -> 0 < x.
Proof. intros k x K H. destruct (Qlt_le_dec 0 x) as [L|L]; [exact L|]. assert (0 <= k * - x) by (apply Qmult_le_0_compat; lra). lra. Qed.
Lemma nonneg_div : forall k x, 0 < k -> 0 <= k * x -> 0 <= x.
Proof. intros k x K H. destruct (Qlt_le_dec x 0) as [L|L]; [|exact L]. assert (0 < k * - x) by (apply Qmult_lt_0_compat; lra). lra. Qed.
Lemma mul_nn : forall x y, 0 <= x -> 0 <= y -> 0 <= x * y.
Proof. exact Qmult_le_0_compat. Qed.
Lemma mul_pp : forall x y, 0 < x -> 0 < y -> 0 < x * y.
Proof. exact Qmult_lt_0_compat. Qed.

(** [S] between [L] and [H], both between [A] and [B]. *)
Lemma in_wider : forall A B L H S, 0 < [[L, H]] -> 0 <= [[A, L]] -> 0 <= [[L, B]] -> 0 <= [[A, H]] -> 0 <= [[H, B]] ->
  0 <= [[L, S]] -> 0 <= [[S, H]] -> 0 <= [[A, S]] /\ 0 <= [[S, B]].
Proof.
  intros A B L H S K AL LB AH HB LS SH. split; apply (nonneg_div [[L, H]] _ K).
  - pose proof (plucker L H A S) as P. rewrite (br_anti A L), (br_anti S H), (br_anti A H) in P.
    pose proof (mul_nn _ _ AL SH). pose proof (mul_nn _ _ LS AH). lra.
  - pose proof (plucker L H S B) as P. rewrite (br_anti S H) in P.
    pose proof (mul_nn _ _ LS HB). pose proof (mul_nn _ _ LB SH). lra.
Qed.
(** Not behind on both sides. *)
Lemma one_side : forall A B L H S, 0 < [[L, H]] -> 0 <= [[A, L]] -> 0 <= [[L, B]] -> 0 <= [[A, H]] -> 0 <= [[H, B]] -> 0 < [[A, B]] -> tri2 A B S < 0 ->
  [[L, S]] <= 0 -> [[S, H]] <= 0 -> False.
Proof.
  intros A B L H S K AL LB AH HB AB T LS SH. rewrite tri_br in T. rewrite (br_anti S B) in T.
  assert (H1 : 0 <= - [[A, S]]).
  { apply (nonneg_div [[L, H]] _ K). pose proof (plucker L H A S) as P. rewrite (br_anti A L), (br_anti S H), (br_anti A H) in P.
    pose proof (mul_nn [[A, L]] (- [[S, H]]) AL ltac:(lra)). pose proof (mul_nn (- [[L, S]]) [[A, H]] ltac:(lra) AH). lra. }
  assert (H2 : 0 <= - [[S, B]]).
  { apply (nonneg_div [[L, H]] _ K). pose proof (plucker L H S B) as P. rewrite (br_anti S H) in P.
    pose proof (mul_nn (- [[L, S]]) [[H, B]] ltac:(lra) HB). pose proof (mul_nn [[L, B]] (- [[S, H]]) LB ltac:(lra)). lra. }
  lra.
Qed.
(** [S] beyond [A B] and after [H]: after [A]. *)
Lemma after_first : forall A B H S, 0 < [[A, B]] -> 0 <= [[A, H]] -> 0 <= [[H, B]] -> tri2 A B S < 0 -> [[S, H]] < 0 -> 0 < [[A, S]].
Proof.
  intros A B H S AB AH HB T SH. destruct (Qlt_le_dec 0 [[A, S]]) as [L|L]; [exact L|exfalso].
  rewrite tri_br in T. rewrite (br_anti S B) in T.
  pose proof (plucker A B S H) as P. rewrite (br_anti H B) in P. rewrite (br_anti S B) in P.
  pose proof (mul_nn (- [[A, S]]) [[H, B]] ltac:(lra) HB). pose proof (mul_nn [[A, H]] [[S, B]] AH ltac:(lra)).
  pose proof (mul_pp [[A, B]] (- [[S, H]]) AB ltac:(lra)). lra.
Qed.
Lemma before_last : forall A B L S, 0 < [[A, B]] -> 0 <= [[A, L]] -> 0 <= [[L, B]] -> tri2 A B S < 0 -> [[L, S]] < 0 -> 0 < [[S, B]].
Proof.
  intros A B L S AB AL LB T LS. destruct (Qlt_le_dec 0 [[S, B]]) as [K|K]; [exact K|exfalso].
  rewrite tri_br in T. rewrite (br_anti S B) in T.
  pose proof (plucker A B L S) as P. rewrite (br_anti L B), (br_anti S B) in P.
  pose proof (mul_nn [[A, L]] (- [[S, B]]) AL ltac:(lra)). pose proof (mul_nn [[A, S]] [[L, B]] ltac:(lra) LB).
  pose proof (mul_pp [[A, B]] (- [[L, S]]) AB ltac:(lra)). lra.
Qed.

(** A point in front of [A B] is in front of the next side. *)
Lemma near_first : forall A B S X, 0 < [[A, B]] -> tri2 A B S < 0 -> 0 < [[A, S]] -> 0 <= [[A, X]] -> 0 <= [[X, B]] -> 0 <= tri2 A B X -> 0 <= tri2 A S X.
Proof.
  intros A B S X AB T AS AX XB N. rewrite tri_br in T, N |- *. rewrite (br_anti S B) in T. rewrite (br_anti X B) in N. rewrite (br_anti X S).
  pose proof (plucker A B X S) as P. rewrite (br_anti X B), (br_anti S B) in P.
  apply (nonneg_div [[A, B]] _ AB).
  (* k * ([AS] - [XS] - [AX]) = k [AS] - ([AX][SB]... ) *)
  destruct (Qlt_le_dec [[S, B]] [[A, B]]) as [C|C].
  - pose proof (mul_nn ([[A, B]] - [[X, B]] - [[A, X]]) ([[A, B]] - [[S, B]]) ltac:(lra) ltac:(lra)).
    pose proof (mul_nn ([[A, B]] - [[X, B]]) ([[A, S]] - [[A, B]] + [[S, B]]) ltac:(lra) ltac:(lra)). lra.
  - pose proof (mul_nn [[A, X]] ([[S, B]] - [[A, B]]) AX ltac:(lra)). pose proof (mul_nn ([[A, B]] - [[X, B]]) [[A, S]] ltac:(lra) ltac:(lra)). lra.
Qed.
Lemma near_last : forall A B S X, 0 < [[A, B]] -> tri2 A B S < 0 -> 0 < [[S, B]] -> 0 <= [[A, X]] -> 0 <= [[X, B]] -> 0 <= tri2 A B X -> 0 <= tri2 S B X.
Proof.
  intros A B S X AB T SB AX XB N. rewrite tri_br in T, N |- *. rewrite (br_anti S B) in T. rewrite (br_anti X B) in N |- *.
  pose proof (plucker A B S X) as P. rewrite (br_anti X B), (br_anti S B) in P.
  apply (nonneg_div [[A, B]] _ AB).
  destruct (Qlt_le_dec [[A, S]] [[A, B]]) as [C|C].
  - pose proof (mul_nn ([[A, B]] - [[X, B]] - [[A, X]]) ([[A, B]] - [[A, S]]) ltac:(lra) ltac:(lra)).
    pose proof (mul_nn ([[A, B]] - [[A, X]]) ([[A, S]] - [[A, B]] + [[S, B]]) ltac:(lra) ltac:(lra)). lra.
  - pose proof (mul_nn [[X, B]] ([[A, S]] - [[A, B]]) XB ltac:(lra)). pose proof (mul_nn ([[A, B]] - [[A, X]]) [[S, B]] ltac:(lra) ltac:(lra)). lra.
Qed.

(** A point of the cone between the sides [A B] and [A S] is in the triangle. *)
Lemma between_first : forall A B S Y, 0 < [[A, B]] -> tri2 A B S < 0 -> 0 < [[A, S]] -> 0 <= [[A, Y]] -> 0 <= [[Y, S]] -> 0 <= [[Y, B]] ->
  tri2 A B Y <= 0 -> 0 <= tri2 A S Y -> 0 <= tri2 S B Y.
Proof.
  intros A B S Y AB T AS AY YS YB B1 N. rewrite tri_br in T, B1, N |- *. rewrite (br_anti S B) in T. rewrite (br_anti Y B) in B1 |- *. rewrite (br_anti Y S) in N.
  pose proof (plucker A S Y B) as P. rewrite (br_anti Y S) in P.
  rewrite (br_anti Y S). destruct (Qlt_le_dec [[S, B]] 0) as [C|C].
  - apply (nonneg_div [[A, B]] _ AB). pose proof (plucker A B Y S) as P2. rewrite (br_anti Y B), (br_anti S B) in P2.
    pose proof (mul_nn (- [[S, B]]) ([[A, Y]] + [[Y, B]] - [[A, B]]) ltac:(lra) ltac:(lra)).
    pose proof (mul_nn [[Y, B]] ([[A, S]] - [[A, B]] + [[S, B]]) YB ltac:(lra)). lra.
  - apply (nonneg_div [[A, S]] _ AS).
    pose proof (mul_nn [[S, B]] ([[A, S]] - [[A, Y]] - [[Y, S]]) C ltac:(lra)). pose proof (mul_nn [[Y, S]] ([[A, S]] - [[A, B]] + [[S, B]]) YS ltac:(lra)). lra.
Qed.
Lemma between_last : forall A B S Y, 0 < [[A, B]] -> tri2 A B S < 0 -> 0 < [[S, B]] -> 0 <= [[Y, B]] -> 0 <= [[S, Y]] -> 0 <= [[A, Y]] ->
  tri2 A B Y <= 0 -> 0 <= tri2 S B Y -> 0 <= tri2 A S Y.
Proof.
  intros A B S Y AB T SB YB SY AY B1 N. rewrite tri_br in T, B1, N |- *. rewrite (br_anti S B) in T. rewrite (br_anti Y B) in B1, N.
  destruct (Qlt_le_dec [[A, S]] 0) as [C|C].
  - apply (nonneg_div [[A, B]] _ AB). pose proof (plucker A B S Y) as P2. rewrite (br_anti Y B), (br_anti S B) in P2.
    pose proof (mul_nn (- [[A, S]]) ([[A, Y]] + [[Y, B]] - [[A, B]]) ltac:(lra) ltac:(lra)).
    pose proof (mul_nn [[A, Y]] ([[A, S]] - [[A, B]] + [[S, B]]) AY ltac:(lra)). lra.
  - apply (nonneg_div [[S, B]] _ SB). pose proof (plucker S B A Y) as P. rewrite (br_anti A S), (br_anti Y B), (br_anti A B) in P.
    pose proof (mul_nn [[A, S]] ([[S, B]] - [[S, Y]] - [[Y, B]]) C ltac:(lra)). pose proof (mul_nn [[S, Y]] ([[A, S]] - [[A, B]] + [[S, B]]) SY ltac:(lra)). lra.
Qed.

(** Beyond the next side: beyond [A B], and the ray crosses the next side. *)
Lemma beyond_first : forall A B S V, 0 < [[A, B]] -> tri2 A B S < 0 -> 0 < [[A, S]] -> 0 < [[A, V]] -> 0 < [[V, S]] -> tri2 A S V < 0 -> tri2 A B V < 0.
Proof.
  intros A B S V AB T AS AV VS B1. rewrite tri_br in T, B1 |- *. rewrite (br_anti S B) in T. rewrite (br_anti V S) in B1. rewrite (br_anti V B).
  pose proof (plucker A S V B) as P. rewrite (br_anti V S) in P.
  assert (G : 0 < [[V, B]] - [[A, B]] + [[A, V]]); [|lra]. apply (pos_div [[A, S]] _ AS).
  pose proof (mul_pp [[A, V]] ([[A, S]] + [[S, B]] - [[A, B]]) AV ltac:(lra)). pose proof (mul_pp [[A, B]] ([[A, V]] + [[V, S]] - [[A, S]]) AB ltac:(lra)). lra.
Qed.
Lemma beyond_last : forall A B S V, 0 < [[A, B]] -> tri2 A B S < 0 -> 0 < [[S, B]] -> 0 < [[V, B]] -> 0 < [[S, V]] -> tri2 S B V < 0 -> tri2 A B V < 0.
Proof.
  intros A B S V AB T SB VB SV B1. rewrite tri_br in T, B1 |- *. rewrite (br_anti S B) in T. rewrite (br_anti V B) in B1 |- *.
  pose proof (plucker S B A V) as P. rewrite (br_anti A S), (br_anti V B), (br_anti A B) in P.
  assert (G : 0 < [[V, B]] - [[A, B]] + [[A, V]]); [|lra]. apply (pos_div [[S, B]] _ SB).
  pose proof (mul_pp [[V, B]] ([[A, S]] + [[S, B]] - [[A, B]]) VB ltac:(lra)). pose proof (mul_pp [[A, B]] ([[S, V]] + [[V, B]] - [[S, B]]) AB ltac:(lra)). lra.
Qed.
Lemma crossing_point : forall P Q V, 0 < [[P, Q]] -> 0 < [[P, V]] -> 0 < [[V, Q]] -> tri2 P Q V < 0 ->
  0 < tri2 P Q o /\ exists X, inside_segment o V X /\ inside_segment P Q X.
Proof.
  intros P Q V PQ PV VQ B. rewrite tri_br in B. rewrite (br_anti V Q) in B.
  set (n := [[P, V]] + [[V, Q]]). assert (Hn : 0 < n) by (unfold n; lra). assert (N0 : ~ n == 0) by lra.
  split; [unfold tri2, cross, vsub in *; cbn [px py] in *; lra|].
  assert (HI : 0 < / n) by (apply Qinv_lt_0_compat; exact Hn). assert (EI : n * / n == 1) by (field; exact N0).
  exists (lerp P Q ([[P, V]] * / n)). split.
  - exists ([[P, Q]] * / n). split.
    + split; [apply mul_pp; assumption|]. assert (0 < (n - [[P, Q]]) * / n) by (apply mul_pp; [unfold n; lra|exact HI]). lra.
    + assert (E : forall c1 c2, c1 * n == c2 * n -> c1 == c2) by (intros c1 c2 E; apply (Qmult_inj_r c1 c2 n N0); exact E).
      split; apply E; unfold lerp, vadd, vscale, vsub; cbn [px py].
      * transitivity (px P * n + (px Q - px P) * [[P, V]] * (n * / n)); [ring|]. rewrite EI. symmetry. transitivity (px o * n + (px V - px o) * [[P, Q]] * (n * / n)); [ring|]. rewrite EI. unfold n, tri2, cross, vsub; cbn [px py]. ring.
      * transitivity (py P * n + (py Q - py P) * [[P, V]] * (n * / n)); [ring|]. rewrite EI. symmetry. transitivity (py o * n + (py V - py o) * [[P, Q]] * (n * / n)); [ring|]. rewrite EI. unfold n, tri2, cross, vsub; cbn [px py]. ring.
  - exists ([[P, V]] * / n). split; [|split; reflexivity]. split; [apply mul_pp; assumption|].
    assert (0 < [[V, Q]] * / n) by (apply mul_pp; assumption). unfold n in EI at 1. lra.
Qed.
(** Touching at the border: the rest of the cone is in the triangle near [A]. *)
Lemma around_first : forall A B S Y, 0 < [[A, B]] -> tri2 A B S < 0 -> [[A, S]] < 0 -> 0 < [[A, Y]] -> tri2 A B Y < 0 -> 0 < tri2 A S Y.
Proof.
  intros A B S Y AB T AS AY B1. rewrite tri_br in T, B1 |- *. rewrite (br_anti S B) in T. rewrite (br_anti Y B) in B1.
  apply (pos_div [[A, B]] _ AB). pose proof (plucker A B S Y) as P. rewrite (br_anti Y B), (br_anti S B) in P.
  pose proof (mul_pp (- [[A, S]]) ([[A, Y]] + [[Y, B]] - [[A, B]]) ltac:(lra) ltac:(lra)). pose proof (mul_pp [[A, Y]] ([[A, S]] + [[S, B]] - [[A, B]]) AY ltac:(lra)). lra.
Qed.
Lemma around_last : forall A B S Y, 0 < [[A, B]] -> tri2 A B S < 0 -> [[S, B]] < 0 -> 0 < [[Y, B]] -> tri2 A B Y < 0 -> 0 < tri2 S B Y.
Proof.
  intros A B S Y AB T SB YB B1. rewrite tri_br in T, B1 |- *. rewrite (br_anti S B) in T. rewrite (br_anti Y B) in B1 |- *.
  apply (pos_div [[A, B]] _ AB). pose proof (plucker A B S Y) as P. rewrite (br_anti Y B), (br_anti S B) in P.
  pose proof (mul_pp (- [[S, B]]) ([[A, Y]] + [[Y, B]] - [[A, B]]) ltac:(lra) ltac:(lra)). pose proof (mul_pp [[Y, B]] ([[A, S]] + [[S, B]] - [[A, B]]) YB ltac:(lra)). lra.
Qed.
(** Order inside a cone. *)
Lemma cone_trans : forall L S H Y, 0 < [[L, S]] -> 0 < [[L, H]] -> 0 < [[S, H]] -> 0 <= [[L, Y]] -> 0 <= [[Y, S]] -> 0 <= [[Y, H]] /\ (0 < [[L, Y]] -> 0 < [[Y, H]]).
Proof.
  intros L S H Y LS LH SH LY YS. pose proof (plucker L S Y H) as P. rewrite (br_anti Y S) in P.
  pose proof (mul_nn _ _ YS (Qlt_le_weak _ _ LH)). pose proof (mul_nn _ _ LY (Qlt_le_weak _ _ SH)).
  split; [apply (nonneg_div [[L, S]] _ LS); lra|]. intro K. pose proof (mul_pp _ _ K SH). apply (pos_div [[L, S]] _ LS). lra.
Qed.
Lemma cone_trans' : forall L S H Y, 0 < [[S, H]] -> 0 < [[L, H]] -> 0 < [[L, S]] -> 0 <= [[Y, H]] -> 0 <= [[S, Y]] -> 0 <= [[L, Y]] /\ (0 < [[Y, H]] -> 0 < [[L, Y]]).
Proof.
  intros L S H Y SH LH LS YH SY. pose proof (plucker S H L Y) as P. rewrite (br_anti L S), (br_anti Y H), (br_anti L H) in P.
  pose proof (mul_nn _ _ SY (Qlt_le_weak _ _ LH)). pose proof (mul_nn _ _ YH (Qlt_le_weak _ _ LS)).
  split; [apply (nonneg_div [[S, H]] _ SH); lra|]. intro K. pose proof (mul_pp _ _ K LS). apply (pos_div [[S, H]] _ SH). lra.
Qed.
End FromO.
