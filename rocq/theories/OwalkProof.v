(** Proofs about the walk guided by cell corners. *)
From Verif Require Import Base CmpModel OrientModel OrientProof BoxModel BoxSpec ClipModel ClipSpec ClipProof GridModel GridSpec GridProof FloodSpec VoxelModel VoxelSpec VoxelProof OwalkModel OwalkSpec.
From Coq Require Import Lia Morphisms.

Lemma to_uint32_is : forall v n, inject_Z n <= v < inject_Z n + 1 -> (0 <= n < two32)%Z -> to_uint32 v = Some n.
Proof.
  intros v n H R. assert (H0 : 0 <= v) by (assert (inject_Z 0 <= inject_Z n) by (apply (proj2 (inject_le _ _)); lia); change (inject_Z 0) with 0 in *; lra).
  assert (H1 : v < inject_Z two32). { assert (I : inject_Z (n + 1) <= inject_Z two32) by (apply (proj2 (inject_le _ _)); lia). rewrite inject_Z_plus in I. change (inject_Z 1) with 1 in I. lra. }
  rewrite (to_uint32_some v H0 H1). f_equal. apply trunc_unique; assumption.
Qed.
Lemma inject_succ : forall n, inject_Z (n + 1) == inject_Z n + 1.
Proof. intro n. rewrite inject_Z_plus. change (inject_Z 1) with 1. reflexivity. Qed.
Lemma inject_pred : forall n, inject_Z (n + -1) == inject_Z n - 1.
Proof. intro n. rewrite inject_Z_plus. change (inject_Z (-1)) with (-1 # 1). ring. Qed.
Lemma inject_lt1 : forall a b, (a < b)%Z -> inject_Z a + 1 <= inject_Z b.
Proof. intros a b H. rewrite <- inject_succ. apply (proj2 (inject_le _ _)). lia. Qed.
Lemma inject_lt_inv : forall a b, inject_Z a < inject_Z b + 1 -> (a <= b)%Z.
Proof. intros a b H. rewrite <- inject_succ in H. apply (proj1 (inject_lt _ _)) in H. lia. Qed.

Lemma step_up : forall i e x x2, inject_Z i <= x < inject_Z i + 1 -> x <= x2 -> inject_Z e <= x2 < inject_Z e + 1 ->
  ((i < e)%Z -> x < x2 /\ inject_Z (i + 1) <= x + qmin 1 (x2 - x) < inject_Z (i + 1) + 1 /\ x + qmin 1 (x2 - x) <= x2) /\
  (i = e -> x + qmin 1 (x2 - x) == x2).
Proof.
  intros i e x x2 H L H2. split.
  - intro I. apply inject_lt1 in I. rewrite inject_succ. split; [lra|]. destruct (qmin_spec 1 (x2 - x)) as ([A|A] & B & C); lra.
  - intros ->. destruct (qmin_spec 1 (x2 - x)) as ([A|A] & B & C); lra.
Qed.
Lemma step_down : forall i e x x2, inject_Z i <= x < inject_Z i + 1 -> x2 <= x -> inject_Z e <= x2 < inject_Z e + 1 ->
  ((e < i)%Z -> x2 < x /\ inject_Z (i + -1) <= x + qmax (-1) (x2 - x) < inject_Z (i + -1) + 1 /\ x2 <= x + qmax (-1) (x2 - x)) /\
  (i = e -> x + qmax (-1) (x2 - x) == x2).
Proof.
  intros i e x x2 H L H2. split.
  - intro I. apply inject_lt1 in I. rewrite inject_pred. split; [lra|]. destruct (qmax_spec (-1) (x2 - x)) as ([A|A] & B & C); lra.
  - intros ->. destruct (qmax_spec (-1) (x2 - x)) as ([A|A] & B & C); lra.
Qed.

Section Loop.
Variable g : grid.
Variables s t : pt.
Variable up : bool.
Variables x2 y2 : Q.
Variables i2 j2 : Z.
Hypothesis Hx2 : inject_Z i2 <= x2 < inject_Z i2 + 1.
Hypothesis Hy2 : inject_Z j2 <= y2 < inject_Z j2 + 1.
Hypothesis Ri : (i2 < two32)%Z.
Variable top : Z.
Hypothesis Rt : (top < two32)%Z.

Definition jstep : Z := if up then 1 else -1.
Definition jleft (j : Z) : Prop := if up then (j < j2)%Z else (j2 < j)%Z.
Definition pos (i j : Z) (x y : Q) : Prop :=
  (0 <= i <= i2)%Z /\ (0 <= j <= top)%Z /\ inject_Z i <= x < inject_Z i + 1 /\ x <= x2 /\ inject_Z j <= y < inject_Z j + 1 /\ (if up then y <= y2 else y2 <= y).
Hypothesis Rj : (0 <= j2 <= top)%Z.
Notation loop := (corner_loop direct g s t up x2 y2).
Notation side := (corner_side direct g s t up).

Lemma ystep_ok : forall i j x y, pos i j x y -> let y' := y + (if up then qmin 1 (y2 - y) else qmax (-1) (y2 - y)) in
  (jleft j -> ~ y2 - y == 0 /\ (if up then 0 < y2 - y else y2 - y < 0) /\ (0 <= j + jstep <= top)%Z /\ inject_Z (j + jstep) <= y' < inject_Z (j + jstep) + 1 /\ (if up then y' <= y2 else y2 <= y')) /\
  (j = j2 -> y' == y2).
Proof.
  intros i j x y (P1 & P2 & P3 & P4 & P5 & P6). unfold jleft, jstep. destruct up; cbv zeta.
  - destruct (step_up j j2 y y2 P5 P6 Hy2) as [A B]. split; [|exact B]. intro L. destruct (A L) as (A1 & A2 & A3). repeat split; try lra; try lia.
  - destruct (step_down j j2 y y2 P5 P6 Hy2) as [A B]. split; [|exact B]. intro L. destruct (A L) as (A1 & A2 & A3). repeat split; try lra; try lia.
Qed.
Lemma pos_compat : forall i j x y x' y', pos i j x y -> x == x' -> y == y' -> pos i j x' y'.
Proof. intros i j x y x' y' (P1 & P2 & P3 & P4 & P5 & P6) E1 E2. unfold pos. destruct up; repeat split; try lra; try lia. Qed.
Lemma pos_uint : forall i j x y, pos i j x y -> to_uint32 x = Some i /\ to_uint32 y = Some j.
Proof. intros i j x y (P1 & P2 & P3 & P4 & P5 & P6). split; apply to_uint32_is; auto; lia. Qed.

Lemma not_over : forall i j x y, pos i j x y -> less_than direct (x2 - x) 0 = false /\ (if up then less_than direct (y2 - y) 0 else greater_than direct (y2 - y) 0) = false.
Proof.
  intros i j x y (P1 & P2 & P3 & P4 & P5 & P6). cbn [less_than greater_than direct]. split.
  - destruct (Qltb_spec (x2 - x) 0); [lra|reflexivity].
  - destruct up; [destruct (Qltb_spec (y2 - y) 0)|destruct (Qgtb_spec (y2 - y) 0)]; try reflexivity; lra.
Qed.

(** In the last cell the loop ends without another visit. *)
Lemma last_cell : forall fuel x y, (2 <= fuel)%nat -> pos i2 j2 x y -> loop fuel i2 j2 x y = Visited [].
Proof.
  intros fuel x y F P. destruct fuel as [|[|fuel]]; [lia|lia|]. 
  assert (Fin : forall f x y, pos i2 j2 x y -> x == x2 -> y == y2 -> loop (S f) i2 j2 x y = Visited []).
  { intros f a b Pa Ea Eb. cbn [corner_loop]. destruct (not_over _ _ _ _ Pa) as [O1 O2]. unfold advance. rewrite O1, O2. cbn [equals direct].
    destruct (Qeqb_spec (x2 - a) 0); [|lra]. destruct (Qeqb_spec (y2 - b) 0); [|lra]. destruct (side i2 j2); reflexivity. }
  assert (FinX : forall f x y, pos i2 j2 x y -> x == x2 -> side i2 j2 = oriented_left -> loop (S f) i2 j2 x y = Visited []).
  { intros f a b Pa Ea E. cbn [corner_loop]. destruct (not_over _ _ _ _ Pa) as [O1 O2]. unfold advance. rewrite E, O1. cbn [equals direct orb]. destruct (Qeqb_spec (x2 - a) 0); [reflexivity|lra]. }
  assert (FinY : forall f x y, pos i2 j2 x y -> y == y2 -> side i2 j2 = oriented_right -> loop (S f) i2 j2 x y = Visited []).
  { intros f a b Pa Ea E. cbn [corner_loop]. destruct (not_over _ _ _ _ Pa) as [O1 O2]. unfold advance. rewrite E, O2. cbn [equals direct orb]. destruct (Qeqb_spec (y2 - b) 0); [reflexivity|lra]. }
  assert (Ex : x + qmin 1 (x2 - x) == x2). { destruct P as (P1 & P2 & P3 & P4 & P5 & P6). apply (proj2 (step_up i2 i2 x x2 P3 P4 Hx2)). reflexivity. }
  pose proof (proj2 (ystep_ok _ _ _ _ P) eq_refl) as Ey. cbv zeta in Ey.
  assert (Pend : pos i2 j2 x2 y2). { destruct P as (P1 & P2 & P3 & P4 & P5 & P6). unfold pos. destruct up; repeat split; try lra; try lia. }
  assert (P10 : pos i2 j2 (x + qmin 1 (x2 - x)) y). { destruct P as (P1 & P2 & P3 & P4 & P5 & P6). unfold pos. repeat split; try lra; try lia; exact P6. }
  assert (P01 : pos i2 j2 x (y + (if up then qmin 1 (y2 - y) else qmax (-1) (y2 - y)))).
  { destruct P as (P1 & P2 & P3 & P4 & P5 & P6). unfold pos. revert Ey. generalize (y + (if up then qmin 1 (y2 - y) else qmax (-1) (y2 - y))). intros y' Ey. destruct up; repeat split; try lra; try lia. }
  assert (P11 : pos i2 j2 (x + qmin 1 (x2 - x)) (y + (if up then qmin 1 (y2 - y) else qmax (-1) (y2 - y)))).
  { apply (pos_compat i2 j2 x2 y2); [exact Pend|symmetry; exact Ex|symmetry; exact Ey]. }
  pose proof (FinX fuel _ y P10 Ex) as G1. pose proof (FinY fuel x _ P01 Ey) as G2. pose proof (Fin fuel _ _ P11 Ex Ey) as G3.
  destruct (not_over _ _ _ _ P) as [O1 O2].
  rewrite (eq_refl : loop (S (S fuel)) i2 j2 x y = match advance direct up (side i2 j2) x2 y2 x y with None => Visited [] | Some (x, y) =>
      match to_uint32 x, to_uint32 y with Some i', Some j' => let r := loop (S fuel) i' j' x y in if Z.eqb i2 i' && Z.eqb j2 j' then r else visit (i', j') r | _, _ => Overflow end end).
  unfold advance. rewrite O1, O2. cbn [equals direct orb andb]. destruct (side i2 j2) eqn:E.
  all: repeat match goal with |- context [if Qeqb ?a ?b && _ then None else _] => destruct (Qeqb a b); cbn [andb] end;
       repeat match goal with |- context [if Qeqb ?a ?b then None else _] => destruct (Qeqb a b) end; try reflexivity.
  all: match goal with |- context [to_uint32 ?a] => idtac end.
  all: try (destruct (pos_uint _ _ _ _ P10) as [U1 U2]; rewrite U1, U2, !Z.eqb_refl; cbn [andb]; cbv zeta; apply G1; reflexivity).
  all: try (destruct (pos_uint _ _ _ _ P01) as [U1 U2]; rewrite U1, U2, !Z.eqb_refl; cbn [andb]; cbv zeta; apply G2; reflexivity).
  all: destruct (pos_uint _ _ _ _ P11) as [U1 U2]; rewrite U1, U2, !Z.eqb_refl; cbn [andb]; cbv zeta; exact G3.
Qed.

Lemma move : forall fuel i j i' j' x y x' y', pos i j x y -> pos i' j' x' y' -> (i, j) <> (i', j') ->
  advance direct up (side i j) x2 y2 x y = Some (x', y') -> loop (S fuel) i j x y = visit (i', j') (loop fuel i' j' x' y').
Proof.
  intros fuel i j i' j' x y x' y' P P' N A. cbn [corner_loop]. rewrite A. destruct (pos_uint _ _ _ _ P') as [U1 U2]. rewrite U1, U2.
  destruct (Z.eqb_spec i i') as [->|]; [|reflexivity]. destruct (Z.eqb_spec j j') as [->|]; [|reflexivity]. exfalso; apply N; reflexivity.
Qed.
Lemma move_left : forall fuel i j x y, pos i j x y -> side i j = oriented_left -> (i < i2)%Z ->
  exists x', pos (i + 1) j x' y /\ loop (S fuel) i j x y = visit ((i + 1)%Z, j) (loop fuel (i + 1) j x' y).
Proof.
  intros fuel i j x y P E L. pose proof P as (P1 & P2 & P3 & P4 & P5 & P6). destruct (proj1 (step_up i i2 x x2 P3 P4 Hx2) L) as (S1 & S2 & S3).
  exists (x + qmin 1 (x2 - x)). assert (P' : pos (i + 1) j (x + qmin 1 (x2 - x)) y) by (unfold pos; repeat split; try lra; try lia; exact P6).
  split; [exact P'|]. apply (move fuel i j (i + 1) j x y _ y P P'); [injection; lia|]. unfold advance. rewrite E, (proj1 (not_over _ _ _ _ P)). cbn [equals direct orb].
  destruct (Qeqb_spec (x2 - x) 0); [lra|reflexivity].
Qed.
Lemma move_right : forall fuel i j x y, pos i j x y -> side i j = oriented_right -> jleft j ->
  exists y', pos i (j + jstep) x y' /\ loop (S fuel) i j x y = visit (i, (j + jstep)%Z) (loop fuel i (j + jstep) x y').
Proof.
  intros fuel i j x y P E L. pose proof P as (P1 & P2 & P3 & P4 & P5 & P6). destruct (proj1 (ystep_ok _ _ _ _ P) L) as (S0 & S1 & S2 & S3 & S4). cbv zeta in *.
  exists (y + (if up then qmin 1 (y2 - y) else qmax (-1) (y2 - y))).
  assert (P' : pos i (j + jstep) x (y + (if up then qmin 1 (y2 - y) else qmax (-1) (y2 - y)))) by (unfold pos; repeat split; try lra; try lia; exact S4).
  split; [exact P'|]. apply (move fuel i j i (j + jstep) x y x _ P P'); [injection; unfold jstep; destruct up; lia|]. unfold advance. rewrite E, (proj2 (not_over _ _ _ _ P)). cbn [equals direct orb].
  destruct (Qeqb_spec (y2 - y) 0); [contradiction|reflexivity].
Qed.
Lemma move_both : forall fuel i j x y, pos i j x y -> side i j = oriented_collinear -> (i < i2)%Z -> jleft j ->
  exists x' y', pos (i + 1) (j + jstep) x' y' /\ loop (S fuel) i j x y = visit ((i + 1)%Z, (j + jstep)%Z) (loop fuel (i + 1) (j + jstep) x' y').
Proof.
  intros fuel i j x y P E L Lj. pose proof P as (P1 & P2 & P3 & P4 & P5 & P6). destruct (proj1 (ystep_ok _ _ _ _ P) Lj) as (S0 & S1 & S2 & S3 & S4). cbv zeta in *.
  destruct (proj1 (step_up i i2 x x2 P3 P4 Hx2) L) as (T1 & T2 & T3).
  exists (x + qmin 1 (x2 - x)), (y + (if up then qmin 1 (y2 - y) else qmax (-1) (y2 - y))).
  assert (P' : pos (i + 1) (j + jstep) (x + qmin 1 (x2 - x)) (y + (if up then qmin 1 (y2 - y) else qmax (-1) (y2 - y)))) by (unfold pos; repeat split; try lra; try lia; exact S4).
  split; [exact P'|]. apply (move fuel i j (i + 1) (j + jstep) x y _ _ P P'); [injection; lia|]. unfold advance. rewrite E. destruct (not_over _ _ _ _ P) as [O1 O2]. rewrite O1, O2. cbn [equals direct orb andb].
  destruct (Qeqb_spec (x2 - x) 0); [lra|reflexivity].
Qed.
(** The corner is on the line, but the row is already the last one. *)
Lemma move_corner : forall fuel i x y, pos i j2 x y -> side i j2 = oriented_collinear -> (i < i2)%Z ->
  exists x' y', pos (i + 1) j2 x' y' /\ loop (S fuel) i j2 x y = visit ((i + 1)%Z, j2) (loop fuel (i + 1) j2 x' y').
Proof.
  intros fuel i x y P E L. pose proof P as (P1 & P2 & P3 & P4 & P5 & P6). pose proof (proj2 (ystep_ok _ _ _ _ P) eq_refl) as Ey. cbv zeta in *.
  destruct (proj1 (step_up i i2 x x2 P3 P4 Hx2) L) as (T1 & T2 & T3).
  exists (x + qmin 1 (x2 - x)), (y + (if up then qmin 1 (y2 - y) else qmax (-1) (y2 - y))).
  assert (P' : pos (i + 1) j2 (x + qmin 1 (x2 - x)) (y + (if up then qmin 1 (y2 - y) else qmax (-1) (y2 - y)))).
  { unfold pos. revert Ey. generalize (y + (if up then qmin 1 (y2 - y) else qmax (-1) (y2 - y))). intros y' Ey. destruct up; repeat split; try lra; try lia. }
  split; [exact P'|]. apply (move fuel i j2 (i + 1) j2 x y _ _ P P'); [injection; lia|]. unfold advance. rewrite E. destruct (not_over _ _ _ _ P) as [O1 O2]. rewrite O1, O2. cbn [equals direct orb andb].
  destruct (Qeqb_spec (x2 - x) 0); [lra|reflexivity].
Qed.
End Loop.

(** ** The line in units of cells *)
Inductive kpath (st : Z) : Z -> Z -> Z -> Z -> list key -> Prop :=
| kp_end : forall i j, kpath st i j i j []
| kp_step : forall i j i' j' e f l, (i' = i \/ i' = (i + 1)%Z) -> (j' = j \/ j' = (j + st)%Z) -> (i', j') <> (i, j) -> kpath st i' j' e f l -> kpath st i j e f ((i', j') :: l).
Definition unit_cell (c : key) (a b : Q) : Prop := inject_Z (fst c) <= a <= inject_Z (fst c) + 1 /\ inject_Z (snd c) <= b <= inject_Z (snd c) + 1.

Lemma pos_product : forall a b, 0 < a -> 0 < a * b -> 0 < b.
Proof. intros a b H K. destruct (Qlt_le_dec 0 b) as [L|L]; [exact L|]. assert (0 <= a * - b) by (apply Qmult_le_0_compat; lra). lra. Qed.
Lemma nonneg_product : forall a b, 0 < a -> 0 <= a * b -> 0 <= b.
Proof. intros a b H K. destruct (Qlt_le_dec b 0) as [L|L]; [|exact L]. assert (0 < a * - b) by (apply Qmult_lt_0_compat; lra). lra. Qed.

Section Line.
Variable g : grid.
Variables s t : pt.
Variables x1 y1 x2 y2 dx dy : Q.
Variables i1 j1 i2 j2 : Z.
Hypothesis Ex : dx == x2 - x1.
Hypothesis Ey : dy == y2 - y1.
Hypothesis Dx : 0 < dx.
Hypothesis Hx1 : inject_Z i1 <= x1 < inject_Z i1 + 1.
Hypothesis Hy1 : inject_Z j1 <= y1 < inject_Z j1 + 1.
Hypothesis Hx2 : inject_Z i2 <= x2 < inject_Z i2 + 1.
Hypothesis Hy2 : inject_Z j2 <= y2 < inject_Z j2 + 1.
Hypothesis Ri : (0 <= i1 /\ i2 < two32)%Z.
Definition F (a b : Q) : Q := dx * (b - y1) - dy * (a - x1).
Local Instance F_proper : Proper (Qeq ==> Qeq ==> Qeq) F.
Proof. intros a a' Ea b b' Eb. unfold F. rewrite Ea, Eb. reflexivity. Qed.

Section Up.
Hypothesis Dy : 0 < dy.
Hypothesis Rj : (0 <= j1 /\ j2 < two32)%Z.
Hypothesis Side : forall i j, (0 <= i <= i2)%Z -> (0 <= j <= j2)%Z ->
  match corner_side direct g s t true i j with
  | oriented_left => 0 < F (inject_Z i + 1) (inject_Z j + 1)
  | oriented_right => F (inject_Z i + 1) (inject_Z j + 1) < 0
  | oriented_collinear => F (inject_Z i + 1) (inject_Z j + 1) == 0
  end.
Definition touched_up (i j : Z) : Prop := (i1 <= i <= i2)%Z /\ (j1 <= j <= j2)%Z /\ 0 <= F (inject_Z i) (inject_Z j + 1) /\ F (inject_Z i + 1) (inject_Z j) <= 0.

Lemma up_loop : forall fuel i j x y, pos true x2 y2 i2 j2 i j x y -> touched_up i j -> (Z.to_nat (i2 - i) + Z.to_nat (j2 - j) + 2 <= fuel)%nat ->
  exists l, corner_loop direct g s t true x2 y2 fuel i j x y = Visited l /\ kpath 1 i j i2 j2 l /\
    (forall c, In c l -> touched_up (fst c) (snd c)) /\
    (forall u, 0 <= u <= 1 -> inject_Z i <= x1 + u * dx -> inject_Z j <= y1 + u * dy -> exists c, In c ((i, j) :: l) /\ unit_cell c (x1 + u * dx) (y1 + u * dy)).
Proof.
  assert (R2 : (0 <= j2 <= j2)%Z). { split; [|lia]. assert (K : inject_Z j1 < inject_Z j2 + 1) by lra. apply inject_lt_inv in K. lia. }
  induction fuel as [|fuel IH]; intros i j x y P T Fu; [lia|]. pose proof T as (T1 & T2 & T3 & T4).
  assert (Done : i = i2 -> j = j2 -> exists l, corner_loop direct g s t true x2 y2 (S fuel) i j x y = Visited l /\ kpath 1 i j i2 j2 l /\
    (forall c, In c l -> touched_up (fst c) (snd c)) /\
    (forall u, 0 <= u <= 1 -> inject_Z i <= x1 + u * dx -> inject_Z j <= y1 + u * dy -> exists c, In c ((i, j) :: l) /\ unit_cell c (x1 + u * dx) (y1 + u * dy))).
  { intros -> ->. exists []. split; [apply (last_cell g s t true x2 y2 i2 j2 Hx2 Hy2 ltac:(lia) j2 ltac:(lia) R2); [lia|exact P]|]. split; [constructor|]. split; [intros c []|].
    intros u Hu A B. exists (i2, j2). split; [left; reflexivity|]. assert (0 <= (1 - u) * dx) by (apply Qmult_le_0_compat; lra). assert (0 <= (1 - u) * dy) by (apply Qmult_le_0_compat; lra). unfold unit_cell; cbn [fst snd]. lra. }
  pose proof (Side i j ltac:(lia) ltac:(lia)) as Sd. destruct (corner_side direct g s t true i j) eqn:E; cycle 2; [| |].
  - destruct (Z.eq_dec i i2) as [Ei|Ni].
    { apply Done; [exact Ei|]. subst i. assert (K : dx * (inject_Z j + 1 - y2) == F (inject_Z i2 + 1) (inject_Z j + 1) + dy * (inject_Z i2 + 1 - x2)) by (unfold F; assert (Q1 : y2 == y1 + dy) by lra; assert (Q2 : x2 == x1 + dx) by lra; rewrite Q1, Q2; ring).
      assert (0 < dy * (inject_Z i2 + 1 - x2)) by (apply Qmult_lt_0_compat; lra). assert (Y : 0 < inject_Z j + 1 - y2) by (apply (pos_product dx); lra).
      assert (inject_Z j2 < inject_Z j + 1) as K2 by lra. apply inject_lt_inv in K2. lia. }
    destruct (move_left g s t true x2 y2 i2 Hx2 ltac:(lia) j2 ltac:(lia) fuel i j x y P E ltac:(lia)) as (x' & P' & ->).
    destruct (IH (i + 1)%Z j x' y P') as (l & R & K & C & V); [|lia|].
    { split; [lia|]. split; [lia|]. rewrite inject_succ. split; [lra|]. assert (W : F (inject_Z i + 1 + 1) (inject_Z j) == F (inject_Z i + 1) (inject_Z j) - dy) by (unfold F; ring). lra. }
    exists (((i + 1)%Z, j) :: l). rewrite R. split; [reflexivity|]. split; [apply kp_step; auto; injection; lia|]. split.
    { intros c [<-|I]; [|exact (C c I)]. cbn [fst snd]. split; [lia|]. split; [lia|]. rewrite inject_succ. split; [lra|]. assert (W : F (inject_Z i + 1 + 1) (inject_Z j) == F (inject_Z i + 1) (inject_Z j) - dy) by (unfold F; ring). lra. }
    intros u Hu A B. destruct (Qlt_le_dec (inject_Z i + 1) (x1 + u * dx)) as [L|L].
    + destruct (V u Hu) as (c & I & W); [rewrite inject_succ; lra|exact B|]. exists c. split; [right; exact I|exact W].
    + exists (i, j). split; [left; reflexivity|]. assert (W : dx * (inject_Z j + 1 - (y1 + u * dy)) == F (inject_Z i + 1) (inject_Z j + 1) + dy * (inject_Z i + 1 - (x1 + u * dx))) by (unfold F; ring).
      assert (0 <= dy * (inject_Z i + 1 - (x1 + u * dx))) by (apply Qmult_le_0_compat; lra). assert (0 < inject_Z j + 1 - (y1 + u * dy)) by (apply (pos_product dx); lra). unfold unit_cell; cbn [fst snd]. lra.
  - destruct (Z.eq_dec j j2) as [Ej|Nj].
    { apply Done; [|exact Ej]. subst j. assert (K : dy * (inject_Z i + 1 - x2) == - F (inject_Z i + 1) (inject_Z j2 + 1) + dx * (inject_Z j2 + 1 - y2)) by (unfold F; assert (Q1 : y2 == y1 + dy) by lra; assert (Q2 : x2 == x1 + dx) by lra; rewrite Q1, Q2; ring).
      assert (0 < dx * (inject_Z j2 + 1 - y2)) by (apply Qmult_lt_0_compat; lra). assert (Y : 0 < inject_Z i + 1 - x2) by (apply (pos_product dy); lra).
      assert (inject_Z i2 < inject_Z i + 1) as K2 by lra. apply inject_lt_inv in K2. lia. }
    destruct (move_right g s t true x2 y2 i2 j2 Hy2 ltac:(lia) j2 ltac:(lia) R2 fuel i j x y P E ltac:(cbn; lia)) as (y' & P' & ->). cbn [jstep] in *. unfold jstep in P' |- *.
    destruct (IH i (j + 1)%Z x y' P') as (l & R & K & C & V); [|lia|].
    { split; [lia|]. split; [lia|]. rewrite inject_succ. split; [|lra]. assert (W : F (inject_Z i) (inject_Z j + 1 + 1) == F (inject_Z i) (inject_Z j + 1) + dx) by (unfold F; ring). lra. }
    exists ((i, (j + 1)%Z) :: l). rewrite R. split; [reflexivity|]. split; [apply kp_step; auto; injection; lia|]. split.
    { intros c [<-|I]; [|exact (C c I)]. cbn [fst snd]. split; [lia|]. split; [lia|]. rewrite inject_succ. split; [|lra]. assert (W : F (inject_Z i) (inject_Z j + 1 + 1) == F (inject_Z i) (inject_Z j + 1) + dx) by (unfold F; ring). lra. }
    intros u Hu A B. destruct (Qlt_le_dec (inject_Z j + 1) (y1 + u * dy)) as [L|L].
    + destruct (V u Hu) as (c & I & W); [exact A|rewrite inject_succ; lra|]. exists c. split; [right; exact I|exact W].
    + exists (i, j). split; [left; reflexivity|]. assert (W : dy * (inject_Z i + 1 - (x1 + u * dx)) == - F (inject_Z i + 1) (inject_Z j + 1) + dx * (inject_Z j + 1 - (y1 + u * dy))) by (unfold F; ring).
      assert (0 <= dx * (inject_Z j + 1 - (y1 + u * dy))) by (apply Qmult_le_0_compat; lra). assert (0 < inject_Z i + 1 - (x1 + u * dx)) by (apply (pos_product dy); lra). unfold unit_cell; cbn [fst snd]. lra.
  - assert (Both : forall a b c d, dx * (b - d) - dy * (a - c) == 0 -> (0 < b - d <-> 0 < a - c)).
    { intros a b c d K. split; intro L; [apply (pos_product dy)|apply (pos_product dx)]; auto; [assert (0 < dx * (b - d)) by (apply Qmult_lt_0_compat; lra)|assert (0 < dy * (a - c)) by (apply Qmult_lt_0_compat; lra)]; lra. }
    assert (B2 : 0 < inject_Z j + 1 - y2 <-> 0 < inject_Z i + 1 - x2).
    { apply Both. rewrite <- Sd. unfold F. assert (Q1 : y2 == y1 + dy) by lra. assert (Q2 : x2 == x1 + dx) by lra. rewrite Q1, Q2. ring. }
    destruct (Z.eq_dec i i2) as [Ei|Ni].
    { apply Done; [exact Ei|]. subst i. assert (Y : 0 < inject_Z j + 1 - y2) by (apply B2; lra). assert (inject_Z j2 < inject_Z j + 1) as K2 by lra. apply inject_lt_inv in K2. lia. }
    destruct (Z.eq_dec j j2) as [Ej|Nj].
    { exfalso. subst j. assert (Y : 0 < inject_Z i + 1 - x2) by (apply B2; lra). assert (inject_Z i2 < inject_Z i + 1) as K2 by lra. apply inject_lt_inv in K2. lia. }
    destruct (move_both g s t true x2 y2 i2 j2 Hx2 Hy2 ltac:(lia) j2 ltac:(lia) R2 fuel i j x y P E ltac:(lia) ltac:(cbn; lia)) as (x' & y' & P' & ->). unfold jstep in P' |- *.
    assert (T' : touched_up (i + 1) (j + 1)).
    { split; [lia|]. split; [lia|]. rewrite !inject_succ. assert (W : F (inject_Z i + 1) (inject_Z j + 1 + 1) == F (inject_Z i + 1) (inject_Z j + 1) + dx) by (unfold F; ring).
      assert (W' : F (inject_Z i + 1 + 1) (inject_Z j + 1) == F (inject_Z i + 1) (inject_Z j + 1) - dy) by (unfold F; ring). lra. }
    destruct (IH (i + 1)%Z (j + 1)%Z x' y' P' T') as (l & R & K & C & V); [lia|].
    exists (((i + 1)%Z, (j + 1)%Z) :: l). rewrite R. split; [reflexivity|]. split; [apply kp_step; auto; injection; lia|]. split.
    { intros c [<-|I]; [exact T'|exact (C c I)]. }
    intros u Hu A B. assert (Bu : 0 < y1 + u * dy - (inject_Z j + 1) <-> 0 < x1 + u * dx - (inject_Z i + 1)).
    { apply Both. rewrite <- (Qopp_involutive (_ - _)). setoid_replace (- (dx * (y1 + u * dy - (inject_Z j + 1)) - dy * (x1 + u * dx - (inject_Z i + 1)))) with (F (inject_Z i + 1) (inject_Z j + 1)) by (unfold F; ring). rewrite Sd. reflexivity. }
    destruct (Qlt_le_dec (inject_Z i + 1) (x1 + u * dx)) as [L|L].
    + destruct (V u Hu) as (c & I & W); [rewrite inject_succ; lra|rewrite inject_succ; destruct Bu as [_ Bu]; lra|]. exists c. split; [right; exact I|exact W].
    + exists (i, j). split; [left; reflexivity|]. destruct (Qlt_le_dec (inject_Z j + 1) (y1 + u * dy)) as [L'|L']; [destruct Bu as [Bu _]; lra|]. unfold unit_cell; cbn [fst snd]. lra.
Qed.
Lemma up_point : forall i j, touched_up i j -> exists u, 0 <= u <= 1 /\ unit_cell (i, j) (x1 + u * dx) (y1 + u * dy).
Proof.
  intros i j (T1 & T2 & T3 & T4). unfold unit_cell; cbn [fst snd].
  assert (A1 : inject_Z i <= x2) by (assert (inject_Z i <= inject_Z i2) by (apply (proj2 (inject_le _ _)); lia); lra).
  assert (A2 : inject_Z j <= y2) by (assert (inject_Z j <= inject_Z j2) by (apply (proj2 (inject_le _ _)); lia); lra).
  assert (A3 : x1 < inject_Z i + 1) by (assert (inject_Z i1 <= inject_Z i) by (apply (proj2 (inject_le _ _)); lia); lra).
  assert (A4 : y1 < inject_Z j + 1) by (assert (inject_Z j1 <= inject_Z j) by (apply (proj2 (inject_le _ _)); lia); lra).
  set (ui := (inject_Z i - x1) / dx). set (uj := (inject_Z j - y1) / dy).
  assert (Ui : ui * dx == inject_Z i - x1) by (unfold ui; field; lra). assert (Uj : uj * dy == inject_Z j - y1) by (unfold uj; field; lra). clearbody ui uj.
  assert (M : forall u v d, 0 < d -> u <= v -> u * d <= v * d) by (intros u v d H L; assert (0 <= (v - u) * d) by (apply Qmult_le_0_compat; lra); lra).
  assert (M' : forall u v d, 0 < d -> u * d <= v * d -> u <= v) by (intros u v d H L; assert (0 <= v - u) by (apply (nonneg_product d); lra); lra).
  assert (L1 : ui <= 1) by (apply (M' _ _ dx Dx); lra). assert (L2 : uj <= 1) by (apply (M' _ _ dy Dy); lra).
  assert (C1 : y1 + ui * dy <= inject_Z j + 1).
  { assert (0 <= inject_Z j + 1 - (y1 + ui * dy)); [|lra]. apply (nonneg_product dx); [exact Dx|]. setoid_replace (dx * (inject_Z j + 1 - (y1 + ui * dy))) with (dx * (inject_Z j + 1 - y1) - dy * (ui * dx)) by ring. rewrite Ui. unfold F in T3. lra. }
  assert (C2 : x1 + uj * dx <= inject_Z i + 1).
  { assert (0 <= inject_Z i + 1 - (x1 + uj * dx)); [|lra]. apply (nonneg_product dy); [exact Dy|]. setoid_replace (dy * (inject_Z i + 1 - (x1 + uj * dx))) with (dy * (inject_Z i + 1 - x1) - dx * (uj * dy)) by ring. rewrite Uj. unfold F in T4. lra. }
  destruct (Qlt_le_dec 0 ui) as [P1|P1]; destruct (Qlt_le_dec 0 uj) as [P2|P2].
  - destruct (Qlt_le_dec ui uj) as [O|O].
    + exists uj. pose proof (M ui uj dx Dx ltac:(lra)). lra.
    + exists ui. pose proof (M uj ui dy Dy ltac:(lra)). lra.
  - exists ui. pose proof (M uj ui dy Dy ltac:(lra)). lra.
  - exists uj. pose proof (M ui uj dx Dx ltac:(lra)). lra.
  - exists 0. pose proof (M ui 0 dx Dx ltac:(lra)). pose proof (M uj 0 dy Dy ltac:(lra)). lra.
Qed.
End Up.

Section Down.
Hypothesis Dy : dy < 0.
Hypothesis Rj : (0 <= j2 /\ j1 < two32)%Z.
Hypothesis Side : forall i j, (0 <= i <= i2)%Z -> (0 <= j <= j1)%Z ->
  match corner_side direct g s t false i j with
  | oriented_left => F (inject_Z i + 1) (inject_Z j) < 0
  | oriented_right => 0 < F (inject_Z i + 1) (inject_Z j)
  | oriented_collinear => F (inject_Z i + 1) (inject_Z j) == 0
  end.
Definition touched_down (i j : Z) : Prop := (i1 <= i <= i2)%Z /\ (j2 <= j <= j1)%Z /\ F (inject_Z i) (inject_Z j) <= 0 /\ 0 <= F (inject_Z i + 1) (inject_Z j + 1).

Lemma down_loop : forall fuel i j x y, pos false x2 y2 i2 j1 i j x y -> touched_down i j -> (Z.to_nat (i2 - i) + Z.to_nat (j - j2) + 2 <= fuel)%nat ->
  exists l, corner_loop direct g s t false x2 y2 fuel i j x y = Visited l /\ kpath (-1) i j i2 j2 l /\
    (forall c, In c l -> touched_down (fst c) (snd c)) /\
    (forall u, 0 <= u <= 1 -> inject_Z i <= x1 + u * dx -> y1 + u * dy <= inject_Z j + 1 -> exists c, In c ((i, j) :: l) /\ unit_cell c (x1 + u * dx) (y1 + u * dy)).
Proof.
  assert (R2 : (0 <= j2 <= j1)%Z). { split; [lia|]. assert (K : inject_Z j2 < inject_Z j1 + 1) by lra. apply inject_lt_inv in K. lia. }
  assert (Q1 : y2 == y1 + dy) by lra. assert (Q2 : x2 == x1 + dx) by lra.
  induction fuel as [|fuel IH]; intros i j x y P T Fu; [lia|]. pose proof T as (T1 & T2 & T3 & T4).
  assert (Done : i = i2 -> j = j2 -> exists l, corner_loop direct g s t false x2 y2 (S fuel) i j x y = Visited l /\ kpath (-1) i j i2 j2 l /\
    (forall c, In c l -> touched_down (fst c) (snd c)) /\
    (forall u, 0 <= u <= 1 -> inject_Z i <= x1 + u * dx -> y1 + u * dy <= inject_Z j + 1 -> exists c, In c ((i, j) :: l) /\ unit_cell c (x1 + u * dx) (y1 + u * dy))).
  { intros -> ->. exists []. split; [apply (last_cell g s t false x2 y2 i2 j2 Hx2 Hy2 ltac:(lia) j1 ltac:(lia) R2); [lia|exact P]|]. split; [constructor|]. split; [intros c []|].
    intros u Hu A B. exists (i2, j2). split; [left; reflexivity|]. assert (0 <= (1 - u) * dx) by (apply Qmult_le_0_compat; lra). assert (0 <= (1 - u) * - dy) by (apply Qmult_le_0_compat; lra). unfold unit_cell; cbn [fst snd]. lra. }
  pose proof (Side i j ltac:(lia) ltac:(lia)) as Sd. destruct (corner_side direct g s t false i j) eqn:E; cycle 2; [| |].
  - destruct (Z.eq_dec i i2) as [Ei|Ni].
    { apply Done; [exact Ei|]. subst i. assert (K : dx * (y2 - inject_Z j) == - F (inject_Z i2 + 1) (inject_Z j) + - dy * (inject_Z i2 + 1 - x2)) by (unfold F; rewrite Q1, Q2; ring).
      assert (0 < - dy * (inject_Z i2 + 1 - x2)) by (apply Qmult_lt_0_compat; lra). assert (Y : 0 < y2 - inject_Z j) by (apply (pos_product dx); lra).
      assert (inject_Z j < inject_Z j2 + 1) as K2 by lra. apply inject_lt_inv in K2. lia. }
    destruct (move_left g s t false x2 y2 i2 Hx2 ltac:(lia) j1 ltac:(lia) fuel i j x y P E ltac:(lia)) as (x' & P' & ->).
    assert (T' : touched_down (i + 1) j).
    { split; [lia|]. split; [lia|]. rewrite inject_succ. split; [lra|]. assert (W : F (inject_Z i + 1 + 1) (inject_Z j + 1) == F (inject_Z i + 1) (inject_Z j + 1) - dy) by (unfold F; ring). lra. }
    destruct (IH (i + 1)%Z j x' y P' T') as (l & R & K & C & V); [lia|].
    exists (((i + 1)%Z, j) :: l). rewrite R. split; [reflexivity|]. split; [apply kp_step; auto; injection; lia|]. split.
    { intros c [<-|I]; [exact T'|exact (C c I)]. }
    intros u Hu A B. destruct (Qlt_le_dec (inject_Z i + 1) (x1 + u * dx)) as [L|L].
    + destruct (V u Hu) as (c & I & W); [rewrite inject_succ; lra|exact B|]. exists c. split; [right; exact I|exact W].
    + exists (i, j). split; [left; reflexivity|]. assert (W : dx * (y1 + u * dy - inject_Z j) == - F (inject_Z i + 1) (inject_Z j) + - dy * (inject_Z i + 1 - (x1 + u * dx))) by (unfold F; ring).
      assert (0 <= - dy * (inject_Z i + 1 - (x1 + u * dx))) by (apply Qmult_le_0_compat; lra). assert (0 < y1 + u * dy - inject_Z j) by (apply (pos_product dx); lra). unfold unit_cell; cbn [fst snd]. lra.
  - destruct (Z.eq_dec j j2) as [Ej|Nj].
    { apply Done; [|exact Ej]. subst j. assert (K : - dy * (inject_Z i + 1 - x2) == F (inject_Z i + 1) (inject_Z j2) + dx * (y2 - inject_Z j2)) by (unfold F; rewrite Q1, Q2; ring).
      assert (0 <= dx * (y2 - inject_Z j2)) by (apply Qmult_le_0_compat; lra). assert (Y : 0 < inject_Z i + 1 - x2) by (apply (pos_product (- dy)); lra).
      assert (inject_Z i2 < inject_Z i + 1) as K2 by lra. apply inject_lt_inv in K2. lia. }
    destruct (move_right g s t false x2 y2 i2 j2 Hy2 ltac:(lia) j1 ltac:(lia) R2 fuel i j x y P E ltac:(cbn; lia)) as (y' & P' & ->). unfold jstep in P' |- *.
    assert (T' : touched_down i (j + -1)).
    { split; [lia|]. split; [lia|]. rewrite inject_pred. split; [|]. { assert (W : F (inject_Z i) (inject_Z j - 1) == F (inject_Z i) (inject_Z j) - dx) by (unfold F; ring). lra. }
      assert (W : F (inject_Z i + 1) (inject_Z j - 1 + 1) == F (inject_Z i + 1) (inject_Z j)) by (unfold F; ring). lra. }
    destruct (IH i (j + -1)%Z x y' P' T') as (l & R & K & C & V); [lia|].
    exists ((i, (j + -1)%Z) :: l). rewrite R. split; [reflexivity|]. split; [apply kp_step; auto; injection; lia|]. split.
    { intros c [<-|I]; [exact T'|exact (C c I)]. }
    intros u Hu A B. destruct (Qlt_le_dec (y1 + u * dy) (inject_Z j)) as [L|L].
    + destruct (V u Hu) as (c & I & W); [exact A|rewrite inject_pred; lra|]. exists c. split; [right; exact I|exact W].
    + exists (i, j). split; [left; reflexivity|]. assert (W : - dy * (inject_Z i + 1 - (x1 + u * dx)) == F (inject_Z i + 1) (inject_Z j) + dx * (y1 + u * dy - inject_Z j)) by (unfold F; ring).
      assert (0 <= dx * (y1 + u * dy - inject_Z j)) by (apply Qmult_le_0_compat; lra). assert (0 < inject_Z i + 1 - (x1 + u * dx)) by (apply (pos_product (- dy)); lra). unfold unit_cell; cbn [fst snd]. lra.
  - assert (Both : forall a b c d, dx * (d - b) == - dy * (a - c) -> (0 < d - b <-> 0 < a - c) /\ (0 <= d - b <-> 0 <= a - c)).
    { intros a b c d K. split; split; intro L; [apply (pos_product (- dy))|apply (pos_product dx)|apply (nonneg_product (- dy))|apply (nonneg_product dx)]; try lra; [assert (0 < dx * (d - b)) by (apply Qmult_lt_0_compat; lra)|assert (0 < - dy * (a - c)) by (apply Qmult_lt_0_compat; lra)|assert (0 <= dx * (d - b)) by (apply Qmult_le_0_compat; lra)|assert (0 <= - dy * (a - c)) by (apply Qmult_le_0_compat; lra)]; lra. }
    assert (B2 : (0 < y2 - inject_Z j <-> 0 < inject_Z i + 1 - x2) /\ (0 <= y2 - inject_Z j <-> 0 <= inject_Z i + 1 - x2)).
    { apply Both. assert (K : dx * (y2 - inject_Z j) - - dy * (inject_Z i + 1 - x2) == - F (inject_Z i + 1) (inject_Z j)) by (unfold F; rewrite Q1, Q2; ring). lra. }
    destruct (Z.eq_dec i i2) as [Ei|Ni].
    { apply Done; [exact Ei|]. subst i. assert (Y : 0 < y2 - inject_Z j) by (apply (proj1 B2); lra). assert (inject_Z j < inject_Z j2 + 1) as K2 by lra. apply inject_lt_inv in K2. lia. }
    assert (T' : forall j', (j' = j \/ j' = j + -1)%Z -> (j2 <= j')%Z -> touched_down (i + 1) j').
    { intros j' Hj L. split; [lia|]. split; [lia|]. rewrite inject_succ. destruct Hj as [-> | ->].
      - assert (W : F (inject_Z i + 1 + 1) (inject_Z j + 1) == F (inject_Z i + 1) (inject_Z j) + dx - dy) by (unfold F; ring). lra.
      - rewrite inject_pred. assert (W : F (inject_Z i + 1 + 1) (inject_Z j - 1 + 1) == F (inject_Z i + 1) (inject_Z j) - dy) by (unfold F; ring).
        assert (W' : F (inject_Z i + 1) (inject_Z j - 1) == F (inject_Z i + 1) (inject_Z j) - dx) by (unfold F; ring). lra. }
    assert (Bu : forall u, (0 < y1 + u * dy - inject_Z j <-> 0 < inject_Z i + 1 - (x1 + u * dx)) /\ (0 <= y1 + u * dy - inject_Z j <-> 0 <= inject_Z i + 1 - (x1 + u * dx))).
    { intro u. apply Both. assert (K : dx * (y1 + u * dy - inject_Z j) - - dy * (inject_Z i + 1 - (x1 + u * dx)) == - F (inject_Z i + 1) (inject_Z j)) by (unfold F; ring). lra. }
    destruct (Z.eq_dec j j2) as [Ej|Nj].
    + subst j. destruct (move_corner g s t false x2 y2 i2 j2 Hx2 Hy2 ltac:(lia) j1 ltac:(lia) R2 fuel i x y P E ltac:(lia)) as (x' & y' & P' & ->).
      destruct (IH (i + 1)%Z j2 x' y' P') as (l & R & K & C & V); [apply T'; [auto|lia]|lia|].
      exists (((i + 1)%Z, j2) :: l). rewrite R. split; [reflexivity|]. split; [apply kp_step; auto; injection; lia|]. split.
      { intros c [<-|I]; [apply T'; [auto|cbn; lia]|exact (C c I)]. }
      intros u Hu A B. destruct (Qlt_le_dec (inject_Z i + 1) (x1 + u * dx)) as [L|L].
      * destruct (V u Hu) as (c & I & W); [rewrite inject_succ; lra|exact B|]. exists c. split; [right; exact I|exact W].
      * exists (i, j2). split; [left; reflexivity|]. destruct (Bu u) as [_ [_ B3]]. unfold unit_cell; cbn [fst snd]. lra.
    + destruct (move_both g s t false x2 y2 i2 j2 Hx2 Hy2 ltac:(lia) j1 ltac:(lia) R2 fuel i j x y P E ltac:(lia) ltac:(cbn; lia)) as (x' & y' & P' & ->). unfold jstep in P' |- *.
      destruct (IH (i + 1)%Z (j + -1)%Z x' y' P') as (l & R & K & C & V); [apply T'; [auto|lia]|lia|].
      exists (((i + 1)%Z, (j + -1)%Z) :: l). rewrite R. split; [reflexivity|]. split; [apply kp_step; auto; injection; lia|]. split.
      { intros c [<-|I]; [apply T'; [auto|cbn; lia]|exact (C c I)]. }
      intros u Hu A B. destruct (Bu u) as [[B3 B4] [B5 B6]]. destruct (Qlt_le_dec (inject_Z i + 1) (x1 + u * dx)) as [L|L].
      * destruct (V u Hu) as (c & I & W); [rewrite inject_succ; lra|rewrite inject_pred; destruct (Qlt_le_dec (inject_Z j) (y1 + u * dy)); lra|]. exists c. split; [right; exact I|exact W].
      * exists (i, j). split; [left; reflexivity|]. unfold unit_cell; cbn [fst snd]. lra.
Qed.
Lemma down_point : forall i j, touched_down i j -> exists u, 0 <= u <= 1 /\ unit_cell (i, j) (x1 + u * dx) (y1 + u * dy).
Proof.
  intros i j (T1 & T2 & T3 & T4). unfold unit_cell; cbn [fst snd].
  assert (A1 : inject_Z i <= x2) by (assert (inject_Z i <= inject_Z i2) by (apply (proj2 (inject_le _ _)); lia); lra).
  assert (A2 : y2 < inject_Z j + 1) by (assert (inject_Z j2 <= inject_Z j) by (apply (proj2 (inject_le _ _)); lia); lra).
  assert (A3 : x1 < inject_Z i + 1) by (assert (inject_Z i1 <= inject_Z i) by (apply (proj2 (inject_le _ _)); lia); lra).
  assert (A4 : inject_Z j <= y1) by (assert (inject_Z j <= inject_Z j1) by (apply (proj2 (inject_le _ _)); lia); lra).
  set (ui := (inject_Z i - x1) / dx). set (uj := (inject_Z j + 1 - y1) / dy).
  assert (Ui : ui * dx == inject_Z i - x1) by (unfold ui; field; lra). assert (Uj : uj * dy == inject_Z j + 1 - y1) by (unfold uj; field; lra). clearbody ui uj.
  assert (M : forall u v d, 0 < d -> u <= v -> u * d <= v * d) by (intros u v d H L; assert (0 <= (v - u) * d) by (apply Qmult_le_0_compat; lra); lra).
  assert (M' : forall u v d, 0 < d -> u * d <= v * d -> u <= v) by (intros u v d H L; assert (0 <= v - u) by (apply (nonneg_product d); lra); lra).
  assert (N : forall u v, u <= v -> v * dy <= u * dy) by (intros u v L; pose proof (M u v (- dy) ltac:(lra) L); lra).
  assert (L1 : ui <= 1) by (apply (M' _ _ dx Dx); lra). assert (L2 : uj <= 1) by (apply (M' _ _ (- dy)); lra).
  assert (C1 : inject_Z j <= y1 + ui * dy).
  { assert (0 <= y1 + ui * dy - inject_Z j); [|lra]. apply (nonneg_product dx); [exact Dx|]. setoid_replace (dx * (y1 + ui * dy - inject_Z j)) with (- (dx * (inject_Z j - y1)) + dy * (ui * dx)) by ring. rewrite Ui. unfold F in T3. lra. }
  assert (C2 : x1 + uj * dx <= inject_Z i + 1).
  { assert (0 <= inject_Z i + 1 - (x1 + uj * dx)); [|lra]. apply (nonneg_product (- dy)); [lra|]. setoid_replace (- dy * (inject_Z i + 1 - (x1 + uj * dx))) with (- dy * (inject_Z i + 1 - x1) + dx * (uj * dy)) by ring. rewrite Uj. unfold F in T4. lra. }
  destruct (Qlt_le_dec 0 ui) as [P1|P1]; destruct (Qlt_le_dec 0 uj) as [P2|P2].
  - destruct (Qlt_le_dec ui uj) as [O|O].
    + exists uj. pose proof (M ui uj dx Dx ltac:(lra)). lra.
    + exists ui. pose proof (N uj ui ltac:(lra)). lra.
  - exists ui. pose proof (N uj ui ltac:(lra)). lra.
  - exists uj. pose proof (M ui uj dx Dx ltac:(lra)). lra.
  - exists 0. pose proof (M ui 0 dx Dx ltac:(lra)). pose proof (N uj 0 ltac:(lra)). lra.
Qed.
End Down.
End Line.
