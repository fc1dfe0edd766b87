(** Proofs about the cut of a polygon by a plane: the loop, the border, the passages. *)
From Coq Require Import Setoid.
From Verif Require Import Base LinIntSpec DistModel BoxIntModel CutModel CutSpec.
From Verif Require SolidModel.
Import SolidModel(plane_orientation(..)).

Lemma above_lerp : forall pl A B t, above pl (lerp3 A B t) == (1 - t) * above pl A + t * above pl B.
Proof. intros pl A B t. unfold above, lerp3, vadd3, vscale3, vsub3, dot3; simpl. ring. Qed.
Lemma above_eq : forall pl X Y, pt3eq X Y -> above pl X == above pl Y.
Proof. intros pl X Y (E1 & E2 & E3). unfold above, dot3. rewrite E1, E2, E3. reflexivity. Qed.

Lemma classify_cases : forall p pl,
  (classify_point_to_plane p pl = in_front_of_plane /\ 0 < above pl p) \/
  (classify_point_to_plane p pl = in_back_of_plane /\ above pl p < 0) \/
  (classify_point_to_plane p pl = coplanar_with_plane /\ above pl p == 0).
Proof.
  intros p pl. unfold classify_point_to_plane, above.
  assert (E : dot3 p (pl_normal pl) == dot3 (pl_normal pl) p) by (unfold dot3; ring).
  destruct (Qltb_spec 0 (dot3 p (pl_normal pl) - pl_dist pl)) as [A|A]; [left; split; [reflexivity|lra]|].
  destruct (Qltb_spec (dot3 p (pl_normal pl) - pl_dist pl) 0) as [B|B]; [right; left; split; [reflexivity|lra]|].
  right; right. split; [reflexivity|lra].
Qed.

(** The crossing point of a straddling edge. *)
Lemma crossing_some : forall pl a b, above pl a * above pl b < 0 ->
  exists x t, crossing_point b a pl = Some x /\ above pl x == 0 /\ 0 < t < 1 /\ pt3eq x (lerp3 a b t).
Proof.
  intros pl a b H. unfold crossing_point, segment_plane_intersection.
  assert (D : dot3 (pl_normal pl) (vsub3 a b) == above pl a - above pl b) by (unfold above, dot3, vsub3; simpl; ring).
  assert (N : ~ dot3 (pl_normal pl) (vsub3 a b) == 0) by (rewrite D; intro; nra).
  unfold qdiv_opt. destruct (Qeqb _ 0) eqn:E0; [apply Qeqb_eq in E0; contradiction|].
  set (t := (pl_dist pl - dot3 (pl_normal pl) b) / dot3 (pl_normal pl) (vsub3 a b)).
  assert (T : t * (above pl a - above pl b) == - above pl b).
  { unfold t. rewrite D. unfold above at 5. field. rewrite <- D. exact N. }
  assert (B : 0 < t < 1) by (split; nra).
  assert (Qgeb t 0 = true) as -> by (unfold Qgeb; apply Qleb_le; lra). assert (Qleb t 1 = true) as -> by (apply Qleb_le; lra). cbn [andb].
  exists (vadd3 b (vscale3 t (vsub3 a b))), (1 - t). split; [reflexivity|]. split; [|split; [lra|]].
  - change (vadd3 b (vscale3 t (vsub3 a b))) with (lerp3 b a t). rewrite above_lerp. lra.
  - unfold pt3eq, lerp3, vadd3, vscale3, vsub3; simpl. repeat split; ring.
Qed.

(** One turn of the loop. *)
Definition between (pl : plane3) (a b x : pt3) : Prop := above pl x == 0 /\ exists t, 0 < t < 1 /\ pt3eq x (lerp3 a b t).
Inductive edge_case (pl : plane3) (a b : pt3) : list pt3 -> list pt3 -> Prop :=
| ec_up : forall x, above pl a < 0 -> 0 < above pl b -> between pl a b x -> edge_case pl a b [x; b] [x]
| ec_front : 0 <= above pl a -> 0 < above pl b -> edge_case pl a b [b] []
| ec_down : forall x, 0 < above pl a -> above pl b < 0 -> between pl a b x -> edge_case pl a b [x] [x; b]
| ec_leave : above pl a == 0 -> above pl b < 0 -> edge_case pl a b [] [a; b]
| ec_back : above pl a < 0 -> above pl b < 0 -> edge_case pl a b [] [b]
| ec_arrive : above pl a < 0 -> above pl b == 0 -> edge_case pl a b [b] [b]
| ec_on : 0 <= above pl a -> above pl b == 0 -> edge_case pl a b [b] [].
Lemma split_edge_cases : forall pl a b, exists fs bs,
  split_edge pl a (classify_point_to_plane a pl) b (classify_point_to_plane b pl) = Some (fs, bs) /\ edge_case pl a b fs bs.
Proof.
  intros pl a b. destruct (classify_cases a pl) as [[-> A]|[[-> A]|[-> A]]]; destruct (classify_cases b pl) as [[-> B]|[[-> B]|[-> B]]]; cbn [split_edge].
  - eexists _, _. split; [reflexivity|]. apply ec_front; lra.
  - destruct (crossing_some pl a b) as (x & t & -> & Z & T & E); [nra|]. eexists _, _. split; [reflexivity|]. apply ec_down; try lra. split; [exact Z|exists t; tauto].
  - eexists _, _. split; [reflexivity|]. apply ec_on; lra.
  - destruct (crossing_some pl a b) as (x & t & -> & Z & T & E); [nra|]. eexists _, _. split; [reflexivity|]. apply ec_up; try lra. split; [exact Z|exists t; tauto].
  - eexists _, _. split; [reflexivity|]. apply ec_back; lra.
  - eexists _, _. split; [reflexivity|]. apply ec_arrive; lra.
  - eexists _, _. split; [reflexivity|]. apply ec_front; lra.
  - eexists _, _. split; [reflexivity|]. apply ec_leave; lra.
  - eexists _, _. split; [reflexivity|]. apply ec_on; lra.
Qed.
(** The loop as a relation. *)
Inductive cut (pl : plane3) : pt3 -> list pt3 -> list pt3 -> list pt3 -> Prop :=
| cut_nil : forall a, cut pl a [] [] []
| cut_cons : forall a b ps fs bs fs' bs', edge_case pl a b fs bs -> cut pl b ps fs' bs' -> cut pl a (b :: ps) (fs ++ fs') (bs ++ bs').
Lemma split_loop_cut : forall pl ps a, exists fs bs, split_loop pl a (classify_point_to_plane a pl) ps = Some (fs, bs) /\ cut pl a ps fs bs.
Proof.
  intros pl ps. induction ps as [|b ps IH]; intro a; cbn [split_loop].
  - exists [], []. split; [reflexivity|constructor].
  - destruct (split_edge_cases pl a b) as (fs & bs & -> & C). destruct (IH b) as (fs' & bs' & -> & C').
    eexists _, _. split; [reflexivity|]. econstructor; eassumption.
Qed.

(** ** Sums over the edges of a path *)
Section Path.
Context {M : Type} (zero : M) (op : M -> M -> M) (eqv : M -> M -> Prop) {Eq : Equivalence eqv}.
Hypothesis op_proper : forall a b c d, eqv a b -> eqv c d -> eqv (op a c) (op b d).
Hypothesis op_zero_l : forall a, eqv (op zero a) a.
Hypothesis op_zero_r : forall a, eqv (op a zero) a.
Hypothesis op_assoc : forall a b c, eqv (op a (op b c)) (op (op a b) c).
Context (E : pt3 -> pt3 -> M) (pl : plane3).
Fixpoint path (a : pt3) (ps : list pt3) : M := match ps with [] => zero | b :: ps' => op (E a b) (path b ps') end.
Hypothesis E_split : forall a b x, between pl a b x -> above pl a * above pl b < 0 -> eqv (E a b) (op (E a x) (E x b)).
Lemma drop_l : forall a b, eqv a zero -> eqv (op a b) b.
Proof. intros a b H. transitivity (op zero b); [apply op_proper; [exact H|reflexivity]|apply op_zero_l]. Qed.
Lemma drop_r : forall a b, eqv b zero -> eqv (op a b) a.
Proof. intros a b H. transitivity (op a zero); [apply op_proper; [reflexivity|exact H]|apply op_zero_r]. Qed.

Definition front_link (a f : pt3) : Prop := (0 <= above pl a -> f = a) /\ (above pl a < 0 -> above pl f <= 0).
Definition back_link (a f : pt3) : Prop := (above pl a < 0 -> f = a) /\ (0 <= above pl a -> 0 <= above pl f).
Lemma front_link_refl : forall a, front_link a a.
Proof. intro a. split; intros; [reflexivity|lra]. Qed.
Lemma back_link_refl : forall a, back_link a a.
Proof. intro a. split; intros; [reflexivity|lra]. Qed.

Lemma front_step : forall a b fs bs f, edge_case pl a b fs bs -> front_link a f -> front_link b (last fs f).
Proof.
  intros a b fs bs f C [L1 L2]. inversion C as [x A B X|A B|x A B X|A B|A B|A B|A B]; subst; cbn [last]; try apply front_link_refl; split; intro; try lra; auto.
  - destruct X as [X _]. lra.
  - rewrite L1 by lra. lra.
Qed.
Lemma back_step : forall a b fs bs f, edge_case pl a b fs bs -> back_link a f -> back_link b (last bs f).
Proof.
  intros a b fs bs f C [L1 L2]. inversion C as [x A B X|A B|x A B X|A B|A B|A B|A B]; subst; cbn [last]; try apply back_link_refl; split; intro; try lra; auto.
  destruct X as [X _]. lra.
Qed.
Lemma last_app_f : forall (l l' : list pt3) f, last (l ++ l') f = last l' (last l f).
Proof.
  intros l l' f. revert l f. induction l' as [|x l' IH]; intros l f; [rewrite app_nil_r; reflexivity|].
  change (x :: l') with ([x] ++ l'). rewrite app_assoc. rewrite (IH (l ++ [x]) f), (IH [x] (last l f)). rewrite last_last. reflexivity.
Qed.
Lemma path_app : forall ps qs a, eqv (path a (ps ++ qs)) (op (path a ps) (path (last ps a) qs)).
Proof.
  induction ps as [|b ps IH]; intros qs a; cbn [path app last].
  - symmetry. apply op_zero_l.
  - transitivity (op (E a b) (op (path b ps) (path (last ps b) qs))); [apply op_proper; [reflexivity|apply IH]|].
    replace (match ps with [] => b | _ :: _ => last ps a end) with (last ps b); [apply op_assoc|].
    destruct ps as [|p ps]; [reflexivity|]. assert (G : forall (l : list pt3) x y z, last (x :: l) y = last (x :: l) z) by (induction l; intros; [reflexivity|cbn [last] in *; destruct l; auto]). apply G.
Qed.
Lemma cut_front_last : forall a ps fs bs, cut pl a ps fs bs -> forall f, front_link a f -> front_link (last ps a) (last fs f).
Proof.
  intros a ps fs bs C. induction C as [a|a b ps fs bs fs' bs' C1 C2 IH]; intros f L; [exact L|].
  rewrite last_app_f. change (b :: ps) with ([b] ++ ps). rewrite last_app_f. cbn [last]. apply IH. eapply front_step; eassumption.
Qed.
Lemma cut_back_last : forall a ps fs bs, cut pl a ps fs bs -> forall f, back_link a f -> back_link (last ps a) (last bs f).
Proof.
  intros a ps fs bs C. induction C as [a|a b ps fs bs fs' bs' C1 C2 IH]; intros f L; [exact L|].
  rewrite last_app_f. change (b :: ps) with ([b] ++ ps). rewrite last_app_f. cbn [last]. apply IH. eapply back_step; eassumption.
Qed.

Lemma front_path : (forall a b, above pl a <= 0 -> above pl b <= 0 -> eqv (E a b) zero) ->
  forall a ps fs bs, cut pl a ps fs bs -> forall f, front_link a f -> eqv (path f fs) (path a ps).
Proof.
  intros Z a ps fs bs C. induction C as [a|a b ps fs bs fs' bs' C1 C2 IH]; intros f L; [reflexivity|].
  cbn [path]. etransitivity; [apply path_app|]. apply op_proper; [|apply IH; eapply front_step; eassumption].
  destruct L as [L1 L2]. inversion C1 as [x A B X|A B|x A B X|A B|A B|A B|A B]; subst; cbn [path].
  - etransitivity; [apply drop_l; apply Z; [auto|destruct X; lra]|]. etransitivity; [apply op_zero_r|].
    symmetry. etransitivity; [apply E_split; [exact X|nra]|]. apply drop_l, Z; [lra|destruct X; lra].
  - rewrite L1 by lra. apply op_zero_r.
  - rewrite L1 by lra. etransitivity; [apply op_zero_r|].
    symmetry. etransitivity; [apply E_split; [exact X|nra]|]. apply drop_r, Z; [destruct X; lra|lra].
  - symmetry. apply Z; lra.
  - symmetry. apply Z; lra.
  - etransitivity; [apply op_zero_r|]. etransitivity; [apply Z; [auto|lra]|]. symmetry. apply Z; lra.
  - rewrite L1 by lra. apply op_zero_r.
Qed.
Lemma back_path : (forall a b, 0 <= above pl a -> 0 <= above pl b -> eqv (E a b) zero) ->
  forall a ps fs bs, cut pl a ps fs bs -> forall f, back_link a f -> eqv (path f bs) (path a ps).
Proof.
  intros Z a ps fs bs C. induction C as [a|a b ps fs bs fs' bs' C1 C2 IH]; intros f L; [reflexivity|].
  cbn [path]. etransitivity; [apply path_app|]. apply op_proper; [|apply IH; eapply back_step; eassumption].
  destruct L as [L1 L2]. inversion C1 as [x A B X|A B|x A B X|A B|A B|A B|A B]; subst; cbn [path].
  - rewrite L1 by lra. etransitivity; [apply op_zero_r|].
    symmetry. etransitivity; [apply E_split; [exact X|nra]|]. apply drop_r, Z; [destruct X; lra|lra].
  - symmetry. apply Z; lra.
  - etransitivity; [apply drop_l; apply Z; [apply L2; lra|destruct X; lra]|]. etransitivity; [apply op_zero_r|].
    symmetry. etransitivity; [apply E_split; [exact X|nra]|]. apply drop_l, Z; [lra|destruct X; lra].
  - etransitivity; [apply drop_l; apply Z; [apply L2; lra|lra]|]. apply op_zero_r.
  - rewrite L1 by lra. apply op_zero_r.
  - rewrite L1 by lra. apply op_zero_r.
  - symmetry. apply Z; lra.
Qed.
End Path.
