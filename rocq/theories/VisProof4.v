(** Lines of sight stay in the mesh; meshes without cycles. *)
From Verif Require Import Base CmpModel OrientModel OrientSpec OrientProof DistModel DistSpec PolygonSpec LinIntSpec RangeModel RangeSpec RangeProof VisModel VisSpec VisProof VisProof2 VisProof3.
From Verif Require MeshModel MeshSpec MeshProof4.
From Coq Require Import Lia.

(** ** A line of sight stays in the mesh *)
Definition on_ray (o V : pt) (t : Q) : pt := lerp o V t.
Lemma tri_pteq : forall A B X Y, X =p= Y -> tri2 A B X == tri2 A B Y.
Proof. intros A B X Y [E1 E2]. unfold tri2, cross, vsub; cbn [px py]. rewrite E1, E2. reflexivity. Qed.
Lemma closed_pteq : forall m i X Y, X =p= Y -> in_closed m i X -> in_closed m i Y.
Proof.
  intros m i X Y E (a & b & c & A & B & C & E0 & E1 & E2 & E3 & H1 & H2 & H3). exists a, b, c, A, B, C. repeat (split; [assumption|]).
  rewrite <- !(tri_pteq _ _ X Y E). auto.
Qed.
(** A convex set: the points of a segment with ends in a triangle. *)
Lemma closed_between : forall m i o V t0 t1 t, t0 <= t -> t <= t1 -> in_closed m i (lerp o V t0) -> in_closed m i (lerp o V t1) -> in_closed m i (lerp o V t).
Proof.
  intros m i o V t0 t1 t H0 H1 (a & b & c & A & B & C & E0 & E1 & E2 & E3 & P1 & P2 & P3) (a' & b' & c' & A' & B' & C' & E0' & E1' & E2' & E3' & Q1 & Q2 & Q3).
  rewrite E0 in E0'. injection E0' as <- <- <-. same_nth. exists a, b, c, A', B', C'. repeat (split; [assumption|]).
  assert (Co : forall U W, 0 <= tri2 U W (lerp o V t0) -> 0 <= tri2 U W (lerp o V t1) -> 0 <= tri2 U W (lerp o V t)).
  { intros U W K0 K1. rewrite tri_lerp in *. set (p := tri2 U W o) in *. set (q := tri2 U W V) in *. clearbody p q.
    destruct (Qlt_le_dec t0 t1) as [L|L]; [|assert (E : t == t0) by lra; rewrite E; exact K0].
    apply (nonneg_div (t1 - t0)); [lra|]. pose proof (mul_nn _ _ (proj1 (Qle_minus_iff _ _) H1) K0) as M0. pose proof (mul_nn _ _ (proj1 (Qle_minus_iff _ _) H0) K1) as M1. lra. }
  auto.
Qed.
(** A point of a side is in the triangle, on both sides of it. *)
Lemma side_in : forall m i t s a b P Q X, ccw m t -> nth_error (vm_tris m) i = Some t -> MeshSpec.directed_edge t s = Some (a, b) -> nth_error (vm_points m) a = Some P -> nth_error (vm_points m) b = Some Q ->
  inside_segment P Q X -> in_closed m i X.
Proof.
  intros m i t s a b P Q X CC Ei D EP EQ (u & Hu & E). destruct (edge_rot m t s a b CC D) as (c & A & B & C & Ea & Eb & Ec & T & _ & _ & Cl & _). same_nth.
  apply (closed_pteq m i (lerp A B u)); [destruct E; split; symmetry; assumption|].
  pose proof (tri2_cases A B C) as (R1 & R2 & _). pose proof (tri2_cases A B A) as (_ & _ & _ & _ & _ & _ & Z1 & Z2).
  assert (Z : forall U W, tri2 U W U == 0 /\ tri2 U W W == 0) by (intros; unfold tri2, cross, vsub; cbn [px py]; split; ring).
  apply Cl; [exact Ei| | |]; rewrite tri_lerp.
  - rewrite (proj1 (Z A B)), (proj2 (Z A B)). lra.
  - rewrite (proj1 (Z B C)). assert (0 < (1 - u) * tri2 B C A) by (apply mul_pp; lra). lra.
  - rewrite (proj2 (Z C A)). assert (0 < u * tri2 C A B) by (apply mul_pp; lra). lra.
Qed.
Lemma inside_sym : forall P Q X, inside_segment P Q X -> inside_segment Q P X.
Proof. intros P Q X (u & Hu & E1 & E2). exists (1 - u). split; [lra|]. split; [rewrite E1|rewrite E2]; unfold lerp, vadd, vscale, vsub; cbn [px py]; ring. Qed.
Lemma vertex_in : forall m i t s v V, ccw m t -> nth_error (vm_tris m) i = Some t -> (s < 3)%nat -> MeshModel.side t s = v -> nth_error (vm_points m) v = Some V -> in_closed m i V.
Proof.
  intros m i [[x y] z] s v V (X & Y & Z & Ex & Ey & Ez & P) Ei Hs Es EV. exists x, y, z, X, Y, Z. repeat (split; [assumption|]).
  pose proof (tri2_cases X Y Z) as (R1 & R2 & _).
  assert (Zr : forall U W, tri2 U W U == 0 /\ tri2 U W W == 0) by (intros; unfold tri2, cross, vsub; cbn [px py]; split; ring).
  pose proof (Zr X Y). pose proof (Zr Y Z). pose proof (Zr Z X).
  destruct s as [|[|[|s]]]; [| | |lia]; cbn in Es; subst v; same_nth; lra.
Qed.
Lemma sight_inside : forall m o V i k, ok_vmesh m -> line_of_sight m o V i k -> in_closed m k V -> forall t0, t0 <= 1 -> in_closed m i (lerp o V t0) ->
  forall t, t0 <= t -> t <= 1 -> exists j, in_closed m j (lerp o V t).
Proof.
  intros m o V i k OK LS HV. induction LS as [i|i s j s' k ti a b P Q SE Ei D EP EQ L (X & (u & Hu & EX) & IX) LS IH]; intros t0 T0 H0 t Ht0 Ht1.
  - exists i. apply (closed_between m i o V t0 1 t Ht0 Ht1 H0). apply (closed_pteq m i V); [|exact HV]. unfold lerp, vadd, vscale, vsub; split; cbn [px py]; ring.
  - assert (Xi : in_closed m i (lerp o V u)) by (apply (closed_pteq m i X); [exact EX|]; exact (side_in m i ti s a b P Q X (ok_ccw _ _ _ OK Ei) Ei D EP EQ IX)).
    assert (Xj : in_closed m j (lerp o V u)).
    { destruct SE as (ti2 & tj & a2 & b2 & Ei2 & Ej & G1 & G2). change (nth_error (vm_tris m) i = Some ti2) in Ei2. change (nth_error (vm_tris m) j = Some tj) in Ej. rewrite Ei in Ei2. injection Ei2 as <-. rewrite D in G1. injection G1 as <- <-.
      apply (closed_pteq m j X); [exact EX|]. exact (side_in m j tj s' b a Q P X (ok_ccw _ _ _ OK Ej) Ej G2 EQ EP (inside_sym P Q X IX)). }
    destruct (Qlt_le_dec t u) as [K|K].
    + exists i. apply (closed_between m i o V t0 u t Ht0); [lra|exact H0|exact Xi].
    + apply (IH HV u); [lra|exact Xj|exact K|exact Ht1].
Qed.
Lemma visible_inside : forall m o start v V, ok_vmesh m -> strictly_in m start o -> nth_error (vm_points m) v = Some V -> visible_from m o start v ->
  forall X, on_segment o V X -> exists j, in_closed m j X.
Proof.
  intros m o start v V OK (a & b & c & A & B & C & E0 & E1 & E2 & E3 & P1 & P2 & P3) EV (V' & k & t & EV' & LS & Et & s & Hs & Es) X (u & Hu & EX). rewrite EV in EV'. injection EV' as <-.
  destruct (sight_inside m o V start k OK LS (vertex_in m k t s v V (ok_ccw _ _ _ OK Et) Et Hs Es EV) 0) with (t := u) as [j Hj]; [lra| |lra|lra|].
  - apply (closed_pteq m start o); [unfold lerp, vadd, vscale, vsub; split; cbn [px py]; ring|]. exists a, b, c, A, B, C. repeat (split; [assumption|]). lra.
  - exists j. apply (closed_pteq m j (lerp o V u)); [|exact Hj]. destruct EX; split; symmetry; assumption.
Qed.

(** ** A numbering in which every triangle has at most one neighbour before it: no cycles *)
Section Tree.
Variable m : vmesh.
Hypothesis OK : ok_vmesh m.
Hypothesis ONE : forall i j k, neighbours m j i -> neighbours m j k -> (i < j)%nat -> (k < j)%nat -> i = k.

Lemma nb_sym : forall i j, neighbours m i j -> neighbours m j i.
Proof. intros i j (s & s' & ti & tj & a & b & E1 & E2 & D1 & D2). exists s', s, tj, ti, b, a. auto. Qed.
Lemma nb_irrefl : forall i, ~ neighbours m i i.
Proof.
  intros i (s & s' & ti & tj & a & b & E1 & E2 & D1 & D2). change (nth_error (vm_tris m) i = Some ti) in E1. change (nth_error (vm_tris m) i = Some tj) in E2. rewrite E1 in E2. injection E2 as <-.
  destruct ti as [[x y] z]. destruct (ok_ccw _ _ _ OK E1) as (X & Y & Z & Ex & Ey & Ez & P).
  pose proof (tri2_cases X Y Z) as (R1 & R2 & _).
  destruct s as [|[|[|s]]]; try discriminate; destruct s' as [|[|[|s']]]; try discriminate; cbn in D1, D2; injection D1 as <- <-; injection D2; intros; subst; same_nth; flat_triangles.
Qed.
Lemma walk_tail : forall x y l, walk m (x :: y :: l) -> walk m (y :: l).
Proof. intros x y l W. inversion W; subst; [constructor|assumption]. Qed.
Lemma walk_nb : forall x y l, walk m (x :: y :: l) -> neighbours m y x.
Proof. intros x y l W. inversion W; subst; assumption. Qed.
Lemma walk_suffix : forall l1 x l2, walk m (l1 ++ x :: l2) -> walk m (x :: l2).
Proof. induction l1 as [|y [|z l1] IH]; intros x l2 W; cbn [app] in *; [exact W|apply walk_tail in W; exact W|]. apply walk_tail in W. exact (IH x l2 W). Qed.
Lemma walk_prefix : forall l1 x l2, walk m ((x :: l1) ++ l2) -> walk m (x :: l1).
Proof.
  induction l1 as [|y l1 IH]; intros x l2 W; [constructor|]. cbn [app] in W. pose proof (walk_tail _ _ _ W) as W'. specialize (IH y l2 W'). inversion W; subst.
  - destruct l1; [constructor; assumption|discriminate].
  - destruct l1 as [|z l1]; [constructor; assumption|]. match goal with H : _ = (z :: l1) ++ l2 |- _ => cbn [app] in H; injection H as <- _ end. apply walk_more; assumption.
Qed.
(** Going on to larger numbers. *)
Lemma walk_up : forall l x y, walk m (x :: y :: l) -> (x < y)%nat -> forall z, In z (y :: l) -> (x < z)%nat.
Proof.
  induction l as [|w l IH]; intros x y W K z I.
  - destruct I as [<-|[]]. exact K.
  - destruct I as [<-|I]; [exact K|]. assert (L : (y < w)%nat).
    { inversion W; subst. match goal with H1 : walk m (y :: w :: l), H2 : neighbours m y x |- _ => pose proof (nb_sym _ _ (walk_nb _ _ _ H1)) as N1; pose proof H2 as N2 end.
      destruct (Nat.lt_trichotomy w y) as [C|[C|C]]; [exfalso|exfalso; subst w; exact (nb_irrefl y N1)|exact C]. assert (x = w) by (apply (ONE x y w); assumption). contradiction. }
    pose proof (IH y w (walk_tail _ _ _ W) L z I). lia.
Qed.
Lemma walk_up_back : forall l x y z, walk m (l ++ [y; z]) -> (z < y)%nat -> In x (l ++ [y]) -> (z < x)%nat.
Proof.
  induction l as [|w l IH]; intros x y z W K I; cbn [app] in *.
  - destruct I as [<-|[]]. exact K.
  - destruct I as [<-|I].
    + (* the head is larger than the one after it *)
      assert (G : forall l w, walk m (w :: l ++ [y; z]) -> (hd 0%nat (l ++ [y; z]) < w)%nat /\ (z < hd 0%nat (l ++ [y; z]))%nat).
      { clear IH W l w. induction l as [|u l IH]; intros w W; cbn [app hd] in *.
        - split; [|exact K]. inversion W; subst. destruct (Nat.lt_trichotomy w y) as [C|[C|C]]; [exfalso| |exact C].
          + assert (w = z); [apply (ONE w y z); try assumption; match goal with H : walk m [y; z] |- _ => exact (nb_sym _ _ (walk_nb _ _ _ H)) end|contradiction].
          + exfalso. subst w. match goal with H : neighbours m y y |- _ => exact (nb_irrefl y H) end.
        - destruct (IH u (walk_tail _ _ _ W)) as [I1 I2]. split; [|lia].
          assert (N2 : neighbours m u w) by (exact (walk_nb _ _ _ W)).
          destruct (l ++ [y; z]) as [|v q] eqn:El; [destruct l; discriminate|]. cbn [hd] in I1, I2. pose proof (nb_sym _ _ (walk_nb _ _ _ (walk_tail _ _ _ W))) as N1'.
          destruct (Nat.lt_trichotomy w u) as [C|[C|C]]; [exfalso|exfalso; subst w; exact (nb_irrefl u N2)|exact C].
          assert (E : w = v) by (apply (ONE w u v); assumption). subst v. inversion W; subst; contradiction. }
      destruct (G l w W) as [G1 G2]. lia.
    + destruct l as [|u l]; cbn [app] in *; apply walk_tail in W; exact (IH x y z W K I).
Qed.
Lemma no_closed_walk : forall n l x, (length l <= n)%nat -> ~ walk m (x :: l ++ [x]).
Proof.
  induction n as [|n IH]; intros l x Hn W.
  - destruct l; [|cbn in Hn; lia]. cbn [app] in W. exact (nb_irrefl x (walk_nb _ _ _ W)).
  - destruct l as [|y l]; [cbn [app] in W; exact (nb_irrefl x (walk_nb _ _ _ W))|]. cbn [app] in W.
    destruct (exists_last (l := y :: l) ltac:(discriminate)) as (l' & z & E).
    assert (YX : (y < x)%nat).
    { destruct (Nat.lt_trichotomy y x) as [C|[C|C]]; [exact C|exfalso; subst y; exact (nb_irrefl x (walk_nb _ _ _ W))|exfalso].
      pose proof (walk_up _ _ _ W C x) as K. assert (I : In x (y :: l ++ [x])) by (right; apply in_or_app; right; left; reflexivity). specialize (K I). lia. }
    assert (W2 : walk m ((x :: l') ++ [z; x])) by (change (walk m (x :: l' ++ [z; x])); replace (l' ++ [z; x]) with (y :: l ++ [x]); [exact W|]; rewrite app_comm_cons, E, <- app_assoc; reflexivity).
    assert (NZ : neighbours m x z) by (apply walk_suffix in W2; exact (walk_nb _ _ _ W2)).
    assert (ZX : (z < x)%nat).
    { destruct (Nat.lt_trichotomy z x) as [C|[C|C]]; [exact C|exfalso; subst z; exact (nb_irrefl x NZ)|exfalso].
      pose proof (walk_up_back (x :: l') x z x W2 C (or_introl eq_refl)). lia. }
    assert (YZ : y = z) by (apply (ONE y x z); [exact (nb_sym _ _ (walk_nb _ _ _ W))|exact NZ|exact YX|exact ZX]).
    destruct l' as [|y' l'].
    + injection E as -> ->. cbn [app] in W. inversion W; subst. contradiction.
    + injection E as <- ->. subst z. apply (IH l' y); [cbn [length] in Hn; rewrite app_length in Hn; cbn in Hn; lia|].
      assert (W3 : walk m ((y :: l' ++ [y]) ++ [x])) by (exact (walk_tail _ _ _ W)). exact (walk_prefix _ _ _ W3).
Qed.
Lemma tree_no_cycle : no_cycle m.
Proof.
  intro l. induction l as [|x l IH]; intro W; [constructor|].
  assert (NDl : NoDup l) by (destruct l as [|y l]; [constructor|exact (IH (walk_tail _ _ _ W))]). constructor; [|exact NDl].
  intro I. apply in_split in I. destruct I as (l1 & l2 & ->). apply (no_closed_walk _ l1 x (le_n _)).
  replace (x :: l1 ++ x :: l2) with ((x :: l1 ++ [x]) ++ l2) in W by (cbn [app]; rewrite <- app_assoc; reflexivity). exact (walk_prefix _ _ _ W).
Qed.
End Tree.
