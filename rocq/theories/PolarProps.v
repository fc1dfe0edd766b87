(** C121: conversion between Cartesian and polar coordinates. *)
From Verif Require Import RBase AngleModel AngleSpec AngleProof PolarModel PolarSpec PolarProof.
From Coq Require Import Lia.

(** A polar point becomes the Cartesian point it describes. *)
Theorem C121_to_cartesian : forall p, (2 <= length p)%nat ->
  exists x, transform Polar Cartesian p = Some x /\ polar_of p x.
Proof. exact to_cartesian_ok. Qed.
Print Assumptions C121_to_cartesian.

(** A Cartesian point becomes the one canonical polar point that describes it; its radius is the
    distance from the origin. *)
Theorem C121_to_polar : forall x, (2 <= length x)%nat ->
  exists p, transform Cartesian Polar x = Some p /\ canonical p /\ polar_of p x /\ nth 0 p 0 = rnorm x /\
  forall q, canonical q -> polar_of q x -> q = p.
Proof.
  intros x H. destruct (to_polar_ok x H) as (p & E & C & O & N & _). exists p. repeat (split; [assumption|]).
  intros q Cq Oq. assert (L : (2 <= length q)%nat) by (destruct Oq as [-> _]; exact H).
  pose proof (polar_back q x L Cq (polar_of_unique q x L Oq)) as E'. change (transform Cartesian Polar x) with (cartesian_to_polar x) in E. congruence.
Qed.
Print Assumptions C121_to_polar.

(** There and back: every Cartesian point comes back, and so does every canonical polar point. *)
Theorem C121_round_trip : forall x p, (2 <= length x)%nat -> (2 <= length p)%nat ->
  (transform Cartesian Polar x = Some p -> transform Polar Cartesian p = Some x) /\
  (canonical p -> transform Polar Cartesian p = Some x -> transform Cartesian Polar x = Some p).
Proof.
  intros x p Hx Hp. split.
  - intro E. destruct (to_polar_ok x Hx) as (p' & E' & _ & _ & _ & B). cbn in E. rewrite E' in E. injection E as <-. exact B.
  - apply polar_back, Hp.
Qed.
Print Assumptions C121_round_trip.

(** A coordinate asked for in another frame is that coordinate of the converted point, and a point
    converted to its own frame or to or from the neutral one keeps its coordinates. *)
Theorem C121_access : forall o d k p x,
  (transform o d p = Some x -> transform_coordinate o d k p = nth_error x k) /\
  (o = d \/ o = Neutral \/ d = Neutral -> transform o d p = Some p).
Proof.
  intros o d k p x. split.
  - destruct o, d; cbn; intro E; try (injection E as <-; reflexivity); rewrite E; reflexivity.
  - intros [->|[->| ->]]; destruct d || destruct o; try destruct d; reflexivity.
Qed.
Print Assumptions C121_access.

(** The neutral frame forgets which frame its coordinates come from: a Cartesian point passed to
    polar through a neutral one has other coordinates. *)
Theorem C121_neutral_refuted : exists x y p,
  transform Cartesian Neutral x = Some y /\ transform Neutral Polar y = Some p /\ ~ polar_of p x.
Proof.
  exists [0; 1], [0; 1], [0; 1]. split; [reflexivity|]. split; [reflexivity|]. intros [_ H].
  specialize (H 1%nat ltac:(cbn; lia)). unfold coordinate in H. cbn in H. lra.
Qed.
Print Assumptions C121_neutral_refuted.

(** With integer coordinates the angle is cut to whole radians, even where the Cartesian point has
    integer coordinates and the radius is exact. *)
Theorem C121_integer_refuted : exists x p, cartesian_to_polar_int x = Some p /\ ~ polar_of (map IZR p) (map IZR x).
Proof.
  exists [0; 1]%Z, [1; 1]%Z. pose proof PI2_3_2 as P2.
  assert (P4 : PI / 4 < 1).
  { pose proof (PI_ineq 1) as [_ U]. unfold tg_alt, PI_tg in U. cbn in U. lra. }
  split.
  - unfold cartesian_to_polar_int. cbn [map cartesian_to_polar upper_angles].
    replace (0 + 0 * 0 + 1 * 1) with 1 by ring. rewrite sqrt_1.
    assert (A : atan2 1 0 = PI / 2).
    { unfold atan2. destruct (Rltb_spec 0 0); [lra|]. destruct (Rltb_spec 0 1); [reflexivity|lra]. }
    rewrite A. unfold to_int.
    destruct (Rltb_spec 1 0); [lra|]. destruct (Rltb_spec (PI / 2) 0); [lra|].
    assert (I : forall t, 1 <= t < 2 -> Int_part t = 1%Z).
    { intros t Ht. pose proof (base_Int_part t) as [B1 B2].
      assert (0 < Int_part t)%Z by (apply lt_IZR; lra). assert (Int_part t < 2)%Z by (apply lt_IZR; lra). lia. }
    rewrite !I by lra. reflexivity.
  - intros [_ H]. specialize (H 0%nat ltac:(cbn; lia)). unfold coordinate in H. cbn in H.
    assert (0 < cos 1) by (apply cos_gt_0; lra). lra.
Qed.
Print Assumptions C121_integer_refuted.

(** A point of dimension 3 and a canonical polar point. *)
Example C121_witness :
  (exists p, transform Cartesian Polar [1; 0; 0] = Some p /\ canonical p /\ p = [1; 0; PI / 2]) /\
  polar_of [1; 0; PI / 2] [1; 0; 0].
Proof.
  pose proof PI_RGT_0 as P.
  assert (O : polar_of [1; 0; PI / 2] [1; 0; 0]).
  { split; [reflexivity|]. intros k Hk. unfold coordinate. destruct k as [|[|[|k]]]; cbn in *; [| | |lia];
      rewrite ?sin_PI2, ?cos_PI2, ?cos_0, ?sin_0; ring. }
  split; [|exact O].
  destruct (C121_to_polar [1; 0; 0]) as (p & E & C & _ & _ & U); [cbn; lia|].
  exists p. split; [exact E|]. split; [exact C|]. symmetry. apply U; [|exact O].
  split; [cbn; lra|]. split; [cbn; lra|]. split.
  - intros [|[|[|k]]] Hk; cbn in *; try lia. lra.
  - intros [|[|[|k]]] Hk Hz; cbn in *; try lia; lra.
Qed.
