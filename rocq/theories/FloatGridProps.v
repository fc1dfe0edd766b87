(** C139: grids on doubles. *)
From Coq Require Import Reals Floats ZArith Lra Lia Bool List.
Require Import Flocq.Core.Core.
From Verif Require Import FloatModel FloatSpec FloatProof FloatProof2 FloatProof3 FloatPolyModel FloatPolySpec FloatGridModel FloatGridSpec FloatGridProof FloatGridProof2.
From Coq Require Import Lra.
Import ListNotations.
Local Open Scope R_scope.

Lemma built_fields : forall xmin xmax ymin ymax w g, built xmin xmax ymin ymax w g ->
  h_xmin g = xmin /\ h_xmax g = xmax /\ h_ymin g = ymin /\ h_ymax g = ymax /\ h_width g = w /\ h_divisor g = (1 / w)%float /\
  exists nx ny, fto_uint32 ((xmax - xmin) * (1 / w))%float = Some nx /\ fto_uint32 ((ymax - ymin) * (1 / w))%float = Some ny /\
    h_nx g = ((nx + 1) mod 2 ^ 32)%Z /\ h_ny g = ((ny + 1) mod 2 ^ 32)%Z.
Proof.
  intros xmin xmax ymin ymax w g (_ & _ & _ & _ & _ & _ & _ & _ & H). unfold make_fgrid in H. cbv zeta in H.
  destruct (fto_uint32 ((xmax - xmin) * (1 / w))) as [nx|] eqn:E1; [|discriminate]. destruct (fto_uint32 ((ymax - ymin) * (1 / w))) as [ny|] eqn:E2; [|discriminate].
  injection H as <-. cbn. repeat split. exists nx, ny. repeat split.
Qed.
Lemma limit_range : forall v n, fto_uint32 v = Some n -> (0 <= n < 2 ^ 32)%Z.
Proof.
  intros v n H. destruct (to_uint32_some _ _ H) as (F & [A B] & ->). split.
  - destruct (Rle_or_lt 0 (val v)) as [P|P]; [rewrite <- (Ztrunc_IZR 0); apply Ztrunc_le; exact P|]. rewrite Ztrunc_ceil by lra.
    assert (K : Zceil (val v) = 0%Z) by (apply Zceil_imp; cbn; lra). rewrite K. lia.
  - apply lt_IZR. destruct (Rle_or_lt 0 (val v)) as [P|P].
    + rewrite Ztrunc_floor by lra. pose proof (Zfloor_lb (val v)). change (IZR (2 ^ 32)) with 4294967296. lra.
    + rewrite Ztrunc_ceil by lra. assert (K : Zceil (val v) = 0%Z) by (apply Zceil_imp; cbn; lra). rewrite K. change (IZR (2 ^ 32)) with 4294967296. lra.
Qed.
Lemma below_wrapped : forall i n, (0 <= n < 2 ^ 32 -> 0 <= i <= n -> (n + 1) mod 2 ^ 32 <> 0 -> 0 <= i < (n + 1) mod 2 ^ 32)%Z.
Proof.
  intros i n N I H. destruct (Z.eq_dec (n + 1) (2 ^ 32)) as [E|E]; [rewrite E in H; exfalso; apply H; reflexivity|]. rewrite Z.mod_small by lia. lia.
Qed.

Lemma mul_finite_inv : forall x y, finite (x * y)%float -> finite x /\ finite y.
Proof.
  intros x y H. rewrite !finite_B. apply finite_B in H. rewrite PrimFloat.mul_equiv in H.
  destruct (PrimFloat.Prim2B x), (PrimFloat.Prim2B y); try discriminate H; split; reflexivity.
Qed.
Lemma index_le : forall lo x y d i j, finite lo -> finite x -> finite y -> not_negative d -> val x <= val y ->
  fto_uint32 ((x - lo) * d)%float = Some i -> fto_uint32 ((y - lo) * d)%float = Some j -> (i <= j)%Z.
Proof.
  intros lo x y d i j LO X Y D L EI EJ. destruct (to_uint32_some _ _ EI) as (FI & _ & ->). destruct (to_uint32_some _ _ EJ) as (FJ & _ & ->).
  destruct (mul_finite_inv _ _ FI) as [FX FD]. destruct (mul_finite_inv _ _ FJ) as [FY _].
  assert (VD : 0 <= val d) by (destruct D as [ [_ V]|D]; [exact V|rewrite val_B2R, D; apply Rle_refl]).
  apply Ztrunc_le. rewrite (finite_result _ _ (mul_result _ _ FX FD) FI), (finite_result _ _ (mul_result _ _ FY FD) FJ).
  rewrite (finite_result _ _ (sub_result _ _ X LO) FX), (finite_result _ _ (sub_result _ _ Y LO) FY).
  apply rnd_le, Rmult_le_compat_r; [exact VD|]. apply rnd_le. lra.
Qed.

(** A contained point has an index in each direction, below the number of cells, whatever is rounded. *)
Theorem C139_index_in_range : forall xmin xmax ymin ymax w g p, built xmin xmax ymin ymax w g -> fcontained g p = true ->
  exists i j, fx_index g (fx p) = Some i /\ fy_index g (fy p) = Some j /\
    (h_nx g <> 0%Z -> (0 <= i < h_nx g)%Z) /\ (h_ny g <> 0%Z -> (0 <= j < h_ny g)%Z).
Proof.
  intros xmin xmax ymin ymax w g p B C. pose proof (built_fields _ _ _ _ _ _ B) as (E1 & E2 & E3 & E4 & E5 & E6 & nx & ny & EX & EY & NX & NY).
  destruct B as (F1 & F2 & F3 & F4 & FW & L1 & L2 & P & _). unfold fcontained in C. rewrite E1, E2, E3, E4 in C. apply andb_true_iff in C. destruct C as [C C4]. apply andb_true_iff in C. destruct C as [C C3]. apply andb_true_iff in C. destruct C as [C1 C2].
  destruct (between_finite _ _ _ F1 F2 C1 C2) as [GX BX]. destruct (between_finite _ _ _ F3 F4 C3 C4) as [GY BY].
  destruct (index_mono _ _ _ _ _ F1 GX F2 (divisor_not_negative w FW P) BX L1 EX) as (i & I1 & I2).
  destruct (index_mono _ _ _ _ _ F3 GY F4 (divisor_not_negative w FW P) BY L2 EY) as (j & J1 & J2).
  exists i, j. unfold fx_index, fy_index. rewrite E1, E3, E6, NX, NY. split; [exact I1|]. split; [exact J1|].
  split; intro H; apply below_wrapped; try assumption; [exact (limit_range _ _ EX)|exact (limit_range _ _ EY)].
Qed.
(** Hence the cell of a contained point is one of the array. *)
Theorem C139_cell_exists : forall D (d0 : D) xmin xmax ymin ymax w g p, built xmin xmax ymin ymax w g -> fcontained g p = true ->
  h_nx g <> 0%Z -> h_ny g <> 0%Z -> fget_cell D g (fdense_new D g d0) p = Some d0.
Proof.
  intros D d0 xmin xmax ymin ymax w g p B C NX NY. destruct (C139_index_in_range _ _ _ _ _ _ _ B C) as (i & j & EI & EJ & I & J). specialize (I NX). specialize (J NY).
  assert (R : forall (A : Type) (a : A) n k, (k < n)%nat -> nth_error (repeat a n) k = Some a).
  { intros A a n. induction n as [|n IH]; intros [|k] H; [lia|lia|reflexivity|]. cbn. apply IH. lia. }
  unfold fget_cell, fdense_new. rewrite EI, EJ, R by lia. apply R. lia.
Qed.
(** A coordinate that is not smaller has no smaller index. *)
Theorem C139_monotone : forall xmin xmax ymin ymax w g x y i j, built xmin xmax ymin ymax w g -> finite x -> finite y -> val x <= val y ->
  (fx_index g x = Some i -> fx_index g y = Some j -> (i <= j)%Z) /\ (fy_index g x = Some i -> fy_index g y = Some j -> (i <= j)%Z).
Proof.
  intros xmin xmax ymin ymax w g x y i j B X Y L. pose proof (built_fields _ _ _ _ _ _ B) as (E1 & E2 & E3 & E4 & E5 & E6 & _).
  destruct B as (F1 & F2 & F3 & F4 & FW & L1 & L2 & P & _). pose proof (divisor_not_negative w FW P) as D.
  unfold fx_index, fy_index. rewrite E1, E3, E6. split; intros EI EJ; [exact (index_le _ _ _ _ _ _ F1 X Y D L EI EJ)|exact (index_le _ _ _ _ _ _ F3 X Y D L EI EJ)].
Qed.
(** For cell widths from 2^-1000 to 2^1000 the exact position, in cells, is that of the index but for a part of 2^-50. *)
Theorem C139_index_close : forall xmin xmax ymin ymax w g x i, built xmin xmax ymin ymax w g -> powerRZ 2 (-1000) <= val w <= powerRZ 2 1000 -> finite x ->
  (val xmin <= val x -> fx_index g x = Some i -> let c := (val x - val xmin) / val w in
     IZR i - (c * powerRZ 2 (-50) + powerRZ 2 (-1075)) <= c < IZR i + 1 + (c * powerRZ 2 (-50) + powerRZ 2 (-1075))) /\
  (val ymin <= val x -> fy_index g x = Some i -> let c := (val x - val ymin) / val w in
     IZR i - (c * powerRZ 2 (-50) + powerRZ 2 (-1075)) <= c < IZR i + 1 + (c * powerRZ 2 (-50) + powerRZ 2 (-1075))).
Proof.
  assert (K : forall lo w x i, finite lo -> finite w -> finite x -> powerRZ 2 (-1000) <= val w <= powerRZ 2 1000 -> val lo <= val x -> fto_uint32 ((x - lo) * (1 / w))%float = Some i ->
    let c := (val x - val lo) / val w in IZR i - (c * powerRZ 2 (-50) + powerRZ 2 (-1075)) <= c < IZR i + 1 + (c * powerRZ 2 (-50) + powerRZ 2 (-1075))).
  { intros lo w x i LO W X HW L E c. destruct (to_uint32_some _ _ E) as (F & [V1 V2] & ->). pose proof (scaled_close lo x w LO X W HW L F) as C. cbv zeta in C. fold c in C.
    assert (E1 : powerRZ 2 (-50) = 8 * unit_error).
    { unfold unit_error. change 2 with (IZR Zaux.radix2). rewrite <- bpow_powerRZ. change (-50)%Z with (3 + -53)%Z. rewrite bpow_plus. replace (bpow Zaux.radix2 3) with 8 by (cbn; lra). reflexivity. }
    assert (E2 : powerRZ 2 (-1075) = tiny) by (unfold tiny; change 2 with (IZR Zaux.radix2); rewrite <- bpow_powerRZ; reflexivity).
    rewrite E1, E2. assert (FS : finite (x - lo)%float) by (apply (mul_finite_inv _ _ F)).
    assert (FD : finite (1 / w)%float) by (apply (mul_finite_inv _ _ F)).
    assert (WP : 0 < val w) by (change 2 with (IZR Zaux.radix2) in HW; rewrite <- !bpow_powerRZ in HW; pose proof (bpow_gt_0 Zaux.radix2 (-1000)); lra).
    assert (NN : 0 <= val ((x - lo) * (1 / w))%float).
    { rewrite (finite_result _ _ (mul_result _ _ FS FD) F), <- rnd_0. apply rnd_le, Rmult_le_pos.
      - rewrite (finite_result _ _ (sub_result _ _ X LO) FS), <- rnd_0. apply rnd_le. lra.
      - destruct (divisor_not_negative w W WP) as [ [_ D]|D]; [exact D|rewrite val_B2R, D; apply Rle_refl]. }
    rewrite Ztrunc_floor by exact NN. pose proof (Zfloor_lb (val ((x - lo) * (1 / w))%float)). pose proof (Zfloor_ub (val ((x - lo) * (1 / w))%float)).
    apply Rabs_le_inv in C. lra. }
  intros xmin xmax ymin ymax w g x i B HW X. pose proof (built_fields _ _ _ _ _ _ B) as (E1 & E2 & E3 & E4 & E5 & E6 & _).
  destruct B as (F1 & F2 & F3 & F4 & FW & _). unfold fx_index, fy_index. rewrite E1, E3, E6. split; intros L E; apply K; assumption.
Qed.
(** The centre of a cell has the indices of the cell, when the origin is at most 2^40 cells away from zero. *)
Theorem C139_centroid : forall xmin xmax ymin ymax w g i j, built xmin xmax ymin ymax w g -> powerRZ 2 (-900) <= val w <= powerRZ 2 900 ->
  Rabs (val xmin) <= powerRZ 2 40 * val w -> Rabs (val ymin) <= powerRZ 2 40 * val w -> (0 <= i < 2 ^ 32)%Z -> (0 <= j < 2 ^ 32)%Z ->
  fx_index g (fx (fcell_centroid g i j)) = Some i /\ fy_index g (fy (fcell_centroid g i j)) = Some j.
Proof.
  intros xmin xmax ymin ymax w g i j B HW HX HY I J. pose proof (built_fields _ _ _ _ _ _ B) as (E1 & E2 & E3 & E4 & E5 & E6 & _).
  destruct B as (F1 & F2 & F3 & F4 & FW & _). unfold fx_index, fy_index, fcell_centroid. cbn [fx fy]. rewrite E1, E3, E5, E6. split; apply centre_index; assumption.
Qed.
(** A contained point can lie outside the box reported for its cell, *)
Definition tenth_grid : fgrid := mkfgrid 0 1 0 1 0x1.999999999999ap-4 10 11 11.
Lemma tenth_built : built 0 1 0 1 0x1.999999999999ap-4 tenth_grid.
Proof.
  assert (V : 0 < val 0x1.999999999999ap-4%float) by (rewrite (val_bpow 0x1.999999999999ap-4%float false 7205759403792794 (-56)) by reflexivity; apply Rmult_lt_0_compat; [lra|apply bpow_gt_0]).
  unfold built. rewrite zero_val, val_one. repeat split; try reflexivity; try lra; try exact V. 
Qed.
Theorem C139_in_cell_refuted : exists xmin xmax ymin ymax w g p i j, built xmin xmax ymin ymax w g /\ fcontained g p = true /\
  fx_index g (fx p) = Some i /\ fy_index g (fy p) = Some j /\ ~ inside_box (fst (fcell_aabb g i j)) (snd (fcell_aabb g i j)) p.
Proof.
  exists 0%float, 1%float, 0%float, 1%float, 0x1.999999999999ap-4%float, tenth_grid, (mkfpt 0x1.3333333333333p-2 0x1.3333333333333p-2), 3%Z, 3%Z.
  split; [exact tenth_built|]. split; [reflexivity|]. split; [reflexivity|]. split; [reflexivity|]. intros [ [H _] _].
  change (fx (fst (fcell_aabb tenth_grid 3 3))) with 0x1.3333333333334p-2%float in H. cbn [fx] in H.
  rewrite (val_bpow 0x1.3333333333334p-2%float false 5404319552844596 (-54)) in H by reflexivity. rewrite (val_bpow 0x1.3333333333333p-2%float false 5404319552844595 (-54)) in H by reflexivity.
  pose proof (bpow_gt_0 Zaux.radix2 (-54)). nra.
Qed.
(** and with 2^32 columns the number of columns wraps to zero, so that no contained point has a cell. *)
Theorem C139_columns_wrap_refuted : exists xmin xmax ymin ymax w g, built xmin xmax ymin ymax w g /\ h_nx g = 0%Z /\
  fcontained g (mkfpt xmin ymin) = true /\ forall D (d0 : D) p, fget_cell D g (fdense_new D g d0) p = None.
Proof.
  exists 0%float, 4294967295%float, 0%float, 1%float, 1%float, (mkfgrid 0 4294967295 0 1 1 1 0 2).
  split; [|split; [reflexivity|split; [reflexivity|] ] ].
  - assert (V : val 4294967295%float = 4294967295) by (rewrite (val_bpow 4294967295%float false 9007199252643840 (-21)) by reflexivity; cbn; lra).
    unfold built. rewrite zero_val, val_one, V. repeat split; try reflexivity; lra.
  - intros D d0 p. unfold fget_cell. destruct (fx_index _ _) as [i|]; [|reflexivity]. destruct (fy_index _ _) as [j|]; [|reflexivity].
    change (fdense_new D (mkfgrid 0 4294967295 0 1 1 1 0 2) d0) with (@nil (list D)). destruct (Z.to_nat i); reflexivity.
Qed.
(** Likewise for the rows. *)
Theorem C139_rows_wrap_refuted : exists xmin xmax ymin ymax w g, built xmin xmax ymin ymax w g /\ h_ny g = 0%Z /\
  fcontained g (mkfpt xmin ymin) = true /\ forall D (d0 : D) p, fget_cell D g (fdense_new D g d0) p = None.
Proof.
  exists 0%float, 1%float, 0%float, 4294967295%float, 1%float, (mkfgrid 0 1 0 4294967295 1 1 2 0).
  split; [|split; [reflexivity|split; [reflexivity|] ] ].
  - assert (V : val 4294967295%float = 4294967295) by (rewrite (val_bpow 4294967295%float false 9007199252643840 (-21)) by reflexivity; cbn; lra).
    unfold built. rewrite zero_val, val_one, V. repeat split; try reflexivity; lra.
  - intros D d0 p. unfold fget_cell. destruct (fx_index _ _) as [i|]; [|reflexivity]. destruct (fy_index _ _) as [j|]; [|reflexivity].
    change (fdense_new D (mkfgrid 0 1 0 4294967295 1 1 2 0) d0) with [@nil D; @nil D]. destruct (Z.to_nat i) as [|[|n] ]; cbn; [destruct (Z.to_nat j); reflexivity|destruct (Z.to_nat j); reflexivity|destruct n; reflexivity].
Qed.
(** The boxes reported for the cells fit together: the first starts at the origin of the grid, and the upper corner of a
    cell is the lower corner of the next one along the diagonal, the very same doubles. *)
Theorem C139_cells_tile : forall xmin xmax ymin ymax w g, built xmin xmax ymin ymax w g ->
  (let o := fst (fcell_aabb g 0 0) in finite (fx o) /\ finite (fy o) /\ val (fx o) = val xmin /\ val (fy o) = val ymin) /\
  (forall i j, (0 <= i)%Z -> (i + 1 < 2 ^ 32)%Z -> (0 <= j)%Z -> (j + 1 < 2 ^ 32)%Z -> snd (fcell_aabb g i j) = fst (fcell_aabb g (i + 1) (j + 1))) /\
  (forall i j j', fx (fst (fcell_aabb g i j)) = fx (fst (fcell_aabb g i j'))) /\ (forall i i' j, fy (fst (fcell_aabb g i j)) = fy (fst (fcell_aabb g i' j))).
Proof.
  intros xmin xmax ymin ymax w g B. pose proof (built_fields _ _ _ _ _ _ B) as (E1 & E2 & E3 & E4 & E5 & E6 & _).
  destruct B as (F1 & F2 & F3 & F4 & FW & _). split.
  - assert (K : forall lo, finite lo -> finite (lo + of_index 0 * w)%float /\ val (lo + of_index 0 * w)%float = val lo).
    { intros lo FL. destruct (index_whole 0 ltac:(lia)) as [FZ VZ].
      assert (R1 : finite (of_index 0 * w)%float /\ val (of_index 0 * w)%float = 0).
      { destruct (result_small _ _ (mul_result _ _ FZ FW)) as [A C]; rewrite VZ, Rmult_0_l, rnd_0 in *; [rewrite Rabs_R0; apply bpow_gt_0|split; assumption]. }
      destruct R1 as [FP VP]. pose proof (add_result _ _ FL FP) as R. rewrite VP, Rplus_0_r in R.
      assert (G : rnd (val lo) = val lo) by (apply rnd_val). 
      destruct (result_small _ _ R) as [A C]; rewrite G in *; [apply val_bound|split; assumption]. }
    unfold fcell_aabb. cbn [fst fx fy]. rewrite E1, E3, E5. destruct (K _ F1), (K _ F3). repeat split; assumption.
  - split; [|split; reflexivity]. intros i j I0 I1 J0 J1. unfold fcell_aabb. cbn [fst snd]. rewrite !Z.mod_small by lia. reflexivity.
Qed.
(** A corner is where it should be, up to a part of 2^-51 of the distances involved. *)
Theorem C139_corner_close : forall xmin xmax ymin ymax w g i j, built xmin xmax ymin ymax w g -> powerRZ 2 (-900) <= val w <= powerRZ 2 900 ->
  Rabs (val xmin) <= powerRZ 2 900 -> Rabs (val ymin) <= powerRZ 2 900 -> (0 <= i < 2 ^ 32)%Z -> (0 <= j < 2 ^ 32)%Z ->
  let c := fst (fcell_aabb g i j) in finite (fx c) /\ finite (fy c) /\
  Rabs (val (fx c) - (val xmin + IZR i * val w)) <= (Rabs (val xmin) + IZR i * val w) * powerRZ 2 (-51) /\
  Rabs (val (fy c) - (val ymin + IZR j * val w)) <= (Rabs (val ymin) + IZR j * val w) * powerRZ 2 (-51).
Proof.
  intros xmin xmax ymin ymax w g i j B HW HX HY I J. pose proof (built_fields _ _ _ _ _ _ B) as (E1 & E2 & E3 & E4 & E5 & E6 & _).
  destruct B as (F1 & F2 & F3 & F4 & FW & _). unfold fcell_aabb. cbn [fst fx fy]. rewrite E1, E3, E5.
  assert (K : forall lo k, finite lo -> Rabs (val lo) <= powerRZ 2 900 -> (0 <= k < 2 ^ 32)%Z ->
    finite (lo + of_index k * w)%float /\ Rabs (val (lo + of_index k * w)%float - (val lo + IZR k * val w)) <= (Rabs (val lo) + IZR k * val w) * powerRZ 2 (-51)).
  { intros lo k FL HL HK. apply corner_close; assumption. }
  destruct (K xmin i F1 HX I), (K ymin j F3 HY J). repeat split; assumption.
Qed.
Example C139_witness : built 0 1 0 1 0x1.999999999999ap-4 tenth_grid /\ fcontained tenth_grid (mkfpt 1 0x1p-1) = true /\
  fx_index tenth_grid 1 = Some 10%Z /\ fy_index tenth_grid 0x1p-1 = Some 5%Z /\ h_nx tenth_grid = 11%Z.
Proof. split; [exact tenth_built|]. repeat split. Qed.
Print Assumptions C139_index_in_range.
Print Assumptions C139_centroid.
