(** Random indices and integers, and colours from hue, saturation and value. *)
From Verif Require Import Base ColourModel ColourSpec.
From Coq Require Import ZArith Qround Qminmax Lia.

(** ** Random numbers *)
(** With the number of elements less one as limit, a random element is an element, and every element is possible. *)
Theorem C125_random_element : forall size r, (0 < size)%Z -> (random_element size (size - 1) r <-> exists x, (0 <= x < size)%Z /\ r = Some x).
Proof.
  intros size r S. unfold random_element, random_index, uniform_int. split.
  - intros (x & B & ->). exists x. split; [lia|]. destruct (Z.leb_spec x size); [reflexivity|lia].
  - intros (x & B & ->). exists x. split; [lia|]. destruct (Z.leb_spec x size); [reflexivity|lia].
Qed.
(** The interval documented for the index excludes the limit: it is returned. *)
Theorem C125_limit_refuted : forall size, (0 < size)%Z -> random_index size size /\ random_element size size (Some size).
Proof.
  intros size S. split; [unfold random_index, uniform_int; lia|]. exists size. split; [unfold random_index, uniform_int; lia|]. rewrite Z.leb_refl. reflexivity.
Qed.
(** A random integer below N: exactly the numbers 0..N-1; each of them comes from M/N or M/N + 1 of the M engine
    values, whatever N is. *)
Theorem C125_random_integer : forall N r, (0 < N <= size_max)%Z -> (random_integer N r <-> exists x, (0 <= x < N)%Z /\ r = Some x).
Proof.
  intros N r H. unfold random_integer, uniform_int. split.
  - intros (x & B & ->). destruct (Z.eqb_spec N 0); [lia|]. exists (x mod N)%Z. split; [apply Z.mod_pos_bound; lia|reflexivity].
  - intros (x & B & ->). exists x. split; [lia|]. destruct (Z.eqb_spec N 0); [lia|]. rewrite Z.mod_small by lia. reflexivity.
Qed.
Theorem C125_even : forall M N x, (0 < N)%Z -> (0 <= M)%Z -> (0 <= x < N)%Z -> exists K,
  (K = M / N \/ K = M / N + 1)%Z /\ forall e, (0 <= e < M)%Z -> ((e mod N = x)%Z <-> exists k, (0 <= k < K)%Z /\ (e = x + k * N)%Z).
Proof.
  intros M N x HN HM Hx. pose proof (Z.div_mod M N ltac:(lia)) as D. pose proof (Z.mod_pos_bound M N HN) as MB.
  exists (if (x <? M mod N) then M / N + 1 else M / N)%Z. split; [destruct (x <? M mod N)%Z; auto|].
  intros e He. split.
  - intro E. pose proof (Z.div_mod e N ltac:(lia)) as DE. assert (0 <= e / N)%Z by (apply Z.div_pos; lia).
    exists (e / N)%Z. split; [|rewrite E in DE; lia]. split; [assumption|]. destruct (Z.ltb_spec x (M mod N)); rewrite E in DE; nia.
  - intros (k & K & ->). rewrite Z.mod_add by lia. apply Z.mod_small. lia.
Qed.
Theorem C125_zero_refuted : forall r, random_integer 0 r -> r = None.
Proof. intros r (x & B & ->). reflexivity. Qed.

(** ** Colours *)
Lemma rem6_unique : forall x k k', rem6 x k -> rem6 x k' -> k == k'.
Proof.
  intros x k k' [B [c C]] [B' [c' C']]. assert (E : k + 6 * inject_Z c == k' + 6 * inject_Z c') by (rewrite <- C, <- C'; reflexivity).
  destruct (Z.lt_trichotomy c c') as [H|[H|H] ].
  - assert (inject_Z c + 1 <= inject_Z c') by (change 1 with (inject_Z 1); rewrite <- inject_Z_plus, <- Zle_Qle; lia). lra.
  - subst. lra.
  - assert (inject_Z c' + 1 <= inject_Z c) by (change 1 with (inject_Z 1); rewrite <- inject_Z_plus, <- Zle_Qle; lia). lra.
Qed.
Lemma to_uint8_level : forall c, 0 <= c -> c <= 1 -> exists x, to_uint8 (c * 255) = Some x /\ level c x.
Proof.
  intros c H0 H1. unfold to_uint8, truncate. assert (Qleb 0 (c * 255) = true) as -> by (apply Qleb_le; lra).
  pose proof (Qfloor_le (c * 255)) as F1. pose proof (Qlt_floor (c * 255)) as F2. rewrite inject_Z_plus in F2. change (inject_Z 1) with 1 in F2.
  assert (0 <= Qfloor (c * 255))%Z. { assert (Qfloor (inject_Z 0) <= Qfloor (c * 255))%Z as K by (apply Qfloor_resp_le; change (inject_Z 0) with 0; lra). rewrite Qfloor_Z in K. exact K. }
  assert (Qfloor (c * 255) <= 255)%Z. { assert (Qfloor (c * 255) <= Qfloor (inject_Z 255))%Z as K by (apply Qfloor_resp_le; change (inject_Z 255) with 255; lra). rewrite Qfloor_Z in K. exact K. }
  exists (Qfloor (c * 255)). split; [|split; assumption]. destruct (Z.leb_spec 0 (Qfloor (c * 255))); [|lia]. destruct (Z.leb_spec (Qfloor (c * 255)) 255); [reflexivity|lia].
Qed.
Lemma hexcone : forall k : Q, 
  (0 <= k <= 1 -> Qmax 0 (Qmin k (Qmin (4 - k) 1)) == k) /\ (1 <= k <= 3 -> Qmax 0 (Qmin k (Qmin (4 - k) 1)) == 1) /\
  (3 <= k <= 4 -> Qmax 0 (Qmin k (Qmin (4 - k) 1)) == 4 - k) /\ (4 <= k -> Qmax 0 (Qmin k (Qmin (4 - k) 1)) == 0).
Proof.
  intro k. destruct (Q.min_spec (4 - k) 1) as [[A1 A2]|[A1 A2] ]; destruct (Q.min_spec k (Qmin (4 - k) 1)) as [[B1 B2]|[B1 B2] ];
  destruct (Q.max_spec 0 (Qmin k (Qmin (4 - k) 1))) as [[C1 C2]|[C1 C2] ]; repeat split; intros; rewrite C2; try rewrite B2; try rewrite A2; rewrite ?B2, ?A2 in *; lra.
Qed.
Lemma channel_of : forall n h s v c k, rem6 (inject_Z n + 6 * h) k -> c == v - v * s * Qmax 0 (Qmin k (Qmin (4 - k) 1)) -> forall c', channel n h s v c' <-> c' == c.
Proof.
  intros n h s v c k R E c'. split.
  - intros (k' & R' & E'). pose proof (rem6_unique _ _ _ R R') as K. rewrite E', E. rewrite K. reflexivity.
  - intro H. exists k. split; [exact R|]. rewrite H, E. reflexivity.
Qed.

(** The colour is the one of the usual formula, for every hue from 0 on. *)
Theorem C125_hsv : forall h s v, 0 <= h -> 0 <= s <= 1 -> 0 <= v <= 1 -> exists r g b xr xg xb,
  hsv2rgb h s v = Some (255%Z, xr, xg, xb) /\ channel 5 h s v r /\ channel 3 h s v g /\ channel 1 h s v b /\ level r xr /\ level g xg /\ level b xb.
Proof.
  intros h s v H0 S V. unfold hsv2rgb. set (i := Qfloor (h * 6)). set (f := h * 6 - inject_Z i).
  assert (F : 0 <= f < 1). { unfold f, i. pose proof (Qfloor_le (h * 6)) as F1. pose proof (Qlt_floor (h * 6)) as F2. rewrite inject_Z_plus in F2. change (inject_Z 1) with 1 in F2. lra. }
  assert (I0 : (0 <= i)%Z). { assert (Qfloor (inject_Z 0) <= i)%Z as K by (apply Qfloor_resp_le; change (inject_Z 0) with 0; lra). rewrite Qfloor_Z in K. exact K. }
  assert (E : 6 * h == inject_Z i + f) by (unfold f; ring). clearbody f. rewrite Z.rem_mod_nonneg by lia.
  pose proof (Z.div_mod i 6 ltac:(lia)) as D. pose proof (Z.mod_pos_bound i 6 ltac:(lia)) as MB. set (j := (i mod 6)%Z) in *. set (c := (i / 6)%Z) in *. clearbody j c i.
  assert (E' : 6 * h == 6 * inject_Z c + inject_Z j + f) by (rewrite E, D, inject_Z_plus, inject_Z_mult; reflexivity). clear E D I0.
  assert (CH : forall n k (d : Z) x, inject_Z n + inject_Z j + f == k + 6 * inject_Z d -> 0 <= k < 6 -> x == v - v * s * Qmax 0 (Qmin k (Qmin (4 - k) 1)) -> channel n h s v x).
  { intros n k d x K B X. exists k. split; [split; [exact B|]|exact X]. exists (c + d)%Z. rewrite E', inject_Z_plus. lra. }
  assert (GO : forall r g b, channel 5 h s v r -> channel 3 h s v g -> channel 1 h s v b -> 0 <= r <= 1 -> 0 <= g <= 1 -> 0 <= b <= 1 ->
    exists r0 g0 b0 xr xg xb, match to_uint8 (r * 255), to_uint8 (g * 255), to_uint8 (b * 255) with Some r', Some g', Some b' => Some (255%Z, r', g', b') | _, _, _ => None end = Some (255%Z, xr, xg, xb) /\
      channel 5 h s v r0 /\ channel 3 h s v g0 /\ channel 1 h s v b0 /\ level r0 xr /\ level g0 xg /\ level b0 xb).
  { intros r g b C1 C2 C3 R1 R2 R3. destruct (to_uint8_level r) as (xr & -> & L1); try lra. destruct (to_uint8_level g) as (xg & -> & L2); try lra. destruct (to_uint8_level b) as (xb & -> & L3); try lra.
    exists r, g, b, xr, xg, xb. repeat split; first [assumption | apply L1 | apply L2 | apply L3]. }
  assert (HX := hexcone).
  assert (B1 : 0 <= v * (1 - s) <= 1) by nra. assert (FS : 0 <= f * s <= 1) by nra. assert (GS : 0 <= (1 - f) * s <= 1) by nra.
  assert (B2 : 0 <= v * (1 - f * s) <= 1) by nra. assert (B3 : 0 <= v * (1 - (1 - f) * s) <= 1) by nra.
  assert (J : (j = 0 \/ j = 1 \/ j = 2 \/ j = 3 \/ j = 4 \/ j = 5)%Z) by lia.
  assert (ONE : forall k, 1 <= k <= 3 -> v * (1 - s) == v - v * s * Qmax 0 (Qmin k (Qmin (4 - k) 1))) by (intros k K; rewrite (proj1 (proj2 (HX k)) K); ring).
  assert (NUL : forall k, 4 <= k -> v == v - v * s * Qmax 0 (Qmin k (Qmin (4 - k) 1))) by (intros k K; rewrite (proj2 (proj2 (proj2 (HX k))) K); ring).
  assert (LOW : v * (1 - f * s) == v - v * s * Qmax 0 (Qmin f (Qmin (4 - f) 1))) by (rewrite (proj1 (HX f)) by lra; ring).
  assert (HIGH : v * (1 - (1 - f) * s) == v - v * s * Qmax 0 (Qmin (f + 3) (Qmin (4 - (f + 3)) 1))) by (rewrite (proj1 (proj2 (proj2 (HX (f + 3))))) by lra; ring).
  decompose [or] J; subst j; apply GO; try assumption.
  - apply (CH 5%Z (f + 5) 0%Z); [cbn; ring|lra|apply NUL; lra].
  - apply (CH 3%Z (f + 3) 0%Z); [cbn; ring|lra|exact HIGH].
  - apply (CH 1%Z (f + 1) 0%Z); [cbn; ring|lra|apply ONE; lra].
  - apply (CH 5%Z f 1%Z); [cbn; ring|lra|exact LOW].
  - apply (CH 3%Z (f + 4) 0%Z); [cbn; ring|lra|apply NUL; lra].
  - apply (CH 1%Z (f + 2) 0%Z); [cbn; ring|lra|apply ONE; lra].
  - apply (CH 5%Z (f + 1) 1%Z); [cbn; ring|lra|apply ONE; lra].
  - apply (CH 3%Z (f + 5) 0%Z); [cbn; ring|lra|apply NUL; lra].
  - apply (CH 1%Z (f + 3) 0%Z); [cbn; ring|lra|exact HIGH].
  - apply (CH 5%Z (f + 2) 1%Z); [cbn; ring|lra|apply ONE; lra].
  - apply (CH 3%Z f 1%Z); [cbn; ring|lra|exact LOW].
  - apply (CH 1%Z (f + 4) 0%Z); [cbn; ring|lra|apply NUL; lra].
  - apply (CH 5%Z (f + 3) 1%Z); [cbn; ring|lra|exact HIGH].
  - apply (CH 3%Z (f + 1) 1%Z); [cbn; ring|lra|apply ONE; lra].
  - apply (CH 1%Z (f + 5) 0%Z); [cbn; ring|lra|apply NUL; lra].
  - apply (CH 5%Z (f + 4) 1%Z); [cbn; ring|lra|apply NUL; lra].
  - apply (CH 3%Z (f + 2) 1%Z); [cbn; ring|lra|apply ONE; lra].
  - apply (CH 1%Z f 1%Z); [cbn; ring|lra|exact LOW].
Qed.
(** The channel of each colour is one number, and the channels change by a turn of the hue not at all. *)
Theorem C125_channel_unique : forall n h s v c c', channel n h s v c -> channel n h s v c' -> c == c'.
Proof. intros n h s v c c' (k & R & E) (k' & R' & E'). pose proof (rem6_unique _ _ _ R R') as K. rewrite E, E', K. reflexivity. Qed.
(** A negative hue: black. *)
Theorem C125_negative_hue_refuted : forall h s v, -(1 # 6) <= h < 0 -> hsv2rgb h s v = Some (255%Z, 0%Z, 0%Z, 0%Z).
Proof.
  intros h s v [H1 H2]. unfold hsv2rgb. replace (Qfloor (h * 6)) with (-1)%Z; [reflexivity|].
  pose proof (Qfloor_le (h * 6)) as F1. pose proof (Qlt_floor (h * 6)) as F2. set (i := Qfloor (h * 6)) in *. clearbody i.
  assert (inject_Z i < inject_Z 0) by (change (inject_Z 0) with 0; lra). assert (inject_Z (-1) < inject_Z (i + 1)) by (change (inject_Z (-1)) with (-1); lra).
  rewrite <- Zlt_Qlt in *. lia.
Qed.
Example C125_witness : hsv2rgb (1 # 12) (1 # 2) 1 = Some (255, 255, 191, 127)%Z /\ channel 3 (1 # 12) (1 # 2) 1 (3 # 4).
Proof.
  split; [vm_compute; reflexivity|]. exists (7 # 2). split; [split; [split; [lra|reflexivity]|exists 0%Z; reflexivity]|vm_compute; reflexivity].
Qed.

Print Assumptions C125_random_element.
Print Assumptions C125_random_integer.
Print Assumptions C125_even.
Print Assumptions C125_hsv.
Print Assumptions C125_channel_unique.
