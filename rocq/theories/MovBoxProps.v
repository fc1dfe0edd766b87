(** C111: a moving disc against a box. *)
From Verif Require Import RBase SphereModel SphereSpec SphereProof MovBoxModel MovBoxSpec MovBoxProof MovBoxProof2.

(** What an exact answer is: the first time at which the moving disc meets the set, with a common point of the
    disc at that time and the set; or no time at all. *)
Definition first_contact (s : ball) (vel : rvec) (S : rvec -> Prop) (res : hit (R * option rvec)) : Prop :=
  match res with
  | Hit (t, q) => first_time (fun t => ball_meets (moved s vel t) S) t /\ exists Q, q = Some Q /\ S Q /\ in_rball (moved s vel t) Q
  | Miss => forall t, 0 <= t -> ~ ball_meets (moved s vel t) S
  | NotANumber => False
  end.

Lemma box_contact : forall ox oy a b cx cy vx vy r lx ly hx hy corner (S : rvec -> Prop), a * a + b * b = 1 -> lx < hx -> ly < hy -> 0 < r -> vx <> 0 \/ vy <> 0 ->
  ~ (lx - r <= cx <= hx + r /\ ly - r <= cy <= hy + r) ->
  (forall n, (n < 4)%nat -> corner n = cornerW ox oy a b lx ly hx hy n) -> (forall X, S X <-> Wset ox oy a b (- b) a (inbox lx ly hx hy) X) ->
  first_contact (mkball (W ox oy a b (- b) a cx cy) r) (Wv a b (- b) a vx vy) S (moving_sphere_box rdirect (mkball (W ox oy a b (- b) a cx cy) r) (Wv a b (- b) a vx vy) corner cx cy vx vy lx ly hx hy).
Proof.
  intros ox oy a b cx cy vx vy r lx ly hx hy corner S U Lx Ly Hr NV Out HC HS.
  assert (M := moving_box_ok ox oy a b U cx cy vx vy r lx ly hx hy Lx Ly Hr NV Out corner HC). unfold first_contact.
  assert (Eq : forall t, ball_meets (moved (mkball (W ox oy a b (- b) a cx cy) r) (Wv a b (- b) a vx vy) t) S <-> near cx cy vx vy r (inbox lx ly hx hy) t).
  { intro t. rewrite (meets_ext _ _ _ HS). apply near_iff; [exact U|lra|ring]. }
  destruct (moving_sphere_box _ _ _ _ _ _ _ _ _ _ _ _) as [|[t q]|].
  - intros t H K. apply (M t H). apply Eq, K.
  - destruct M as (q' & -> & (T0 & T1 & T2) & IB & Ball). split.
    + split; [exact T0|]. split; [apply Eq, T1|]. intros t' H' K. apply T2; [exact H'|apply Eq, K].
    + exists q'. split; [reflexivity|]. split; [apply HS, IB|exact Ball].
  - exact M.
Qed.

(** A disc that starts beyond one of the sides by more than its radius: the first contact is found, with the
    point of contact, and no contact is invented or missed. *)
Theorem C111_aligned_box_partial : forall s vel lx ly hx hy, length (b_center s) = 2%nat -> length vel = 2%nat -> lx < hx -> ly < hy -> 0 < b_radius s -> rdot vel vel <> 0 ->
  beyond_raabb lx ly hx hy (b_radius s) (b_center s) ->
  first_contact s vel (in_raabb lx ly hx hy) (moving_sphere_aabb_intersection rdirect s vel lx ly hx hy).
Proof.
  intros [c r] vel lx ly hx hy L1 L2 Lx Ly Hr NV (cx & cy & E & B). cbn [b_center b_radius] in *. subst c. destruct (list2 _ L2) as (vx & vy & ->).
  assert (NV' : vx <> 0 \/ vy <> 0). { destruct (Req_dec vx 0) as [->|]; [right|left; assumption]. intros ->. apply NV. simpl. ring. }
  assert (E1 : W 0 0 1 0 (- 0) 1 cx cy = [cx; cy]) by (unfold W; apply pair_eq; ring). assert (E2 : Wv 1 0 (- 0) 1 vx vy = [vx; vy]) by (unfold Wv; apply pair_eq; ring).
  assert (M := box_contact 0 0 1 0 cx cy vx vy r lx ly hx hy (aabb_corner lx ly hx hy) (in_raabb lx ly hx hy) ltac:(ring) Lx Ly Hr NV' ltac:(lra)).
  rewrite E1, E2 in M. apply M.
  - intros n _. unfold aabb_corner, cornerW, W. apply pair_eq; ring.
  - intro X. unfold in_raabb, Wset, inbox. split; intros (x & y & H1 & H2).
    + exists x, y. split; [exact H2|]. rewrite H1. unfold W. apply pair_eq; ring.
    + exists x, y. split; [rewrite H2; unfold W; apply pair_eq; ring|exact H1].
Qed.

Theorem C111_oriented_box_partial : forall s vel b, length (b_center s) = 2%nat -> length vel = 2%nat -> ok_robb b -> 0 < b_radius s -> rdot vel vel <> 0 ->
  beyond_robb b (b_radius s) (b_center s) ->
  first_contact s vel (in_robb b) (moving_sphere_obb_intersection rdirect s vel b).
Proof.
  intros [c r] vel [Cx Cy ux uy wx wy hu hv] L1 L2 OK Hr NV (u & v & E & B). unfold ok_robb in OK. cbn [b_center b_radius ro_cx ro_cy ro_ux ro_uy ro_vx ro_vy ro_hu ro_hv] in *. destruct OK as (U & -> & -> & Hu & Hv). subst c.
  destruct (list2 _ L2) as (vx & vy & ->).
  unfold moving_sphere_obb_intersection, obb_corner, robb_point. cbn [b_center ro_cx ro_cy ro_ux ro_uy ro_vx ro_vy ro_hu ro_hv Nat.testbit Nat.odd negb Nat.even Nat.div2].
  set (bb := {| ro_cx := Cx; ro_cy := Cy; ro_ux := ux; ro_uy := uy; ro_vx := - uy; ro_vy := ux; ro_hu := hu; ro_hv := hv |}).
  unfold rot_point, rot_vec. cbv beta iota zeta.
  set (rvx := (ux * 1 + uy * 0) * vx + - (ux * 0 - uy * 1) * vy). set (rvy := (ux * 0 - uy * 1) * vx + (ux * 1 + uy * 0) * vy).
  assert (U' : ux * ux = 1 - uy * uy) by lra.
  match goal with |- first_contact _ _ _ (moving_sphere_box _ _ _ _ ?a1 ?a2 _ _ ?a3 ?a4 ?a5 ?a6) =>
    replace a1 with (u + Cx) by (transitivity (u * (ux * ux + uy * uy) + Cx); [rewrite U|]; ring);
    replace a2 with (v + Cy) by (transitivity (v * (ux * ux + uy * uy) + Cy); [rewrite U|]; ring);
    replace a3 with (- hu + Cx) by (transitivity (- hu * (ux * ux + uy * uy) + Cx); [rewrite U|]; ring);
    replace a4 with (- hv + Cy) by (transitivity (- hv * (ux * ux + uy * uy) + Cy); [rewrite U|]; ring);
    replace a5 with (hu + Cx) by (transitivity (hu * (ux * ux + uy * uy) + Cx); [rewrite U|]; ring);
    replace a6 with (hv + Cy) by (transitivity (hv * (ux * ux + uy * uy) + Cy); [rewrite U|]; ring)
  end.
  set (ox := Cx - (Cx * ux - Cy * uy)). set (oy := Cy - (Cx * uy + Cy * ux)).
  assert (WE : forall x y, W ox oy ux uy (- uy) ux (x + Cx) (y + Cy) = [Cx + x * ux + y * - uy; Cy + x * uy + y * ux]) by (intros x y; unfold W, ox, oy; apply pair_eq; ring).
  assert (VE : Wv ux uy (- uy) ux rvx rvy = [vx; vy]).
  { unfold Wv, rvx, rvy. apply pair_eq; [transitivity (vx * (ux * ux + uy * uy))|transitivity (vy * (ux * ux + uy * uy))]; try ring; rewrite U; ring. }
  assert (NV' : rvx <> 0 \/ rvy <> 0).
  { destruct (Req_dec rvx 0) as [Z1|]; [right|left; assumption]. intro Z2. rewrite Z1, Z2 in VE. apply NV. rewrite <- VE. unfold Wv; simpl. ring. }
  assert (M := box_contact ox oy ux uy (u + Cx) (v + Cy) rvx rvy r (- hu + Cx) (- hv + Cy) (hu + Cx) (hv + Cy) (obb_corner bb) (in_robb bb) U ltac:(lra) ltac:(lra) Hr NV' ltac:(lra)).
  rewrite WE, VE in M. unfold obb_corner, robb_point in M. apply M.
  - intros n Hn. unfold cornerW. cbn [ro_cx ro_cy ro_ux ro_uy ro_vx ro_vy ro_hu ro_hv bb].
    replace (if Nat.testbit n 0 then hu + Cx else - hu + Cx) with ((if Nat.testbit n 0 then 1 else -1) * hu + Cx) by (destruct (Nat.testbit n 0); ring).
    replace (if Nat.testbit n 1 then hv + Cy else - hv + Cy) with ((if Nat.testbit n 1 then 1 else -1) * hv + Cy) by (destruct (Nat.testbit n 1); ring).
    rewrite WE. reflexivity.
  - intro X. unfold in_robb, Wset, inbox, robb_point. cbn [ro_cx ro_cy ro_ux ro_uy ro_vx ro_vy ro_hu ro_hv bb]. split.
    + intros (su & sv & H1 & H2 & ->). exists (su * hu + Cx), (sv * hv + Cy). split; [split; split; nra|]. rewrite WE. reflexivity.
    + intros (x & y & [H1 H2] & ->). exists ((x - Cx) / hu), ((y - Cy) / hv).
      split; [split; apply Rmult_le_reg_r with hu; try lra; unfold Rdiv; rewrite Rmult_assoc, Rinv_l by lra; lra|]. split; [split; apply Rmult_le_reg_r with hv; try lra; unfold Rdiv; rewrite Rmult_assoc, Rinv_l by lra; lra|].
      replace x with (x - Cx + Cx) at 1 by ring. replace y with (y - Cy + Cy) at 1 by ring. rewrite WE. apply pair_eq; field; lra.
Qed.

Print Assumptions C111_aligned_box_partial.
Print Assumptions C111_oriented_box_partial.

(** A disc that starts nearer than that to all the sides: the ray of its centre starts inside the enlarged
    box, the point of the ray that is classified is its exit, and the answer is too early or too late. *)
Theorem C111_too_early_refuted : exists s vel lx ly hx hy q, length (b_center s) = 2%nat /\ length vel = 2%nat /\ lx < hx /\ ly < hy /\ 0 < b_radius s /\ rdot vel vel <> 0 /\
  moving_sphere_aabb_intersection rdirect s vel lx ly hx hy = Hit (0, q) /\ ~ ball_meets (moved s vel 0) (in_raabb lx ly hx hy).
Proof.
  exists (mkball [- (9 / 10); - (9 / 10)] 1), [2; 1], 0, 0, 10, 10. eexists. repeat split; cbn [b_radius rdot]; try lra.
  - cbn [moving_sphere_aabb_intersection b_center]. unfold moving_sphere_box. cbn [b_radius b_center].
    assert (E : rray_aabb rdirect (- (9 / 10)) (- (9 / 10)) 2 1 (0 - 1) (0 - 1) (10 + 1) (10 + 1) = Some (0, Some (- (9 / 10) + 2 * (119 / 20), - (9 / 10) + 1 * (119 / 20)))).
    { unfold rray_aabb, rray_slab. cbn [req rdirect rle]. destruct (Reqb_spec 2 0); [lra|]. destruct (Rltb_spec ((10 + 1 - - (9 / 10)) * (1 / 2)) ((0 - 1 - - (9 / 10)) * (1 / 2))); [lra|].
      rewrite (Rmax_left 0) by lra. destruct (Rltb_spec ((10 + 1 - - (9 / 10)) * (1 / 2)) 0); [lra|]. destruct (Reqb_spec 1 0); [lra|].
      destruct (Rltb_spec ((10 + 1 - - (9 / 10)) * (1 / 1)) ((0 - 1 - - (9 / 10)) * (1 / 1))); [lra|]. rewrite (Rmax_left 0) by lra. rewrite (Rmin_left ((10 + 1 - - (9 / 10)) * (1 / 2))) by lra.
      destruct (Rltb_spec ((10 + 1 - - (9 / 10)) * (1 / 2)) 0); [lra|].
      destruct (Rleb_spec (0 - 1) (- (9 / 10))); [|lra]. destruct (Rleb_spec (- (9 / 10)) (10 + 1)); [|lra]. cbn [andb]. replace ((10 + 1 - - (9 / 10)) * (1 / 2)) with (119 / 20) by field. reflexivity. }
    rewrite E. cbv zeta. destruct (Rltb_spec (- (9 / 10) + 2 * (119 / 20)) 0); [lra|]. destruct (Rltb_spec (- (9 / 10) + 1 * (119 / 20)) 0); [lra|].
    destruct (Rltb_spec 10 (- (9 / 10) + 2 * (119 / 20))); [|lra]. destruct (Rltb_spec 10 (- (9 / 10) + 1 * (119 / 20))); [lra|].
    change (Nat.eqb (0 + 0 + (1 + 0)) 3) with false. cbv iota. change (Nat.lxor (0 + 0) 3) with 3%nat. unfold aabb_corner. cbn [Nat.testbit Nat.odd negb Nat.even Nat.div2 Nat.add].
    unfold rclosest_on_segment. cbn [rsub rdot radd rscale map]. destruct (Reqb_spec ((10 - 10) * (10 - 10) + ((0 - 10) * (0 - 10) + 0)) 0); [lra|].
    match goal with |- context [Rleb ?a 0] => replace a with (109 / 100) by field end. destruct (Rleb_spec (109 / 100) 0); [lra|]. destruct (Rleb_spec 1 (109 / 100)); [|lra]. reflexivity.
  - intros (X & _ & (x & y & -> & Hx & Hy) & B). unfold in_rball, moved, rdist2 in B. cbn in B. nra.
Qed.
Print Assumptions C111_too_early_refuted.
Theorem C111_too_late_refuted : exists s vel lx ly hx hy, length (b_center s) = 2%nat /\ length vel = 2%nat /\ lx < hx /\ ly < hy /\ 0 < b_radius s /\ rdot vel vel <> 0 /\
  (forall t, 0 <= t <= 4 -> ball_meets (moved s vel t) (in_raabb lx ly hx hy)) /\
  exists t q, moving_sphere_aabb_intersection rdirect s vel lx ly hx hy = Hit (t, q) /\ 4 <= t.
Proof.
  exists (mkball [5; 5] 1), [1; 1], 0, 0, 10, 10. repeat split; cbn [b_radius rdot]; try lra.
  - intros t T. exists [5 + t * 1; 5 + t * 1]. split; [reflexivity|]. split; [exists (5 + t * 1), (5 + t * 1); split; [reflexivity|lra]|]. unfold in_rball, moved, rdist2. cbn. lra.
  - cbn [moving_sphere_aabb_intersection b_center]. unfold moving_sphere_box. cbn [b_radius b_center].
    assert (E : rray_aabb rdirect 5 5 1 1 (0 - 1) (0 - 1) (10 + 1) (10 + 1) = Some (0, Some (5 + 1 * 6, 5 + 1 * 6))).
    { unfold rray_aabb, rray_slab. cbn [req rdirect rle]. destruct (Reqb_spec 1 0); [lra|]. destruct (Rltb_spec ((10 + 1 - 5) * (1 / 1)) ((0 - 1 - 5) * (1 / 1))); [lra|].
      rewrite (Rmax_left 0) by lra. destruct (Rltb_spec ((10 + 1 - 5) * (1 / 1)) 0); [lra|]. rewrite (Rmax_left 0) by lra. rewrite (Rmin_left ((10 + 1 - 5) * (1 / 1))) by lra.
      destruct (Rltb_spec ((10 + 1 - 5) * (1 / 1)) 0); [lra|].
      destruct (Rleb_spec (0 - 1) 5); [|lra]. destruct (Rleb_spec 5 (10 + 1)); [|lra]. cbn [andb]. replace ((10 + 1 - 5) * (1 / 1)) with 6 by field. reflexivity. }
    rewrite E. cbv zeta. destruct (Rltb_spec (5 + 1 * 6) 0); [lra|]. destruct (Rltb_spec 10 (5 + 1 * 6)); [|lra].
    change (Nat.eqb (0 + 0 + (1 + 2)) 3) with true. cbv iota. change (Nat.lxor (1 + 2) 1) with 2%nat. change (Nat.lxor (1 + 2) 2) with 1%nat. unfold aabb_corner. cbn [Nat.testbit Nat.odd negb Nat.even Nat.div2 Nat.add].
    set (s := mkball [5; 5] 1). set (vel := [1; 1]).
    assert (Side : forall e, e = [0; 10] \/ e = [10; 0] -> exists t q, side_hit rdirect s vel [10; 10] e = Some (t, q) /\ 4 <= t).
    { intros e He. unfold side_hit.
      assert (M := moving_segment_ok s vel [10; 10] e eq_refl eq_refl eq_refl ltac:(destruct He as [->| ->]; reflexivity) ltac:(intro K; destruct He as [->| ->]; injection K; lra) ltac:(cbn; lra) ltac:(cbn; lra)
        ltac:(intros z [->| ->]; [|destruct He as [->| ->]]; unfold rdist2; cbn; lra)).
      destruct (moving_sphere_segment_intersection rdirect s vel [10; 10] e) as [f [[t q]|]].
      - destruct M as (F & (T0 & T1 & _) & _). rewrite F. exists t, q. split; [reflexivity|]. destruct T1 as (X & _ & (k & Hk & ->) & B). destruct He as [->| ->]; unfold in_rball, moved, along, rdist2 in B; cbn in B; pose proof (Rle_0_sqr (5 + k * (0 - 10) - t)) as K; unfold Rsqr in K; nra.
      - exfalso. destruct M as [_ M]. apply (M 5 ltac:(lra)). exists [10; 10]. split; [reflexivity|]. split; [exists 0; split; [lra|destruct He as [->| ->]; cbn; apply pair_eq; ring]|]. unfold in_rball, moved, rdist2; cbn; lra. }
    destruct (Side [0; 10] (or_introl eq_refl)) as (t1 & q1 & E1 & G1). destruct (Side [10; 0] (or_intror eq_refl)) as (t2 & q2 & E2 & G2).
    unfold corner_best. rewrite E1, E2. destruct (Rltb t2 t1); [exists t2, (Some q2)|exists t1, (Some q1)]; split; (reflexivity || assumption).
Qed.
Print Assumptions C111_too_late_refuted.

(** A disc of radius 1 coming from the left at speed 2 reaches the box at time 2. *)
Example C111_witness : exists q, moving_sphere_aabb_intersection rdirect (mkball [-5; 3] 1) [2; 0] 0 0 10 10 = Hit (2, q).
Proof.
  assert (M := C111_aligned_box_partial (mkball [-5; 3] 1) [2; 0] 0 0 10 10 eq_refl eq_refl ltac:(lra) ltac:(lra) ltac:(cbn; lra) ltac:(cbn; lra) ltac:(exists (-5), 3; split; [reflexivity|cbn; lra])).
  assert (T : ball_meets (moved (mkball [-5; 3] 1) [2; 0] 2) (in_raabb 0 0 10 10)) by (exists [0; 3]; split; [reflexivity|]; split; [exists 0, 3; split; [reflexivity|lra]|unfold in_rball, moved, rdist2; cbn; lra]).
  unfold first_contact in M. destruct (moving_sphere_aabb_intersection _ _ _ _ _ _ _) as [|[t q]|]; [exfalso; exact (M 2 ltac:(lra) T)| |contradiction].
  destruct M as [(T0 & (X & _ & (x & y & -> & Hx & Hy) & B) & T2) _]. exists q. specialize (T2 2 ltac:(lra) T). unfold in_rball, moved, rdist2 in B; cbn in B. assert (2 <= t) by (pose proof (Rle_0_sqr (y - (3 + t * 0))) as K; unfold Rsqr in K; nra). replace t with 2 by lra. reflexivity.
Qed.
(** A disc that meets a turned square. *)
Example C111_witness_oriented : let s := mkball [-9; -1] 1 in let b := mkrobb 0 0 (3/5) (4/5) (- (4/5)) (3/5) 5 5 in
  ok_robb b /\ beyond_robb b (b_radius s) (b_center s) /\ exists t q, moving_sphere_obb_intersection rdirect s [1; 0] b = Hit (t, q) /\ 0 < t.
Proof.
  intros s b. assert (O : ok_robb b) by (unfold ok_robb; cbn; lra). assert (B : beyond_robb b (b_radius s) (b_center s)) by (exists (-31/5), (33/5); split; [cbn; apply pair_eq; field|cbn; lra]).
  split; [exact O|]. split; [exact B|]. assert (M := C111_oriented_box_partial s [1; 0] b eq_refl eq_refl O ltac:(cbn; lra) ltac:(cbn; lra) B).
  unfold first_contact in M. destruct (moving_sphere_obb_intersection _ _ _ _) as [|[t q]|]; [exfalso| |contradiction].
  - apply (M 9 ltac:(lra)). exists [0; -1]. split; [reflexivity|]. split; [|unfold in_rball, moved, rdist2; cbn; lra]. exists (-4/25), (-3/25). split; [lra|]. split; [lra|]. unfold robb_point; cbn. apply pair_eq; field.
  - exists t, q. split; [reflexivity|]. destruct M as [(T0 & (X & _ & (su & sv & Hu & Hv & ->) & Hb) & _) _]. destruct T0 as [T0|T0]; [exact T0|exfalso]. subst t. unfold in_rball, moved, rdist2, robb_point in Hb; cbn in Hb. nra.
Qed.
