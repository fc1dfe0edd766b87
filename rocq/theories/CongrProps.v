(** C99: congruence of polylines and polygons. *)
From Verif Require Import Base CmpModel DistSpec CongrModel CongrSpec CongrProof.

(** For a polyline without repeated neighbouring points the answer is true exactly when some rotation and
    shift puts it, point by point, onto the other one. *)
Theorem C99_polylines : forall ps qs, no_repeats ps ->
  exists r, are_polylines_congruent direct ps qs = Some r /\ (r = true <-> superposable ps qs).
Proof. exact polylines_ok. Qed.
(** The same for polygons, the points compared from the first on. *)
Theorem C99_polygons : forall ps qs, no_repeats ps -> (length ps <> 1)%nat ->
  exists r, are_polygons_congruent direct ps qs = Some r /\ (r = true <-> superposable ps qs).
Proof. exact polygons_ok. Qed.
(** A moved polyline or polygon is always found congruent, repeated points or not. *)
Theorem C99_moved : forall ps m, is_rigid m ->
  are_polylines_congruent direct ps (map (move m) ps) = Some true /\
  ((length ps <> 1)%nat -> are_polygons_congruent direct ps (map (move m) ps) = Some true).
Proof.
  intros ps m R. assert (F : Forall2 (fun p q => q =p= move m p) ps (map (move m) ps)).
  { induction ps as [|p ps IH]; constructor; [apply pteq_refl|exact IH]. }
  unfold are_polylines_congruent, are_polygons_congruent. rewrite map_length, Nat.eqb_refl. cbn [negb]. split.
  - apply sides_match_true. intros i j I. apply PlanarProof.in_polyline_indices in I as [-> I]. apply (rigid_side _ _ m); try assumption; lia.
  - intro N1. apply sides_match_true. intros i j I. destruct (Nat.eq_dec (length ps) 0) as [Z|NZ]; [rewrite Z in I; destruct I|].
    assert (EQ : PlanarModel.border_indices (length ps) 0 1 (length ps) = map (fun i => (i, (S i mod length ps)%nat)) (seq 0 (length ps))).
    { rewrite <- (PlanarProof.border_indices_ok (length ps) (length ps) 0) by lia. f_equal. rewrite Nat.mod_small; lia. }
    rewrite EQ in I. apply in_map_iff in I as (k & K & I). injection K as <- <-. apply in_seq in I. apply (rigid_side _ _ m); try assumption; [lia|apply Nat.mod_upper_bound; lia].
Qed.

(** With a repeated point the bend there is not looked at. *)
Definition straight_one := [mkpt 0 0; mkpt 1 0; mkpt 1 0; mkpt 2 0].
Definition bent_one := [mkpt 0 0; mkpt 1 0; mkpt 1 0; mkpt 1 1].
Theorem C99_repeated_refuted : are_polylines_congruent direct straight_one bent_one = Some true /\ ~ superposable straight_one bent_one.
Proof.
  split; [vm_compute; reflexivity|]. intros ([c s [tx ty]] & R & F). unfold straight_one, bent_one in F.
  inversion F as [|? ? ? ? [A1 A2] F1]; subst. inversion F1 as [|? ? ? ? [B1 B2] F2]; subst. inversion F2 as [|? ? ? ? [C1 C2] F3]; subst. inversion F3 as [|? ? ? ? [D1 D2] F4]; subst.
  cbn in *. lra.
Qed.
(** A polygon of one point is read out of range. *)
Theorem C99_one_point_refuted : forall p q, are_polygons_congruent direct [p] [q] = None.
Proof. intros p q. reflexivity. Qed.
(** An L shape turned by the angle with cosine 3/5; its mirror image and (as the header says) another
    starting point are not congruent. *)
Definition ell := [mkpt 0 0; mkpt 5 0; mkpt 5 10].
Definition ell_turned := [mkpt 1 1; mkpt 4 5; mkpt (-4) 11].
Example C99_witness : no_repeats ell /\ superposable ell ell_turned /\
  are_polylines_congruent direct ell ell_turned = Some true /\ are_polygons_congruent direct ell ell_turned = Some true /\
  are_polylines_congruent direct ell [mkpt 0 0; mkpt 5 0; mkpt 5 (-10)] = Some false /\
  are_polygons_congruent direct ell [mkpt 5 0; mkpt 5 10; mkpt 0 0] = Some false.
Proof.
  split; [|split; [|vm_compute; auto 10]].
  - intros [|[|[|i]]] A B [HA HB]; try discriminate; injection HA as <-; injection HB as <-; intros [X Y]; cbn in *; lra.
  - exists (mkmotion (3 # 5) (4 # 5) (mkpt 1 1)). split; [unfold is_rigid; cbn; lra|]. repeat constructor; cbn; lra.
Qed.

Print Assumptions C99_polylines.
Print Assumptions C99_polygons.
Print Assumptions C99_moved.
