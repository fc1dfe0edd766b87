From Verif Require Import RBase AngleModel AngleProof MeshModel MeshSpec MeshProof MeshProof2 MeshProof3.
From Coq Require Import Sorting.Sorted.

(** ** Bounds *)
Definition within (b : bounds) (p : plane) : Prop := let '(xmin, xmax, ymin, ymax) := b in xmin <= fst p <= xmax /\ ymin <= snd p <= ymax.
Lemma rlt0 : forall u v, rlt (rabsolute 0) u v = Rltb u v.
Proof. intros. cbn [rlt rabsolute]. destruct (Rltb_spec (u - v) (- 0)), (Rltb_spec u v); lra || reflexivity. Qed.
Lemma rgt0 : forall u v, rgt (rabsolute 0) u v = Rltb v u.
Proof. intros. cbn [rgt rabsolute]. destruct (Rltb_spec 0 (u - v)), (Rltb_spec v u); lra || reflexivity. Qed.
Lemma upd_within : forall b p, let b' := upd_bounds (rabsolute 0) b p in
  (forall q, within b q -> within b' q) /\ (within b p -> within b' p) /\
  (let '(xmin, xmax, ymin, ymax) := b in xmin <= xmax -> ymin <= ymax -> within b' p).
Proof.
  intros [[[xmin xmax] ymin] ymax] [x y]. cbv zeta. unfold upd_bounds, within. rewrite !rlt0, !rgt0. cbn [fst snd].
  destruct (Rltb_spec x xmin), (Rltb_spec xmax x), (Rltb_spec y ymin), (Rltb_spec ymax y); repeat split; intros; try lra.
Qed.
Definition ordered (b : bounds) : Prop := let '(xmin, xmax, ymin, ymax) := b in xmin <= xmax /\ ymin <= ymax.
Lemma within_ordered : forall b p, within b p -> ordered b.
Proof. intros [[[a b] c] d] p. unfold within, ordered. lra. Qed.
Lemma bounds_fold : forall ps b, ordered b -> (forall q, within b q \/ In q ps -> within (fold_left (upd_bounds (rabsolute 0)) ps b) q).
Proof.
  induction ps as [|p ps IH]; intros b O q H; cbn [fold_left]; [destruct H as [H|[]]; exact H|].
  destruct (upd_within b p) as (A & _ & C). cbv zeta in *.
  assert (W : within (upd_bounds (rabsolute 0) b p) p) by (destruct b as [[[b1 b2] b3] b4]; unfold ordered in O; apply C; lra).
  apply IH; [exact (within_ordered _ _ W)|]. destruct H as [H|[->|H]]; [left; apply A, H|left; exact W|right; exact H].
Qed.
(** The bounds are coordinates of points. *)
Definition attained (b : bounds) (ps : list plane) : Prop :=
  let '(xmin, xmax, ymin, ymax) := b in
  (exists p, In p ps /\ fst p = xmin) /\ (exists p, In p ps /\ fst p = xmax) /\ (exists p, In p ps /\ snd p = ymin) /\ (exists p, In p ps /\ snd p = ymax).
Lemma bounds_attained : forall ps b done, attained b done -> attained (fold_left (upd_bounds (rabsolute 0)) ps b) (done ++ ps).
Proof.
  induction ps as [|p ps IH]; intros b done H; cbn [fold_left]; [rewrite app_nil_r; exact H|].
  replace (done ++ p :: ps) with ((done ++ [p]) ++ ps) by (rewrite <- app_assoc; reflexivity). apply IH.
  destruct b as [[[xmin xmax] ymin] ymax]. destruct H as ((p1 & I1 & E1) & (p2 & I2 & E2) & (p3 & I3 & E3) & (p4 & I4 & E4)).
  assert (OLD : forall q, In q done -> In q (done ++ [p])) by (intros; apply in_or_app; auto). assert (NEW : In p (done ++ [p])) by (apply in_or_app; cbn; auto).
  unfold upd_bounds, attained. repeat split.
  - destruct (rlt (rabsolute 0) (fst p) xmin); [exists p; auto|exists p1; auto].
  - destruct (rgt (rabsolute 0) (fst p) xmax); [exists p; auto|exists p2; auto].
  - destruct (rlt (rabsolute 0) (snd p) ymin); [exists p; auto|exists p3; auto].
  - destruct (rgt (rabsolute 0) (snd p) ymax); [exists p; auto|exists p4; auto].
Qed.
Lemma get_bounds_ok : forall p ps, let b := get_bounds (rabsolute 0) p ps in (forall q, In q (p :: ps) -> within b q) /\ attained b (p :: ps).
Proof.
  intros p ps. cbv zeta. unfold get_bounds. split.
  - intros q I. apply bounds_fold; [cbn; lra|]. destruct I as [<-|I]; [left; cbn; lra|right; exact I].
  - apply (bounds_attained ps _ [p]). cbn. repeat split; exists p; auto.
Qed.

(** ** Indices *)
Lemma Int_part_spec : forall x, IZR (Int_part x) <= x < IZR (Int_part x) + 1.
Proof. intro x. destruct (base_Int_part x). lra. Qed.
Lemma Int_part_mono : forall x y, x <= y -> (Int_part x <= Int_part y)%Z.
Proof. intros x y H. pose proof (Int_part_spec x). pose proof (Int_part_spec y). assert (IZR (Int_part x) < IZR (Int_part y + 1)) by (rewrite plus_IZR; lra). apply lt_IZR in H2. lia. Qed.
Lemma Int_part_nonneg : forall x, 0 <= x -> (0 <= Int_part x)%Z.
Proof. intros x H. pose proof (Int_part_spec x). assert (IZR (-1) < IZR (Int_part x)) by (cbn; lra). apply lt_IZR in H1. lia. Qed.
Lemma uint32_ok : forall v, 0 <= v < 4294967296 -> uint32_of v = Some (Int_part v).
Proof.
  intros v V. unfold uint32_of. destruct (Rltb_spec (-1) v); [|lra]. destruct (Rltb_spec v 4294967296); [|lra]. cbn [andb]. destruct (Rltb_spec v 0); [lra|reflexivity].
Qed.

(** A usable grid: all points inside, at most 2^32 - 1 cells in each direction. *)
Definition good_grid (g : rgrid) : Prop :=
  let wx := fst (g_hi g) - fst (g_lo g) in let wy := snd (g_hi g) - snd (g_lo g) in
  0 <= wx < 4294967295 /\ 0 <= wy < 4294967295 /\ g_nx g = (Int_part wx + 1)%Z /\ g_ny g = (Int_part wy + 1)%Z.
Definition inside (g : rgrid) (p : plane) : Prop := fst (g_lo g) <= fst p <= fst (g_hi g) /\ snd (g_lo g) <= snd p <= snd (g_hi g).
Definition ix (g : rgrid) (p : plane) : Z := Int_part (fst p - fst (g_lo g)).
Definition iy (g : rgrid) (p : plane) : Z := Int_part (snd p - snd (g_lo g)).
Lemma Int_small : forall x, 0 <= x < 4294967295 -> (0 <= Int_part x < 4294967295)%Z.
Proof.
  intros x X. split; [apply Int_part_nonneg; lra|]. pose proof (Int_part_spec x). apply lt_IZR. lra.
Qed.
Lemma index_ok : forall g p, good_grid g -> inside g p -> rx_index g (fst p) = Some (ix g p) /\ ry_index g (snd p) = Some (iy g p) /\
  (0 <= ix g p < g_nx g)%Z /\ (0 <= iy g p < g_ny g)%Z.
Proof.
  intros g p (WX & WY & NX & NY) [X Y]. unfold rx_index, ry_index, ix, iy.
  replace ((fst p - fst (g_lo g)) * (1 / 1)) with (fst p - fst (g_lo g)) by field. replace ((snd p - snd (g_lo g)) * (1 / 1)) with (snd p - snd (g_lo g)) by field.
  split; [apply uint32_ok; lra|]. split; [apply uint32_ok; lra|]. rewrite NX, NY. split.
  - split; [apply Int_part_nonneg; lra|]. pose proof (Int_part_mono (fst p - fst (g_lo g)) (fst (g_hi g) - fst (g_lo g)) ltac:(lra)). lia.
  - split; [apply Int_part_nonneg; lra|]. pose proof (Int_part_mono (snd p - snd (g_lo g)) (snd (g_hi g) - snd (g_lo g)) ltac:(lra)). lia.
Qed.
Lemma cell_box : forall g p, good_grid g -> inside g p -> in_box p (corner0 g (ix g p) (iy g p)) (corner2 g (ix g p) (iy g p)).
Proof.
  intros g p G I. pose proof (index_ok g p G I) as (_ & _ & RX & RY). destruct G as (WX & WY & NX & NY).
  pose proof (Int_small _ WX). pose proof (Int_small _ WY). unfold in_box, corner0, corner2. cbn [fst snd].
  rewrite !Z.mod_small by lia. rewrite !plus_IZR. pose proof (Int_part_spec (fst p - fst (g_lo g))). pose proof (Int_part_spec (snd p - snd (g_lo g))). unfold ix, iy. lra.
Qed.

(** ** Loops over cells *)
Lemma for_z_ind : forall {S : Type} (P : Z -> S -> Prop) count k body (s : S), P k s ->
  (forall i s, (k <= i < k + Z.of_nat count)%Z -> P i s -> exists s', body i s = Some s' /\ P (i + 1)%Z s') ->
  exists s', for_z count k body s = Some s' /\ P (k + Z.of_nat count)%Z s'.
Proof.
  intros S P. induction count as [|c IH]; intros k body s H0 H; cbn [for_z]; [exists s; split; [reflexivity|rewrite Z.add_0_r; exact H0]|].
  destruct (H k s ltac:(lia) H0) as (s1 & E1 & P1). rewrite E1. destruct (IH (k + 1)%Z body s1 P1) as (s' & E & P').
  - intros i s2 B Q. apply H; [lia|exact Q].
  - exists s'. split; [exact E|]. replace (k + Z.of_nat (Datatypes.S c))%Z with (k + 1 + Z.of_nat c)%Z by lia. exact P'.
Qed.
Lemma set_insert_in : forall s x y, In y (set_insert s x) <-> In y s \/ y = x.
Proof.
  induction s as [|a s IH]; intros x y; cbn [set_insert]; [cbn; intuition|]. destruct (Nat.ltb_spec a x); [cbn [In]; rewrite IH; tauto|].
  destruct (Nat.eqb_spec a x) as [->|]; cbn [In]; intuition.
Qed.
Lemma set_insert_sorted : forall s x, StronglySorted lt s -> StronglySorted lt (set_insert s x).
Proof.
  induction s as [|a s IH]; intros x H; cbn [set_insert]; [repeat constructor|]. inversion H as [|? ? H' F]; subst. destruct (Nat.ltb_spec a x).
  - constructor; [apply IH, H'|]. apply Forall_forall. intros y Y. apply set_insert_in in Y. rewrite Forall_forall in F. destruct Y as [Y| ->]; [apply F, Y|lia].
  - destruct (Nat.eqb_spec a x) as [->|]; [exact H|]. constructor; [exact H|]. constructor; [lia|]. rewrite Forall_forall in *. intros y Y. specialize (F y Y). lia.
Qed.
Definition all_sorted (cs : cells) : Prop := forall i j, StronglySorted lt (cs i j).
Definition touches (g : rgrid) (t : triangle) (i j : Z) : bool :=
  let '(a, b, c) := t in eberly_triangle_aabb_intersection_2d (rabsolute (1 / 10000000000)) a b c (corner0 g i j) (corner2 g i j).
Lemma insert_at_in : forall cs i j x i' j' y, In y (insert_at cs i j x i' j') <-> In y (cs i' j') \/ (y = x /\ i' = i /\ j' = j).
Proof.
  intros. unfold insert_at. destruct (Z.eqb_spec i' i), (Z.eqb_spec j' j); cbn [andb]; try rewrite set_insert_in; intuition.
Qed.
Lemma cache_cell_ok : forall g x t col row cs, (0 <= col < g_nx g)%Z -> (0 <= row < g_ny g)%Z -> all_sorted cs ->
  exists cs', cache_cell g x t col row cs = Some cs' /\ all_sorted cs' /\
    forall i j y, In y (cs' i j) <-> In y (cs i j) \/ (y = x /\ i = col /\ j = row /\ touches g t i j = true).
Proof.
  intros g x [[a b] c] col row cs C R S. unfold cache_cell.
  destruct (eberly_triangle_aabb_intersection_2d (rabsolute (1 / 10000000000)) a b c (corner0 g col row) (corner2 g col row)) eqn:E.
  - assert (IR : in_range g col row = true) by (unfold in_range; rewrite !andb_true_iff, !Z.leb_le, !Z.ltb_lt; lia). rewrite IR. eexists. split; [reflexivity|]. split.
    + intros i j. unfold insert_at. destruct ((i =? col)%Z && (j =? row)%Z); [apply set_insert_sorted, S|apply S].
    + intros i j y. rewrite insert_at_in. split; [intros [H|(H1 & -> & ->)]; [auto|right; auto]|intros [H|(H1 & H2 & H3 & _)]; auto].
  - exists cs. split; [reflexivity|]. split; [exact S|]. intros i j y. split; [auto|]. intros [H|(_ & -> & -> & H)]; [exact H|]. unfold touches in H. congruence.
Qed.
Lemma cache_block_ok : forall g x t imin imax jmin jmax cs, (0 <= imin)%Z -> (imin <= imax + 1)%Z -> (imax < g_nx g)%Z -> (0 <= jmin)%Z -> (jmin <= jmax + 1)%Z -> (jmax < g_ny g)%Z -> all_sorted cs ->
  exists cs', for_z (Z.to_nat (imax + 1 - imin)) imin (fun col cs => for_z (Z.to_nat (jmax + 1 - jmin)) jmin (fun row cs => cache_cell g x t col row cs) cs) cs = Some cs' /\ all_sorted cs' /\
    forall i j y, In y (cs' i j) <-> In y (cs i j) \/ (y = x /\ (imin <= i <= imax)%Z /\ (jmin <= j <= jmax)%Z /\ touches g t i j = true).
Proof.
  intros g x t imin imax jmin jmax cs I0 I1 I2 J0 J1 J2 S.
  pose (P := fun (c : Z) (cs' : cells) => all_sorted cs' /\ forall i j y, In y (cs' i j) <-> In y (cs i j) \/ (y = x /\ (imin <= i < c)%Z /\ (jmin <= j <= jmax)%Z /\ touches g t i j = true)).
  destruct (for_z_ind P (Z.to_nat (imax + 1 - imin)) imin (fun col cs => for_z (Z.to_nat (jmax + 1 - jmin)) jmin (fun row cs => cache_cell g x t col row cs) cs) cs) as (cs' & E & PS & PI).
  - split; [exact S|]. intros i j y. split; [auto|]. intros [H|H]; [exact H|lia].
  - intros col cs1 CB [S1 P1].
    pose (Q := fun (r : Z) (cs' : cells) => all_sorted cs' /\ forall i j y, In y (cs' i j) <-> In y (cs1 i j) \/ (y = x /\ i = col /\ (jmin <= j < r)%Z /\ touches g t i j = true)).
    destruct (for_z_ind Q (Z.to_nat (jmax + 1 - jmin)) jmin (fun row cs => cache_cell g x t col row cs) cs1) as (cs2 & E2 & QS & QI).
    + split; [exact S1|]. intros i j y. split; [auto|]. intros [H|H]; [exact H|lia].
    + intros row cs3 RB [S3 Q3]. destruct (cache_cell_ok g x t col row cs3 ltac:(lia) ltac:(lia) S3) as (cs4 & E4 & S4 & Q4).
      exists cs4. split; [exact E4|]. split; [exact S4|]. intros i j y. rewrite Q4, Q3. split.
      * intros [[H|(H1 & H2 & H3 & H4)]|(H1 & H2 & H3 & H4)]; [auto|right; repeat split; (assumption || lia)|right; repeat split; (assumption || lia)].
      * intros [H|(H1 & H2 & H3 & H4)]; [auto|]. destruct (Z.eq_dec j row); [right; auto|left; right; repeat split; (assumption || lia)].
    + exists cs2. split; [exact E2|]. split; [exact QS|]. intros i j y. rewrite QI, P1. split.
      * intros [[H|(H1 & H2 & H3 & H4)]|(H1 & H2 & H3 & H4)]; [auto|right; repeat split; (assumption || lia)|right; repeat split; (assumption || lia)].
      * intros [H|(H1 & H2 & H3 & H4)]; [auto|]. destruct (Z.eq_dec i col); [right; repeat split; (assumption || lia)|left; right; repeat split; (assumption || lia)].
  - exists cs'. split; [exact E|]. split; [exact PS|]. intros i j y. rewrite PI. split.
    + intros [H|(H1 & H2 & H3 & H4)]; [auto|right; repeat split; (assumption || lia)].
    + intros [H|(H1 & H2 & H3 & H4)]; [auto|right; repeat split; (assumption || lia)].
Qed.
(** One triangle: every cell with a point of the triangle gets its index. *)
Definition tri_inside (g : rgrid) (t : triangle) : Prop := let '(a, b, c) := t in inside g a /\ inside g b /\ inside g c.
Definition in_tri (p : plane) (t : triangle) : Prop := let '(a, b, c) := t in in_triangle p a b c.
Lemma in_tri_within : forall p a b c : plane, in_triangle p a b c -> within (get_bounds (rabsolute 0) a [b; c]) p.
Proof.
  intros p a b c (u & v & w & U & V & W & S & X & Y). destruct (get_bounds_ok a [b; c]) as [H _]. cbv zeta in H.
  pose proof (H a ltac:(cbn; auto)) as Ha. pose proof (H b ltac:(cbn; auto)) as Hb. pose proof (H c ltac:(cbn; auto)) as Hc. clear H.
  destruct (get_bounds (rabsolute 0) a [b; c]) as [[[xmin xmax] ymin] ymax]. unfold within in *.
  assert (M : forall (f : plane -> R) lo hi, lo <= f a <= hi -> lo <= f b <= hi -> lo <= f c <= hi -> lo <= u * f a + v * f b + w * f c <= hi).
  { intros f lo hi A B C. replace lo with (u * lo + v * lo + w * lo) by (transitivity ((u + v + w) * lo); [ring|rewrite S; ring]).
    replace hi with (u * hi + v * hi + w * hi) by (transitivity ((u + v + w) * hi); [ring|rewrite S; ring]).
    split; repeat apply Rplus_le_compat; apply Rmult_le_compat_l; lra. }
  rewrite X, Y. split; apply M; lra.
Qed.
Lemma cache_triangle_ok : forall g x t cs, good_grid g -> tri_inside g t -> all_sorted cs ->
  exists cs', cache_triangle g x t cs = Some cs' /\ all_sorted cs' /\
    (forall i j y, In y (cs' i j) -> In y (cs i j) \/ y = x) /\ (forall i j y, In y (cs i j) -> In y (cs' i j)) /\
    (forall p, in_tri p t -> inside g p /\ In x (cs' (ix g p) (iy g p))).
Proof.
  intros g x [[a b] c] cs G (IA & IB & IC) S. unfold cache_triangle.
  destruct (get_bounds_ok a [b; c]) as [W AT]. cbv zeta in W, AT. pose proof (fun p => in_tri_within p a b c) as INW.
  destruct (get_bounds (rabsolute 0) a [b; c]) as [[[xmin xmax] ymin] ymax] eqn:GB.
  assert (INS : forall q, In q [a; b; c] -> inside g q) by (intros q [<-|[<-|[<-|[]]]]; assumption).
  destruct AT as ((p1 & I1 & E1) & (p2 & I2 & E2) & (p3 & I3 & E3) & (p4 & I4 & E4)).
  apply INS in I1. apply INS in I2. apply INS in I3. apply INS in I4.
  pose proof (index_ok g p1 G I1) as (X1 & _ & R1 & _). pose proof (index_ok g p2 G I2) as (X2 & _ & R2 & _).
  pose proof (index_ok g p3 G I3) as (_ & X3 & _ & R3). pose proof (index_ok g p4 G I4) as (_ & X4 & _ & R4).
  rewrite E1 in X1. rewrite E2 in X2. rewrite E3 in X3. rewrite E4 in X4. rewrite X1, X2, X3, X4.
  assert (LX : xmin <= xmax) by (specialize (W a ltac:(cbn; auto)); unfold within in W; lra). assert (LY : ymin <= ymax) by (specialize (W a ltac:(cbn; auto)); unfold within in W; lra).
  assert (MX : (ix g p1 <= ix g p2)%Z) by (unfold ix; apply Int_part_mono; lra). assert (MY : (iy g p3 <= iy g p4)%Z) by (unfold iy; apply Int_part_mono; lra).
  destruct (cache_block_ok g x (a, b, c) (ix g p1) (ix g p2) (iy g p3) (iy g p4) cs) as (cs' & E & S' & H); try lia; [exact S|].
  exists cs'. split; [exact E|]. split; [exact S'|]. split; [intros i j y I; apply H in I; tauto|]. split; [intros i j y I; apply H; auto|].
  intros p IT. pose proof (INW p IT) as WP. unfold within in WP.
  assert (IP : inside g p) by (clear - WP I1 I2 I3 I4 E1 E2 E3 E4; unfold inside in *; split; lra). split; [exact IP|]. apply H. right. split; [reflexivity|].
  split; [unfold ix in *; split; apply Int_part_mono; lra|]. split; [unfold iy in *; split; apply Int_part_mono; lra|].
  unfold touches. apply eberly_complete; [apply lenient_absolute; lra|]. exists p. split; [exact IT|apply cell_box; assumption].
Qed.
Lemma cache_triangles_ok : forall ts g x cs, good_grid g -> Forall (tri_inside g) ts -> all_sorted cs ->
  exists cs', cache_triangles g x ts cs = Some cs' /\ all_sorted cs' /\
    (forall i j y, In y (cs' i j) -> In y (cs i j) \/ (x <= y < x + length ts)%nat) /\ (forall i j y, In y (cs i j) -> In y (cs' i j)) /\
    (forall k t p, nth_error ts k = Some t -> in_tri p t -> inside g p /\ In (x + k)%nat (cs' (ix g p) (iy g p))).
Proof.
  induction ts as [|t ts IH]; intros g x cs G F S; cbn [cache_triangles length].
  - exists cs. split; [reflexivity|]. split; [exact S|]. split; [auto|]. split; [auto|]. intros [|k] t p E; discriminate.
  - inversion F as [|? ? F1 F2]; subst. destruct (cache_triangle_ok g x t cs G F1 S) as (cs1 & E1 & S1 & A1 & B1 & C1). rewrite E1.
    destruct (IH g (Datatypes.S x) cs1 G F2 S1) as (cs2 & E2 & S2 & A2 & B2 & C2). exists cs2. split; [exact E2|]. split; [exact S2|]. split; [|split].
    + intros i j y I. apply A2 in I. destruct I as [I|I]; [apply A1 in I; destruct I as [I| ->]; [auto|right; lia]|right; lia].
    + intros i j y I. apply B2, B1, I.
    + intros [|k] t' p E IT; cbn [nth_error] in E.
      * inversion E. subst t'. destruct (C1 p IT) as [Q1 Q2]. split; [exact Q1|]. rewrite Nat.add_0_r. apply B2, Q2.
      * destruct (C2 k t' p E IT) as [Q1 Q2]. split; [exact Q1|]. replace (x + Datatypes.S k)%nat with (Datatypes.S x + k)%nat by lia. exact Q2.
Qed.

(** ** The search *)
Lemma point_in_triangle_ok : forall p a b c, rpoint_in_triangle rdirect p (a, b, c) = true <-> 0 <= sidef a b p /\ 0 <= sidef b c p /\ 0 <= sidef c a p.
Proof.
  intros p a b c. unfold rpoint_in_triangle, pseudo_cross, p_sub, sidef. cbn [rlt rdirect fst snd].
  destruct (Rltb_spec ((snd p - snd a) * (fst b - fst a) - (fst p - fst a) * (snd b - snd a)) 0); [split; [discriminate|lra]|].
  destruct (Rltb_spec ((snd p - snd b) * (fst c - fst b) - (fst p - fst b) * (snd c - snd b)) 0); [split; [discriminate|lra]|].
  destruct (Rltb_spec ((snd p - snd c) * (fst a - fst c) - (fst p - fst c) * (snd a - snd c)) 0); split; intro; (discriminate || lra || reflexivity).
Qed.
Lemma first_triangle_ok : forall data ts p, StronglySorted lt data -> (forall y, In y data -> (y < length ts)%nat) ->
  exists r, first_triangle rdirect ts p data = Some r /\
    match r with
    | Some ti => In ti data /\ (exists t, nth_error ts ti = Some t /\ rpoint_in_triangle rdirect p t = true) /\
        forall tj t, (tj < ti)%nat -> In tj data -> nth_error ts tj = Some t -> rpoint_in_triangle rdirect p t = false
    | None => forall tj t, In tj data -> nth_error ts tj = Some t -> rpoint_in_triangle rdirect p t = false
    end.
Proof.
  induction data as [|x data IH]; intros ts p S L; cbn [first_triangle]; [exists None; split; [reflexivity|intros tj t []]|].
  inversion S as [|? ? S' F]; subst. rewrite Forall_forall in F.
  destruct (nth_error ts x) as [t|] eqn:E; [|exfalso; apply nth_error_None in E; specialize (L x (or_introl eq_refl)); lia].
  destruct (rpoint_in_triangle rdirect p t) eqn:C.
  - exists (Some x). split; [reflexivity|]. split; [left; reflexivity|]. split; [exists t; auto|]. intros tj t' LT [->|I] E'; [lia|]. specialize (F tj I). lia.
  - destruct (IH ts p S' ltac:(intros; apply L; right; assumption)) as (r & R & H). exists r. split; [exact R|]. destruct r as [ti|].
    + destruct H as (H1 & H2 & H3). split; [right; exact H1|]. split; [exact H2|]. intros tj t' LT [->|I] E'; [congruence|]. apply (H3 tj t' LT I E').
    + intros tj t' [->|I] E'; [congruence|]. apply (H tj t' I E').
Qed.
Lemma find_triangle_ok : forall g cs m, good_grid g -> all_sorted cs ->
  (forall i j y, In y (cs i j) -> (y < length (m_triangles m))%nat) ->
  (forall k t p, nth_error (m_triangles m) k = Some t -> in_tri p t -> inside g p /\ In k (cs (ix g p) (iy g p))) ->
  (forall k a b c, nth_error (m_triangles m) k = Some (a, b, c) -> 0 <= area2 a b c) ->
  forall p, exists r, find_triangle rdirect m (g, cs) p = Some r /\
    match r with
    | Some ti => exists a b c, nth_error (m_triangles m) ti = Some (a, b, c) /\ (0 < area2 a b c -> in_triangle p a b c) /\
        forall tj t, (tj < ti)%nat -> nth_error (m_triangles m) tj = Some t -> ~ in_tri p t
    | None => forall tj t, nth_error (m_triangles m) tj = Some t -> ~ in_tri p t
    end.
Proof.
  intros g cs m G S L IN AR p. unfold find_triangle, find_indices. cbn [fst snd].
  assert (PIT : forall k t, nth_error (m_triangles m) k = Some t -> in_tri p t -> rpoint_in_triangle rdirect p t = true).
  { intros k [[a b] c] E I. apply point_in_triangle_ok. apply in_triangle_sides; [exact (AR k a b c E)|exact I]. }
  destruct (rcontained g p) eqn:RC.
  - assert (IP : inside g p).
    { unfold rcontained in RC. rewrite !andb_true_iff in RC. unfold inside. destruct RC as [[[R1 R2] R3] R4].
      destruct (Rleb_spec (fst (g_lo g)) (fst p)); [|discriminate]. destruct (Rleb_spec (fst p) (fst (g_hi g))); [|discriminate]. destruct (Rleb_spec (snd (g_lo g)) (snd p)); [|discriminate]. destruct (Rleb_spec (snd p) (snd (g_hi g))); [|discriminate]. lra. }
    destruct (index_ok g p G IP) as (X & Y & RX & RY). rewrite X, Y.
    assert (IR : in_range g (ix g p) (iy g p) = true) by (unfold in_range; rewrite !andb_true_iff, !Z.leb_le, !Z.ltb_lt; lia). rewrite IR.
    destruct (first_triangle_ok (cs (ix g p) (iy g p)) (m_triangles m) p (S _ _) (L _ _)) as (r & R & H). exists r. split; [exact R|]. destruct r as [ti|].
    + destruct H as (H1 & ([[a b] c] & H2 & H3) & H4). exists a, b, c. split; [exact H2|]. apply point_in_triangle_ok in H3. split; [intro T; apply sides_in_triangle; tauto|].
      intros tj t LT E I. destruct (IN tj t p E I) as [_ Q]. specialize (H4 tj t LT Q E). rewrite (PIT tj t E I) in H4. discriminate.
    + intros tj t E I. destruct (IN tj t p E I) as [_ Q]. specialize (H tj t Q E). rewrite (PIT tj t E I) in H. discriminate.
  - exists None. cbn [first_triangle]. split; [reflexivity|]. intros tj t E I. destruct (IN tj t p E I) as [[[Q1 Q2] [Q3 Q4]] _].
    unfold rcontained in RC. destruct (Rleb_spec (fst (g_lo g)) (fst p)); [|lra]. destruct (Rleb_spec (fst p) (fst (g_hi g))); [|lra]. destruct (Rleb_spec (snd (g_lo g)) (snd p)); [|lra]. destruct (Rleb_spec (snd p) (snd (g_hi g))); [|lra]. discriminate.
Qed.

(** ** The grid of the cache *)
Lemma normalize_range : forall v : plane, ~ (fst v = 0 /\ snd v = 0) -> Rabs (fst (p_normalize v)) <= 1 /\ Rabs (snd (p_normalize v)) <= 1 /\
  (0 <= fst v -> 0 <= fst (p_normalize v)) /\ (0 <= snd v -> 0 <= snd (p_normalize v)) /\ (fst v <= 0 -> fst (p_normalize v) <= 0) /\ (snd v <= 0 -> snd (p_normalize v) <= 0) /\ (0 < fst v -> 0 < fst (p_normalize v)).
Proof.
  intros v N. assert (N' : v <> (0, 0)) by (intro E; apply N; subst v; split; reflexivity). pose proof (AngleProof.norm_pos v N') as P. unfold p_normalize, p_scale. cbn [fst snd].
  assert (K : 0 < 1 / p_norm v) by (apply Rdiv_lt_0_compat; lra).
  assert (SQ : p_norm v * p_norm v = fst v * fst v + snd v * snd v).
  { unfold p_norm. apply sqrt_sqrt. unfold p_dot. pose proof (Rle_0_sqr (fst v)). pose proof (Rle_0_sqr (snd v)). unfold Rsqr in *. lra. }
  assert (AB : forall x y, p_norm v * p_norm v = x * x + y * y -> Rabs (1 / p_norm v * x) <= 1).
  { intros x y E. rewrite Rabs_mult, (Rabs_right (1 / p_norm v)) by lra.
    assert (Rabs x <= p_norm v).
    { apply Rsqr_incr_0_var; [|lra]. unfold Rsqr. rewrite <- Rabs_mult, Rabs_right by (pose proof (Rle_0_sqr x); unfold Rsqr in *; lra). pose proof (Rle_0_sqr y). unfold Rsqr in *. lra. }
    replace 1 with (1 / p_norm v * p_norm v) by (field; lra). replace (1 / p_norm v * p_norm v / p_norm v) with (1 / p_norm v) by (field; lra). apply Rmult_le_compat_l; lra. }
  split; [apply (AB _ (snd v)), SQ|]. split; [apply (AB _ (fst v)); lra|].
  assert (MP : forall x, 0 <= x -> 0 <= 1 / p_norm v * x) by (intros; apply Rmult_le_pos; lra).
  assert (MN : forall x, x <= 0 -> 1 / p_norm v * x <= 0) by (intros x X; assert (0 <= 1 / p_norm v * - x) by (apply Rmult_le_pos; lra); lra).
  repeat split; auto. intro V. apply Rmult_lt_0_compat; lra.
Qed.
Lemma sqrt2_bounds : 1 < sqrt 2 < 1.5.
Proof.
  split.
  - rewrite <- sqrt_1 at 1. apply sqrt_lt_1_alt. lra.
  - apply Rsqr_incrst_0; [|apply sqrt_pos|lra]. unfold Rsqr. rewrite sqrt_sqrt by lra. lra.
Qed.
Lemma make_cache_grid : forall points ts, (exists p q, In p points /\ In q points /\ p <> q) ->
  (forall p q, In p points -> In q points -> fst p - fst q < 4294967292 /\ snd p - snd q < 4294967292) ->
  exists g, good_grid g /\ (forall p, In p points -> inside g p) /\
    (forall p q, In p points -> In q points -> fst q < fst p -> fst p < fst (g_hi g)) /\
    make_cache points ts = match cache_triangles g 0 ts (fun _ _ => []) with Some cs => Some (g, cs) | None => None end.
Proof.
  intros points ts (p & q & Ip & Iq & NE) EXT. unfold make_cache. destruct points as [|p0 ps]; [contradiction|].
  destruct (get_bounds_ok p0 ps) as [W AT]. cbv zeta in W, AT. destruct (get_bounds (rabsolute 0) p0 ps) as [[[xmin xmax] ymin] ymax].
  destruct AT as ((p1 & I1 & E1) & (p2 & I2 & E2) & (p3 & I3 & E3) & (p4 & I4 & E4)).
  destruct (EXT p2 p1 I2 I1) as [EX _]. destruct (EXT p4 p3 I4 I3) as [_ EY]. rewrite E1, E2 in EX. rewrite E3, E4 in EY.
  assert (O : xmin <= xmax /\ ymin <= ymax) by (specialize (W p Ip); unfold within in W; lra).
  assert (NZ : ~ (xmin = xmax /\ ymin = ymax)).
  { intros [Z1 Z2]. apply NE. pose proof (W p Ip) as Wp. pose proof (W q Iq) as Wq. unfold within in Wp, Wq. destruct p, q. cbn [fst snd] in *. f_equal; lra. }
  destruct (Reqb xmin xmax && Reqb ymin ymax) eqn:Z; [exfalso; apply NZ; destruct (Reqb_spec xmin xmax), (Reqb_spec ymin ymax); try discriminate; auto|]. clear Z.
  cbv zeta. set (n1 := p_normalize (p_sub (xmin, ymin) (xmax, ymax))). 
  destruct (normalize_range (p_sub (xmin, ymin) (xmax, ymax))) as (A1 & A2 & _ & _ & A3 & A4 & _); [unfold p_sub; cbn [fst snd]; intros [Z1 Z2]; apply NZ; lra|]. fold n1 in A1, A2, A3, A4.
  unfold p_sub in A3, A4. cbn [fst snd] in A3, A4. specialize (A3 ltac:(lra)). specialize (A4 ltac:(lra)). apply Rabs_bounds in A1. apply Rabs_bounds in A2.
  set (lo := p_add (xmin, ymin) (p_scale (sqrt 2) n1)). pose proof sqrt2_bounds as SB.
  assert (LX : xmin - 1.5 <= fst lo <= xmin).
  { unfold lo, p_add, p_scale. cbn [fst snd]. assert (0 <= sqrt 2 * (- fst n1)) by (apply Rmult_le_pos; lra). assert (sqrt 2 * (- fst n1) <= 1.5 * 1) by (apply Rmult_le_compat; lra). lra. }
  assert (LY : ymin - 1.5 <= snd lo <= ymin).
  { unfold lo, p_add, p_scale. cbn [fst snd]. assert (0 <= sqrt 2 * (- snd n1)) by (apply Rmult_le_pos; lra). assert (sqrt 2 * (- snd n1) <= 1.5 * 1) by (apply Rmult_le_compat; lra). lra. }
  set (n2 := p_normalize (p_sub (xmax, ymax) lo)).
  destruct (normalize_range (p_sub (xmax, ymax) lo)) as (B1 & B2 & B3 & B4 & _ & _ & B5); [unfold p_sub; cbn [fst snd]; intros [Z1 Z2]; apply NZ; lra|]. fold n2 in B1, B2, B3, B4, B5.
  unfold p_sub in B3, B4, B5. cbn [fst snd] in B3, B4, B5. specialize (B3 ltac:(lra)). specialize (B4 ltac:(lra)). apply Rabs_bounds in B1. apply Rabs_bounds in B2.
  set (hi := p_add (xmax, ymax) (p_scale (sqrt 2) n2)).
  assert (HX : xmax <= fst hi <= xmax + 1.5).
  { unfold hi, p_add, p_scale. cbn [fst snd]. assert (0 <= sqrt 2 * fst n2) by (apply Rmult_le_pos; lra). assert (sqrt 2 * fst n2 <= 1.5 * 1) by (apply Rmult_le_compat; lra). lra. }
  assert (HY : ymax <= snd hi <= ymax + 1.5).
  { unfold hi, p_add, p_scale. cbn [fst snd]. assert (0 <= sqrt 2 * snd n2) by (apply Rmult_le_pos; lra). assert (sqrt 2 * snd n2 <= 1.5 * 1) by (apply Rmult_le_compat; lra). lra. }
  assert (HX' : xmin < xmax -> xmax < fst hi).
  { intro V. unfold hi, p_add, p_scale. cbn [fst snd]. assert (0 < sqrt 2 * fst n2) by (apply Rmult_lt_0_compat; [lra|apply B5; lra]). lra. }
  clearbody lo hi n1 n2. clear A1 A2 A3 A4 B1 B2 B3 B4 B5.
  unfold make_rgrid. replace ((fst hi - fst lo) * (1 / 1)) with (fst hi - fst lo) by field. replace ((snd hi - snd lo) * (1 / 1)) with (snd hi - snd lo) by field.
  rewrite !uint32_ok by lra.
  pose proof (Int_small (fst hi - fst lo) ltac:(lra)) as SX. pose proof (Int_small (snd hi - snd lo) ltac:(lra)) as SY. rewrite !Z.mod_small by lia.
  eexists. split; [|split; [|split; [|reflexivity]]].
  - unfold good_grid. cbn [g_hi g_lo g_nx g_ny]. repeat split; lra.
  - intros r R. specialize (W r R). unfold within in W. unfold inside. cbn [g_hi g_lo]. lra.
  - intros r t R T LT. pose proof (W r R). pose proof (W t T). unfold within in *. cbn [g_hi]. destruct (Rlt_dec xmin xmax) as [V|V]; [specialize (HX' V)|]; lra.
Qed.
Lemma cache_ok : forall points indices m, make_mesh rdirect points indices = Some m ->
  (exists p q, In p points /\ In q points /\ p <> q) ->
  (forall p q, In p points -> In q points -> fst p - fst q < 4294967292 /\ snd p - snd q < 4294967292) ->
  exists g cs, make_cache (m_points m) (m_triangles m) = Some (g, cs) /\ good_grid g /\ all_sorted cs /\
    (forall p q, In p points -> In q points -> fst q < fst p -> fst p < fst (g_hi g)) /\
    (forall i j y, In y (cs i j) -> (y < length (m_triangles m))%nat) /\
    (forall k t p, nth_error (m_triangles m) k = Some t -> in_tri p t -> inside g p /\ In k (cs (ix g p) (iy g p))) /\
    (forall k a b c, nth_error (m_triangles m) k = Some (a, b, c) -> 0 <= area2 a b c).
Proof.
  intros points indices m M NE EXT. unfold make_mesh in M. destruct (mesh_triangles rdirect points indices) as [l|] eqn:L; [|discriminate].
  inversion M. subst m. cbn [m_points m_triangles]. clear M. destruct (mesh_triangles_ok points indices l L) as [A _].
  destruct (make_cache_grid points (map snd l) NE EXT) as (g & G & I & HX & E). rewrite E.
  assert (TI : Forall (tri_inside g) (map snd l)).
  { apply Forall_forall. intros T IT. apply in_map_iff in IT. destruct IT as ([t T'] & E' & IT). cbn [snd] in E'. subst T'. destruct (A t T IT) as (C & _ & _).
    destruct t as [[i j] k], T as [[a b] c]. destruct C as (C1 & C2 & C3). cbn. repeat split; eapply I, nth_error_In; eassumption. }
  destruct (cache_triangles_ok (map snd l) g 0 (fun _ _ => []) G TI) as (cs & E1 & S & A1 & B1 & C1); [intros i j; constructor|]. rewrite E1.
  exists g, cs. split; [reflexivity|]. split; [exact G|]. split; [exact S|]. split; [exact HX|]. split; [intros i j y IY; apply A1 in IY; destruct IY as [[]|IY]; lia|].
  split; [intros k t p Ek IT; apply (C1 k t p Ek IT)|].
  intros k a b c Ek. apply nth_error_In, in_map_iff in Ek. destruct Ek as ([t T'] & E' & IT). cbn [snd] in E'. subst T'. destruct (A t (a, b, c) IT) as (_ & (_ & _ & _ & Q) & _). exact Q.
Qed.
