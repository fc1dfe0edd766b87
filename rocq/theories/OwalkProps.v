(** C114: the property theorems about the walk along a segment guided by the cell corners. *)
From Verif Require Import Base CmpModel GridModel GridSpec FloodSpec VoxelModel VoxelSpec OwalkModel OwalkSpec OwalkProof OwalkProof2.
From Coq Require Import Lia.

(** C114: with exact comparisons, for every grid and every segment given in either direction, the
    walk visits nothing when no point of the segment is in the region.  Otherwise, unless the
    part in the region stays in one column and falls from left to right, the walk ends within
    width + height steps, every point of the segment in the region is in a visited cell, every
    visited cell is a cell of the grid and has a point of the segment in the region, successive
    cells share an edge or a corner, no cell is visited twice, and the walk joins the cells of
    the two ends of the part in the region. *)
Theorem C114_corner_walk : forall xmin xmax ymin ymax w g s t fuel,
  good_bounds xmin xmax ymin ymax w -> make_grid xmin xmax ymin ymax w = Some g ->
  (g_nx g + g_ny g + 4 < Z.of_nat fuel)%Z ->
  (~ reaches xmin xmax ymin ymax s t -> orientation_segment_traversal direct fuel g s t = Visited []) /\
  (reaches xmin xmax ymin ymax s t -> ~ falls_in_column xmin xmax ymin ymax w s t ->
     exists l, orientation_segment_traversal direct fuel g s t = Visited l /\
       good_king_walk xmin xmax ymin ymax w (g_nx g) (g_ny g) s t l).
Proof.
  intros xmin xmax ymin ymax w g s t fuel G Eg F. destruct (owalk_ok xmin xmax ymin ymax w g s t fuel G Eg F) as (H1 & H2 & _). auto.
Qed.

(** C114: on a segment whose part in the region stays in one column and falls from left to right
    the row index is increased, not decreased: the walk only ends after the 32 bit index has
    wrapped around, which takes more than 2^32 minus the number of rows calls, and it visits a
    cell above the grid. *)
Theorem C114_falling_in_column_refuted : forall xmin xmax ymin ymax w g s t fuel,
  good_bounds xmin xmax ymin ymax w -> make_grid xmin xmax ymin ymax w = Some g ->
  (g_nx g + g_ny g + 4 < Z.of_nat fuel)%Z -> falls_in_column xmin xmax ymin ymax w s t ->
  ((Z.of_nat fuel <= two32 - g_ny g)%Z -> orientation_segment_traversal direct fuel g s t = TravNoFuel) /\
  forall l, orientation_segment_traversal direct fuel g s t = Visited l ->
    (two32 - g_ny g < Z.of_nat (length l))%Z /\ exists c, In c l /\ ~ in_grid (g_nx g) (g_ny g) c.
Proof.
  intros xmin xmax ymin ymax w g s t fuel G Eg F Fa. destruct (owalk_ok xmin xmax ymin ymax w g s t fuel G Eg F) as (_ & _ & H).
  destruct (H Fa) as (i & j & je & R & E). rewrite E. destruct (grid_facts xmin xmax ymin ymax w g Eg) as (_ & _ & _ & _ & _ & Ny).
  destruct (up_strip_wraps (fun j => (i, j)) je fuel j ltac:(lia) ltac:(lia)) as [U1 U2].
  assert (M : ((je - j) mod two32 = two32 + je - j)%Z). { replace (je - j)%Z with (two32 + je - j + -1 * two32)%Z by lia. rewrite Z.mod_add by discriminate. apply Z.mod_small. lia. }
  rewrite M in U1, U2. split.
  - intro Fu. rewrite U1 by lia. reflexivity.
  - intros l El. destruct (Z.lt_ge_cases (two32 + je - j) (Z.of_nat fuel)) as [Lf|Lf]; [|rewrite U1 in El by lia; discriminate].
    destruct (U2 Lf) as (m & Em & Ln & Inm). rewrite Em in El. cbn in El. injection El as <-. split; [cbn [length]; lia|].
    exists (i, g_ny g). split.
    + destruct (Z.eq_dec (g_ny g) j); [lia|]. right. apply Inm; lia.
    + unfold in_grid. cbn [fst snd]. lia.
Qed.

(** A rising segment that enters and leaves through the sides, a falling diagonal through cell
    corners, and a segment that falls in one column. *)
Example C114_witness : exists g, good_bounds 0 4 0 3 1 /\ make_grid 0 4 0 3 1 = Some g /\
  orientation_segment_traversal direct 30 g (mkpt (7 # 2) (5 # 2)) (mkpt (-1) (1 # 4)) =
    Visited [(0, 0); (0, 1); (1, 1); (2, 1); (2, 2); (3, 2)]%Z /\
  orientation_segment_traversal direct 30 g (mkpt 0 3) (mkpt 3 0) = Visited [(0, 3); (0, 2); (1, 1); (2, 0); (3, 0)]%Z /\
  falls_in_column 0 4 0 3 1 (mkpt (1 # 2) (5 # 2)) (mkpt (6 # 10) (1 # 2)) /\
  ~ falls_in_column 0 4 0 3 1 (mkpt 0 3) (mkpt 3 0) /\ reaches 0 4 0 3 (mkpt 0 3) (mkpt 3 0).
Proof.
  assert (Ins : forall s t, in_region 0 4 0 3 s -> in_region 0 4 0 3 t -> inside_part 0 4 0 3 s t 0 1).
  { intros s t Hs Ht. split; [lra|]. split; [lra|]. intros u Hu. split; [intros _; exact Hu|]. intros _. apply VoxelProof.region_convex; assumption. }
  eexists. split; [repeat split; vm_compute; reflexivity|]. split; [vm_compute; reflexivity|].
  split; [vm_compute; reflexivity|]. split; [vm_compute; reflexivity|]. split; [|split].
  - exists 0%Z, 2%Z, 0%Z, 0, 1. split; [apply Ins; split; split; cbn; lra|]. split; [unfold in_cell; change (inject_Z 0) with 0; change (inject_Z 2) with 2; cbn; lra|]. split; [unfold in_cell; change (inject_Z 0) with 0; change (inject_Z 2) with 2; cbn; lra|]. left. split; [cbn; lra|lia].
  - intros (i & j & j' & u0 & u1 & P & C1 & C2 & D).
    destruct (inside_unique _ _ _ _ _ _ _ _ _ _ P (Ins (mkpt 0 3) (mkpt 3 0) ltac:(split; split; cbn; lra) ltac:(split; split; cbn; lra))) as [E0 E1].
    destruct C1 as [[X1 X2] _], C2 as [[X3 X4] _]. cbn in X1, X2, X3, X4. lra.
  - exists 0. split; [lra|]. split; split; cbn; lra.
Qed.

Print Assumptions C114_corner_walk.
Print Assumptions C114_falling_in_column_refuted.
