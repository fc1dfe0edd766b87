(** C72, C73: the property theorems about the walk along a segment. *)
From Verif Require Import Base CmpModel BoxModel GridModel GridSpec FloodSpec VoxelModel VoxelSpec VoxelProof.

(** C72: with exact comparisons, for every segment and every grid, the walk ends within
    width + height steps.  It visits nothing when no point of the segment is in the region.
    Otherwise every point of the segment in the region is in a visited cell, every visited cell
    is a cell of the grid and has a point of the segment, successive cells share an edge, the
    walk never turns back (so no cell is visited twice), and it starts in the cell in which the
    segment enters the region. *)
Theorem C72_walk : forall xmin xmax ymin ymax w g s t fuel,
  good_bounds xmin xmax ymin ymax w -> make_grid xmin xmax ymin ymax w = Some g ->
  (g_nx g + g_ny g + 4 < Z.of_nat fuel)%Z ->
  exists l, fast_voxel_grid_traversal direct fuel g s t = Visited l /\
    (~ reaches xmin xmax ymin ymax s t -> l = []) /\
    (reaches xmin xmax ymin ymax s t -> good_walk xmin xmax ymin ymax w (g_nx g) (g_ny g) s t l).
Proof. exact voxel_ok. Qed.

(** C72: cells count with their borders.  The cell that holds the end point under the half-open
    convention of get_x_index/get_y_index need not be visited: in the unit grid on [0,4]^2 the
    segment from (1/2, 5/2) to (1, 1) ends in cell (1,1), and only column 0 is visited. *)
Theorem C72_end_cell_refuted : exists g s t l,
  good_bounds 0 4 0 4 1 /\ make_grid 0 4 0 4 1 = Some g /\ in_region 0 4 0 4 s /\ in_region 0 4 0 4 t /\
  fast_voxel_grid_traversal direct 20 g s t = Visited l /\ in_cell 0 0 1 1 1 t /\ ~ In (1, 1)%Z l.
Proof.
  eexists. exists (mkpt (1 # 2) (5 # 2)), (mkpt 1 1). eexists.
  split; [repeat split; vm_compute; reflexivity|]. split; [vm_compute; reflexivity|].
  split; [split; split; cbn; lra|]. split; [split; split; cbn; lra|].
  split; [vm_compute; reflexivity|]. split; [unfold in_cell; change (inject_Z 1) with 1; split; split; cbn; lra|].
  cbn. intros [H|[H|[]]]; discriminate.
Qed.

Example C72_witness : exists g, good_bounds 0 4 0 3 1 /\ make_grid 0 4 0 3 1 = Some g /\
  fast_voxel_grid_traversal direct 30 g (mkpt (-1) (1 # 4)) (mkpt (7 # 2) (5 # 2)) =
    Visited [(0, 0); (0, 1); (1, 1); (2, 1); (2, 2); (3, 2)]%Z.
Proof.
  eexists. split; [repeat split; vm_compute; reflexivity|]. split; [vm_compute; reflexivity|]. vm_compute; reflexivity.
Qed.

(** C73: the stoppable walk makes the calls of the plain walk, in the same order, up to and
    including the first call that the visitor answers with false, whatever the answers depend on
    and whatever the comparison policy. *)
Theorem C73_stoppable : forall keep cmp fuel g s t l, fast_voxel_grid_traversal cmp fuel g s t = Visited l ->
  exists r, stoppable_fast_voxel_grid_traversal keep cmp fuel g s t = Visited r /\ until_stop keep [] l r.
Proof. exact stoppable_ok. Qed.

Example C73_witness : exists g, make_grid 0 4 0 3 1 = Some g /\
  stoppable_fast_voxel_grid_traversal (fun calls => Nat.ltb (length calls) 3) direct 30 g (mkpt (-1) (1 # 4)) (mkpt (7 # 2) (5 # 2)) =
    Visited [(0, 0); (0, 1); (1, 1)]%Z.
Proof. eexists. split; [vm_compute; reflexivity|]. vm_compute; reflexivity. Qed.

Print Assumptions C72_walk.
Print Assumptions C73_stoppable.
