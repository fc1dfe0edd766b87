(** C28, C29, C30, C71: the property theorems about grids. *)
From Verif Require Import Base BoxModel BoxSpec GridModel GridSpec GridProof.

(** C28: for a grid with fewer than 2^32 - 1 cell widths a side, the point test is the closed
    region, every point of the region has indices below the counts, the point is in the half-open
    cell they name, and the counts are not larger than needed. *)
Theorem C28_lookup : forall xmin xmax ymin ymax w, good_bounds xmin xmax ymin ymax w ->
  exists g, make_grid xmin xmax ymin ymax w = Some g /\
    (forall p, is_contained g p = true <-> in_region xmin xmax ymin ymax p) /\
    (forall p, in_region xmin xmax ymin ymax p ->
      exists i j, get_x_index g (px p) = Some i /\ get_y_index g (py p) = Some j /\
        (0 <= i < g_nx g)%Z /\ (0 <= j < g_ny g)%Z /\ in_cell xmin ymin w i j p) /\
    in_cell xmin ymin w (g_nx g - 1) (g_ny g - 1) (mkpt xmax ymax).
Proof. exact grid_lookup. Qed.

(** C28: the half-open cells partition the plane. *)
Theorem C28_cells_disjoint : forall xmin ymin w i j i' j' p, 0 < w ->
  in_cell xmin ymin w i j p -> in_cell xmin ymin w i' j' p -> i = i' /\ j = j'.
Proof. exact cells_disjoint. Qed.
Theorem C28_cells_cover : forall xmin ymin w p, 0 < w -> exists i j, in_cell xmin ymin w i j p.
Proof. exact cells_cover. Qed.

(** C28: the corners, polygon, box and centroid of a cell describe that cell. *)
Theorem C28_cell_geometry : forall g i j, 0 < g_width g -> (0 <= i)%Z -> (0 <= j)%Z -> (i + 1 < two32)%Z -> (j + 1 < two32)%Z ->
  get_cell_polygon g i j = [get_cell_corner0 g i j; get_cell_corner1 g i j; get_cell_corner2 g i j; get_cell_corner3 g i j] /\
  get_cell_aabb g i j = mkbox2 (get_cell_corner0 g i j) (get_cell_corner2 g i j) /\
  (forall p, in2 (get_cell_aabb g i j) p <-> in_closed_cell (g_xmin g) (g_ymin g) (g_width g) i j p) /\
  in_cell (g_xmin g) (g_ymin g) (g_width g) i j (get_cell_centroid g i j) /\
  (forall c, In c (get_cell_polygon g i j) -> dist2 (get_cell_centroid g i j) c == g_width g * g_width g * (1 # 2)).
Proof. exact cell_geometry. Qed.

(** C28: the limit on the number of cells is needed: at exactly 2^32 - 1 cell widths the count
    wraps to zero, although the region is not empty. *)
Theorem C28_wrap_refuted : exists xmin xmax ymin ymax w g p,
  0 < w /\ xmin < xmax /\ ymin < ymax /\ make_grid xmin xmax ymin ymax w = Some g /\ in_region xmin xmax ymin ymax p /\
  get_x_index g (px p) = Some 0%Z /\ g_nx g = 0%Z.
Proof.
  exists 0, (inject_Z (two32 - 1)), 0, 1, 1. eexists. exists (mkpt 0 0).
  split; [lra|]. split; [vm_compute; reflexivity|]. split; [lra|]. split; [vm_compute; reflexivity|].
  split; [split; split; vm_compute; discriminate|]. split; vm_compute; reflexivity.
Qed.

Example C28_witness : good_bounds 0 10 0 5 (3 # 2) /\
  exists g, make_grid 0 10 0 5 (3 # 2) = Some g /\ g_nx g = 7%Z /\ g_ny g = 4%Z /\
    get_x_index g 10 = Some 6%Z /\ get_y_index g (3 # 2) = Some 1%Z /\ get_cell_centroid g 1 2 =p= mkpt (9 # 4) (15 # 4).
Proof.
  split; [repeat split; vm_compute; reflexivity|]. eexists. split; [vm_compute; reflexivity|].
  repeat split; vm_compute; reflexivity.
Qed.

(** C29: no history is undefined, and after every history find_cell answers what the history
    says: nothing when the cell was never made or was destroyed since, otherwise a reference to
    the value last written (or the default when none was). *)
Theorem C29_history : forall (D : Type) (d0 : D) ops, exists h, run_ops d0 hgrid_new ops = Some h /\
  forall i j, match find_cell h i j with
              | None => contents d0 (rev ops) i j = None
              | Some a => exists v, contents d0 (rev ops) i j = Some v /\ deref h a = Some v
              end.
Proof. exact sparse_history. Qed.

(** C29: a reference obtained from get_cell stays valid, and keeps being the reference of that
    cell, across every later history that does not erase the cell or clear the grid. *)
Theorem C29_references_stay_valid : forall (D : Type) (d0 : D) ops1 ops2 h1 a h2 h3 i j,
  run_ops d0 hgrid_new ops1 = Some h1 -> get_cell d0 h1 i j = (a, h2) ->
  run_ops d0 h2 ops2 = Some h3 -> Forall (keeps i j) ops2 ->
  find_cell h3 i j = Some a /\ fst (get_cell d0 h3 i j) = a /\ exists v, deref h3 a = Some v.
Proof. exact sparse_references. Qed.

(** C29: access by a point of the region is access to the cell the point lies in. *)
Theorem C29_access_by_point : forall (D : Type) (d0 : D) xmin xmax ymin ymax w g h p i j,
  good_bounds xmin xmax ymin ymax w -> make_grid xmin xmax ymin ymax w = Some g -> in_region xmin xmax ymin ymax p -> in_cell xmin ymin w i j p ->
  get_cell_at d0 g h p = Some (get_cell d0 h i j) /\ find_cell_at g h p = Some (find_cell h i j).
Proof.
  intros D d0 xmin xmax ymin ymax w g h p i j G E P C. destruct (grid_lookup _ _ _ _ _ G) as (g' & E' & _ & Look & _). assert (g' = g) by congruence. subst g'.
  destruct (Look p P) as (i' & j' & Ei & Ej & _ & _ & C'). assert (Hw : 0 < w) by (destruct G; assumption).
  destruct (cells_disjoint _ _ _ _ _ _ _ _ Hw C C') as [-> ->]. unfold get_cell_at, find_cell_at. rewrite Ei, Ej. split; reflexivity.
Qed.

Example C29_witness :
  let ops := [OWrite 3 4 7%nat; OGet 1 1; OWrite 3 4 9%nat; OErase 1 1; OFind 3 4; OGet 2 2] in
  contents 0%nat (rev ops) 3 4 = Some 9%nat /\ contents 0%nat (rev ops) 1 1 = None /\ contents 0%nat (rev ops) 2 2 = Some 0%nat /\
  exists h a, run_ops 0%nat hgrid_new ops = Some h /\ find_cell h 3 4 = Some a /\ deref h a = Some 9%nat /\ find_cell h 1 1 = None.
Proof.
  cbv zeta. repeat (split; [vm_compute; reflexivity|]). eexists. eexists.
  repeat (split; [vm_compute; reflexivity|]). vm_compute. reflexivity.
Qed.

(** C30: between any two cells with indices below 2^30, no intermediate [int] overflows and the
    visited cells are a digital line: first cell, last cell, max(|dx|,|dy|)+1 cells, each step
    to a neighbour toward the end, every cell within half a cell of the ideal line. *)
Theorem C30_digital_line : forall x1 y1 x2 y2 fuel,
  (0 <= x1 < 1073741824)%Z -> (0 <= y1 < 1073741824)%Z -> (0 <= x2 < 1073741824)%Z -> (0 <= y2 < 1073741824)%Z ->
  (Z.max (Z.abs (x2 - x1)) (Z.abs (y2 - y1)) < Z.of_nat fuel)%Z ->
  exists l, bresenham fuel x1 y1 x2 y2 = Visited l /\ digital_line x1 y1 x2 y2 l.
Proof. exact bresenham_ok. Qed.

(** C30: the same for the points of a segment inside a grid with at most 2^30 cells a side. *)
Theorem C30_segment : forall xmin xmax ymin ymax w g s t,
  good_bounds xmin xmax ymin ymax w -> make_grid xmin xmax ymin ymax w = Some g ->
  (g_nx g <= 1073741824)%Z -> (g_ny g <= 1073741824)%Z ->
  in_region xmin xmax ymin ymax s -> in_region xmin xmax ymin ymax t ->
  exists x1 y1 x2 y2, in_cell xmin ymin w x1 y1 s /\ in_cell xmin ymin w x2 y2 t /\
    forall fuel, (Z.max (g_nx g) (g_ny g) < Z.of_nat fuel)%Z ->
      exists l, bresenham_segment_traversal fuel g s t = Visited l /\ digital_line x1 y1 x2 y2 l.
Proof. exact bresenham_segment_ok. Qed.

(** C30: the bound is needed: from cell 0 to cell 2^30 (and one row up) the error term
    overflows an [int]. *)
Theorem C30_overflow_refuted : exists x1 y1 x2 y2, (0 <= x1 < two32)%Z /\ (0 <= y1 < two32)%Z /\ (0 <= x2 < two32)%Z /\ (0 <= y2 < two32)%Z /\
  int_ok x2 = true /\ forall fuel, bresenham fuel x1 y1 x2 y2 = Overflow.
Proof.
  exists 0%Z, 0%Z, 1610612736%Z, 1610612735%Z. unfold two32. repeat (split; [lia|]). split; [reflexivity|].
  intro fuel. vm_compute. reflexivity.
Qed.

Example C30_witness : bresenham 10 2 3 7 5 = Visited [(2, 3); (3, 3); (4, 4); (5, 4); (6, 5); (7, 5)]%Z.
Proof. vm_compute. reflexivity. Qed.

(** C71: after any sequence of writes through points of the region, none of which is undefined,
    reading through any point of the region gives the value last written through a point of the
    same half-open cell, or the initial value. *)
Theorem C71_history : forall (D : Type) (d0 : D) xmin xmax ymin ymax w g ws,
  good_bounds xmin xmax ymin ymax w -> make_grid xmin xmax ymin ymax w = Some g ->
  Forall (fun pv => in_region xmin xmax ymin ymax (fst pv)) ws ->
  exists a, write_all g (dense_new g d0) ws = Some a /\
    forall q, in_region xmin xmax ymin ymax q -> exists v, dense_get_at g a q = Some v /\ latest xmin ymin w d0 q ws v.
Proof. exact dense_history. Qed.

Example C71_witness : exists g a, make_grid 0 4 0 4 1 = Some g /\
  write_all g (dense_new g 0%nat) [(mkpt (5 # 2) (3 # 2), 8%nat); (mkpt 4 4, 5%nat)] = Some a /\
  dense_get_at g a (mkpt 2 1) = Some 8%nat /\ dense_get_at g a (mkpt 4 4) = Some 5%nat /\ dense_get_at g a (mkpt 3 1) = Some 0%nat.
Proof. eexists. eexists. repeat (split; [vm_compute; reflexivity|]). vm_compute. reflexivity. Qed.

Print Assumptions C28_lookup.
Print Assumptions C28_cell_geometry.
Print Assumptions C29_history.
Print Assumptions C29_references_stay_valid.
Print Assumptions C30_digital_line.
Print Assumptions C30_segment.
Print Assumptions C71_history.
