(** Properties C74 and C117: the cells of a filled convex polygon, without and with holes. *)
From Verif Require Import Base CmpModel OrientModel OrientSpec DistSpec PolygonModel PolygonSpec PolygonProof PolygonConvexProof
  GridModel GridSpec GridProof FloodModel FloodSpec VoxelModel VoxelSpec VoxelProof CvxSpec CvxProof CvxProof3 CvxProps
  PfillModel PfillSpec PfillProof PfillProof2 PfillProof3 PfillProof4 PfillProof5.
From Coq Require Import Permutation.

(** C74: a convex polygon (points in either order) with its points in the region of the grid, whatever the order in which
    the unordered map lists the columns: the visitor is called once for each of some cells of the grid; each of them has a
    point of the polygon, and every point of the polygon is in one of them (cells with their borders). *)
Theorem C74_filled_polygon : forall xmin xmax ymin ymax w g fuel order ps,
  good_bounds xmin xmax ymin ymax w -> make_grid xmin xmax ymin ymax w = Some g -> (g_nx g + g_ny g + 4 < Z.of_nat fuel)%Z ->
  (forall l, Permutation (order l) l) -> convex_either ps -> within_region xmin xmax ymin ymax ps ->
  exists calls, floodfill_polygon order direct fuel g ps [] = PfDone calls /\ NoDup calls /\
    (forall c, In c calls -> in_grid (g_nx g) (g_ny g) c /\ meets_cell xmin ymin w (in_hull ps) c) /\
    covered xmin ymin w (in_hull ps) calls.
Proof.
  intros xmin xmax ymin ymax w g fuel order ps G Eg F Or C R.
  destruct (fill_ok _ _ _ _ _ g G Eg fuel F order ps [] Or C R) as (calls & E & ND & S1 & Cov & _).
  { intros h []. }
  exists calls. split; [exact E|]. split; [exact ND|]. split.
  - intros c I. destruct (S1 c I) as [Gr [M|(h & [] & _)]]. auto.
  - intros X HX. apply Cov. split; [exact HX|intros h []].
Qed.

(** C74: for a polygon of any shape with no boundary point in the region nothing is visited. *)
Theorem C74_boundary_outside : forall xmin xmax ymin ymax w g fuel order ps,
  good_bounds xmin xmax ymin ymax w -> make_grid xmin xmax ymin ymax w = Some g -> (g_nx g + g_ny g + 4 < Z.of_nat fuel)%Z ->
  (forall l, Permutation (order l) l) -> (forall X, on_polygon ps X -> ~ in_region xmin xmax ymin ymax X) ->
  floodfill_polygon order direct fuel g ps [] = PfDone [].
Proof.
  intros xmin xmax ymin ymax w g fuel order ps G Eg F Or Out. unfold floodfill_polygon.
  assert (H : forall is s, (forall i, In i is -> (i < length ps)%nat) -> mark_edges pf_mark direct fuel g ps is s = inl s).
  { intro is. induction is as [|i is IH]; intros s Hi; cbn [mark_edges]; [reflexivity|]. assert (Li : (i < length ps)%nat) by (apply Hi; left; reflexivity).
    assert (Lj : ((i + 1) mod length ps < length ps)%nat) by (apply Nat.mod_upper_bound; lia). rewrite (pnth_error _ _ Li), (pnth_error _ _ Lj).
    destruct (voxel_ok _ _ _ _ _ g (pnth ps i) (pnth ps ((i + 1) mod length ps)) fuel G Eg F) as (l & -> & Emp & _).
    rewrite Emp; [apply IH; intros i' I; apply Hi; right; exact I|]. intros (u & Hu & R). apply (Out (lerp (pnth ps i) (pnth ps ((i + 1) mod length ps)) u)); [|exact R].
    exists i, (pnth ps i), (pnth ps ((i + 1) mod length ps)). split; [rewrite Nat.add_1_r; apply edge_pnth; exact Li|]. exists u. split; [exact Hu|apply pteq_refl]. }
  rewrite H by (intros i I; apply in_seq in I; lia). cbn [mark_holes pf_bound pf_new].
  assert (E : order [] = []) by (apply Permutation_nil, Permutation_sym, Or). rewrite E. reflexivity.
Qed.

(** C74: so a convex polygon that covers the whole region is not filled at all. *)
Theorem C74_larger_polygon_refuted : ~ (forall xmin xmax ymin ymax w g fuel order ps,
  good_bounds xmin xmax ymin ymax w -> make_grid xmin xmax ymin ymax w = Some g -> (g_nx g + g_ny g + 4 < Z.of_nat fuel)%Z ->
  (forall l, Permutation (order l) l) -> convex_polygon ps ->
  exists calls, floodfill_polygon order direct fuel g ps [] = PfDone calls /\
    covered xmin ymin w (fun X => in_hull ps X /\ in_region xmin xmax ymin ymax X) calls).
Proof.
  intro H. set (ps := [ip (-1) (-1); ip 11 (-1); ip 11 11; ip (-1) 11]).
  assert (C : convex_polygon ps) by (apply convexb_ok; [vm_compute; reflexivity|cbn; lia]).
  destruct (make_grid 0 10 0 10 1) as [g|] eqn:Eg; [|vm_compute in Eg; discriminate].
  assert (Gb : good_bounds 0 10 0 10 1) by (repeat split; vm_compute; reflexivity || (intro; discriminate)).
  destruct (H 0 10 0 10 1 g 40%nat (fun l => l) ps Gb Eg) as (calls & E & K).
  { vm_compute in Eg. injection Eg as <-. vm_compute. reflexivity. }
  { intro l. apply Permutation_refl. }
  { exact C. }
  assert (E' : floodfill_polygon (fun l => l) direct 40 g ps [] = PfDone []) by (vm_compute in Eg; injection Eg as <-; vm_compute; reflexivity).
  rewrite E' in E. injection E as <-. destruct (K (ip 5 5)) as (c & [] & _). split.
  - apply inside_hull; [exact C|]. apply insideb_ok. vm_compute. reflexivity.
  - repeat split; vm_compute; discriminate.
Qed.

(** C117: a convex polygon with convex holes, each with its points in the region (the holes may touch, overlap and leave
    the polygon, and have their points in either order): the visitor is called once for each of some cells of the grid; each
    of them has a point of the polygon or of the boundary of a hole; and every point of the polygon that is not inside a
    hole is in one of them. *)
Theorem C117_filled_with_holes : forall xmin xmax ymin ymax w g fuel order ps holes,
  good_bounds xmin xmax ymin ymax w -> make_grid xmin xmax ymin ymax w = Some g -> (g_nx g + g_ny g + 4 < Z.of_nat fuel)%Z ->
  (forall l, Permutation (order l) l) -> convex_either ps -> within_region xmin xmax ymin ymax ps ->
  (forall h, In h holes -> convex_either h /\ within_region xmin xmax ymin ymax h) ->
  exists calls, floodfill_polygon order direct fuel g ps holes = PfDone calls /\ NoDup calls /\
    (forall c, In c calls -> in_grid (g_nx g) (g_ny g) c /\
       (meets_cell xmin ymin w (in_hull ps) c \/ exists h, In h holes /\ meets_cell xmin ymin w (on_polygon h) c)) /\
    covered xmin ymin w (solid ps holes) calls.
Proof.
  intros xmin xmax ymin ymax w g fuel order ps holes G Eg F Or C R Hh.
  destruct (fill_ok _ _ _ _ _ g G Eg fuel F order ps holes Or C R Hh) as (calls & E & ND & S1 & Cov & _). exists calls. auto.
Qed.

(** C117: with one hole, inside the polygon, no cell is visited that with its border is inside the hole. *)
Theorem C117_one_hole_left_out : forall xmin xmax ymin ymax w g fuel order ps h calls c,
  good_bounds xmin xmax ymin ymax w -> make_grid xmin xmax ymin ymax w = Some g -> (g_nx g + g_ny g + 4 < Z.of_nat fuel)%Z ->
  (forall l, Permutation (order l) l) -> convex_either ps -> within_region xmin xmax ymin ymax ps ->
  convex_either h -> within_region xmin xmax ymin ymax h -> (forall X, in_hull h X -> in_hull ps X) ->
  floodfill_polygon order direct fuel g ps [h] = PfDone calls ->
  (forall X, in_closed_cell xmin ymin w (fst c) (snd c) X -> inside_polygon h X) -> ~ In c calls.
Proof.
  intros xmin xmax ymin ymax w g fuel order ps h calls c G Eg F Or C R Ch Rh Sub E In_h.
  destruct (fill_ok _ _ _ _ _ g G Eg fuel F order ps [h] Or C R) as (calls' & E' & _ & _ & _ & S1).
  { intros h' [<-|[]]. auto. }
  rewrite E' in E. injection E as <-. exact (S1 h eq_refl Sub c In_h).
Qed.

(** The squares of the examples. *)
Definition square (a b c d : Q) : list pt := [mkpt a b; mkpt c b; mkpt c d; mkpt a d].
Lemma square_inside : forall a b c d X, a < c -> b < d -> a < px X < c -> b < py X < d -> strictly_inside (square a b c d) X.
Proof.
  intros a b c d X Hac Hbd Hx Hy i A B E. apply edge_is in E as (Hi & -> & ->). unfold square in *. cbn [length] in *.
  destruct i as [|[|[|[|i]]]]; [| | | |lia]; cbn [Nat.modulo Nat.divmod fst snd Nat.sub pnth nth]; unfold tri2, cross, vsub; cbn [px py]; nra.
Qed.
Lemma strict_inside : forall ps X, convex_polygon ps -> strictly_inside ps X -> inside_polygon ps X.
Proof.
  intros ps X C H. split; [apply inside_hull; assumption|]. intros (i & A & B & E & O). specialize (H i A B E).
  apply (tri2_on_segment A B) in O as (t & _ & T). rewrite tri2_AA, tri2_AB in T. lra.
Qed.

(** C117: with two holes that are apart and inside the polygon, cells that are inside a hole can be visited: a hole whose rows
    in a column end at or below the first row of the polygon is never passed, so that the holes above it are not skipped. *)
Theorem C117_two_holes_refuted : ~ (forall xmin xmax ymin ymax w g fuel order ps holes calls h c,
  good_bounds xmin xmax ymin ymax w -> make_grid xmin xmax ymin ymax w = Some g -> (g_nx g + g_ny g + 4 < Z.of_nat fuel)%Z ->
  (forall l, Permutation (order l) l) -> convex_polygon ps -> within_region xmin xmax ymin ymax ps ->
  (forall h, In h holes -> convex_polygon h /\ within_region xmin xmax ymin ymax h) ->
  (forall h v, In h holes -> In v h -> strictly_inside ps v) ->
  (forall i j h1 h2 X, nth_error holes i = Some h1 -> nth_error holes j = Some h2 -> in_hull h1 X -> in_hull h2 X -> i = j) ->
  floodfill_polygon order direct fuel g ps holes = PfDone calls -> In h holes ->
  (forall X, in_closed_cell xmin ymin w (fst c) (snd c) X -> inside_polygon h X) -> ~ In c calls).
Proof.
  intro H. set (ps := square (1 # 2) (1 # 2) (19 # 2) (19 # 2)). set (h1 := square (42 # 10) (6 # 10) (48 # 10) (9 # 10)). set (h2 := square (5 # 2) (7 # 2) (15 # 2) (15 # 2)).
  assert (C : convex_polygon ps) by (apply convexb_ok; [vm_compute; reflexivity|cbn; lia]).
  assert (C1 : convex_polygon h1) by (apply convexb_ok; [vm_compute; reflexivity|cbn; lia]).
  assert (C2 : convex_polygon h2) by (apply convexb_ok; [vm_compute; reflexivity|cbn; lia]).
  destruct (make_grid 0 10 0 10 1) as [g|] eqn:Eg; [|vm_compute in Eg; discriminate].
  assert (Gb : good_bounds 0 10 0 10 1) by (repeat split; vm_compute; reflexivity || (intro; discriminate)).
  assert (R : forall a b c d, 0 <= a <= 10 -> 0 <= b <= 10 -> 0 <= c <= 10 -> 0 <= d <= 10 -> within_region 0 10 0 10 (square a b c d)).
  { intros a b c d A B C' D v I. unfold square in I. cbn [In] in I. destruct I as [<-|[<-|[<-|[<-|[]]]]]; (split; cbn [px py]; assumption). }
  destruct (floodfill_polygon (fun l => l) direct 40 g ps [h1; h2]) as [calls| |] eqn:E;
    [|vm_compute in Eg; injection Eg as <-; vm_compute in E; discriminate|vm_compute in Eg; injection Eg as <-; vm_compute in E; discriminate].
  apply (H 0 10 0 10 1 g 40%nat (fun l => l) ps [h1; h2] calls h2 (4, 5)%Z Gb Eg).
  - vm_compute in Eg. injection Eg as <-. vm_compute. reflexivity.
  - intro l. apply Permutation_refl.
  - exact C.
  - apply R; lra.
  - intros h [<-|[<-|[]]]; (split; [assumption|apply R; lra]).
  - intros h v [<-|[<-|[]]] I; unfold h1, h2, square in I; cbn [In] in I; destruct I as [<-|[<-|[<-|[<-|[]]]]]; apply insideb_ok; vm_compute; reflexivity.
  - assert (Apart : forall X, in_hull h1 X -> in_hull h2 X -> False).
    { intros X X1 X2. assert (py X <= 9 # 10). { apply (hull_below h1); [|exact X1]. intros v I. unfold h1, square in I. cbn [In] in I. destruct I as [<-|[<-|[<-|[<-|[]]]]]; cbn [py]; lra. }
      assert (7 # 2 <= py X). { apply (hull_above h2); [|exact X2]. intros v I. unfold h2, square in I. cbn [In] in I. destruct I as [<-|[<-|[<-|[<-|[]]]]]; cbn [py]; lra. }
      lra. }
    intros i j a b X Ei Ej Xa Xb. destruct i as [|[|[|i]]]; cbn [nth_error] in Ei; try discriminate; destruct j as [|[|[|j]]]; cbn [nth_error] in Ej; try discriminate; try reflexivity;
      injection Ei as <-; injection Ej as <-; exfalso; eauto.
  - exact E.
  - right; left; reflexivity.
  - intros X [K1 K2]. cbn [fst snd] in K1, K2. unfold inject_Z in K1, K2. apply strict_inside; [exact C2|]. apply square_inside; lra.
  - vm_compute in Eg. injection Eg as <-. vm_compute in E. injection E as <-. repeat (first [left; reflexivity|right]).
Qed.

Definition sample_grid : option grid := make_grid 0 10 0 10 1.
Example C74_witness : exists g, make_grid 0 10 0 10 1 = Some g /\ good_bounds 0 10 0 10 1 /\ (g_nx g + g_ny g + 4 < Z.of_nat 40)%Z /\
  let ps := [mkpt (1 # 2) (1 # 2); mkpt (9 # 2) (3 # 2); mkpt (5 # 2) (9 # 2)] in
  convex_polygon ps /\ within_region 0 10 0 10 ps /\
  floodfill_polygon (fun l => l) direct 40 g ps [] =
    PfDone [(0, 0); (1, 0); (2, 0); (2, 1); (3, 1); (4, 1); (4, 2); (3, 2); (3, 3); (2, 3); (2, 4); (1, 3); (1, 2); (1, 1); (0, 1); (2, 2)]%Z.
Proof.
  eexists. split; [vm_compute; reflexivity|]. split; [repeat split; vm_compute; reflexivity || (intro; discriminate)|]. split; [vm_compute; reflexivity|]. cbv zeta.
  split; [apply convexb_ok; [vm_compute; reflexivity|cbn; lia]|]. split; [|vm_compute; reflexivity].
  intros v I. cbn [In] in I. destruct I as [<-|[<-|[<-|[]]]]; repeat split; vm_compute; discriminate.
Qed.
(** With one hole, whose points are in clockwise order, 88 cells are visited and the 12 inside the hole are not; with the two holes of
    the refutation the cells of column 4 inside the larger hole are visited too. *)
Example C117_witness : exists g, make_grid 0 10 0 10 1 = Some g /\
  let ps := square (1 # 2) (1 # 2) (19 # 2) (19 # 2) in let h := square (5 # 2) (7 # 2) (15 # 2) (15 # 2) in
  convex_polygon ps /\ convex_polygon (rev (rev h)) /\ within_region 0 10 0 10 (rev h) /\
  (forall X, in_closed_cell 0 0 1 4 5 X -> inside_polygon h X) /\
  (exists l, floodfill_polygon (fun l => l) direct 40 g ps [rev h] = PfDone l /\ length l = 88%nat /\
    filter (fun c => negb (existsb (key_eqb c) l)) (list_prod (map Z.of_nat (seq 0 10)) (map Z.of_nat (seq 0 10))) =
      [(3, 4); (3, 5); (3, 6); (4, 4); (4, 5); (4, 6); (5, 4); (5, 5); (5, 6); (6, 4); (6, 5); (6, 6)]%Z) /\
  (exists l, floodfill_polygon (fun l => l) direct 40 g ps [square (42 # 10) (6 # 10) (48 # 10) (9 # 10); h] = PfDone l /\ length l = 91%nat).
Proof.
  assert (C2 : convex_polygon (square (5 # 2) (7 # 2) (15 # 2) (15 # 2))) by (apply convexb_ok; [vm_compute; reflexivity|cbn; lia]).
  eexists. split; [vm_compute; reflexivity|]. cbv zeta. split; [apply convexb_ok; [vm_compute; reflexivity|cbn; lia]|].
  split; [rewrite rev_involutive; exact C2|]. split.
  { intros v I. cbn [In rev app square] in I. destruct I as [<-|[<-|[<-|[<-|[]]]]]; repeat split; vm_compute; discriminate. }
  split.
  { intros X [K1 K2]. unfold inject_Z in K1, K2. apply strict_inside; [exact C2|]. apply square_inside; lra. }
  split; eexists; (split; [vm_compute; reflexivity|]); [split|]; vm_compute; reflexivity.
Qed.

Print Assumptions C74_filled_polygon.
Print Assumptions C74_boundary_outside.
Print Assumptions C74_larger_polygon_refuted.
Print Assumptions C117_filled_with_holes.
Print Assumptions C117_one_hole_left_out.
Print Assumptions C117_two_holes_refuted.
