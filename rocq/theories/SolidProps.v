(** The solid-leaf partition tree: construction, point location, distance, rays. *)
From Verif Require Import Base CmpModel OrientModel OrientSpec BoxSpec DistSpec PolygonModel PolygonSpec PolygonProof PolygonConvexProof BspModel BspSpec BspProof BspProof2 BspProof3 BspProof4 SolidModel SolidSpec SolidProof SolidProof2 SolidProof3 SolidProof4 SolidProof5 SolidProof6 SolidProof7.
From Coq Require Import Lia.

Lemma tree_solid : forall segs t, solid_tree segs t -> solid_of segs o_root (start segs) t.
Proof. intros segs t (_ & P & sel & fuel & S & E). exact (built_solid_of segs sel S fuel o_root _ t (start_wf segs P) E). Qed.

(** ** Construction *)
(** Construction ends, whatever unused segment the rule picks. *)
Theorem C35_terminates : forall segs sel, selects_unused sel -> (forall s, In s segs -> proper s) -> exists t, solid_leaf_bsp_tree segs sel (S (length segs)) = Some t.
Proof.
  intros segs sel S P. destruct (build_solid_of segs sel S (Datatypes.S (length segs)) o_root (start segs)) as (t & E & _); [rewrite start_count; lia|exact (start_wf segs P)|]. exists t. exact E.
Qed.
Print Assumptions C35_terminates.
(** The rules of the library pick unused segments; the scored one picks one of least score. *)
Theorem C35_rules : selects_unused autopartition_policy /\ selects_unused scored_selector_policy /\
  forall items k, scored_selector_policy items = Some k -> forall j jt, nth_error items j = Some jt -> it_used jt = false ->
    exists it, nth_error items k = Some it /\ score items k (it_seg it) <= score items j (it_seg jt).
Proof. split; [exact autopartition_selects|]. split; [exact scored_selects|exact scored_least]. Qed.
Print Assumptions C35_rules.
(** The score of an element: 4/5 for each other element that its line cuts, and 1/5 for each by which those in front and those
    behind differ in number, the elements along the line being in front.  The scored rule takes the first of the least score,
    the other rule the first unused. *)
Theorem C35_score : (forall items k s, exists f b c, others items k (not_behind s) f /\ others items k (only_behind s) b /\ others items k (cut_by s) c /\
    score items k s == (4 # 5) * inject_Z (Z.of_nat c) + (1 # 5) * inject_Z (Z.abs (Z.of_nat f - Z.of_nat b))) /\
  (forall items k P n m, others items k P n -> others items k P m -> n = m) /\
  (forall items k, scored_selector_policy items = Some k -> forall j jt it, (j < k)%nat -> nth_error items j = Some jt -> it_used jt = false ->
     nth_error items k = Some it -> score items k (it_seg it) < score items j (it_seg jt)) /\
  (forall items k j jt, autopartition_policy items = Some k -> (j < k)%nat -> nth_error items j = Some jt -> it_used jt = true).
Proof. split; [exact score_meaning|]. split; [exact others_unique|]. split; [exact scored_first|exact autopartition_first]. Qed.
Print Assumptions C35_score.
(** A segment with its ends strictly on the two sides of a line is cut into a part in front and a
    part behind that make it up. *)
Theorem C35_split : forall e plane, side plane (fst e) * side plane (snd e) < 0 ->
  exists f b, split_simplex e plane = Some (f, b) /\ in_front plane f /\ behind plane b /\ piece_of f e /\ piece_of b e /\
    forall X, on_segment (fst e) (snd e) X <-> on_segment (fst f) (snd f) X \/ on_segment (fst b) (snd b) X.
Proof.
  intros e s H. destruct (split_simplex_ok e s) as (f & b & E & F & B & PF & PB & C).
  - unfold straddles. destruct (Qlt_le_dec 0 (side s (fst e))) as [L|L]; [left; split; [exact L|]|right]; [destruct (Qlt_le_dec (side s (snd e)) 0); [assumption|]; assert (0 <= side s (fst e) * side s (snd e)) by (apply Qmult_le_0_compat; lra); lra|].
    destruct (Qlt_le_dec 0 (side s (snd e))) as [L2|L2]; [|assert (0 <= - side s (fst e) * - side s (snd e)) by (apply Qmult_le_0_compat; lra); lra]. split; [|exact L2]. destruct (Qlt_le_dec (side s (fst e)) 0); [assumption|]. assert (Z : side s (fst e) == 0) by lra. rewrite Z in H. lra.
  - exists f, b. split; [exact E|]. split; [exact F|]. split; [exact B|]. split; [exact PF|]. split; [exact PB|]. intro X. split; [apply C|]. intros [O|O]; [exact (piece_on _ _ _ PF O)|exact (piece_on _ _ _ PB O)].
Qed.
Print Assumptions C35_split.
Definition sq (x y : Q) : pt := mkpt x y.
Example C35_score_witness : let e a b c d := ((sq a b, sq c d), false, 0%nat) in
  let items := [e 0 0 1 0; e 0 1 3 (-(1)); e 0 2 5 7] in scored_selector_policy items = Some 1%nat /\ score items 0 (sq 0 0, sq 1 0) == 1.
Proof. split; vm_compute; reflexivity. Qed.
Example C35_witness : exists f b, split_simplex (sq 0 (-(1)), sq 0 3) (sq (-(1)) 0, sq 1 0) = Some (f, b) /\ fst f =p= sq 0 0 /\ snd f =p= sq 0 3 /\ fst b =p= sq 0 (-(1)) /\ snd b =p= sq 0 0.
Proof. eexists. eexists. split; [vm_compute; reflexivity|]. repeat split; vm_compute; reflexivity. Qed.

(** ** Point location *)
(** On the walls the answer is boundary.  Off the walls, solid and empty are right, and boundary is
    answered only on the line of a wall. *)
Theorem C89_locate : forall segs t E X, solid_tree segs t -> empty_space segs E ->
  (on_any segs X -> point_in_solid_space segs t X = on_boundary) /\
  (~ on_any segs X -> match point_in_solid_space segs t X with in_solid => ~ E X | in_empty_space => E X | on_boundary => exists r, In r segs /\ side r X == 0 end).
Proof.
  intros segs t E X T ES. pose proof (tree_solid _ _ T) as H. destruct T as (NE & P & _). split; [exact (wall_ok segs E t X P H (proj1 ES))|]. intro NX. pose proof (off_ok segs E t X NE P H ES NX) as O. destruct (point_in_solid_space segs t X) eqn:R; [exact O|exact O|].
  assert (D : (exists r, In r segs /\ side r X == 0) \/ generic segs X).
  { clear. induction segs as [|r segs IH]; [right; intros ? []|]. destruct (Qeq_dec (side r X) 0) as [Z|Z]; [left; exists r; split; [left; reflexivity|exact Z]|]. destruct IH as [(x & I & ZX)|G]; [left; exists x; split; [right; exact I|exact ZX]|right]. intros x [<- |I]; [exact Z|exact (G x I)]. }
  destruct D as [D|G]; [exact D|]. pose proof (generic_ok segs E t X NE H (proj1 ES) G) as K. rewrite R in K. destruct K.
Qed.
Print Assumptions C89_locate.
Lemma on_any_dec : forall segs X, (forall s, In s segs -> proper s) -> on_any segs X \/ ~ on_any segs X.
Proof.
  induction segs as [|s segs IH]; intros X P; [right; intros (? & [] & _)|]. destruct (IH X) as [O|N]; [intros; apply P; right; assumption|left; destruct O as (x & I & O); exists x; split; [right; exact I|exact O]|].
  assert (D : on_segment (fst s) (snd s) X \/ ~ on_segment (fst s) (snd s) X). { rewrite (on_frame s X (P s (or_introl eq_refl))). destruct (Qeq_dec (side s X) 0) as [Z|Z]; [|right; tauto]. destruct (Qlt_le_dec (side (across1 s) X) 0) as [L|L]; [right; intros (_ & A & _); lra|]. destruct (Qlt_le_dec (side (across2 s) X) 0) as [L2|L2]; [right; intros (_ & _ & A); lra|left; auto]. }
  destruct D as [D|D]; [left; exists s; split; [left; reflexivity|exact D]|right]. intros (x & [<- |I] & O); [exact (D O)|apply N; exists x; auto].
Qed.
(** With no two walls on a line, all three answers are exact. *)
Theorem C89_exact : forall segs t E X, solid_tree segs t -> empty_space segs E -> no_two_on_a_line segs ->
  (point_in_solid_space segs t X = on_boundary <-> on_any segs X) /\
  (point_in_solid_space segs t X = in_empty_space <-> ~ on_any segs X /\ E X) /\
  (point_in_solid_space segs t X = in_solid <-> ~ on_any segs X /\ ~ E X).
Proof.
  intros segs t E X T ES NT. destruct (C89_locate segs t E X T ES) as [ON OFF]. pose proof (tree_solid _ _ T) as H. destruct T as (NE & P & _).
  assert (NB : ~ on_any segs X -> point_in_solid_space segs t X <> on_boundary) by (intro NX; exact (off_exact segs E t X NE P NT H ES NX)).
  destruct (on_any_dec segs X P) as [O|N].
  - rewrite (ON O). split; [tauto|]. split; split; [discriminate|tauto|discriminate|tauto].
  - specialize (OFF N). specialize (NB N). destruct (point_in_solid_space segs t X); [| |congruence]; (split; [split; [discriminate|tauto]|]); split; split; try discriminate; tauto.
Qed.
Print Assumptions C89_exact.
(** For a convex room: the walls of the polygon, empty inside. *)
Theorem C89_convex : forall sel p, selects_unused sel -> convex_ccw p -> (3 <= length p)%nat ->
  exists t, solid_leaf_bsp_tree (polygon_edges p) sel (S (length p)) = Some t /\ forall X,
    (point_in_solid_space (polygon_edges p) t X = in_empty_space <-> strictly_inside p X) /\ (point_in_solid_space (polygon_edges p) t X = on_boundary <-> on_any (polygon_edges p) X).
Proof.
  intros sel p S C L. destruct (room_edges p C L) as (P & NT & ES & NE & LE). destruct (C35_terminates (polygon_edges p) sel S P) as (t & E). rewrite LE in E. exists t. split; [exact E|]. intro X.
  assert (T : solid_tree (polygon_edges p) t) by (split; [exact NE|]; split; [exact P|]; exists sel, (Datatypes.S (length p)); auto). destruct (C89_exact _ t _ X T ES NT) as (B & M & _). split; [|exact B]. rewrite M. split; [tauto|]. intro SI. split; [|exact SI].
  intros (s & I & O). apply edges_In in I. destruct I as (i & I & ->). apply on_segment_side in O. rewrite strictly_sides in SI by lia. specialize (SI i I). lra.
Qed.
Print Assumptions C89_convex.
(** The hypotheses hold for convex rooms. *)
Theorem C89_convex_room : forall p, convex_ccw p -> (3 <= length p)%nat -> empty_space (polygon_edges p) (strictly_inside p) /\ no_two_on_a_line (polygon_edges p).
Proof. intros p C L. destruct (room_edges p C L) as (_ & NT & ES & _). auto. Qed.
Print Assumptions C89_convex_room.
Lemma list_proper : forall l, forallb (fun s : seg => negb (Qeqb (px (snd s)) (px (fst s)) && Qeqb (py (snd s)) (py (fst s)))) l = true -> forall s, In s l -> proper s.
Proof.
  intros l H s I [Z1 Z2]. rewrite forallb_forall in H. specialize (H s I). unfold vsub in Z1, Z2. cbn [px py] in Z1, Z2. destruct (Qeqb_spec (px (snd s)) (px (fst s))) as [E|E]; [|apply E; lra]. destruct (Qeqb_spec (py (snd s)) (py (fst s))) as [F|F]; [|apply F; lra]. discriminate.
Qed.
(** Without walls everything is empty space. *)
Theorem C89_no_walls : forall sel fuel, exists t, solid_leaf_bsp_tree [] sel (S fuel) = Some t /\ forall X, point_in_solid_space [] t X = in_empty_space.
Proof. intros sel fuel. eexists. split; [reflexivity|]. intro X. reflexivity. Qed.
Print Assumptions C89_no_walls.
Definition two_blocks : list seg := [(sq 0 1, sq 1 1); (sq 1 1, sq 1 0); (sq 1 0, sq 0 0); (sq 0 0, sq 0 1); (sq 2 1, sq 3 1); (sq 3 1, sq 3 0); (sq 3 0, sq 2 0); (sq 2 0, sq 2 1)].
(** Between two solid blocks with their tops on one line, a point of that line is reported as
    boundary. *)
Theorem C89_between_refuted : exists segs t X, solid_tree segs t /\ ~ on_any segs X /\ point_in_solid_space segs t X = on_boundary.
Proof.
  exists two_blocks. destruct (solid_leaf_bsp_tree two_blocks autopartition_policy 9) as [t|] eqn:E; [|vm_compute in E; discriminate]. exists t, (sq (3 # 2) 1). split; [|split].
  - split; [discriminate|]. split; [apply list_proper; vm_compute; reflexivity|]. exists autopartition_policy, 9%nat. split; [exact autopartition_selects|exact E].
  - intros (s & I & O). destruct O as (u & U & [E1 E2]). cbn in I. repeat destruct I as [<- |I]; try contradiction; cbn [fst snd lerp vadd vscale vsub sq px py] in E1, E2; lra.
  - vm_compute in E. injection E as <-. vm_compute. reflexivity.
Qed.
Print Assumptions C89_between_refuted.
(** The query without a boundary answers one of the other two, and off the walls, with no two walls on one
    line, the right one. *)
Lemma no_boundary_agrees : forall segs t X, point_in_solid_space segs t X <> on_boundary ->
  point_in_solid_space_no_boundary segs t X = point_in_solid_space segs t X.
Proof.
  intros segs t X. induction t as [b l|i l f IHf k IHb]; intro H; [reflexivity|]. cbn [point_in_solid_space point_in_solid_space_no_boundary] in *. revert H.
  destruct (Qltb_spec 0 (plane_dist (nth i segs no_seg) X)) as [L|L]; destruct (Qleb_spec (plane_dist (nth i segs no_seg) X) 0) as [M|M]; try (exfalso; lra); intro H; [apply IHf; exact H|].
  destruct (Qltb (plane_dist (nth i segs no_seg) X) 0); [apply IHb; exact H|]. cbv zeta in *.
  destruct (point_in_solid_space segs f X), (point_in_solid_space segs k X); cbn [solid_class_eqb] in *; try congruence; apply IHb; discriminate.
Qed.
Theorem C89_no_boundary : forall segs t E X, solid_tree segs t -> empty_space segs E -> no_two_on_a_line segs ->
  point_in_solid_space_no_boundary segs t X <> on_boundary /\
  (~ on_any segs X -> (point_in_solid_space_no_boundary segs t X = in_empty_space <-> E X)).
Proof.
  intros segs t E X T ES NT. split.
  - clear. induction t as [b l|i l f IHf k IHb]; cbn [point_in_solid_space_no_boundary]; [destruct b; discriminate|]. destruct (Qleb _ _); assumption.
  - intro N. destruct (C89_exact segs t E X T ES NT) as (B & M & _). assert (NB : point_in_solid_space segs t X <> on_boundary) by tauto. rewrite (no_boundary_agrees _ _ _ NB). tauto.
Qed.
Print Assumptions C89_no_boundary.
(** With two walls on one line a point between them, in the empty space, can be reported solid. *)
Definition steps_apart : list seg := [(sq 0 1, sq 1 1); (sq 1 1, sq 1 0); (sq 1 0, sq 0 0); (sq 0 0, sq 0 1); (sq 2 2, sq 3 2); (sq 3 2, sq 3 1); (sq 3 1, sq 2 1); (sq 2 1, sq 2 2)].
Theorem C89_no_boundary_refuted : exists segs t X Y, solid_tree segs t /\ (forall u, 0 <= u <= 1 -> ~ on_any segs (lerp X Y u)) /\
  point_in_solid_space segs t Y = in_empty_space /\ point_in_solid_space_no_boundary segs t X = in_solid.
Proof.
  exists steps_apart. destruct (solid_leaf_bsp_tree steps_apart autopartition_policy 9) as [t|] eqn:E; [|vm_compute in E; discriminate]. exists t, (sq (3 # 2) 1), (sq (3 # 2) 2). split; [|split; [|split]].
  - split; [discriminate|]. split; [apply list_proper; vm_compute; reflexivity|]. exists autopartition_policy, 9%nat. split; [exact autopartition_selects|exact E].
  - intros u U (s & I & O). destruct O as (v & V & [E1 E2]). cbn in I. repeat destruct I as [<- |I]; try contradiction; cbn [fst snd lerp vadd vscale vsub sq px py] in E1, E2; lra.
  - vm_compute in E. injection E as <-. vm_compute. reflexivity.
  - vm_compute in E. injection E as <-. vm_compute. reflexivity.
Qed.
Print Assumptions C89_no_boundary_refuted.
Example C89_witness : exists t, solid_tree (polygon_edges [sq 0 0; sq 2 0; sq 2 2; sq 0 2]) t /\
  point_in_solid_space (polygon_edges [sq 0 0; sq 2 0; sq 2 2; sq 0 2]) t (sq 1 1) = in_empty_space /\ point_in_solid_space (polygon_edges [sq 0 0; sq 2 0; sq 2 2; sq 0 2]) t (sq 3 2) = in_solid /\
  point_in_solid_space (polygon_edges [sq 0 0; sq 2 0; sq 2 2; sq 0 2]) t (sq 2 2) = on_boundary.
Proof.
  destruct (solid_leaf_bsp_tree (polygon_edges [sq 0 0; sq 2 0; sq 2 2; sq 0 2]) scored_selector_policy 5) as [t|] eqn:E; [|vm_compute in E; discriminate]. exists t. split.
  - split; [discriminate|]. split; [apply list_proper; vm_compute; reflexivity|]. exists scored_selector_policy, 5%nat. split; [exact scored_selects|exact E].
  - vm_compute in E. injection E as <-. vm_compute. auto.
Qed.

(** ** Distance *)
(** The result is the least squared distance from the point to the walls, and the index names a wall
    at that distance. *)
Theorem C90_min_distance : forall segs t p, solid_tree segs t ->
  exists m i s, get_min_distance_sqrd_to_solid segs t p = Some (Some (m, i)) /\ nth_error segs i = Some s /\ least_dist2 p (on_any segs) m /\ least_dist2 p (on_segment (fst s) (snd s)) m.
Proof. intros segs t p T. pose proof (tree_solid _ _ T) as H. destruct T as (NE & P & _). exact (min_distance_ok segs t p P NE H). Qed.
Print Assumptions C90_min_distance.
Example C90_witness : exists t m, solid_leaf_bsp_tree two_blocks scored_selector_policy 9 = Some t /\ get_min_distance_sqrd_to_solid two_blocks t (sq 4 2) = Some (Some (m, 4%nat)) /\ m == 2.
Proof. eexists. eexists. split; [vm_compute; reflexivity|]. split; vm_compute; reflexivity. Qed.

(** ** Rays *)
(** From a point of the empty space, off the walls, from which the ray does not go to the left of a
    wall line through it.  A hit is on a wall, and before it the ray is in the empty space wherever
    it is off the walls; the index, if there is one, is that of a wall with the hit on it, and there
    is one if the hit is on one wall line only.  Without a hit the whole ray is in the empty space
    wherever it is off the walls. *)
Theorem C91_ray : forall segs t E p d border, solid_tree segs t -> empty_space segs E -> no_two_on_a_line segs ->
  ~ on_any segs p -> E p -> (forall r, In r segs -> side r p == 0 -> side r (at_ray p d 1) <= 0) ->
  match ray_intersection segs t p d border with
  | None => False
  | Some None => forall s, 0 <= s -> ~ on_any segs (at_ray p d s) -> E (at_ray p d s)
  | Some (Some (ot, oi)) => exists h, ot = Some h /\ 0 < h /\ on_any segs (at_ray p d h) /\ (forall s, 0 <= s <= h -> ~ on_any segs (at_ray p d s) -> E (at_ray p d s)) /\
      (forall i, oi = Some i -> exists w, nth_error segs i = Some w /\ on_segment (fst w) (snd w) (at_ray p d h)) /\
      ((forall i j a b, nth_error segs i = Some a -> nth_error segs j = Some b -> side a (at_ray p d h) == 0 -> side b (at_ray p d h) == 0 -> i = j) -> oi <> None)
  end.
Proof.
  intros segs t E p d border T ES NT NP EP AH. pose proof (tree_solid _ _ T) as H. destruct T as (NE & P & _).
  assert (E0 : p =p= at_ray p d 0) by (unfold at_ray, vadd, vscale; split; cbn [px py]; ring).
  assert (N0 : ~ on_any segs (at_ray p d 0)). { intro O. apply NP. refine (on_any_pteq _ _ _ _ O). destruct E0; split; symmetry; assumption. }
  assert (EE0 : E (at_ray p d 0)). { apply (proj2 ES p (at_ray p d 0)); [|exact EP]. intros s S O. apply NP. refine (on_any_pteq _ _ _ _ O). unfold at_ray, lerp, vadd, vscale, vsub. split; cbn [px py]; ring. }
  assert (OR : ~ reach segs (at_ray p d 0) t in_solid). { intro R. exact (reach_right segs E t _ NE P NT H ES N0 in_solid R EE0). }
  assert (AH' : forall r, In r segs -> side r p == 0 -> dot d (normal r) <= 0). { intros r I Z. specialize (AH r I Z). rewrite side_ray, Z in AH. lra. }
  unfold ray_intersection. destruct (ray_loop_ok segs p d t border P AH' OR (S (solid_nodes t)) t 0 None [] [] []) as (res & -> & HR); [cbn; lia|lra|exact I|split; [eauto|auto]|exact I|reflexivity|left; auto|].
  assert (ALL : forall s c, ~ on_any segs (at_ray p d s) -> reach segs (at_ray p d s) t c -> match c with in_solid => ~ E (at_ray p d s) | in_empty_space => E (at_ray p d s) | on_boundary => False end).
  { intros s c N R. exact (reach_right segs E t _ NE P NT H ES N c R). }
  destruct res as [[ot oi]|]; [|intros s S N; exact (ALL s _ N (HR s S))].
  destruct HR as (h & mn & -> & H0 & RS & RE & (GN & G) & EO). exists h. split; [reflexivity|].
  assert (DEC : ~ ~ on_any segs (at_ray p d h)). { intro N. exact (ALL h _ N RS (ALL h _ N (RE h ltac:(lra)))). }
  assert (ON : on_any segs (at_ray p d h)) by (destruct (on_any_dec segs (at_ray p d h) P); [assumption|contradiction]).
  split. { destruct (Qlt_le_dec 0 h) as [L|L]; [exact L|exfalso]. assert (HZ : h == 0) by lra. apply N0. refine (on_any_pteq _ _ _ _ ON). unfold at_ray, vadd, vscale. split; cbn [px py]; rewrite HZ; ring. }
  split; [exact ON|]. split; [intros s S N; exact (ALL s _ N (RE s S))|]. pose proof (closest_ok segs p d h H0 mn None None G (fun _ => eq_refl) ltac:(discriminate)) as CO. rewrite <- EO in CO. split.
  - intros i ->. exact CO.
  - intros U ->. destruct CO as [_ CO]. destruct mn as [|i mn]; [congruence|]. destruct (G i (or_introl eq_refl)) as (w & NW & PW & _ & ZW). apply (CO i (or_introl eq_refl)). exists w. split; [exact NW|]. destruct ON as (x & IX & OX). apply In_nth_error in IX. destruct IX as (j & NJ).
    assert (i = j) by (apply (U i j w x NW NJ ZW), on_segment_side, OX). subst j. assert (x = w) by congruence. subst x. exact OX.
Qed.
Print Assumptions C91_ray.
Definition l_room : list seg := [(sq 2 1, sq 1 1); (sq 0 0, sq 2 0); (sq 2 0, sq 2 1); (sq 1 1, sq 1 2); (sq 1 2, sq 0 2); (sq 0 2, sq 0 0)].
(** In an L-shaped room, from a point on the line of a wall to the left of that wall: the ray meets
    the wall opposite at 1, but no hit is reported. *)
Theorem C91_on_line_refuted : exists segs t p d h, solid_tree segs t /\ ~ on_any segs p /\ 0 < h /\ on_any segs (at_ray p d h) /\ point_in_solid_space segs t p = in_empty_space /\ point_in_solid_space segs t (at_ray p d (h + 1)) = in_solid /\
  ray_intersection segs t p d false = Some None.
Proof.
  exists l_room. destruct (solid_leaf_bsp_tree l_room autopartition_policy 7) as [t|] eqn:E; [|vm_compute in E; discriminate]. exists t, (sq (1 # 2) 1), (sq 0 (-(1))), 1. split; [|split; [|split; [|split; [|split; [|split]]]]].
  - split; [discriminate|]. split; [apply list_proper; vm_compute; reflexivity|]. exists autopartition_policy, 7%nat. split; [exact autopartition_selects|exact E].
  - intros (s & I & O). destruct O as (u & U & [E1 E2]). cbn in I. repeat destruct I as [<- |I]; try contradiction; cbn [fst snd lerp vadd vscale vsub sq px py] in E1, E2; lra.
  - lra.
  - exists (sq 0 0, sq 2 0). split; [right; left; reflexivity|]. exists (1 # 4). split; [lra|]. split; vm_compute; reflexivity.
  - vm_compute in E. injection E as <-. vm_compute. reflexivity.
  - vm_compute in E. injection E as <-. vm_compute. reflexivity.
  - vm_compute in E. injection E as <-. vm_compute. reflexivity.
Qed.
Print Assumptions C91_on_line_refuted.
(** The variant that looks for borders only, from inside the solid: a hit on no wall. *)
Theorem C91_border_refuted : exists segs t p d h i, solid_tree segs t /\ point_in_solid_space segs t p = in_solid /\ ray_intersection segs t p d true = Some (Some (Some h, i)) /\ ~ on_any segs (at_ray p d h).
Proof.
  exists (polygon_edges [sq 2 0; sq 2 2; sq 0 2; sq 0 0]). destruct (solid_leaf_bsp_tree (polygon_edges [sq 2 0; sq 2 2; sq 0 2; sq 0 0]) autopartition_policy 5) as [t|] eqn:E; [|vm_compute in E; discriminate]. exists t, (sq 3 3), (sq (-(1)) 0). eexists. eexists. split; [|split; [|split]].
  - split; [discriminate|]. split; [apply list_proper; vm_compute; reflexivity|]. exists autopartition_policy, 5%nat. split; [exact autopartition_selects|exact E].
  - vm_compute in E. injection E as <-. vm_compute. reflexivity.
  - vm_compute in E. injection E as <-. vm_compute. reflexivity.
  - intros (s & I & O). destruct O as (u & U & [E1 E2]). cbn in I. repeat destruct I as [<- |I]; try contradiction; cbn in E1, E2; lra.
Qed.
Print Assumptions C91_border_refuted.
Example C91_witness : exists t, solid_tree l_room t /\ exists q, ray_intersection l_room t (sq (1 # 2) (3 # 2)) (sq 0 (-(1))) false = Some (Some (Some q, Some 1%nat)) /\ q == (3 # 2).
Proof.
  destruct (solid_leaf_bsp_tree l_room autopartition_policy 7) as [t|] eqn:E; [|vm_compute in E; discriminate]. exists t. split.
  - split; [discriminate|]. split; [apply list_proper; vm_compute; reflexivity|]. exists autopartition_policy, 7%nat. split; [exact autopartition_selects|exact E].
  - vm_compute in E. injection E as <-. eexists. split; vm_compute; reflexivity.
Qed.
(** The hypotheses of the theorem in a convex room. *)
Example C91_witness_room : let room := [sq 0 0; sq 2 0; sq 2 2; sq 0 2] in
  convex_ccw room /\ strictly_inside room (sq 1 1) /\ ~ on_any (polygon_edges room) (sq 1 1) /\ (forall r, In r (polygon_edges room) -> ~ side r (sq 1 1) == 0).
Proof.
  cbv zeta. assert (S : forall r, In r (polygon_edges [sq 0 0; sq 2 0; sq 2 2; sq 0 2]) -> 0 < side r (sq 1 1)). { intros r I. cbn in I. repeat destruct I as [<- |I]; try contradiction; vm_compute; reflexivity. }
  split; [|split; [|split]].
  - intros i j k A B C L HA HB HC. assert (k < 4)%nat by (change 4%nat with (length [sq 0 0; sq 2 0; sq 2 2; sq 0 2]); apply nth_error_Some; congruence). destruct i as [|[|[|[|?]]]], j as [|[|[|[|?]]]], k as [|[|[|[|?]]]]; try lia; cbn in HA, HB, HC; injection HA as <-; injection HB as <-; injection HC as <-; vm_compute; reflexivity.
  - rewrite strictly_sides by (cbn; lia). intros i I. apply S. apply edges_In. exists i. auto.
  - intros (s & I & O). apply on_segment_side in O. specialize (S s I). lra.
  - intros r I Z. specialize (S r I). lra.
Qed.
