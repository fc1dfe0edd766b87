(** A polygon in space cut by a plane: the two parts, and the side of the plane the polygon is on. *)
From Verif Require Import Base LinIntSpec DistModel BoxIntModel CutModel CutSpec CutProof CutProof2 CutProof3 CutProof4 CutProof5.
From Verif Require SolidModel.

(** Every polygon with a vertex is cut; the vertices of the parts are on their sides. *)
Theorem C124_cut_total : forall ps pl, ps <> [] -> exists F B, split_polygon ps pl = Some (F, B) /\
  (forall X, In X F -> 0 <= above pl X) /\ (forall X, In X B -> above pl X <= 0) /\
  (forall X, In X ps -> in_front pl X -> In X F) /\ (forall X, In X ps -> behind pl X -> In X B).
Proof.
  intros ps pl N. destruct (split_polygon_cut ps pl N) as (p & F & B & E & L & LA & C). exists F, B. split; [exact E|].
  destruct (sides pl p ps F B C) as [S1 S2]. split; [exact S1|]. split; [exact S2|].
  split; intros X I G; apply (cut_vertices pl p ps F B C X I); unfold in_front, behind in G; lra.
Qed.
(** The border of the polygon in front of the plane is the border of the front part there, and so behind; for every
    polygon, convex or not, flat or not. *)
Theorem C124_border_exact : forall ps pl F B X, split_polygon ps pl = Some (F, B) ->
  (in_front pl X -> (on_border F X <-> on_border ps X) /\ ~ on_border B X) /\
  (behind pl X -> (on_border B X <-> on_border ps X) /\ ~ on_border F X).
Proof.
  intros ps pl F B X H. destruct (cut_border ps pl F B X H) as [H1 H2].
  assert (N : ps <> []) by (intro; subst; discriminate).
  destruct (split_polygon_cut ps pl N) as (p & F' & B' & E & L & LA & C). rewrite E in H. injection H as -> ->. destruct (sides pl p ps F B C) as [S1 S2].
  assert (CE : forall l A D, In (A, D) (closed_edges l) -> In A l /\ In D l).
  { intros l A D HI. unfold closed_edges in HI. destruct l as [|x l]; [destruct HI|]. pose proof (in_combine_l _ _ _ _ HI) as IA. split; [|exact (in_combine_r _ _ _ _ HI)].
    destruct IA as [<-|IA]; [|exact IA]. apply (last_in (x :: l)); [discriminate|]. intro d. apply last_any. discriminate. }
  split; intro G; (split; [auto|]); intros (A & D & HI & S); destruct (CE _ _ _ HI) as [IA ID]; destruct (on_segment3_above pl A D X S) as [K1 K2]; unfold in_front, behind in G.
  - specialize (K1 (S2 A IA) (S2 D ID)). lra.
  - specialize (K2 (S1 A IA) (S1 D ID)). lra.
Qed.
(** Around a point in front of the plane the front part winds as the polygon does, and the back part not at all; and so
    behind. *)
Theorem C124_winding : forall ps pl F B u q, split_polygon ps pl = Some (F, B) ->
  (in_front pl q -> winding pl u q F = winding pl u q ps /\ winding pl u q B = 0%Z) /\
  (behind pl q -> winding pl u q B = winding pl u q ps /\ winding pl u q F = 0%Z).
Proof.
  intros ps pl F B u q H. destruct (cut_passages ps pl F B (above pl q) H) as [H1 H2].
  assert (N : ps <> []) by (intro; subst; discriminate).
  destruct (split_polygon_cut ps pl N) as (p & F' & B' & E & L & LA & C). rewrite E in H. injection H as -> ->. destruct (sides pl p ps F B C) as [S1 S2].
  unfold in_front, behind, winding. split; intro G.
  - split; [apply winding_same; auto|]. rewrite passages_none; [reflexivity|]. left. intros X I. specialize (S2 X I). lra.
  - split; [apply winding_same; auto|]. rewrite passages_none; [reflexivity|]. right. intros X I. specialize (S1 X I). lra.
Qed.
(** The parts of a convex polygon are exactly the parts of it on the two sides.  (Nothing behind: the back part is empty.) *)
Theorem C124_convex_exact : forall ps pl F B, convex_polygon ps -> split_polygon ps pl = Some (F, B) ->
  (forall X, in_hull3 F X <-> in_hull3 ps X /\ 0 <= above pl X) /\
  ((exists v, In v ps /\ behind pl v) -> forall X, in_hull3 B X <-> in_hull3 ps X /\ above pl X <= 0) /\
  ((forall v, In v ps -> ~ behind pl v) -> B = []).
Proof.
  intros ps pl F B CV H. destruct (convex_parts ps pl F B CV H) as [H1 H2]. split; [exact H1|]. split; [exact H2|].
  intro NB. assert (N : ps <> []) by (intro; subst; discriminate).
  destruct (split_polygon_cut ps pl N) as (p & F' & B' & E & L & LA & C). rewrite E in H. injection H as -> ->.
  assert (G : forall v, In v ps -> 0 <= above pl v) by (intros v I; specialize (NB v I); unfold behind in NB; lra).
  apply (back_empty pl p ps F B C); [apply G, last_in; assumption|exact G].
Qed.
(** The side of the plane. *)
Theorem C124_classify : forall ps pl,
  (classify_simplex_to_plane ps pl = SolidModel.straddling_plane <-> (exists v, In v ps /\ in_front pl v) /\ (exists v, In v ps /\ behind pl v)) /\
  (classify_simplex_to_plane ps pl = SolidModel.in_front_of_plane <-> (exists v, In v ps /\ in_front pl v) /\ (forall v, In v ps -> ~ behind pl v)) /\
  (classify_simplex_to_plane ps pl = SolidModel.in_back_of_plane <-> (exists v, In v ps /\ behind pl v) /\ (forall v, In v ps -> ~ in_front pl v)) /\
  (classify_simplex_to_plane ps pl = SolidModel.coplanar_with_plane <-> forall v, In v ps -> above pl v == 0).
Proof. exact classify_polygon. Qed.

(** A polygon that touches the plane from behind at a vertex: the vertex is twice in the back part. *)
Definition pz (x y : Q) : pt3 := mkpt3 x y 0.
Definition yz_plane : plane3 := mkplane3 (mkpt3 1 0 0) 0.
Definition notched : list pt3 := [pz (-2) (-2); pz 3 (-2); pz 3 3; pz (-2) 3; pz 0 0].
Theorem C124_repeated_vertex_refuted : NoDup notched /\ exists F B, split_polygon notched yz_plane = Some (F, B) /\ ~ NoDup B.
Proof.
  split.
  - unfold notched, pz. repeat constructor; cbn; intro H; decompose [or] H; try discriminate; try contradiction.
  - eexists _, _. split; [vm_compute; reflexivity|]. intro H. inversion H as [|x l H1 H2]. apply H1. cbn. tauto.
Qed.
(** A triangle behind the plane with a vertex on it: the front part has a single vertex. *)
Definition touching : list pt3 := [pz 0 0; pz (-1) 1; pz (-1) (-1)].
Theorem C124_single_vertex_refuted : convex_polygon touching /\
  split_polygon touching yz_plane = Some ([pz 0 0], [pz 0 0; pz 0 0; pz (-1) 1; pz (-1) (-1)]).
Proof.
  split; [|vm_compute; reflexivity]. split; [cbn; lia|]. exists (mkpt3 0 0 1), 0. split.
  - intros v H. cbn in H. decompose [or] H; subst; try reflexivity; contradiction.
  - intros i j k A B C H. destruct i as [|[|[|i]]], j as [|[|[|j]]], k as [|[|[|k]]]; try lia; cbn [nth_error touching]; intros E1 E2 E3;
    try discriminate E1; try discriminate E2; try discriminate E3; try (destruct i; discriminate); try (destruct j; discriminate); try (destruct k; discriminate);
    injection E1 as <-; injection E2 as <-; injection E3 as <-; reflexivity.
Qed.

(** A sloping square cut at a quarter of its width. *)
Definition slope : list pt3 := [mkpt3 0 0 0; mkpt3 4 0 4; mkpt3 4 4 4; mkpt3 0 4 0].
Definition cutter : plane3 := mkplane3 (mkpt3 1 0 0) 1.
Example C124_witness : convex_polygon slope /\ classify_simplex_to_plane slope cutter = SolidModel.straddling_plane /\
  (exists F B, split_polygon slope cutter = Some (F, B) /\ length F = 4%nat /\ length B = 4%nat) /\
  winding cutter (mkpt3 0 1 0) (mkpt3 2 2 2) slope = (-1)%Z.
Proof.
  split; [|split; [vm_compute; reflexivity|split; [|vm_compute; reflexivity]]].
  - split; [cbn; lia|]. exists (mkpt3 (-1) 0 1), 0. split.
    + intros v H. cbn in H. decompose [or] H; subst; try reflexivity; contradiction.
    + intros i j k A B C H. destruct i as [|[|[|[|i]]]], j as [|[|[|[|j]]]], k as [|[|[|[|k]]]]; try lia; cbn [nth_error slope]; intros E1 E2 E3;
      try discriminate E1; try discriminate E2; try discriminate E3; try (destruct i; discriminate); try (destruct j; discriminate); try (destruct k; discriminate);
      injection E1 as <-; injection E2 as <-; injection E3 as <-; reflexivity.
  - eexists _, _. split; [vm_compute; reflexivity|]. split; reflexivity.
Qed.

Print Assumptions C124_cut_total.
Print Assumptions C124_border_exact.
Print Assumptions C124_winding.
Print Assumptions C124_convex_exact.
Print Assumptions C124_classify.
