(** C113: the vertices of a mesh visible from a point. *)
From Verif Require Import Base CmpModel OrientModel OrientSpec PolygonSpec DistSpec VisModel VisSpec VisProof VisProof3 VisProof4.
From Verif Require MeshModel MeshSpec.
From Coq Require Import Lia.

(** When the search ends, every vertex to which a line of sight leads through the interiors of the sides is among
    the vertices found, whatever positive length the directions are divided by. *)
Theorem C113_visible_vertices_complete_partial : forall fuel norm m o start vs v, ok_vmesh m -> (forall d, 0 < norm d) ->
  visible_vertices fuel direct norm m o start = Found vs -> visible_from m o start v -> In v vs.
Proof. exact visible_found. Qed.
Print Assumptions C113_visible_vertices_complete_partial.

(** On a mesh without overlaps and without cycles, seen from a point inside a triangle that is on no line through two
    vertices, the search ends, is defined, and finds exactly the vertices to which a line of sight leads. *)
Theorem C113_visible_vertices_exact_partial : forall norm m o start, ok_vmesh m -> no_overlap m -> no_cycle m -> general_position m o -> strictly_in m start o -> (forall d, 0 < norm d) ->
  exists k vs, (forall fuel, (k <= fuel)%nat -> visible_vertices fuel direct norm m o start = Found vs) /\ forall v, In v vs <-> visible_from m o start v.
Proof.
  intros norm m o start OK NO NC GP INS NP. destruct (search_sound m o start norm OK NO GP NC INS NP) as (k & vs & E & G). exists k, vs. split; [exact E|].
  intro v. split; [apply G|]. intro V. exact (visible_found k norm m o start vs v OK NP (E k (le_n _)) V).
Qed.
Print Assumptions C113_visible_vertices_exact_partial.

(** Along a line of sight no point is outside the mesh. *)
Theorem C113_sight_inside : forall m o start v V, ok_vmesh m -> strictly_in m start o -> nth_error (vm_points m) v = Some V -> visible_from m o start v ->
  forall X, on_segment o V X -> exists j, in_closed m j X.
Proof. exact visible_inside. Qed.
Print Assumptions C113_sight_inside.

(** Meshes in which every triangle has at most one neighbour with a smaller number have no cycles. *)
Theorem C113_no_cycle : forall m, ok_vmesh m -> (forall i j k, neighbours m j i -> neighbours m j k -> (i < j)%nat -> (k < j)%nat -> i = k) -> no_cycle m.
Proof. exact tree_no_cycle. Qed.
Print Assumptions C113_no_cycle.

(** Without general position a hidden vertex can be reported: vertex 5 is behind a wall. *)
Definition corner_mesh : vmesh := mkvmesh [mkpt 1 0; mkpt 1 2; mkpt (-2) (-1); mkpt 2 0; mkpt 2 (-1); mkpt 4 1] [(0, 1, 2); (0, 3, 1); (0, 4, 3); (3, 4, 5)]%nat.
Lemma corner_ok : ok_vmesh corner_mesh.
Proof.
  split.
  - intros i s j s' ti tj e Hi Hj Ei Ej.
    destruct i as [|[|[|[|i]]]]; [| | | |destruct i; discriminate]; cbn in Hi; injection Hi as <-; (destruct j as [|[|[|[|j]]]]; [| | | |destruct j; discriminate]); cbn in Hj; injection Hj as <-;
    destruct s as [|[|[|s]]]; try discriminate; destruct s' as [|[|[|s']]]; try discriminate; cbn in Ei, Ej; try (split; congruence); exfalso; congruence.
  - intros i a b c Hi. destruct i as [|[|[|[|i]]]]; [| | | |destruct i; discriminate]; cbn in Hi; injection Hi as <- <- <-; cbn; eexists; eexists; eexists; repeat (split; [reflexivity|]); reflexivity.
Qed.
Lemma corner_overlap : no_overlap corner_mesh.
Proof.
  intros i j X N (a & b & c & A & B & C & E0 & E1 & E2 & E3 & P1 & P2 & P3) (a' & b' & c' & A' & B' & C' & E0' & E1' & E2' & E3' & Q1 & Q2 & Q3).
  destruct i as [|[|[|[|i]]]]; [| | | |destruct i; discriminate]; (destruct j as [|[|[|[|j]]]]; [| | | |destruct j; discriminate]); try (exfalso; apply N; reflexivity); clear N;
  cbn in E0, E0'; injection E0 as <- <- <-; injection E0' as <- <- <-; cbn in E1, E2, E3, E1', E2', E3'; injection E1 as <-; injection E2 as <-; injection E3 as <-; injection E1' as <-; injection E2' as <-; injection E3' as <-;
  unfold tri2, cross, vsub in *; cbn [px py] in *; lra.
Qed.
Lemma corner_cycle : no_cycle corner_mesh.
Proof.
  apply tree_no_cycle; [exact corner_ok|]. intros i j k (s & s' & ti & tj & a & b & E1 & E2 & D1 & D2) (u & u' & tu & tv & a' & b' & E1' & E2' & D1' & D2') L1 L2.
  change (nth_error (vm_tris corner_mesh) j = Some ti) in E1. change (nth_error (vm_tris corner_mesh) j = Some tu) in E1'.
  destruct j as [|[|[|[|j]]]]; [lia|lia| | |destruct j; discriminate]; cbn in E1, E1'; injection E1 as <-; injection E1' as <-;
  (destruct i as [|[|[|i]]]; [| | |lia]); (destruct k as [|[|[|k]]]; [| | |lia]); try reflexivity; try lia; exfalso; cbn in E2, E2'; injection E2 as <-; injection E2' as <-;
  destruct s as [|[|[|s]]]; try discriminate; destruct u as [|[|[|u]]]; try discriminate; cbn in D1, D1'; injection D1 as <- <-; injection D1' as <- <-;
  destruct s' as [|[|[|s']]]; try discriminate; destruct u' as [|[|[|u']]]; discriminate.
Qed.
Theorem C113_hidden_refuted : exists m o start v V X, ok_vmesh m /\ no_overlap m /\ no_cycle m /\ strictly_in m start o /\ nth_error (vm_points m) v = Some V /\
  (forall norm, (forall d, 0 < norm d) -> exists fuel vs, visible_vertices fuel direct norm m o start = Found vs /\ In v vs) /\
  on_segment o V X /\ forall j, ~ in_closed m j X.
Proof.
  exists corner_mesh, (mkpt 0 0), 0%nat, 5%nat, (mkpt 4 1), (mkpt (8 # 3) (2 # 3)).
  split; [exact corner_ok|]. split; [exact corner_overlap|]. split; [exact corner_cycle|]. split; [|split; [reflexivity|split; [|split]]].
  - exists 0%nat, 1%nat, 2%nat, (mkpt 1 0), (mkpt 1 2), (mkpt (-2) (-1)). repeat (split; [reflexivity|]). reflexivity.
  - intros norm N. exists 20%nat. eexists. split; [|]. unfold visible_vertices.
    + repeat (cbn [search_loop]; (rewrite (step_norm norm (fun _ => 1)); [|exact N|reflexivity|first [exact I|reflexivity]]);
        match goal with |- match ?x with _ => _ end = _ => let y := eval vm_compute in x in replace x with y by (vm_compute; reflexivity) end). reflexivity.
    + cbn. tauto.
  - exists (2 # 3). split; [lra|]. split; reflexivity.
  - intros j (a & b & c & A & B & C & E0 & E1 & E2 & E3 & P1 & P2 & P3).
    destruct j as [|[|[|[|j]]]]; [| | | |destruct j; discriminate]; cbn in E0; injection E0 as <- <- <-; cbn in E1, E2, E3; injection E1 as <-; injection E2 as <-; injection E3 as <-;
    unfold tri2, cross, vsub in P1, P2, P3; cbn in P1, P2, P3; lra.
Qed.
Print Assumptions C113_hidden_refuted.

(** The search need not end: three triangles around a common vertex, seen from inside one of them. *)
Theorem C113_endless_refuted : exists m o start, ok_vmesh m /\
  (exists A B C, nth_error (vm_tris m) start = Some (0, 1, 2)%nat /\ nth_error (vm_points m) 0 = Some A /\ nth_error (vm_points m) 1 = Some B /\ nth_error (vm_points m) 2 = Some C /\ 0 < tri2 A B o /\ 0 < tri2 B C o /\ 0 < tri2 C A o) /\
  forall norm, (forall d, 0 < norm d) -> forall fuel, visible_vertices fuel direct norm m o start = OutOfFuel.
Proof.
  exists fan, (mkpt 3 2), 0%nat. split; [split|split].
  - intros i s j s' ti tj e Hi Hj Ei Ej.
    destruct i as [|[|[|i]]]; [| | |destruct i; discriminate]; cbn in Hi; injection Hi as <-; (destruct j as [|[|[|j]]]; [| | |destruct j; discriminate]); cbn in Hj; injection Hj as <-;
    destruct s as [|[|[|s]]]; try discriminate; destruct s' as [|[|[|s']]]; try discriminate; cbn in Ei, Ej; try (split; congruence); exfalso; congruence.
  - intros i a b c Hi. destruct i as [|[|[|i]]]; [| | |destruct i; discriminate]; cbn in Hi; injection Hi as <- <- <-; cbn; eexists; eexists; eexists; repeat (split; [reflexivity|]); reflexivity.
  - eexists; eexists; eexists. repeat (split; [reflexivity|]). reflexivity.
  - exact fan_diverges.
Qed.
Print Assumptions C113_endless_refuted.

(** The mesh of the library's test: vertex 2 is seen through a common side, and the search ends. *)
Example C113_witness :
  let m := mkvmesh [mkpt 0 0; mkpt 10 0; mkpt 20 10; mkpt 20 20; mkpt 10 20; mkpt 10 10; mkpt 0 10] [(6, 1, 5); (6, 0, 1); (2, 5, 1); (4, 5, 2); (4, 2, 3)]%nat in
  ok_vmesh m /\ visible_vertices 10 direct (fun _ => 1) m (mkpt 3 8) 0 = Found [6; 1; 5; 2; 0]%nat /\ visible_from m (mkpt 3 8) 0 2.
Proof.
  cbv zeta. split; [split|split].
  - intros i s j s' ti tj e Hi Hj Ei Ej.
    destruct i as [|[|[|[|[|i]]]]]; [| | | | |destruct i; discriminate]; cbn in Hi; injection Hi as <-; (destruct j as [|[|[|[|[|j]]]]]; [| | | | |destruct j; discriminate]); cbn in Hj; injection Hj as <-;
    destruct s as [|[|[|s]]]; try discriminate; destruct s' as [|[|[|s']]]; try discriminate; cbn in Ei, Ej; try (split; congruence); exfalso; congruence.
  - intros i a b c Hi. destruct i as [|[|[|[|[|i]]]]]; [| | | | |destruct i; discriminate]; cbn in Hi; injection Hi as <- <- <-; cbn; eexists; eexists; eexists; repeat (split; [reflexivity|]); reflexivity.
  - vm_compute. reflexivity.
  - exists (mkpt 20 10), 2%nat, (2, 5, 1)%nat. split; [reflexivity|]. split; [|split; [reflexivity|exists 0%nat; split; [repeat constructor|reflexivity]]].
    apply (los_step _ _ _ 0 1 2 1 2 (6, 1, 5)%nat 1 5 (mkpt 10 0) (mkpt 10 10)); try reflexivity; [|exists (mkpt 10 (150 # 17))|apply los_end].
    + exists (6, 1, 5)%nat, (2, 5, 1)%nat, 1%nat, 5%nat. repeat split; reflexivity.
    + split; [exists (7 # 17)|exists (15 # 17)]; (split; [lra|split; reflexivity]).
Qed.

(** Seven triangles, one of them with three neighbours; vertex 6 is hidden. *)
Definition branch_mesh : vmesh :=
  mkvmesh [mkpt 0 0; mkpt 10 0; mkpt 3 8; mkpt 4 (-5); mkpt 12 9; mkpt (-6) 5; mkpt 5 16; mkpt 20 3; mkpt 14 17]
    [(0, 1, 2); (1, 0, 3); (2, 1, 4); (0, 2, 5); (2, 4, 6); (4, 1, 7); (6, 4, 8)]%nat.
Example C113_exact_witness : let o := mkpt (3 # 7) (2 # 11) in
  ok_vmesh branch_mesh /\ no_overlap branch_mesh /\ no_cycle branch_mesh /\ general_position branch_mesh o /\ strictly_in branch_mesh 0 o /\
  visible_vertices 10 direct (fun _ => 1) branch_mesh o 0 = Found [0; 1; 2; 5; 4; 8; 7; 3]%nat.
Proof.
  cbv zeta.
  assert (OK : ok_vmesh branch_mesh).
  { split.
    - intros i s j s' ti tj e Hi Hj Ei Ej.
      destruct i as [|[|[|[|[|[|[|i]]]]]]]; [| | | | | | |destruct i; discriminate]; cbn in Hi; injection Hi as <-; (destruct j as [|[|[|[|[|[|[|j]]]]]]]; [| | | | | | |destruct j; discriminate]); cbn in Hj; injection Hj as <-;
      destruct s as [|[|[|s]]]; try discriminate; destruct s' as [|[|[|s']]]; try discriminate; cbn in Ei, Ej; try (split; congruence); exfalso; congruence.
    - intros i a b c Hi. destruct i as [|[|[|[|[|[|[|i]]]]]]]; [| | | | | | |destruct i; discriminate]; cbn in Hi; injection Hi as <- <- <-; cbn; eexists; eexists; eexists; repeat (split; [reflexivity|]); reflexivity. }
  split; [exact OK|]. split; [|split; [|split; [|split]]].
  - intros i j X N (a & b & c & A & B & C & E0 & E1 & E2 & E3 & P1 & P2 & P3) (a' & b' & c' & A' & B' & C' & E0' & E1' & E2' & E3' & Q1 & Q2 & Q3).
    destruct i as [|[|[|[|[|[|[|i]]]]]]]; [| | | | | | |destruct i; discriminate]; (destruct j as [|[|[|[|[|[|[|j]]]]]]]; [| | | | | | |destruct j; discriminate]); try (exfalso; apply N; reflexivity); clear N;
    cbn in E0, E0'; injection E0 as <- <- <-; injection E0' as <- <- <-; cbn in E1, E2, E3, E1', E2', E3'; injection E1 as <-; injection E2 as <-; injection E3 as <-; injection E1' as <-; injection E2' as <-; injection E3' as <-;
    unfold tri2, cross, vsub in *; cbn [px py] in *; lra.
  - apply tree_no_cycle; [exact OK|]. intros i j k (s & s' & ti & tj & a & b & E1 & E2 & D1 & D2) (u & u' & tu & tv & a' & b' & E1' & E2' & D1' & D2') L1 L2.
    change (nth_error (vm_tris branch_mesh) j = Some ti) in E1. change (nth_error (vm_tris branch_mesh) j = Some tu) in E1'. rewrite E1 in E1'. injection E1' as <-.
    assert (Par : forall n tn s s' tj a b, nth_error (vm_tris branch_mesh) n = Some tj -> MeshSpec.directed_edge ti s = Some (a, b) -> MeshSpec.directed_edge tj s' = Some (b, a) -> nth_error (vm_tris branch_mesh) j = Some ti -> (n < j)%nat -> tn = nth j [0; 0; 0; 0; 2; 2; 4]%nat 0%nat -> n = tn).
    { clear. intros n tn s s' tj a b E2 D1 D2 E1 L ->.
      destruct j as [|[|[|[|[|[|[|j]]]]]]]; [lia| | | | | | |destruct j; discriminate]; cbn in E1; injection E1 as <-;
      (destruct n as [|[|[|[|[|[|[|n]]]]]]]; [| | | | | | |destruct n; discriminate]); try lia; try reflexivity; exfalso; cbn in E2; injection E2 as <-;
      destruct s as [|[|[|s]]]; try discriminate; cbn in D1; injection D1 as <- <-; destruct s' as [|[|[|s']]]; discriminate. }
    rewrite (Par i _ s s' tj a b E2 D1 D2 E1 L1 eq_refl), (Par k _ u u' tv a' b' E2' D1' D2' E1 L2 eq_refl). reflexivity.
  - intros a b A B N EA EB. destruct a as [|[|[|[|[|[|[|[|[|a]]]]]]]]]; [| | | | | | | | |destruct a; discriminate]; (destruct b as [|[|[|[|[|[|[|[|[|b]]]]]]]]]; [| | | | | | | | |destruct b; discriminate]);
    try (exfalso; apply N; reflexivity); cbn in EA, EB; injection EA as <-; injection EB as <-; clear N; intro Z; vm_compute in Z; discriminate.
  - exists 0%nat, 1%nat, 2%nat, (mkpt 0 0), (mkpt 10 0), (mkpt 3 8). repeat (split; [reflexivity|]). reflexivity.
  - vm_compute. reflexivity.
Qed.
