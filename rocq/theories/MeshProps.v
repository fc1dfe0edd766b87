From Verif Require Import RBase AngleModel MeshModel MeshSpec MeshProof MeshProof2 MeshProof3 MeshProof4 MeshProof5.
From Coq Require Import Floats.
Local Open Scope R_scope.

(** ** C39: construction and random positions *)
(** Every stored triangle has distinct corners in counterclockwise order (or in a line), which are the
    input points with the stored indices, and comes from an input triple, possibly with the last two
    indices exchanged; every input triple with distinct corners is stored. *)
Theorem C39_triangles : forall points indices m, make_mesh rdirect points indices = Some m ->
  m_points m = points /\ length (m_indices m) = length (m_triangles m) /\
  (forall n i j k a b c, nth_error (m_indices m) n = Some (i, j, k) -> nth_error (m_triangles m) n = Some (a, b, c) ->
     corners points (i, j, k) (a, b, c) /\ a <> b /\ b <> c /\ c <> a /\ 0 <= area2 a b c /\
     (In (i, j, k) (triples indices) \/ In (i, k, j) (triples indices))) /\
  (forall i j k a b c, In (i, j, k) (triples indices) -> corners points (i, j, k) (a, b, c) -> a <> b -> b <> c -> c <> a ->
     exists n, if Rlt_dec (area2 a b c) 0
       then nth_error (m_indices m) n = Some (i, k, j) /\ nth_error (m_triangles m) n = Some (a, c, b)
       else nth_error (m_indices m) n = Some (i, j, k) /\ nth_error (m_triangles m) n = Some (a, b, c)).
Proof.
  intros points indices m M. unfold make_mesh in M. destruct (mesh_triangles rdirect points indices) as [l|] eqn:L; [|discriminate].
  inversion M. subst m. cbn [m_points m_triangles m_indices]. clear M. destruct (mesh_triangles_ok points indices l L) as [A B].
  split; [reflexivity|]. split; [rewrite !map_length; reflexivity|]. split.
  - intros n i j k a b c E1 E2. rewrite nth_error_map in E1, E2. destruct (nth_error l n) as [[t T]|] eqn:E; [|discriminate]. cbn in E1, E2. inversion E1. inversion E2. subst t T.
    destruct (A _ _ (nth_error_In _ _ E)) as (C1 & C2 & C3). tauto.
  - intros i j k a b c I C D1 D2 D3. specialize (B i j k a b c I C D1 D2 D3).
    destruct (Rlt_dec (area2 a b c) 0) as [LT|LT]; apply In_nth_error in B; destruct B as [n B]; exists n; (split; [exact (map_nth_error fst _ _ B)|exact (map_nth_error snd _ _ B)]).
Qed.
Print Assumptions C39_triangles.

(** Construction fails only for an index out of range. *)
Theorem C39_constructible : forall points indices, (forall i, In i indices -> (i < length points)%nat) -> exists m, make_mesh rdirect points indices = Some m.
Proof.
  intros points indices H. unfold make_mesh. assert (exists l, mesh_triangles rdirect points indices = Some l) as [l ->]; [|eexists; reflexivity].
  revert H. induction indices as [| | |i0 i1 i2 rest IH] using three_ind; intro H; cbn [mesh_triangles]; try (eexists; reflexivity).
  assert (N : forall i, In i (i0 :: i1 :: i2 :: rest) -> exists a, nth_error points i = Some a).
  { intros i I. specialize (H i I). destruct (nth_error points i) as [a|] eqn:E; [exists a; reflexivity|apply nth_error_None in E; lia]. }
  destruct (N i0 ltac:(cbn; auto)) as [a0 ->]. destruct (N i1 ltac:(cbn; auto)) as [a1 ->]. destruct (N i2 ltac:(cbn; auto)) as [a2 ->].
  destruct IH as [l ->]; [intros i I; apply H; cbn; auto|]. destruct (is_oriented_right rdirect a0 a1 a2); destruct (_ || _ || _); eexists; reflexivity.
Qed.
Print Assumptions C39_constructible.

(** The random position lies in a stored triangle: the one in whose part of the cumulated areas rT
    times the total area falls.  So a triangle is chosen with probability proportional to its area. *)
Definition areas (m : mesh) : list R := map (fun '(a, b, c) => Rabs (area2 a b c) / 2) (m_triangles m).
Theorem C39_random_position : forall points indices m rT r1 r2, make_mesh rdirect points indices = Some m ->
  0 < fold_right Rplus 0 (areas m) -> 0 <= rT <= 1 -> 0 <= r1 <= 1 -> 0 <= r2 <= 1 ->
  exists n a b c p, nth_error (m_triangles m) n = Some (a, b, c) /\ get_random_position m rT r1 r2 = Some p /\ in_triangle p a b c /\
    (0 < rT -> sum_first n (areas m) < rT * fold_right Rplus 0 (areas m)) /\ rT * fold_right Rplus 0 (areas m) <= sum_first (S n) (areas m).
Proof.
  intros points indices m rT r1 r2 M T RT R1 R2. unfold make_mesh in M. destruct (mesh_triangles rdirect points indices) as [l|] eqn:L; [|discriminate].
  inversion M. subst m. clear M. unfold areas, get_random_position in *. cbn [m_triangles m_integral] in *. set (ts := map snd l) in *.
  assert (E : map get_area ts = map (fun '(a, b, c) => Rabs (area2 a b c) / 2) ts) by (apply map_ext; intros [[a b] c]; apply get_area_area2).
  rewrite E. destruct (selection _ rT T RT) as (S1 & S2 & S3). cbv zeta in *. set (n := lower_bound _ _ _) in *. rewrite map_length in S1.
  assert (NN : nth_error ts n <> None) by (apply nth_error_Some; exact S1). destruct (nth_error ts n) as [[[a b] c]|] eqn:N; [|contradiction].
  exists n, a, b, c. eexists. split; [exact N|]. split; [reflexivity|]. split; [apply position_in; assumption|]. split; assumption.
Qed.
Print Assumptions C39_random_position.

Lemma sum_first_mono : forall l, (forall x, In x l -> 0 <= x) -> forall i j, (i <= j)%nat -> sum_first i l <= sum_first j l.
Proof.
  unfold sum_first. induction l as [|x l IH]; intros P i j H; [rewrite !firstn_nil; lra|]. destruct i as [|i], j as [|j]; cbn; try lia; try lra.
  - assert (0 <= x) by (apply P; left; reflexivity). pose proof (IH ltac:(intros; apply P; right; assumption) 0%nat j ltac:(lia)) as Q. cbn in Q. lra.
  - pose proof (IH ltac:(intros; apply P; right; assumption) i j ltac:(lia)). lra.
Qed.
(** Every point of every triangle of positive area can be drawn. *)
Theorem C39_every_position : forall points indices m n a b c p, make_mesh rdirect points indices = Some m ->
  nth_error (m_triangles m) n = Some (a, b, c) -> 0 < area2 a b c -> in_triangle p a b c ->
  exists rT r1 r2, 0 <= rT <= 1 /\ 0 <= r1 <= 1 /\ 0 <= r2 <= 1 /\ get_random_position m rT r1 r2 = Some p.
Proof.
  intros points indices m n a b c p M N POS I.
  assert (NN : forall x, In x (areas m) -> 0 <= x). { intros x X. unfold areas in X. apply in_map_iff in X. destruct X as ([[a' b'] c'] & <- & _). pose proof (Rabs_pos (area2 a' b' c')). lra. }
  pose proof (sum_first_mono (areas m) NN) as MONO.
  assert (NTH : nth_error (areas m) n = Some (Rabs (area2 a b c) / 2)) by (exact (map_nth_error (fun '(a, b, c) => Rabs (area2 a b c) / 2) _ _ N)).
  pose proof (sum_first_S _ _ _ NTH) as SF. rewrite (Rabs_right (area2 a b c)) in SF by lra.
  assert (LN : (n < length (areas m))%nat) by (apply nth_error_Some; congruence).
  pose proof (sum_all (areas m)) as ALL. pose proof (MONO 0%nat n ltac:(lia)) as M0. pose proof (MONO (S n) (length (areas m)) ltac:(lia)) as M1. unfold sum_first at 1 in M0. cbn in M0.
  assert (T : 0 < fold_right Rplus 0 (areas m)) by lra. set (tot := fold_right Rplus 0 (areas m)) in *.
  destruct (position_onto a b c p I) as (r1 & r2 & R1 & R2 & P). exists (sum_first (S n) (areas m) / tot), r1, r2.
  assert (TT : sum_first (S n) (areas m) / tot * tot = sum_first (S n) (areas m)) by (field; lra).
  assert (RT : 0 <= sum_first (S n) (areas m) / tot <= 1).
  { split; [apply Rmult_le_pos; [lra|left; apply Rinv_0_lt_compat, T]|]. apply (Rmult_le_reg_r tot); [exact T|]. lra. }
  split; [exact RT|]. split; [exact R1|]. split; [exact R2|].
  assert (PT : 0 < sum_first (S n) (areas m) / tot) by (apply Rdiv_lt_0_compat; lra).
  unfold make_mesh in M. destruct (mesh_triangles rdirect points indices) as [l|] eqn:L; [|discriminate].
  inversion M. subst m. clear M. unfold areas, get_random_position in *. cbn [m_triangles m_integral] in *. set (ts := map snd l) in *.
  assert (E : map get_area ts = map (fun '(a, b, c) => Rabs (area2 a b c) / 2) ts) by (apply map_ext; intros [[a0 b0] c0]; apply get_area_area2).
  rewrite E. destruct (selection _ _ T RT) as (S1 & S2 & S3). cbv zeta in *. fold tot in S2, S3. rewrite TT in S2, S3. specialize (S2 PT).
  set (k := lower_bound _ _ _) in *. assert (K : k = n).
  { destruct (Nat.lt_trichotomy k n) as [H|[H|H]]; [|exact H|].
    - pose proof (MONO (S k) n ltac:(lia)). lra.
    - pose proof (MONO (S n) k ltac:(lia)). lra. }
  rewrite K. change (nth_error ts n = Some (a, b, c)) in N. unfold triangle, plane in *. rewrite N. f_equal. exact P.
Qed.
Print Assumptions C39_every_position.

(** The code keeps the cumulated weights in double precision; there rounding can leave the last one
    below 1, and rT = 1 selects a triangle that does not exist: six triangles of equal area. *)
Definition double : arith float := mkarith 0%float PrimFloat.add PrimFloat.div PrimFloat.ltb.
Theorem C39_double_refuted : lower_bound double (integral double (repeat 1%float 6)) 1%float = 6%nat.
Proof. vm_compute. reflexivity. Qed.
Print Assumptions C39_double_refuted.

(** A square of side 2 in two triangles, the second given clockwise. *)
Definition square_points : list plane := [(0, 0); (2, 0); (0, 2); (2, 2)].
Definition square_indices : list nat := [0; 1; 2; 1; 2; 3]%nat.
Lemma square_mesh : mesh_triangles rdirect square_points square_indices = Some [((0, 1, 2)%nat, ((0, 0), (2, 0), (0, 2))); ((1, 3, 2)%nat, ((2, 0), (2, 2), (0, 2)))].
Proof.
  unfold square_points, square_indices. cbn [mesh_triangles nth_error]. unfold is_oriented_right, p_sub, p_equals. cbn [rlt req rdirect fst snd].
  repeat match goal with
  | |- context [Rltb ?x ?y] => let H := fresh in destruct (Rltb_spec x y) as [H|H]; cbn [fst snd] in *; try (exfalso; Lra.lra)
  | |- context [Reqb ?x ?y] => let H := fresh in destruct (Reqb_spec x y) as [H|H]; cbn [fst snd] in *; try (exfalso; Lra.lra) end; cbn [andb orb]; reflexivity.
Qed.
Example C39_witness : exists m, make_mesh rdirect square_points square_indices = Some m /\ length (m_triangles m) = 2%nat /\ 0 < fold_right Rplus 0 (areas m).
Proof.
  unfold make_mesh. rewrite square_mesh. eexists. split; [reflexivity|]. split; [reflexivity|]. unfold areas, area2. cbn [m_triangles map snd fst fold_right].
  rewrite !Rabs_right by Lra.lra. Lra.lra.
Qed.

(** ** C40: adjacency *)
(** A neighbour in the matrix shares that side, run through the other way; a side that is shared has a
    neighbour in the matrix. *)
Theorem C40_adjacency : forall l i s,
  (forall j, create_adjacency_matrix l i s = Some j -> exists s', shares_edge l i s j s') /\
  (create_adjacency_matrix l i s = None -> forall j s', ~ shares_edge l i s j s').
Proof. intros l i s. split; [apply adjacency_sound|]. intros E j s' H. exact (adjacency_complete l i s j s' H E). Qed.
Print Assumptions C40_adjacency.

(** If no two sides are the same directed edge, the matrix is exactly the relation of sharing a side,
    and symmetric. *)
Theorem C40_manifold : forall l, manifold l ->
  (forall i s j, create_adjacency_matrix l i s = Some j <-> exists s', shares_edge l i s j s') /\
  (forall i s j, create_adjacency_matrix l i s = Some j -> exists s', create_adjacency_matrix l j s' = Some i).
Proof.
  intros l M. assert (A : forall i s j, create_adjacency_matrix l i s = Some j <-> exists s', shares_edge l i s j s').
  { intros i s j. split; [apply adjacency_sound|]. intros [s' H]. exact (adjacency_manifold l i s j s' M H). }
  split; [exact A|]. intros i s j E. apply A in E. destruct E as [s' H]. exists s'. apply A. exists s. apply shares_sym, H.
Qed.
Print Assumptions C40_manifold.

(** Otherwise it need not be symmetric: three triangles on one edge. *)
Theorem C40_nonmanifold_refuted : exists l i s j, create_adjacency_matrix l i s = Some j /\ forall s', create_adjacency_matrix l j s' <> Some i.
Proof.
  exists [(0, 1, 2); (1, 0, 3); (1, 0, 4)]%nat, 1%nat, 0%nat, 0%nat. split; [reflexivity|].
  intros s' H. assert (E : create_adjacency_matrix [(0, 1, 2); (1, 0, 3); (1, 0, 4)]%nat 0%nat s' = if Nat.eqb s' 0 then Some 2%nat else None).
  { destruct s' as [|s']; [reflexivity|]. destruct (create_adjacency_matrix _ 0%nat (S s')) as [j|] eqn:Q; [|reflexivity].
    exfalso. apply adjacency_sound in Q. destruct Q as (s2 & ti & tj & a & b & N1 & N2 & D1 & D2). cbn in N1. inversion N1. subst ti.
    destruct j as [|[|[|j]]]; [| | |destruct j; discriminate]; cbn in N2; inversion N2; subst tj; destruct s' as [|[|s']]; cbn in D1; try discriminate; inversion D1; subst a b;
    destruct s2 as [|[|[|s2]]]; cbn in D2; try discriminate. }
  rewrite E in H. destruct (Nat.eqb s' 0); discriminate.
Qed.
Print Assumptions C40_nonmanifold_refuted.

(** get_triangle_adjacent_side gives the first shared side of two triangles, or none. *)
Theorem C40_adjacent_side : forall t1 t2, match get_triangle_adjacent_side t1 t2 with
  | Some s => (s < 3)%nat /\ (exists s' a b, directed_edge t1 s = Some (a, b) /\ directed_edge t2 s' = Some (b, a)) /\
      forall s0, (s0 < s)%nat -> ~ exists s' a b, directed_edge t1 s0 = Some (a, b) /\ directed_edge t2 s' = Some (b, a)
  | None => forall s, ~ exists s' a b, directed_edge t1 s = Some (a, b) /\ directed_edge t2 s' = Some (b, a)
  end.
Proof. exact adjacent_side_ok. Qed.
Print Assumptions C40_adjacent_side.
(** The two triangles of the square share side 1 of the first and side 2 of the second. *)
Example C40_witness : let l := [(0, 1, 2); (1, 3, 2)]%nat in manifold l /\ shares_edge l 0 1 1 2 /\ create_adjacency_matrix l 0%nat 1%nat = Some 1%nat /\ create_adjacency_matrix l 1%nat 2%nat = Some 0%nat.
Proof.
  cbv zeta. split; [|split; [exists (0, 1, 2)%nat, (1, 3, 2)%nat, 1%nat, 2%nat; repeat split|split; reflexivity]].
  intros i s j s' ti tj e N1 N2 D1 D2. destruct i as [|[|i]]; [| |destruct i; discriminate]; destruct j as [|[|j]]; try (destruct j; discriminate); cbn in N1, N2; inversion N1; inversion N2; subst ti tj;
  destruct s as [|[|[|s]]]; try discriminate; destruct s' as [|[|[|s']]]; try discriminate; cbn in D1, D2; inversion D1; subst e; inversion D2; auto.
Qed.

(** ** C84: finding the triangle of a point *)
(** With exact comparison, in a mesh of two or more different points less than 2^32 - 4 units wide and
    high, find_triangle is defined for every point.  It gives the first triangle that contains the
    point, if its area is positive; and it finds none only for points outside all triangles. *)
Theorem C84_find_triangle : forall points indices m, make_mesh rdirect points indices = Some m ->
  (exists p q, In p points /\ In q points /\ p <> q) ->
  (forall p q, In p points -> In q points -> fst p - fst q < 4294967292 /\ snd p - snd q < 4294967292) ->
  exists cache, make_cache (m_points m) (m_triangles m) = Some cache /\
    forall p, match find_triangle rdirect m cache p with
      | Some (Some n) => exists a b c, nth_error (m_triangles m) n = Some (a, b, c) /\ (0 < area2 a b c -> in_triangle p a b c) /\
          forall n' a' b' c', (n' < n)%nat -> nth_error (m_triangles m) n' = Some (a', b', c') -> ~ in_triangle p a' b' c'
      | Some None => forall n a b c, nth_error (m_triangles m) n = Some (a, b, c) -> ~ in_triangle p a b c
      | None => False
      end.
Proof.
  intros points indices m M NE EXT. destruct (cache_ok points indices m M NE EXT) as (g & cs & E & G & S & _ & L & IN & AR).
  exists (g, cs). split; [exact E|]. intro p. destruct (find_triangle_ok g cs m G S L IN AR p) as (r & R & H). rewrite R. destruct r as [n|].
  - destruct H as (a & b & c & H1 & H2 & H3). exists a, b, c. split; [exact H1|]. split; [exact H2|]. intros n' a' b' c' LT N. exact (H3 n' (a', b', c') LT N).
  - intros n a b c N. exact (H n (a, b, c) N).
Qed.
Print Assumptions C84_find_triangle.

(** Three points in a line are stored as a triangle, and find_triangle can return it for points of the
    line outside of it. *)
Theorem C84_degenerate_refuted : exists points indices m cache p n a b c, make_mesh rdirect points indices = Some m /\
  make_cache (m_points m) (m_triangles m) = Some cache /\ find_triangle rdirect m cache p = Some (Some n) /\
  nth_error (m_triangles m) n = Some (a, b, c) /\ ~ in_triangle p a b c.
Proof.
  pose (pts := [(0, 0); (1, 0); (2, 0)] : list plane).
  assert (MT : mesh_triangles rdirect pts [0; 1; 2]%nat = Some [((0, 1, 2)%nat, ((0, 0), (1, 0), (2, 0)))]).
  { unfold pts. cbn [mesh_triangles nth_error]. unfold is_oriented_right, p_sub, p_equals. cbn [rlt req rdirect fst snd].
    repeat match goal with
    | |- context [Rltb ?x ?y] => let H := fresh in destruct (Rltb_spec x y) as [H|H]; cbn [fst snd] in *; try (exfalso; Lra.lra)
    | |- context [Reqb ?x ?y] => let H := fresh in destruct (Reqb_spec x y) as [H|H]; cbn [fst snd] in *; try (exfalso; Lra.lra) end; cbn [andb orb]; reflexivity. }
  assert (M : make_mesh rdirect pts [0; 1; 2]%nat = Some (mkmesh pts [(0, 1, 2)%nat] [((0, 0), (1, 0), (2, 0))] (integral exact [get_area ((0, 0), (1, 0), (2, 0))]))) by (unfold make_mesh; rewrite MT; reflexivity).
  set (m := mkmesh _ _ _ _) in M.
  destruct (cache_ok pts _ m M) as (g & cs & E & G & S & HX & L & IN & AR).
  - exists (0, 0), (1, 0). split; [left; reflexivity|]. split; [right; left; reflexivity|]. intro Q. inversion Q. Lra.lra.
  - intros p q [<-|[<-|[<-|[]]]] [<-|[<-|[<-|[]]]]; cbn [fst snd]; Lra.lra.
  - specialize (HX (2, 0) (0, 0) ltac:(cbn; auto) ltac:(cbn; auto) ltac:(cbn [fst]; Lra.lra)). cbn [fst] in HX.
    assert (T2 : in_tri (2, 0) ((0, 0), (1, 0), (2, 0))) by (exists 0, 0, 1; cbn [fst snd]; repeat split; Lra.lra).
    destruct (IN 0%nat _ (2, 0) eq_refl T2) as [I2 C2]. unfold inside in I2. cbn [fst snd] in I2.
    pose proof (Int_part_spec (2 - fst (g_lo g))) as SP. set (k := Int_part (2 - fst (g_lo g))) in *.
    set (e := Rmin (IZR k + 1 - (2 - fst (g_lo g))) (fst (g_hi g) - 2)). assert (EP : 0 < e) by (apply Rmin_glb_lt; Lra.lra).
    assert (E1 : e <= IZR k + 1 - (2 - fst (g_lo g))) by apply Rmin_l. assert (E2 : e <= fst (g_hi g) - 2) by apply Rmin_r. clearbody e.
    assert (IP : inside g (2 + e / 2, 0)) by (unfold inside; cbn [fst snd]; Lra.lra).
    assert (IX : ix g (2 + e / 2, 0) = k).
    { unfold ix. cbn [fst]. pose proof (Int_part_spec (2 + e / 2 - fst (g_lo g))) as Q. set (k' := Int_part (2 + e / 2 - fst (g_lo g))) in *. clearbody k k'.
      assert (IZR k < IZR (k' + 1)) by (rewrite plus_IZR; Lra.lra). assert (IZR k' < IZR (k + 1)) by (rewrite plus_IZR; Lra.lra). apply lt_IZR in H. apply lt_IZR in H0. lia. }
    exists pts, [0; 1; 2]%nat, m, (g, cs), (2 + e / 2, 0), 0%nat, (0, 0), (1, 0), (2, 0).
    split; [exact M|]. split; [exact E|]. split; [|split; [reflexivity|]].
    + unfold find_triangle, find_indices. cbn [fst snd]. destruct (index_ok g _ G IP) as (X1 & X2 & X3 & X4). cbn [fst snd] in X1, X2.
      assert (RC : rcontained g (2 + e / 2, 0) = true). { unfold rcontained. destruct IP as [P1 P2]. cbn [fst snd] in *. repeat match goal with |- context [Rleb ?x ?y] => let H := fresh in destruct (Rleb_spec x y) as [H|H]; cbn [fst snd] in *; try (exfalso; Lra.lra) end. reflexivity. }
      rewrite RC, X1, X2. assert (IR : in_range g (ix g (2 + e / 2, 0)) (iy g (2 + e / 2, 0)) = true) by (unfold in_range; rewrite !andb_true_iff, !Z.leb_le, !Z.ltb_lt; lia). rewrite IR, IX.
      change (In 0%nat (cs k (iy g (2 + e / 2, 0)))) in C2. specialize (S k (iy g (2 + e / 2, 0))). pose proof (L k (iy g (2 + e / 2, 0))) as L'.
      destruct (cs k (iy g (2 + e / 2, 0))) as [|n data]; [contradiction|]. assert (n = 0%nat) by (specialize (L' n (or_introl eq_refl)); cbn in L'; lia). subst n.
      cbn [first_triangle nth_error m m_triangles]. assert (PT : rpoint_in_triangle rdirect (2 + e / 2, 0) ((0, 0), (1, 0), (2, 0)) = true) by (apply point_in_triangle_ok; unfold sidef; cbn [fst snd]; Lra.lra).
      rewrite PT. reflexivity.
    + intros (u & v & w & U & V & W & SUM & X & Y). cbn [fst snd] in X. Lra.lra.
Qed.
Print Assumptions C84_degenerate_refuted.
Example C84_witness : (exists m, make_mesh rdirect square_points square_indices = Some m) /\ (exists p q, In p square_points /\ In q square_points /\ p <> q) /\
  (forall p q, In p square_points -> In q square_points -> fst p - fst q < 4294967292 /\ snd p - snd q < 4294967292) /\
  in_triangle (1, 1) (0, 0) (2, 0) (0, 2).
Proof.
  split; [destruct C39_witness as (m & H & _); exists m; exact H|]. split; [|split].
  - exists (0, 0), (2, 0). split; [left; reflexivity|]. split; [right; left; reflexivity|]. intro Q. inversion Q. Lra.lra.
  - unfold square_points. intros p q [<-|[<-|[<-|[<-|[]]]]] [<-|[<-|[<-|[<-|[]]]]]; cbn [fst snd]; Lra.lra.
  - exists 0, (1 / 2), (1 / 2). cbn [fst snd]. repeat split; Lra.lra.
Qed.

(** ** C85: triangle against box *)
(** With exact comparison the separating axis test of a triangle and an axis aligned box is exact, for
    degenerate triangles as well. *)
Theorem C85_triangle_box : forall A B C lo hi, fst lo <= fst hi -> snd lo <= snd hi ->
  (eberly_triangle_aabb_intersection_2d rdirect A B C lo hi = true <-> exists p, in_triangle p A B C /\ in_box p lo hi).
Proof. exact (fun A B C lo hi => eberly_exact A B C lo hi). Qed.
Print Assumptions C85_triangle_box.
(** With a tolerance it never misses a common point. *)
Theorem C85_tolerance : forall tol A B C lo hi, 0 <= tol -> (exists p, in_triangle p A B C /\ in_box p lo hi) ->
  eberly_triangle_aabb_intersection_2d (rabsolute tol) A B C lo hi = true.
Proof. intros tol A B C lo hi T H. apply eberly_complete; [apply lenient_absolute, T|exact H]. Qed.
Print Assumptions C85_tolerance.
(** A triangle beyond a corner of the box: no coordinate axis separates them, a side of the triangle does. *)
Example C85_witness : eberly_triangle_aabb_intersection_2d rdirect (0, 3) (3, 0) (3, 3) (0, 0) (1, 1) = false /\
  eberly_triangle_aabb_intersection_2d rdirect (0, 3) (3, 0) (3, 3) (0, 0) (2, 2) = true.
Proof.
  split.
  - destruct (eberly_triangle_aabb_intersection_2d rdirect (0, 3) (3, 0) (3, 3) (0, 0) (1, 1)) eqn:E; [|reflexivity]. exfalso.
    apply C85_triangle_box in E; cbn [fst snd]; try Lra.lra. destruct E as (p & (u & v & w & U & V & W & S & X & Y) & B). unfold in_box in B. cbn [fst snd] in *. Lra.lra.
  - apply C85_triangle_box; cbn [fst snd]; try Lra.lra. exists (3 / 2, 3 / 2). split; [exists (1 / 2), (1 / 2), 0|unfold in_box]; cbn [fst snd]; repeat split; Lra.lra.
Qed.
