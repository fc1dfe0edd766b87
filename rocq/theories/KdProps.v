(** C33: the property theorems about the range search. *)
From Coq Require Import Permutation.
From Verif Require Import Base CmpModel CmpSpec BoxModel BoxSpec KdModel KdSpec KdProof.

(** C33: in every dimension and for every non-empty list of points (repeated ones included), the
    construction ends, whatever rearrangement std::nth_element chooses, and every search visits
    every stored point in the range.  Nothing else than stored points is visited, each at most as
    often as it was stored. *)
Theorem C33_range_search_complete : forall nth_element HI LO dim fuel ps, (2 <= dim)%nat ->
  (forall D k l, (forall p, In p l -> length p = dim) -> (k < length l)%nat ->
     nth_element_ok (dimension_compare direct D) k l (nth_element D k l)) ->
  ps <> [] -> (forall p, In p ps -> length p = dim /\ forall x, In x p -> LO <= x <= HI) -> (length ps <= fuel)%nat ->
  exists t, kd_tree nth_element direct HI LO dim fuel ps = Built t /\
    forall cmp range, cautious cmp -> length (low range) = dim -> finds_range ps range (search cmp range t).
Proof. exact kd_ok. Qed.

(** C33: exactly which points are visited, for two points or more: the tree divides space into
    one cell per stored point, overlapping in borders only, and a search visits the points whose
    cells meet the range, once each and in the order of the cells. *)
Theorem C33_visits_cells : forall nth_element HI LO dim fuel ps t, (2 <= dim)%nat ->
  (forall D k l, (forall p, In p l -> length p = dim) -> (k < length l)%nat ->
     nth_element_ok (dimension_compare direct D) k l (nth_element D k l)) ->
  (2 <= length ps)%nat -> (forall p, In p ps -> length p = dim /\ forall x, In x p -> LO <= x <= HI) -> (length ps <= fuel)%nat ->
  kd_tree nth_element direct HI LO dim fuel ps = Built t ->
  exists cs, cell_division dim ps cs /\
    forall range, valid_box dim range -> search direct range t = map snd (filter (fun c => intersects_box direct range (fst c)) cs).
Proof. exact kd_cells_ok. Qed.

(** C33: the order handed to std::nth_element is one it accepts, and two points are equivalent
    only if they are equal. *)
Theorem C33_order : forall dim D, strict_weak_order dim (dimension_compare direct D).
Proof. exact dc_swo. Qed.

(** C33: the exact and the absolute-tolerance policies may be used for the search. *)
Theorem C33_policies : cautious direct /\ forall tol, 0 <= tol -> cautious (absolute tol).
Proof. split; [exact cautious_direct|exact cautious_absolute]. Qed.

(** C33: an empty list of points is undefined behaviour. *)
Theorem C33_empty_refuted : forall nth_element HI LO dim fuel,
  (forall D k, nth_element D k [] = []) -> kd_tree nth_element direct HI LO dim (S fuel) [] = BuildUndefined.
Proof. intros n HI LO dim fuel H. unfold kd_tree. cbn [build_tree]. unfold partition. cbn [length]. rewrite H. reflexivity. Qed.

(** C33: a visited point need not be in the range: leaves are not tested. *)
Definition sorted_nth (D k : nat) (l : list coords) : list coords := isort (dimension_compare direct D) l.
Theorem C33_only_range_refuted : exists ps range t p, kd_tree sorted_nth direct 100 (- (100)) 2 10 ps = Built t /\
  valid_box 2 range /\ In p (search direct range t) /\ ~ in_aabb range p /\ (2 <= length ps)%nat.
Proof.
  exists [[0; 0]; [4; 4]], (mkaabb [1; 1] [2; 2]). eexists. exists [0; 0].
  split; [vm_compute; reflexivity|]. split.
  - split; [reflexivity|]. constructor; [cbn; lra|]. constructor; [cbn; lra|constructor].
  - split; [vm_compute; left; reflexivity|]. split; [|cbn; lia].
    intro H. inversion H; subst. cbn in *; lra.
Qed.

Example C33_witness :
  (forall D k l, (forall p, In p l -> length p = 2%nat) -> (k < length l)%nat ->
     nth_element_ok (dimension_compare direct D) k l (sorted_nth D k l)) /\
  exists t, kd_tree sorted_nth direct 100 (- (100)) 2 10 [[5; 1]; [2; 3]; [2; 3]; [9; 6]; [2; 7]; [7; 2]] = Built t /\
    search direct (mkaabb [1; 2] [3; 4]) t = [[2; 3]; [2; 3]; [2; 7]].
Proof.
  split; [intros; apply (sort_nth_ok 2); [apply dc_swo|assumption]|].
  eexists. split; [vm_compute; reflexivity|]. vm_compute. reflexivity.
Qed.

Print Assumptions C33_range_search_complete.
Print Assumptions C33_visits_cells.
Print Assumptions C33_order.
