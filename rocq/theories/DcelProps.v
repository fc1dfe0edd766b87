(** Chains recovered from segments. *)
From Verif Require Import Base CmpModel DcelModel DcelSpec DcelProof DcelProof2.
From Coq Require Import Arith Permutation Lia.

(** ** The constructor *)
(** Segments of which no two start or end at the same point are joined to open and closed chains. *)
Theorem C92_chains : forall segs fuel, chainable segs -> (2 * length segs <= fuel)%nat ->
  exists d, make_dcel fuel segs = Done d /\ joined segs (polylines d) (polygons d).
Proof.
  intros segs fuel [S1 S2] L. unfold make_dcel. pose proof (adds_hold segs [] empty_dcel empty_holds) as H. cbn [app] in H. pose proof (length_adds segs empty_dcel) as LA. cbn [empty_dcel positions length] in LA.
  destruct (calculate_ok segs _ fuel H ltac:(lia) S1 S2) as (d & E & _ & _ & J). exists d. auto.
Qed.
Print Assumptions C92_chains.

(** ** Any history of calls *)
Inductive op : Type := Add (e : pt * pt) | Calculate.
Definition added (ops : list op) : list (pt * pt) := flat_map (fun o => match o with Add e => [e] | Calculate => [] end) ops.
Fixpoint run (fuel : nat) (ops : list op) (d : dcel) : outcome :=
  match ops with
  | [] => Done d
  | Add e :: rest => run fuel rest (add_edge d e)
  | Calculate :: rest => match calculate_point_sequences fuel d with Done d' => run fuel rest d' | o => o end
  end.
Lemma chainable_prefix : forall a b, chainable (a ++ b) -> chainable a.
Proof.
  intros a b [S1 S2]. split; intros i j x y HI HJ; [apply (S1 i j x y)|apply (S2 i j x y)]; (rewrite nth_error_app1; [assumption|apply nth_error_Some; congruence]).
Qed.
(** However adding segments and calculating are interleaved, the last calculation gives the chains
    of all segments added before it. *)
Theorem C92_histories : forall ops fuel, chainable (added ops) -> (2 * length (added ops) <= fuel)%nat ->
  exists d, run fuel (ops ++ [Calculate]) empty_dcel = Done d /\ joined (added ops) (polylines d) (polygons d).
Proof.
  intros ops fuel C L.
  assert (G : forall ops before d, holds before d -> chainable (before ++ added ops) -> (length (positions d) + 2 * length (added ops) <= fuel)%nat -> exists d', run fuel (ops ++ [Calculate]) d = Done d' /\ joined (before ++ added ops) (polylines d') (polygons d')).
  { clear. induction ops as [|o ops IH]; intros before d H C L.
    - cbn [added flat_map app] in *. rewrite app_nil_r in *. cbn [run]. destruct C as [S1 S2]. destruct (calculate_ok before d fuel H ltac:(lia) S1 S2) as (d' & E & _ & _ & J). rewrite E. exists d'. auto.
    - destruct o as [e|]; cbn [app run].
      + change (added (Add e :: ops)) with (e :: added ops) in *. replace (before ++ e :: added ops) with ((before ++ [e]) ++ added ops) in * by (rewrite <- app_assoc; reflexivity). apply IH; [apply add_edge_ok; exact H|exact C|]. pose proof (length_add d e empty_holds). cbn [length] in L. lia.
      + change (added (Calculate :: ops)) with (added ops) in *. destruct (chainable_prefix _ _ C) as [S1 S2]. destruct (calculate_ok before d fuel H ltac:(lia) S1 S2) as (d' & E & H' & P' & _). rewrite E. apply IH; [exact H'|exact C|]. rewrite P'. exact L. }
  exact (G ops [] empty_dcel empty_holds C L).
Qed.
Print Assumptions C92_histories.

Definition P2 (x y : Z) : pt := mkpt (inject_Z x) (inject_Z y).
Example C92_witness :
  let segs := [(P2 1 0, P2 1 1); (P2 5 5, P2 6 5); (P2 0 0, P2 1 0); (P2 6 5, P2 7 6); (P2 1 1, P2 0 0)] in
  chainable segs /\
  match make_dcel 10 segs with Done d => polylines d = [[P2 5 5; P2 6 5; P2 7 6]] /\ polygons d = [[P2 1 0; P2 1 1; P2 0 0]] | _ => False end.
Proof.
  split; [|vm_compute; auto]. split; intros i j a b HI HJ [A B];
    do 6 (destruct i as [|i]; [do 6 (destruct j as [|j]; [try reflexivity; cbn in HI, HJ; try discriminate; injection HI as <-; injection HJ as <-; cbn in A, B; first [vm_compute in A; discriminate|vm_compute in B; discriminate]|]); destruct j; cbn in HJ; discriminate|]); destruct i; discriminate.
Qed.

(** ** Beyond *)
(** Two segments that end at one point: the second is in no chain. *)
Theorem C92_merge_refuted : exists segs d, NoDup segs /\ NoDup (map fst segs) /\ (forall fuel, (4 <= fuel)%nat -> make_dcel fuel segs = Done d) /\
  In (P2 2 0, P2 1 0) segs /\ ~ In (P2 2 0, P2 1 0) (flat_map open_sides (polylines d) ++ flat_map closed_sides (polygons d)).
Proof.
  exists [(P2 0 0, P2 1 0); (P2 2 0, P2 1 0)]. eexists.
  split; [repeat constructor; cbn; intuition; discriminate|]. split; [repeat constructor; cbn; intuition; discriminate|].
  split; [intros fuel L; do 4 (destruct fuel as [|fuel]; [lia|]); vm_compute; reflexivity|]. split; [right; left; reflexivity|].
  cbn. intros [H|[]]. discriminate.
Qed.
Print Assumptions C92_merge_refuted.
(** A chain that runs into a loop with another end left over: the calculation never ends, although
    no point has two segments leaving it. *)
Theorem C92_endless_refuted : exists segs, NoDup segs /\ NoDup (map fst segs) /\ forall fuel, make_dcel fuel segs = Endless.
Proof.
  exists [(P2 0 0, P2 1 0); (P2 1 0, P2 2 0); (P2 2 0, P2 1 0); (P2 3 0, P2 1 0)].
  split; [repeat constructor; cbn; intuition; discriminate|]. split; [repeat constructor; cbn; intuition; discriminate|].
  intro fuel. set (E := [(0, 1); (1, 2); (2, 1); (3, 1)]%nat).
  assert (W : forall f c, walk f E [3%nat] 1%nat c = None /\ walk f E [3%nat] 2%nat c = None). { induction f as [|f IH]; intro c; [split; reflexivity|]. destruct (IH c) as [W1 W2]. split; [exact W2|exact W1]. }
  assert (W0 : walk fuel E [1; 2; 3]%nat 0%nat [0%nat] = None). { destruct fuel as [|[|fuel]]; [reflexivity|reflexivity|]. exact (proj2 (W fuel [0; 1; 2]%nat)). }
  set (segs := [(P2 0 0, P2 1 0); (P2 1 0, P2 2 0); (P2 2 0, P2 1 0); (P2 3 0, P2 1 0)]).
  assert (S : sequences fuel E [[0; 1; 2; 3]%nat] = None). { cbn [sequences]. change (find_start E [0; 1; 2; 3]%nat) with (Some 0%nat). cbv beta iota. change (filter _ [0; 1; 2; 3]%nat) with [1; 2; 3]%nat. rewrite W0. reflexivity. }
  unfold make_dcel, calculate_point_sequences.
  assert (CP : components (fold_left add_edge segs empty_dcel) = Some [[0; 1; 2; 3]%nat]) by (vm_compute; reflexivity).
  assert (HE : half_edges (fold_left add_edge segs empty_dcel) = E) by (vm_compute; reflexivity).
  rewrite CP, HE, S. destruct (positions (fold_left add_edge segs empty_dcel)) eqn:PO; [vm_compute in PO; discriminate|reflexivity].
Qed.
Print Assumptions C92_endless_refuted.
(** A copy cannot recalculate: its component graph is missing. *)
Theorem C92_copy_refuted : forall segs fuel d, segs <> [] -> make_dcel fuel segs = Done d -> calculate_point_sequences fuel (copy_dcel d) = Undefined.
Proof.
  intros segs fuel d NE E. assert (P : positions d <> []).
  { assert (PD : positions d = positions (fold_left add_edge segs empty_dcel)). { unfold make_dcel, calculate_point_sequences in E. destruct (positions (fold_left add_edge segs empty_dcel)) eqn:K; [injection E as <-; exact (eq_sym K) || reflexivity|]. destruct (components _); [|discriminate]. destruct (sequences _ _ _) as [[? ?]|]; [|discriminate]. injection E as <-. cbn [positions]. congruence. }
    rewrite PD. pose proof (adds_hold segs [] empty_dcel empty_holds) as (_ & _ & _ & B & _ & F). cbn [app] in F. intro Z. destruct segs as [|s segs]; [congruence|]. destruct (half_edges (fold_left add_edge (s :: segs) empty_dcel)) as [|[x y] l] eqn:HE; [inversion F|]. destruct (B x y (or_introl eq_refl)) as [LX _]. rewrite Z in LX. cbn in LX. lia. }
  unfold calculate_point_sequences, copy_dcel. cbn [positions]. destruct (positions d) as [|p ps]; [congruence|]. reflexivity.
Qed.
Print Assumptions C92_copy_refuted.
