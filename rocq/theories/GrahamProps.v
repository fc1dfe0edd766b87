(** C46: the convex hull. *)
From Verif Require Import Base CmpModel OrientModel PolygonSpec GrahamModel GrahamSpec GrahamProof.
From Coq Require Import Sorting.Permutation Sorting.Sorted.

(** When the first point is the lowest (and rightmost of those) and exactly one point has the
    least angle around it, every run of the scan, whatever order std::sort gives to equivalent
    points, returns a clockwise chain around the convex hull of the points, strictly turning right
    at its inner vertices. *)
Theorem C46_hull : forall p0 s1 rest others result,
  (forall x, In x rest -> below p0 x) -> Permutation rest (s1 :: others) -> (forall x, In x others -> 0 < tri2 p0 s1 x) ->
  get_convex_hull direct (p0 :: rest) result ->
  exists h, result = Some h /\ bounds_clockwise h (p0 :: rest) /\ (forall l1 A B C l2, h = l1 ++ A :: B :: C :: l2 -> tri2 A B C < 0).
Proof. exact graham_ok. Qed.
(** The calls of the theorem do return: the points can be sorted. *)
Lemma sort_exists : forall o l, (forall x, In x l -> below o x) -> exists s, std_sort (graham_compare direct o) l s.
Proof.
  intros o l. induction l as [|a l IH]; intro B; [exists []; split; constructor|].
  destruct IH as (s & P & S); [intros x X; apply B; right; exact X|].
  assert (BS : forall x, In x (a :: s) -> below o x) by (intros x [<-|X]; [apply B; left; reflexivity|apply B; right; apply (Permutation_in _ (Permutation_sym P)), X]).
  assert (INS : exists s', Permutation (a :: s) s' /\ StronglySorted (fun u v => graham_compare direct o v u = false) s').
  { clear P B. induction s as [|b s IHs]; [exists [a]; split; [reflexivity|constructor; constructor]|].
    inversion S as [|? ? S1 S2]; subst. destruct (Qlt_le_dec (tri2 o a b) 0) as [N|N].
    - destruct (IHs S1) as (s' & P' & S'); [intros x [<-|X]; apply BS; [left; reflexivity|right; right; exact X]|]. exists (b :: s'). split; [rewrite <- P'; apply perm_swap|].
      constructor; [exact S'|]. rewrite Forall_forall in *. intros x X. apply (Permutation_in _ (Permutation_sym P')) in X. destruct X as [<-|X]; [apply compare_false; rewrite tri2_anti; lra|apply S2, X].
    - exists (a :: b :: s). split; [reflexivity|]. constructor; [exact S|]. rewrite Forall_forall in *. intros x [<-|X]; [apply compare_false; exact N|].
      apply compare_false. apply (ang_trans o a b x); [apply BS; left; reflexivity|apply BS; right; left; reflexivity|apply BS; right; right; exact X|exact N|]. apply compare_false, S2, X. }
  destruct INS as (s' & P' & S'). exists s'. split; [rewrite P; exact P'|exact S'].
Qed.
Theorem C46_returns : forall p0 rest, (forall x, In x rest -> below p0 x) -> exists result, get_convex_hull direct (p0 :: rest) result.
Proof.
  intros p0 rest B. destruct (sort_exists p0 rest B) as (s & S). exists (graham_scan direct (p0 :: s)), p0, rest, s. split; [apply find_lowest_id, B|]. split; [exact S|reflexivity].
Qed.
Definition g0 := mkpt 0 0.
Definition grest := [mkpt 2 4; mkpt (-1) 2; mkpt 3 1; mkpt 1 2; mkpt (-2) 4; mkpt 1 1].
Example C46_witness : (forall x, In x grest -> below g0 x) /\ Permutation grest (mkpt 3 1 :: [mkpt 2 4; mkpt (-1) 2; mkpt 1 2; mkpt (-2) 4; mkpt 1 1]) /\
  (forall x, In x [mkpt 2 4; mkpt (-1) 2; mkpt 1 2; mkpt (-2) 4; mkpt 1 1] -> 0 < tri2 g0 (mkpt 3 1) x) /\
  get_convex_hull direct (g0 :: grest) (Some [mkpt (-2) 4; mkpt 2 4; mkpt 3 1; mkpt 0 0]).
Proof.
  split; [intros x X; cbn in X; repeat (destruct X as [<-|X]; [left; reflexivity|]); contradiction|].
  split; [change grest with ([mkpt 2 4; mkpt (-1) 2] ++ mkpt 3 1 :: [mkpt 1 2; mkpt (-2) 4; mkpt 1 1]); apply Permutation_sym, Permutation_cons_app; reflexivity|].
  split; [intros x X; cbn in X; repeat (destruct X as [<-|X]; [reflexivity|]); contradiction|].
  exists g0, grest, [mkpt 3 1; mkpt 1 1; mkpt 2 4; mkpt 1 2; mkpt (-1) 2; mkpt (-2) 4]. split; [vm_compute; reflexivity|]. split; [|vm_compute; reflexivity]. split.
  - unfold grest. apply (Permutation_cons_app [mkpt 3 1; mkpt 1 1]). cbn [app]. apply (Permutation_cons_app [mkpt 3 1; mkpt 1 1; mkpt 1 2]). cbn [app]. apply perm_skip. apply (Permutation_cons_app [mkpt 1 1]). cbn [app]. apply (Permutation_cons_app [mkpt 1 1]). cbn [app]. apply Permutation_refl.
  - repeat constructor.
Qed.
(** The first pass does not bring the lowest point to the front; the points then cannot be sorted
    at all, because the comparison goes round in a circle. *)
Definition gbad := [mkpt 0 1; mkpt 1 3; mkpt (-1) 3; mkpt 0 0].
Theorem C46_lowest_refuted : find_lowest direct gbad = gbad /\ below (mkpt 0 0) (hd g0 (find_lowest direct gbad)) /\
  graham_compare direct (mkpt 0 1) (mkpt 1 3) (mkpt (-1) 3) = true /\ graham_compare direct (mkpt 0 1) (mkpt (-1) 3) (mkpt 0 0) = true /\ graham_compare direct (mkpt 0 1) (mkpt 0 0) (mkpt 1 3) = true /\
  forall result, ~ get_convex_hull direct gbad result.
Proof.
  split; [vm_compute; reflexivity|]. split; [left; vm_compute; reflexivity|]. split; [vm_compute; reflexivity|]. split; [vm_compute; reflexivity|]. split; [vm_compute; reflexivity|].
  intros result (p0 & rest & sorted & E & [P S] & _). change (find_lowest direct gbad) with gbad in E. inversion E; subst p0 rest. clear E.
  destruct sorted as [|f tl]; [apply Permutation_length in P; discriminate|]. inversion S as [|? ? _ S2]; subst. rewrite Forall_forall in S2.
  assert (I : In f [mkpt 1 3; mkpt (-1) 3; mkpt 0 0]) by (apply (Permutation_in _ (Permutation_sym P)); left; reflexivity).
  assert (OTH : forall x, In x [mkpt 1 3; mkpt (-1) 3; mkpt 0 0] -> x <> f -> graham_compare direct (mkpt 0 1) x f = false).
  { intros x X N. apply S2. apply (Permutation_in _ P) in X. destruct X as [X|X]; [congruence|exact X]. }
  destruct I as [<-|[<-|[<-|[]]]].
  - assert (H : graham_compare direct (mkpt 0 1) (mkpt 0 0) (mkpt 1 3) = false) by (apply OTH; [cbn; tauto|discriminate]). vm_compute in H. discriminate.
  - assert (H : graham_compare direct (mkpt 0 1) (mkpt 1 3) (mkpt (-1) 3) = false) by (apply OTH; [cbn; tauto|discriminate]). vm_compute in H. discriminate.
  - assert (H : graham_compare direct (mkpt 0 1) (mkpt (-1) 3) (mkpt 0 0) = false) by (apply OTH; [cbn; tauto|discriminate]). vm_compute in H. discriminate.
Qed.
(** Two points on the ray of least angle: the stack is read past its end. *)
Theorem C46_first_ray_refuted : get_convex_hull direct [mkpt 0 0; mkpt 1 1; mkpt 2 2; mkpt (-1) 1] None.
Proof.
  exists (mkpt 0 0), [mkpt 1 1; mkpt 2 2; mkpt (-1) 1], [mkpt 1 1; mkpt 2 2; mkpt (-1) 1]. split; [vm_compute; reflexivity|]. split; [split; [reflexivity|repeat constructor]|vm_compute; reflexivity].
Qed.

Print Assumptions C46_hull.
Print Assumptions C46_returns.
Print Assumptions C46_lowest_refuted.
Print Assumptions C46_first_ray_refuted.
