(** Partition trees: what is stored, point location, painter's order. *)
From Verif Require Import Base CmpModel CmpProof OrientModel OrientSpec DistSpec PolygonModel PolygonSpec PolygonProof PolygonConvexProof BspModel BspSpec BspProof BspProof2 BspProof3 BspProof4.
From Coq Require Import Lia Sorting.Permutation Sorting.Sorted.

Lemma made_holds : forall t range, made t range -> holds t range /\ range <> [].
Proof.
  intros t range M. induction M as [sel fuel range t SEL NE P L E|sel fuel t range new t' M [IH NE] SEL P L E].
  - destruct (build_holds sel SEL fuel range NE L P) as (t' & E' & H). rewrite E in E'. injection E' as <-. auto.
  - destruct (insert_holds sel SEL t range IH fuel new L P) as (t2 & E' & H). rewrite E in E'. injection E' as <-. split; [exact H|]. destruct range; [congruence|discriminate].
Qed.
Lemma made_not_null : forall t range, made t range -> t <> Null.
Proof. intros t range M ->. destruct (made_holds _ _ M) as [H N]. inversion H. congruence. Qed.

(** Construction and insertion end, whatever segment the selector picks. *)
Theorem C34_terminates : forall sel, selects sel ->
  (forall fuel range, range <> [] -> (forall s, In s range -> proper s) -> (length range <= fuel)%nat -> exists t, build direct sel fuel range = Some t) /\
  (forall fuel t range new, made t range -> (forall s, In s new -> proper s) -> (length new <= fuel)%nat -> exists t', insert direct sel fuel t new = Some t').
Proof.
  intros sel SEL. split.
  - intros fuel range NE P L. destruct (build_holds sel SEL fuel range NE L P) as (t & E & _). exists t. exact E.
  - intros fuel t range new M P L. destruct (made_holds _ _ M) as [H _]. destruct (insert_holds sel SEL t range H fuel new L P) as (t' & E & _). exists t'. exact E.
Qed.
Print Assumptions C34_terminates.

(** The stored segments are pieces of those given and cover exactly the same points, and every
    node has the segments of its subtrees on the two sides of its line. *)
Theorem C34_stored : forall t range, made t range ->
  (forall X, on_any (stored t) X <-> on_any range X) /\ (forall e, In e (stored t) -> exists s, In s range /\ piece_of e s) /\ partitioned t.
Proof.
  intros t range M. destruct (made_holds _ _ M) as [H _]. destruct (holds_stored _ _ H) as [A B]. split; [exact A|]. split; [exact B|]. exact (holds_partitioned _ _ H).
Qed.
Print Assumptions C34_stored.

(** Point location away from the segments: inside and outside are right for every region to the
    left of its boundary; boundary is only answered on the line of a segment. *)
Theorem C34_locate : forall t range S, made t range -> left_of_boundary range S -> forall X, ~ on_any range X ->
  exists l, locate_point direct t X = Some l /\
    match l with e_inside => S X | e_outside => ~ S X | e_boundary => exists r, In r range /\ side r X == 0 end.
Proof.
  intros t range S M LB X NX. destruct (made_holds _ _ M) as [H _]. destruct (locate_settles t range H (made_not_null _ _ M) X NX) as (l & E & ST). exists l. split; [exact E|]. exact (settles_region _ _ _ _ LB ST).
Qed.
Print Assumptions C34_locate.

(** On no line of a segment, the answer is exact. *)
Theorem C34_locate_generic : forall t range S X, made t range -> left_of_boundary range S -> (forall r, In r range -> ~ side r X == 0) ->
  (locate_point direct t X = Some e_inside /\ S X) \/ (locate_point direct t X = Some e_outside /\ ~ S X).
Proof.
  intros t range S X M LB NL. destruct (C34_locate t range S M LB X) as (l & E & H).
  - intros (s & I & O). apply (NL s I). apply on_segment_side. exact O.
  - rewrite E. destruct l; [left; auto|right; auto|]. destruct H as (r & R & Z). exfalso. exact (NL r R Z).
Qed.
Print Assumptions C34_locate_generic.

(** The hypothesis on the region holds for convex polygons. *)
Theorem C34_convex_region : forall p, convex_ccw p -> (3 <= length p)%nat -> left_of_boundary (polygon_edges p) (strictly_inside p).
Proof. exact convex_region. Qed.
Print Assumptions C34_convex_region.

(** For convex polygons all three answers are exact everywhere. *)
Theorem C34_convex : forall sel p, selects sel -> convex_ccw p -> (3 <= length p)%nat ->
  exists t, build direct sel (length p) (polygon_edges p) = Some t /\
    forall X, exists l, locate_point direct t X = Some l /\ (l = e_inside <-> strictly_inside p X) /\ (l = e_boundary <-> on_polygon p X) /\ (l = e_outside <-> ~ in_hull p X).
Proof.
  intros sel p SEL C L. destruct (convex_locate sel p SEL C L) as (t & E & H). exists t. split; [exact E|]. intro X. destruct (H X) as (l & El & A & B & D). exists l. split; [exact El|]. split; [exact A|]. split; [|exact D]. rewrite B. split.
  - intros (e & I & O). apply edges_In in I. destruct I as (i & I & ->). exists i, (pnth p i), (pnth p (S i mod length p)). split; [|exact O]. split; apply pnth_error; [exact I|apply Nat.mod_upper_bound; lia].
  - intros (i & A' & B' & [E1 E2] & O). assert (I : (i < length p)%nat) by (apply nth_error_Some; congruence). rewrite pnth_error in E1 by exact I. rewrite pnth_error in E2 by (apply Nat.mod_upper_bound; lia). injection E1 as <-. injection E2 as <-. exists (pedge p i). split; [apply edges_In; exists i; auto|exact O].
Qed.
Print Assumptions C34_convex.

Lemma first_selects : selects first_segment_selector.
Proof. intros [|s l] H; [congruence|left; reflexivity]. Qed.
Definition pq (x y : Q) : pt := mkpt x y.
Definition zz : list pt := [pq 0 0; pq 1 0; pq 2 (-(2)); pq (5 # 2) (-(2)); pq 3 0; pq (7 # 2) (-(2)); pq 5 (-(2)); pq 5 5; pq 0 5].

(** A vertex of a simple polygon reported inside: it is touched by the line of the first edge, with
    the edges that meet in it on the other side. *)
Theorem C34_border_refuted : exists p t X,
  made t (polygon_edges p) /\ on_polygon p X /\ locate_point direct t X = Some e_inside.
Proof.
  exists zz. destruct (build direct first_segment_selector 9 (polygon_edges zz)) as [t|] eqn:E; [|vm_compute in E; discriminate].
  exists t, (pq 3 0). split; [|split].
  - apply (made_build first_segment_selector 9); [exact first_selects|discriminate| |cbn; lia|exact E].
    intros s I. cbn in I. repeat destruct I as [<- |I]; try contradiction; intros [Z1 Z2]; vm_compute in Z1, Z2; congruence.
  - exists 3%nat, (pq (5 # 2) (-(2))), (pq 3 0). split; [split; reflexivity|]. exists 1. split; [lra|]. split; vm_compute; reflexivity.
  - vm_compute in E. injection E as <-. vm_compute. reflexivity.
Qed.
Print Assumptions C34_border_refuted.
(** Points on the line of a segment but not on it can be reported as boundary. *)
Theorem C34_extension_refuted : exists t range X,
  made t range /\ ~ on_any range X /\ locate_point direct t X = Some e_boundary.
Proof.
  exists (Node (pq 0 0, pq 1 0) [(pq 0 0, pq 1 0)] Null Null), [(pq 0 0, pq 1 0)], (pq 2 0). split; [|split].
  - apply (made_build first_segment_selector 1); [exact first_selects|discriminate| |cbn; lia|vm_compute; reflexivity].
    intros s [<- |[]] [Z1 _]. vm_compute in Z1. discriminate.
  - intros (s & [<- |[]] & u & U & [E1 E2]). cbn [fst snd lerp vadd vscale vsub pq px py] in E1. lra.
  - vm_compute. reflexivity.
Qed.
Print Assumptions C34_extension_refuted.

Example C34_witness : exists t, made t (polygon_edges [pq 0 0; pq 4 0; pq 4 4; pq 0 4]) /\
  locate_point direct t (pq 1 1) = Some e_inside /\ locate_point direct t (pq 5 1) = Some e_outside /\ locate_point direct t (pq 4 4) = Some e_boundary.
Proof.
  destruct (build direct first_segment_selector 4 (polygon_edges [pq 0 0; pq 4 0; pq 4 4; pq 0 4])) as [t|] eqn:E; [|vm_compute in E; discriminate]. exists t. split.
  - apply (made_build first_segment_selector 4); [exact first_selects|discriminate| |cbn; lia|exact E].
    intros s I. cbn in I. repeat destruct I as [<- |I]; try contradiction; intros [Z1 Z2]; vm_compute in Z1, Z2; congruence.
  - vm_compute in E. injection E as <-. vm_compute. auto.
Qed.
(** A crossing: the second segment is cut. *)
Example C34_witness_split : exists t, build direct first_segment_selector 2 [(pq 0 0, pq 2 0); (pq 1 (-(1)), pq 1 1)] = Some t /\ length (stored t) = 3%nat.
Proof. eexists. split; vm_compute; reflexivity. Qed.

(** ** Painter's order *)
Lemma holds_off : forall t range P, holds t range -> (forall r, In r range -> ~ side r P == 0) -> off_splits t P.
Proof.
  intros t range P H. induction H as [|s edges pos neg range rp rn PS PR SP IS HE HP HN HA HoP IHP HoN IHN]; intro N; cbn [off_splits]; [exact I|].
  assert (PC : forall e r, In r range -> piece_of e r -> ~ side e P == 0).
  { intros e r R Pc Z. destruct (piece_side_scale e r P Pc) as (k & K & E). rewrite Z in E. symmetry in E. destruct (Qmult_integral _ _ E); [lra|]. exact (N r R H). }
  split; [destruct SP as (r & R & Pc); exact (PC s r R Pc)|]. split; [apply IHP|apply IHN]; intros e E; [destruct (HP e E) as (_ & r & R & Pc)|destruct (HN e E) as (_ & r & R & Pc)]; exact (PC e r R Pc).
Qed.
(** From a viewpoint on no line of a segment, the painter's traversal visits every stored segment
    once, and no segment hides a part of one visited after it. *)
Theorem C88_painters : forall t range P, made t range -> (forall r, In r range -> ~ side r P == 0) ->
  Permutation (painters_traversal direct t P) (stored t) /\ StronglySorted (before P) (painters_traversal direct t P).
Proof.
  intros t range P M N. destruct (made_holds _ _ M) as [H _]. pose proof (holds_off t range P H N) as O. split; [apply painters_perm; exact O|apply painters_order; [exact (holds_partitioned _ _ H)|exact O]].
Qed.
Print Assumptions C88_painters.
(** From any viewpoint only stored segments are visited. *)
Theorem C88_painters_stored : forall t P e, In e (painters_traversal direct t P) -> In e (stored t).
Proof.
  induction t as [|s edges pos IHP neg IHN]; intros P e H; [destruct H|]. cbn [stored].
  assert (G : In e (match get_orientation direct (fst s) (snd s) P with
    | oriented_left => painters_traversal direct neg P ++ edges ++ painters_traversal direct pos P
    | oriented_right => painters_traversal direct pos P ++ edges ++ painters_traversal direct neg P
    | oriented_collinear => painters_traversal direct pos P ++ painters_traversal direct neg P end) -> In e (edges ++ stored pos ++ stored neg)).
  { intro I. specialize (IHP P e). specialize (IHN P e). destruct (get_orientation direct (fst s) (snd s) P); rewrite !in_app_iff in *; tauto. }
  cbn [painters_traversal] in H. destruct pos, neg; try (apply G, H). apply in_or_app. left. exact H.
Qed.
Print Assumptions C88_painters_stored.
(** From a viewpoint on the line of a splitting segment, the segments on that line are left out. *)
Theorem C88_on_line_refuted : exists t range P, made t range /\ ~ on_any range P /\ ~ Permutation (painters_traversal direct t P) (stored t).
Proof.
  exists (Node (pq 0 0, pq 1 0) [(pq 0 0, pq 1 0)] (Node (pq 0 1, pq 1 1) [(pq 0 1, pq 1 1)] Null Null) Null), [(pq 0 0, pq 1 0); (pq 0 1, pq 1 1)], (pq 3 0). split; [|split].
  - apply (made_build first_segment_selector 2); [exact first_selects|discriminate| |cbn; lia|vm_compute; reflexivity].
    intros s [<- |[<- |[]]] [Z1 _]; vm_compute in Z1; discriminate.
  - intros (s & [<- |[<- |[]]] & u & U & [E1 E2]); cbn [fst snd lerp vadd vscale vsub pq px py] in E1; lra.
  - intro H. apply Permutation_length in H. vm_compute in H. discriminate.
Qed.
Print Assumptions C88_on_line_refuted.
Example C88_witness : exists t, build direct first_segment_selector 2 [(pq 0 0, pq 1 0); (pq 0 1, pq 1 1)] = Some t /\
  painters_traversal direct t (pq 2 3) = [(pq 0 0, pq 1 0); (pq 0 1, pq 1 1)] /\ painters_traversal direct t (pq 2 (-(3))) = [(pq 0 1, pq 1 1); (pq 0 0, pq 1 0)].
Proof. eexists. split; [vm_compute; reflexivity|]. split; vm_compute; reflexivity. Qed.
