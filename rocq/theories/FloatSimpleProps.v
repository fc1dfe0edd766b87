(** C146, continued: betweenness and simplicity with points of doubles. *)
From Coq Require Import Reals Floats ZArith QArith Lia Bool List.
From Verif Require Import Base CmpModel OrientModel OrientSpec OrientProof DistModel DistSpec DistProof LinIntModel LinIntSpec LinIntProof PolygonModel PolygonSpec PlanarModel PlanarSpec PlanarProof PlanarProof2 PlanarProps
  FloatModel FloatSpec FloatPolyModel FloatLinIntModel FloatLinIntSpec FloatLinIntProof FloatSimpleModel.
Import ListNotations.
Local Open Scope nat_scope.

(** For integer coordinates up to 2^24 is_between on doubles is membership of the segment. *)
Theorem C146_between : forall A B C a b c, grid_pt A a -> grid_pt B b -> grid_pt C c -> nonzero (vsub b a) -> (fis_between fdirect A B C = true <-> on_segment a b c).
Proof. intros A B C a b c GA GB GC N. rewrite (between_exact A B C a b c GA GB GC). apply OrientProof.is_between_true, N. Qed.
Print Assumptions C146_between.
Lemma grid_nth : forall P p i, Forall2 grid_pt P p -> match nth_error P i, nth_error p i with Some A, Some a => grid_pt A a | None, None => True | _, _ => False end.
Proof. intros P p i F. revert i. induction F as [|A a P p G F IH]; intros [|i]; cbn [nth_error]; [exact I|exact I|exact G|apply IH]. Qed.
Lemma fintersecting_exact : forall P p i i' j j', Forall2 grid_pt P p -> fintersecting fdirect P i i' j j' = intersecting direct p i i' j j'.
Proof.
  intros P p i i' j j' F. pose proof (grid_nth P p i F) as H1. pose proof (grid_nth P p i' F) as H2. pose proof (grid_nth P p j F) as H3. pose proof (grid_nth P p j' F) as H4. unfold fintersecting, intersecting, sides_meet.
  destruct (nth_error P i) as [A|], (nth_error p i) as [a|]; try contradiction; try reflexivity. destruct (nth_error P i') as [B|], (nth_error p i') as [b|]; try contradiction; try reflexivity.
  destruct (nth_error P j) as [C|], (nth_error p j) as [c|]; try contradiction; try reflexivity. destruct (nth_error P j') as [D|], (nth_error p j') as [d|]; try contradiction; try reflexivity.
  destruct (intersection_exact A B C D a b c d) as (ty & fpts & pts & E1 & E2 & _); try assumption. rewrite E1, E2. reflexivity.
Qed.
(** A polygon of at least four points with such coordinates is found simple exactly when it is simple. *)
Theorem C146_simple : forall P p, Forall2 grid_pt P p -> 4 <= length p -> proper_polygon p ->
  exists b, fis_polygon_simple fdirect P = Some b /\ (b = true <-> simple_polygon p).
Proof.
  intros P p F L PR. destruct (C95_simple p L PR) as (b & E & K). exists b. split; [|exact K]. rewrite <- E. unfold fis_polygon_simple, is_polygon_simple. cbv zeta.
  assert (LE : length P = length p) by (clear -F; induction F; cbn; congruence). rewrite LE. destruct (Nat.ltb (length p) 2); [reflexivity|]. f_equal.
  generalize (simple_indices (length p)). induction l as [|[i j] l IH]; [reflexivity|]. cbn [search]. rewrite (fintersecting_exact P p _ _ _ _ F), IH. reflexivity.
Qed.
Print Assumptions C146_simple.
(** A segment is found to meet a polyline exactly when they have a common point. *)
Theorem C146_segment_polyline : forall A B P a b p, grid_pt A a -> grid_pt B b -> Forall2 grid_pt P p -> nonzero (vsub b a) -> proper_polyline p ->
  (fsegment_polyline_intersect fdirect A B P = true <-> exists X, on_segment a b X /\ on_polyline p X).
Proof.
  intros A B P a b p GA GB F N PR. unfold fsegment_polyline_intersect. revert PR. induction F as [|C c P p GC F IH]; intro PR.
  { split; [discriminate|]. intros (X & _ & i & C & D & [E _] & _). destruct i; discriminate. }
  destruct F as [|D d P p GD F].
  { split; [discriminate|]. intros (X & _ & i & C' & D' & [_ E] & _). destruct i; discriminate. }
  cbn [fsides_hit existsb]. rewrite orb_true_iff. rewrite IH; [|intros i U V [E1 E2]; apply (PR (S i)); split; assumption].
  assert (ND : nonzero (vsub d c)) by (apply (PR 0); split; reflexivity).
  assert (ONE : negb (is_non_crossing (fst (fsegment_segment_intersection fdirect A B C D))) = true <-> exists X, on_segment a b X /\ on_segment c d X).
  { destruct (intersection_exact A B C D a b c d GA GB GC GD) as (ty & fpts & pts & E1 & E2 & _). rewrite E1. cbn [fst].
    destruct (segseg_ok a b c d N ND) as (ty' & pts' & R & S). rewrite E2 in R. injection R as <- <-. cbv zeta in S. split.
    - intro H. destruct ty; try discriminate H; [destruct S|destruct S as (X & _ & S & _)|destruct S as (X & Y & _ & S & _)|destruct S as (X & _ & S & _)]; exists X; apply S; try apply pteq_refl; apply on_segment_ends.
    - intros (X & H1 & H2). destruct ty; try reflexivity. destruct S as [_ S]. destruct (S X (conj H1 H2)). }
  rewrite ONE. split.
  - intros [(X & H1 & H2)|(X & H1 & i & U & V & [E1 E2] & H2)]; exists X; (split; [exact H1|]); [exists 0, c, d|exists (S i), U, V]; (split; [split; try reflexivity; assumption|exact H2]).
  - intros (X & H1 & [|i] & U & V & [E1 E2] & H2); [left|right; exists X; split; [exact H1|]; exists i, U, V; split; [split; assumption|exact H2] ].
    cbn in E1, E2. injection E1 as <-. injection E2 as <-. exists X. split; assumption.
Qed.
Print Assumptions C146_segment_polyline.
(** A square is simple, a figure of eight is not; the segment across the square meets its border. *)
Example C146_simple_witness : fis_polygon_simple fdirect [mkfpt 0 0; mkfpt 3 0; mkfpt 3 2; mkfpt 0 2] = Some true /\ fis_polygon_simple fdirect [mkfpt 0 0; mkfpt 3 2; mkfpt 3 0; mkfpt 0 2] = Some false /\
  fsegment_polyline_intersect fdirect (mkfpt 1 (-1)) (mkfpt 1 1) [mkfpt 0 0; mkfpt 3 0; mkfpt 3 2] = true /\ fsegment_polyline_intersect fdirect (mkfpt 1 1) (mkfpt 2 1) [mkfpt 0 0; mkfpt 3 0; mkfpt 3 2] = false.
Proof. repeat split; vm_compute; reflexivity. Qed.
