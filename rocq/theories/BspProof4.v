(** Partition trees of convex polygons. *)
From Verif Require Import Base CmpModel OrientModel OrientSpec OrientProof DistSpec LinIntModel LinIntSpec PolygonModel PolygonSpec PolygonProof PolygonConvexProof BspModel BspSpec BspProof BspProof2 BspProof3.
From Coq Require Import Lia.

Definition pedge (p : list pt) (i : nat) : seg := (pnth p i, pnth p (S i mod length p)).
Lemma edges_In : forall p e, In e (polygon_edges p) <-> exists i, (i < length p)%nat /\ e = pedge p i.
Proof.
  intros p e. unfold polygon_edges. rewrite in_map_iff. split; [intros (i & <- & I); apply in_seq in I; exists i; split; [lia|reflexivity]|]. intros (i & I & ->). exists i. split; [reflexivity|apply in_seq; lia].
Qed.
Lemma edge_proper : forall p i, convex_ccw p -> (3 <= length p)%nat -> (i < length p)%nat -> proper (pedge p i).
Proof.
  intros p i C L I. unfold proper, pedge. cbn [fst snd]. set (k := (S (S i) mod length p)%nat).
  assert (K1 : k <> i /\ k <> (S i mod length p)%nat).
  { unfold k. destruct (Nat.eq_dec (S i) (length p)) as [E|E]; [rewrite E, Nat.mod_same by lia; replace (S (length p)) with (1 + 1 * length p)%nat by lia; rewrite Nat.mod_add, Nat.mod_small by lia; lia|].
    rewrite (Nat.mod_small (S i)) by lia. destruct (Nat.eq_dec (S (S i)) (length p)) as [F|F]; [rewrite F, Nat.mod_same by lia; lia|rewrite Nat.mod_small by lia; lia]. }
  pose proof (convex_edge_vertex p i k C L I ltac:(apply Nat.mod_upper_bound; lia) (proj1 K1) (proj2 K1)) as T. intros [Z1 Z2]. unfold tri2, cross in T. rewrite Z1, Z2 in T. lra.
Qed.
Lemma edges_front : forall p i j, convex_ccw p -> (3 <= length p)%nat -> (i < length p)%nat -> (j < length p)%nat -> i <> j -> in_front (pedge p i) (pedge p j).
Proof.
  intros p i j C L I J N. unfold in_front, side, pedge. cbn [fst snd]. assert (J' : (S j mod length p < length p)%nat) by (apply Nat.mod_upper_bound; lia).
  pose proof (convex_vertex_left p i j C L I J) as A. pose proof (convex_vertex_left p i _ C L I J') as B. split; [exact A|]. split; [exact B|].
  destruct (Nat.eq_dec j (S i mod length p)) as [E|E].
  - assert (0 < tri2 (pnth p i) (pnth p (S i mod length p)) (pnth p (S j mod length p))); [|lra]. apply convex_edge_vertex; auto; subst j.
    + destruct (Nat.eq_dec (S i) (length p)) as [E|E]; [rewrite E, Nat.mod_same, Nat.mod_small by lia; lia|]. rewrite (Nat.mod_small (S i)) by lia. destruct (Nat.eq_dec (S (S i)) (length p)) as [F|F]; [rewrite F, Nat.mod_same by lia; lia|rewrite Nat.mod_small by lia; lia].
    + destruct (Nat.eq_dec (S i) (length p)) as [E|E]; [rewrite E, Nat.mod_same, Nat.mod_small by lia; lia|]. rewrite (Nat.mod_small (S i)) by lia. destruct (Nat.eq_dec (S (S i)) (length p)) as [F|F]; [rewrite F, Nat.mod_same by lia; lia|rewrite Nat.mod_small by lia; lia].
  - pose proof (convex_edge_vertex p i j C L I J ltac:(auto) E). lra.
Qed.

(** Segments each of which has all the others in front of it. *)
Definition mutual (l : list seg) : Prop := forall a b, In a l -> In b l -> proper a /\ (a = b \/ in_front a b).
Lemma polygon_mutual : forall p, convex_ccw p -> (3 <= length p)%nat -> mutual (polygon_edges p).
Proof.
  intros p C L a b A B. apply edges_In in A, B. destruct A as (i & I & ->), B as (j & J & ->). split; [apply edge_proper; assumption|]. destruct (Nat.eq_dec i j) as [->|N]; [left; reflexivity|right; apply edges_front; assumption].
Qed.

Lemma classify_front : forall s e, proper s -> proper e -> in_front s e -> classify direct s e = Some e_positive.
Proof.
  intros s e P Q' F. destruct (classify_ok s e P Q') as (c & E & H). rewrite E. destruct c as [p n| | |]; [exfalso| |exfalso|exfalso].
  - destruct H as (_ & B & _ & Pc & _). pose proof (piece_front s n e Pc F). destruct B as (B1 & B2 & B3). rewrite side_mid in H. lra.
  - reflexivity.
  - destruct H, F. lra.
  - destruct H, F. lra.
Qed.
Lemma distribute_front : forall s l, proper s -> (forall e, In e l -> proper e /\ (s = e \/ in_front s e)) ->
  exists pos co, distribute direct s l = Some (pos, [], co) /\ (forall e, In e pos -> In e l /\ in_front s e) /\ (forall e, In e co -> e = s) /\ (forall e, In e l -> e = s \/ In e pos) /\ (In s l -> In s co) /\ (length pos + length co = length l)%nat.
Proof.
  intros s l P. induction l as [|e l IH]; intro H.
  - exists [], []. cbn. repeat split; try (intros ? []); auto; contradiction.
  - destruct IH as (pos & co & E & H1 & H2 & H3 & H4 & H5); [intros; apply H; right; assumption|]. cbn [distribute]. rewrite E. destruct (H e (or_introl eq_refl)) as (PE & [<- |F]).
    + rewrite classify_self. exists pos, (s :: co). split; [reflexivity|]. split; [intros x I; destruct (H1 x I); split; [right|]; assumption|]. split; [intros x [<- |I]; [reflexivity|exact (H2 x I)]|].
      split; [intros x [<- |I]; [left; reflexivity|exact (H3 x I)]|]. split; [intros _; left; reflexivity|]. cbn [length]. lia.
    + rewrite (classify_front s e P PE F). exists (e :: pos), co. split; [reflexivity|]. split; [intros x [<- |I]; [split; [left; reflexivity|exact F]|]; destruct (H1 x I); split; [right|]; assumption|]. split; [exact H2|].
      split; [intros x [<- |I]; [right; left; reflexivity|]; destruct (H3 x I); [left; assumption|right; right; assumption]|]. split; [|cbn [length]; lia].
      intros [EQ|I]; [|exact (H4 I)]. subst e. exfalso. destruct F as (_ & _ & F). unfold side, tri2, cross, vsub in F. cbn [px py] in F. ring_simplify in F. lra.
Qed.

Definition verdict (range : list seg) (X : pt) (l : location) : Prop :=
  match l with
  | e_inside => forall e, In e range -> 0 <= side e X /\ ~ on_segment (fst e) (snd e) X
  | e_outside => exists e, In e range /\ side e X < 0
  | e_boundary => on_any range X \/ ((forall e, In e range -> 0 <= side e X) /\ exists e, In e range /\ side e X == 0)
  end.
Lemma on_segment_side : forall e X, on_segment (fst e) (snd e) X -> side e X == 0.
Proof. intros e X O. destruct (side_on e e X O) as (t & T & ->). unfold side, tri2, cross, vsub. cbn [px py]. ring. Qed.
Lemma existsb_copies : forall s co X, proper s -> In s co -> (forall e, In e co -> e = s) -> (existsb (fun s0 => is_between direct (fst s0) (snd s0) X true) co = true <-> on_segment (fst s) (snd s) X).
Proof.
  intros s co X P I H. rewrite existsb_exists. split.
  - intros (e & E & B). rewrite (H e E) in B. apply is_between_true in B; [exact B|exact P].
  - intro O. exists s. split; [exact I|]. apply is_between_true; [exact P|exact O].
Qed.
Lemma convex_build : forall sel, selects sel -> forall fuel range, range <> [] -> (length range <= fuel)%nat -> mutual range ->
  exists t, build direct sel fuel range = Some t /\ t <> Null /\ forall X, exists l, locate_point direct t X = Some l /\ verdict range X l.
Proof.
  intros sel SEL. induction fuel as [|fuel IH]; intros range NE L M.
  - destruct range; [congruence|cbn in L; lia].
  - cbn [build]. pose proof (SEL range NE) as IN. destruct (M _ _ IN IN) as [PS _]. set (s := sel range) in *.
    destruct (distribute_front s range PS) as (pos & co & E & H1 & H2 & H3 & H4 & H5). { intros e I. split; [exact (proj1 (M e e I I))|exact (proj2 (M s e IN I))]. }
    rewrite E. cbv zeta. pose proof (H4 IN) as IC. assert (LC : (1 <= length co)%nat) by (destruct co; [destruct IC|cbn; lia]).
    assert (EX : forall X, existsb (fun s0 => is_between direct (fst s0) (snd s0) X true) co = true <-> on_segment (fst s) (snd s) X) by (intro X; apply existsb_copies; assumption).
    destruct pos as [|e0 pos'] eqn:EP.
    + exists (Node s co Null Null). split; [reflexivity|]. split; [discriminate|]. intro X. cbn [locate_point]. pose proof (orient_side s X) as O.
      assert (ALL : forall e, In e range -> e = s) by (intros e I; destruct (H3 e I) as [|[]]; assumption).
      destruct (get_orientation direct (fst s) (snd s) X).
      * exists e_outside. split; [reflexivity|]. exists s. auto.
      * exists e_boundary. split; [match goal with |- (if ?b then _ else _) = _ => destruct b end; reflexivity|]. right. split; [intros e I; rewrite (ALL e I); lra|exists s; auto].
      * exists e_inside. split; [reflexivity|]. intros e I. rewrite (ALL e I). split; [lra|]. intro C. apply on_segment_side in C. lra.
    + rewrite <- EP in *. assert (NP : pos <> []) by (rewrite EP; discriminate).
      destruct (IH pos NP ltac:(lia)) as (tp & Ep & Np & V). { intros a b A B. apply M; [apply (H1 a A)|apply (H1 b B)]. }
      rewrite Ep.
      exists (Node s co tp Null). split; [reflexivity|]. split; [discriminate|]. intro X. cbn [locate_point]. pose proof (orient_side s X) as O. destruct (V X) as (l & El & Vl).
      assert (UP : 0 <= side s X -> ~ on_segment (fst s) (snd s) X -> verdict range X l).
      { intros S0 NS. destruct l; cbn [verdict] in *.
        - intros e I. destruct (H3 e I) as [-> |P]; [split; assumption|exact (Vl e P)].
        - destruct Vl as (e & I & S1). exists e. split; [apply (H1 e I)|exact S1].
        - destruct Vl as [(e & I & O')|[A (e & I & Z)]]; [left; exists e; split; [apply (H1 e I)|exact O']|right]. split; [intros x I'; destruct (H3 x I') as [-> |P]; [exact S0|exact (A x P)]|exists e; split; [apply (H1 e I)|exact Z]]. }
      assert (NB : match tp with Null => Some e_inside | Node _ _ _ _ => locate_point direct tp X end = Some l) by (destruct tp; [congruence|exact El]).
      destruct (get_orientation direct (fst s) (snd s) X).
      * exists e_outside. split; [reflexivity|]. exists s. auto.
      * destruct (existsb (fun s0 => is_between direct (fst s0) (snd s0) X true) co) eqn:EB.
        -- exists e_boundary. split; [reflexivity|]. left. exists s. split; [exact IN|]. apply EX, EB.
        -- exists l. split; [destruct tp; [congruence|exact El]|]. apply UP; [lra|]. intro C. apply EX in C. congruence.
      * exists l. split; [exact NB|]. apply UP; [lra|]. intro C. apply on_segment_side in C. lra.
Qed.

(** A point of the hull on the line of an edge is on the edge. *)
Lemma hull_edge : forall p i X, convex_ccw p -> (3 <= length p)%nat -> (i < length p)%nat -> (forall j, (j < length p)%nat -> 0 <= side (pedge p j) X) -> side (pedge p i) X == 0 -> on_segment (pnth p i) (pnth p (S i mod length p)) X.
Proof.
  intros p i X C L I A Z. pose proof (proj2 (line_side (pedge p i) X (edge_proper p i C L I)) Z) as (t & E). cbn [fst snd pedge] in E. exists t. split; [|exact E].
  assert (I' : (S i mod length p < length p)%nat) by (apply Nat.mod_upper_bound; lia). set (j := (S i mod length p)%nat) in *. set (k := ((i + (length p - 1)) mod length p)%nat). assert (K : (k < length p)%nat) by (apply Nat.mod_upper_bound; lia).
  assert (SK : (S k mod length p = i)%nat). { unfold k. destruct i as [|i]; [rewrite (Nat.mod_small (0 + (length p - 1))) by lia; replace (S (0 + (length p - 1))) with (length p) by lia; apply Nat.mod_same; lia|]. replace (S i + (length p - 1))%nat with (i + 1 * length p)%nat by lia. rewrite Nat.mod_add, (Nat.mod_small i), Nat.mod_small by lia. reflexivity. }
  assert (NJ : j <> i /\ j <> k). { unfold j, k. destruct (Nat.eq_dec (S i) (length p)) as [E1|E1]; [rewrite E1, Nat.mod_same by lia|rewrite (Nat.mod_small (S i)) by lia]; (split; [lia|]); destruct i as [|i]; try (rewrite Nat.mod_small by lia; lia); replace (S i + (length p - 1))%nat with (i + 1 * length p)%nat by lia; rewrite Nat.mod_add, (Nat.mod_small i) by lia; lia. }
  pose proof (A j I') as AJ. pose proof (A k K) as AK. rewrite (side_pteq _ _ _ E), side_lerp in AJ. rewrite (side_pteq _ _ _ E), side_lerp in AK. unfold side, pedge in AJ, AK. cbn [fst snd] in AJ, AK. rewrite SK in AK.
  rewrite tri2_AA in AJ. rewrite tri2_AB in AK.
  assert (P1 : 0 < tri2 (pnth p k) (pnth p i) (pnth p j)). { pose proof (convex_edge_vertex p k j C L K I') as T. rewrite SK in T. apply T; tauto. }
  assert (P2 : 0 < tri2 (pnth p j) (pnth p (S j mod length p)) (pnth p i)).
  { apply convex_edge_vertex; auto; [intro; apply (proj1 NJ); auto|]. unfold j in *. destruct (Nat.eq_dec (S i) (length p)) as [E1|E1]; [rewrite E1, Nat.mod_same, Nat.mod_small by lia; lia|]. rewrite (Nat.mod_small (S i)) by lia. destruct (Nat.eq_dec (S (S i)) (length p)) as [F|F]; [rewrite F, Nat.mod_same by lia; lia|rewrite Nat.mod_small by lia; lia]. }
  split.
  - destruct (Qlt_le_dec t 0) as [N|N]; [|exact N]. exfalso. assert (0 < (- t) * tri2 (pnth p k) (pnth p i) (pnth p j)) by (apply Qmult_lt_0_compat; lra). lra.
  - destruct (Qlt_le_dec 1 t) as [N|N]; [|exact N]. exfalso. assert (0 < (t - 1) * tri2 (pnth p j) (pnth p (S j mod length p)) (pnth p i)) by (apply Qmult_lt_0_compat; lra). lra.
Qed.
Lemma strictly_sides : forall p X, (0 < length p)%nat -> (strictly_inside p X <-> forall i, (i < length p)%nat -> 0 < side (pedge p i) X).
Proof.
  intros p X N. split.
  - intros H i I. apply (H i). split; apply pnth_error; [exact I|apply Nat.mod_upper_bound; lia].
  - intros H i A B [E1 E2]. assert (I : (i < length p)%nat) by (apply nth_error_Some; congruence). specialize (H i I). rewrite pnth_error in E1 by exact I. rewrite pnth_error in E2 by (apply Nat.mod_upper_bound; lia). injection E1 as <-. injection E2 as <-. exact H.
Qed.
Lemma all_sides : forall p X, (forall e, In e (polygon_edges p) -> 0 <= side e X) <-> (forall j, (j < length p)%nat -> 0 <= side (pedge p j) X).
Proof. intros p X. split; [intros H j J; apply H, edges_In; exists j; auto|intros H e E; apply edges_In in E; destruct E as (j & J & ->); auto]. Qed.

Lemma convex_locate : forall sel p, selects sel -> convex_ccw p -> (3 <= length p)%nat ->
  exists t, build direct sel (length p) (polygon_edges p) = Some t /\
    forall X, exists l, locate_point direct t X = Some l /\ (l = e_inside <-> strictly_inside p X) /\ (l = e_boundary <-> on_any (polygon_edges p) X) /\ (l = e_outside <-> ~ in_hull p X).
Proof.
  intros sel p SEL C L. assert (LE : length (polygon_edges p) = length p) by (unfold polygon_edges; rewrite map_length, seq_length; reflexivity).
  destruct (convex_build sel SEL (length p) (polygon_edges p)) as (t & E & _ & V); [intro N; rewrite N in LE; cbn in LE; lia|lia|apply polygon_mutual; assumption|].
  exists t. split; [exact E|]. intro X. destruct (V X) as (l & El & Vl). exists l. split; [exact El|]. pose proof (left_of_all_hull p X C L) as HL.
  assert (HS : in_hull p X <-> forall e, In e (polygon_edges p) -> 0 <= side e X) by (rewrite HL; symmetry; apply all_sides).
  assert (SI : strictly_inside p X <-> in_hull p X /\ ~ on_any (polygon_edges p) X).
  { rewrite strictly_sides by lia. rewrite HS, all_sides. split.
    - intro H. split; [intros; apply Qlt_le_weak; auto|]. intros (e & I & O). apply edges_In in I. destruct I as (i & I & ->). apply on_segment_side in O. specialize (H i I). lra.
    - intros [H N] i I. specialize (H i I) as Hi. destruct (Qlt_le_dec 0 (side (pedge p i) X)) as [G|G]; [exact G|]. exfalso. apply N. exists (pedge p i). split; [apply edges_In; exists i; auto|]. apply hull_edge; auto. lra. }
  assert (OB : on_any (polygon_edges p) X -> in_hull p X).
  { intros (e & I & O). apply HS. intros x J. destruct (polygon_mutual p C L x e J I) as (PX & [-> |F]); [apply on_segment_side in O; rewrite O; lra|exact (front_on _ _ _ F O)]. }
  destruct l; cbn [verdict] in Vl.
  - assert (S : strictly_inside p X). { apply SI. split; [apply HS; intros e I; apply (Vl e I)|]. intros (e & I & O). exact (proj2 (Vl e I) O). }
    pose proof (proj1 SI S) as [S1 S2]. repeat split; try congruence; try tauto; intro; exfalso; tauto.
  - assert (S : ~ in_hull p X). { intro H. destruct Vl as (e & I & N). pose proof (proj1 HS H e I). lra. }
    pose proof (fun K => S (proj1 (proj1 SI K))). pose proof (fun K => S (OB K)). repeat split; try congruence; try tauto; intro; exfalso; tauto.
  - assert (S : on_any (polygon_edges p) X). { destruct Vl as [H|[A (e & I & Z)]]; [exact H|]. apply edges_In in I. destruct I as (i & I & ->). exists (pedge p i). split; [apply edges_In; exists i; auto|]. apply hull_edge; auto. apply all_sides. exact A. }
    pose proof (OB S) as S'. repeat split; try congruence; try tauto; intro; exfalso; tauto.
Qed.

(** ** The region of a convex polygon is to the left of its edges *)
Lemma first_exit : forall (L : list seg) P Y, (forall e, In e L -> 0 < side e P) -> (exists e, In e L /\ side e Y <= 0) ->
  exists t, 0 < t <= 1 /\ (exists e, In e L /\ side e (lerp P Y t) == 0) /\ forall e, In e L -> 0 <= side e (lerp P Y t).
Proof.
  induction L as [|e L IH]; intros P Y A (x & X & SX); [destruct X|].
  assert (AE : 0 < side e P) by (apply A; left; reflexivity). assert (AL : forall a, In a L -> 0 < side a P) by (intros; apply A; right; assumption).
  assert (ROOT : forall s, 0 < s <= 1 -> side e (lerp P Y s) <= 0 -> exists t, 0 < t <= s /\ side e (lerp P Y t) == 0).
  { intros s S0 S1. rewrite side_lerp in S1. set (a := side e P) in *. set (b := side e Y) in *. assert (D : 0 < a - b) by nra. exists (a / (a - b)). assert (K : (a / (a - b)) * (a - b) == a) by (field; lra).
    split; [split; [apply Qlt_shift_div_l; lra|apply Qle_shift_div_r; [exact D|]; lra]|]. rewrite side_lerp. fold a b. lra. }
  assert (DEC : {forall a, In a L -> 0 < side a Y} + {exists a, In a L /\ side a Y <= 0}).
  { clear - L. induction L as [|a L IH]; [left; intros ? []|]. destruct (Qlt_le_dec 0 (side a Y)) as [G|G]; [|right; exists a; split; [left; reflexivity|exact G]]. destruct IH as [H|H]; [left; intros x [<- |I]; auto|right; destruct H as (x & I & S); exists x; split; [right|]; assumption]. }
  destruct DEC as [ALL|SOME].
  - destruct X as [<- |X]; [|pose proof (ALL x X); lra]. destruct (ROOT 1 ltac:(lra)) as (t & T & Z). { rewrite side_lerp. lra. }
    exists t. split; [lra|]. split; [exists e; split; [left; reflexivity|exact Z]|]. intros a [<- |I]; [lra|]. rewrite side_lerp. apply mix_nonneg; [lra| |]; apply Qlt_le_weak; auto.
  - destruct (IH P Y AL SOME) as (t & T & (a & I & Z) & H). destruct (Qlt_le_dec (side e (lerp P Y t)) 0) as [N|N].
    + destruct (ROOT t T ltac:(lra)) as (r & R & Zr). exists r. split; [lra|]. split; [exists e; split; [left; reflexivity|exact Zr]|]. intros b [<- |J]; [lra|]. specialize (H b J). specialize (AL b J). rewrite side_lerp in *. set (c := side b P) in *. set (d := side b Y) in *.
      destruct (Qlt_le_dec d 0) as [Dn|Dn]; [|apply mix_nonneg; lra]. assert (0 <= (t - r) * (c - d)) by (apply Qmult_le_0_compat; lra). lra.
    + exists t. split; [exact T|]. split; [exists a; split; [right; exact I|exact Z]|]. intros b [<- |J]; [exact N|exact (H b J)].
Qed.
Lemma convex_region : forall p, convex_ccw p -> (3 <= length p)%nat -> left_of_boundary (polygon_edges p) (strictly_inside p).
Proof.
  intros p C L s P Y I IP CL. apply edges_In in I. destruct I as (i & I & ->). rewrite strictly_sides by lia. split.
  2:{ intros N H. specialize (H i I). lra. }
  intro S. destruct IP as (r & R & EP).
  assert (PP : forall j, (j < length p)%nat -> j <> i -> 0 < side (pedge p j) P).
  { intros j J N. destruct (edges_front p j i C L J I N) as (F1 & F2 & F3). rewrite (side_pteq _ _ _ EP), side_lerp. set (a := side (pedge p j) (fst (pedge p i))) in *. set (b := side (pedge p j) (snd (pedge p i))) in *.
    assert (0 <= r * b) by (apply Qmult_le_0_compat; lra). assert (0 <= (1 - r) * a) by (apply Qmult_le_0_compat; lra).
    destruct (Qlt_le_dec 0 a); [assert (0 < (1 - r) * a) by (apply Qmult_lt_0_compat; lra); lra|assert (0 < r * b) by (apply Qmult_lt_0_compat; lra); lra]. }
  assert (PI : side (pedge p i) P == 0). { apply on_segment_side. exists r. split; [lra|exact EP]. }
  intros j J. destruct (Nat.eq_dec j i) as [->|N]; [exact S|]. destruct (Qlt_le_dec 0 (side (pedge p j) Y)) as [G|G]; [exact G|]. exfalso.
  set (others := map (pedge p) (filter (fun k => negb (Nat.eqb k i)) (seq 0 (length p)))).
  assert (OI : forall e, In e others <-> exists k, (k < length p)%nat /\ k <> i /\ e = pedge p k).
  { intro e. unfold others. rewrite in_map_iff. split.
    - intros (k & <- & K). apply filter_In in K. destruct K as [K1 K2]. apply in_seq in K1. apply negb_true_iff, Nat.eqb_neq in K2. exists k. repeat split; try assumption; lia.
    - intros (k & K1 & K2 & ->). exists k. split; [reflexivity|]. apply filter_In. split; [apply in_seq; lia|]. apply negb_true_iff, Nat.eqb_neq. exact K2. }
  destruct (first_exit others P Y) as (t & T & (e & E & Z) & H).
  - intros e E. apply OI in E. destruct E as (k & K & NK & ->). auto.
  - exists (pedge p j). split; [apply OI; exists j; auto|exact G].
  - apply OI in E. destruct E as (k & K & NK & ->). apply (CL t T). exists (pedge p k). split; [apply edges_In; exists k; auto|]. apply hull_edge; auto. intros m M. destruct (Nat.eq_dec m i) as [->|NM].
    + rewrite side_lerp, PI. assert (0 <= t * side (pedge p i) Y) by (apply Qmult_le_0_compat; lra). lra.
    + apply H, OI. exists m. auto.
Qed.
