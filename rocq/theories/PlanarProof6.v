From Verif Require Import Base CmpModel OrientModel OrientSpec OrientProof DistModel DistSpec LinIntModel LinIntSpec LinIntProof PolygonModel PolygonSpec PolygonProof PolygonBorderProof PlanarModel PlanarSpec PlanarProof PlanarProof2 PlanarProof4 PlanarProof5.
From Coq Require Import Lia Sorting.Sorted.

Lemma lerp_inj : forall A B s t, nonzero (vsub B A) -> lerp A B s =p= lerp A B t -> s == t.
Proof.
  intros A B s t N [E1 E2]. rewrite !lerp_px in E1. rewrite !lerp_py in E2. destruct (Qeq_dec s t) as [E|E]; [exact E|]. exfalso. apply N.
  assert (Z1 : (s - t) * (px B - px A) == 0) by lra. assert (Z2 : (s - t) * (py B - py A) == 0) by lra. unfold vsub. cbn [px py].
  apply Qmult_integral in Z1 as [Z1|Z1]; [exfalso; apply E; lra|]. apply Qmult_integral in Z2 as [Z2|Z2]; [exfalso; apply E; lra|]. split; assumption.
Qed.
Lemma param_inside : forall A B p z q, (p < z /\ z < q \/ q < z /\ z < p) -> inside_segment (lerp A B p) (lerp A B q) (lerp A B z).
Proof.
  intros A B p z q H. exists ((z - p) / (q - p)). assert (EQ : (z - p) / (q - p) * (q - p) == z - p) by (field; lra). set (u := (z - p) / (q - p)) in *. split.
  - destruct H as [[H1 H2]|[H1 H2]].
    + split; [destruct (Qlt_le_dec 0 u); [assumption|exfalso; assert (0 <= (- u) * (q - p)) by (apply Qmult_le_0_compat; lra); lra]|].
      destruct (Qlt_le_dec u 1); [assumption|exfalso; assert (0 <= (u - 1) * (q - p)) by (apply Qmult_le_0_compat; lra); lra].
    + split; [destruct (Qlt_le_dec 0 u); [assumption|exfalso; assert (0 <= (- u) * (p - q)) by (apply Qmult_le_0_compat; lra); lra]|].
      destruct (Qlt_le_dec u 1); [assumption|exfalso; assert (0 <= (u - 1) * (p - q)) by (apply Qmult_le_0_compat; lra); lra].
  - eapply pteq_trans; [|apply pteq_sym, lerp_on]. apply lerp_compat. lra.
Qed.
Lemma inside_compat : forall A B A' B' X X', A =p= A' -> B =p= B' -> X =p= X' -> inside_segment A B X -> inside_segment A' B' X'.
Proof.
  intros A B A' B' X X' E1 E2 E3 (t & T & E). exists t. split; [exact T|]. eapply pteq_trans; [apply pteq_sym, E3|]. eapply pteq_trans; [exact E|]. apply lerp_compat_pt; assumption.
Qed.
Lemma inside_on : forall A B X, inside_segment A B X -> on_segment A B X.
Proof. intros A B X (t & T & E). exists t. split; [lra|exact E]. Qed.

(** * What one side contributes to the set *)
Lemma ends_of_common : forall A B C D, nonzero (vsub B A) -> nonzero (vsub D C) -> on_segment A B C -> on_segment C D A -> on_segment C D B -> C =p= A \/ C =p= B.
Proof.
  intros A B C D N1 N2 (u & U & EC) (a & Ha & EA) (b & Hb & EB).
  assert (E : lerp C D 0 =p= lerp C D (a + u * (b - a))).
  { eapply pteq_trans; [apply lerp_0|]. eapply pteq_trans; [exact EC|]. eapply pteq_trans; [apply lerp_compat_pt; [exact EA|exact EB]|]. apply lerp_on. }
  apply (lerp_inj C D _ _ N2) in E.
  assert (G : a == 0 \/ b == 0).
  { destruct (Qeq_dec a 0) as [|NA]; [left; assumption|]. destruct (Qeq_dec b 0) as [|NB]; [right; assumption|]. exfalso.
    assert (0 <= u * b) by (apply Qmult_le_0_compat; lra). assert (0 <= (1 - u) * a) by (apply Qmult_le_0_compat; lra).
    assert (Z1 : u * b == 0) by lra. assert (Z2 : (1 - u) * a == 0) by lra. apply Qmult_integral in Z1 as [Z1|Z1]; [|contradiction]. apply Qmult_integral in Z2 as [Z2|Z2]; [lra|contradiction]. }
  destruct G as [G|G]; [left|right]; apply pteq_sym; [eapply pteq_trans; [exact EA|]|eapply pteq_trans; [exact EB|]]; (eapply pteq_trans; [apply lerp_compat; exact G|apply lerp_0]).
Qed.
Lemma pt_equals_ok : forall a b, pt_equals direct a b = true -> a =p= b.
Proof. intros a b H. unfold pt_equals in H. cbn in H. rewrite andb_true_iff in H. rewrite !Qeqb_eq in H. destruct H. split; assumption. Qed.
Lemma edge_head : forall A B C D, nonzero (vsub B A) -> nonzero (vsub D C) ->
  (exists pts, segment_segment_intersection direct A B C D = Some (e_non_crossing, pts) /\ ~ meet A B C D) \/
  (exists ty X r, segment_segment_intersection direct A B C D = Some (ty, X :: r) /\ (ty = e_crossing \/ ty = e_endpoint \/ ty = e_overlapping) /\ meet A B C D /\
    on_segment A B X /\ (forall Z, on_segment A B Z -> on_segment C D Z -> Z =p= X \/ cross (vsub B A) (vsub D C) == 0) /\
    (on_segment A B C -> C =p= X \/ C =p= A \/ C =p= B)).
Proof.
  intros A B C D N1 N2. destruct (segseg_ok A B C D N1 N2) as (ty & pts & E & H). cbv zeta in H.
  destruct ty.
  - contradiction.
  - left. exists pts. split; [exact E|]. intros (X & X1 & X2). destruct H as [_ H]. apply (H X). split; assumption.
  - right. destruct H as (X & -> & S & I1 & I2). exists e_crossing, X, []. split; [exact E|]. split; [auto|]. split; [exists X; apply S, pteq_refl|]. split; [apply inside_on, I1|].
    split; [intros Z Z1 Z2; left; apply S; split; assumption|]. intro HC. exfalso. assert (EQ : C =p= X) by (apply S; split; [exact HC|apply start_on]).
    exact (not_inside_start C D X N2 (pteq_sym _ _ EQ) I2).
  - right. destruct H as (X & Y & -> & S & P). exists e_overlapping, X, [Y]. split; [exact E|]. split; [auto|]. assert (SX : both (on_segment A B) (on_segment C D) X) by (apply S, start_on).
    split; [exists X; exact SX|]. split; [apply SX|]. apply parallel_cross in P; [|assumption|assumption]. split; [intros; right; exact P|].
    intro HC. unfold segment_segment_intersection in E. cbv zeta in E. assert (EQ : equals direct (xdenom A B C D) 0 = true) by (apply Qeqb_eq; rewrite xdenom_cross, P; reflexivity). rewrite EQ in E.
    unfold parallel_intersection in E. cbv zeta in E. destruct (negb (is_collinear direct A B C)); [discriminate|].
    assert (CB : is_between direct A B C true = true) by (apply is_between_true; assumption). rewrite CB in E. cbn [andb] in E.
    destruct (is_between direct A B D true); [injection E as <- _; left; apply pteq_refl|].
    destruct (is_between direct C D A true) eqn:BA.
    + destruct (is_between direct C D B true) eqn:BB; cbn [andb] in E.
      * right. apply is_between_true in BA; [|exact N2]. apply is_between_true in BB; [|exact N2]. exact (ends_of_common A B C D N1 N2 HC BA BB).
      * injection E as <- _. left. apply pteq_refl.
    + cbn [andb] in E. destruct (is_between direct C D B true); cbn [andb] in E; [injection E as <- _; left; apply pteq_refl|].
      destruct (pt_equals direct A C) eqn:E1.
      * right. left. apply pteq_sym, pt_equals_ok, E1.
      * cbn [andb orb] in E. destruct (pt_equals direct A D && pt_equals direct B C) eqn:E2.
        -- apply andb_true_iff in E2 as [_ E2]. right. right. apply pteq_sym, pt_equals_ok, E2.
        -- destruct (pt_equals direct A D); [discriminate|]. destruct (pt_equals direct B C); [discriminate|]. destruct (pt_equals direct B D); discriminate.
  - right. destruct H as (X & -> & S & _ & NP). exists e_endpoint, X, []. split; [exact E|]. split; [auto|]. assert (SX : both (on_segment A B) (on_segment C D) X) by (apply S, pteq_refl).
    split; [exists X; exact SX|]. split; [apply SX|]. split; [intros Z Z1 Z2; left; apply S; split; assumption|]. intro HC. left. apply S. split; [exact HC|apply start_on].
Qed.

(** * The set of points of a segment *)
Section Segment.
Variable eps : Q.
Variable ps : list pt.
Hypothesis SP : simple_polygon ps.
Variables A B : pt.
Hypothesis N : nonzero (vsub B A).
Let L : (3 <= length ps)%nat := proj1 SP.
Let PP : proper_polygon ps := proj1 (proj2 SP).

Lemma border_points_ok : forall idx s, (forall i, In i idx -> (i < length ps)%nat) -> StronglySorted lexlt s -> (forall x, In x s -> on_segment A B x) ->
  exists s', border_points direct A B ps idx s = Some s' /\ StronglySorted lexlt s' /\ (forall x, In x s' -> on_segment A B x) /\
    (forall x, inp x s -> inp x s') /\
    (forall i C D, In i idx -> polygon_edge ps i C D ->
      (forall Z, on_segment A B Z -> on_segment C D Z -> inp Z s' \/ cross (vsub B A) (vsub D C) == 0) /\ (on_segment A B C -> inp C s' \/ C =p= A \/ C =p= B) /\ (meet A B C D -> s' <> [])) /\
    (s <> [] -> s' <> []) /\ (s' <> [] -> s <> [] \/ exists i C D, In i idx /\ polygon_edge ps i C D /\ meet A B C D).
Proof.
  induction idx as [|i idx IH]; intros s IDX SS ON.
  - exists s. split; [reflexivity|]. split; [exact SS|]. split; [exact ON|]. split; [auto|]. split; [intros ? ? ? []|]. auto.
  - pose proof (edge_at ps i (IDX i (or_introl eq_refl))) as EI. destruct EI as [EC ED]. set (C := pnth ps i) in *. set (D := pnth ps (S i mod length ps)) in *.
    assert (N2 : nonzero (vsub D C)) by (apply (PP i); split; assumption).
    assert (EQD : forall C' D', polygon_edge ps i C' D' -> C' = C /\ D' = D) by (intros C' D' [H1 H2]; split; congruence).
    cbn [border_points]. unfold next. rewrite EC, ED.
    destruct (edge_head A B C D N N2) as [(pts & E & NM)|(ty & X & r & E & T & M & OX & CONT & VERT)].
    + rewrite E. destruct (IH s) as (s' & E' & S1 & S2 & S3 & S4 & S5 & S6); [intros; apply IDX; right; assumption|exact SS|exact ON|]. exists s'. destruct pts; rewrite E'.
      all: (split; [reflexivity|]); (split; [exact S1|]); (split; [exact S2|]); (split; [exact S3|]); split; [|split; [exact S5|]].
      all: try (intros i' C' D' [<-|I] EI; [destruct (EQD C' D' EI) as [-> ->]|exact (S4 i' C' D' I EI)]; split; [intros Z Z1 Z2; exfalso; apply NM; exists Z; split; assumption|]; split; [intro HC; exfalso; apply NM; exists C; split; [exact HC|apply start_on]|intro; contradiction]).
      all: intro NE; destruct (S6 NE) as [H|(i' & C' & D' & I & EI & MI)]; [left; exact H|right; exists i', C', D'; split; [right; exact I|auto]].
    + assert (E1 : match Some (ty, X :: r) with
        | None => None
        | Some (e_crossing, X :: _) | Some (e_endpoint, X :: _) | Some (e_overlapping, X :: _) => border_points direct A B ps idx (set_insert direct X s)
        | Some _ => border_points direct A B ps idx s end = border_points direct A B ps idx (set_insert direct X s)) by (destruct T as [->|[->| ->]]; reflexivity).
      rewrite E. rewrite E1.
      destruct (IH (set_insert direct X s)) as (s' & E' & S1 & S2 & S3 & S4 & S5 & S6).
      * intros; apply IDX; right; assumption.
      * apply set_insert_sorted, SS.
      * intros x I. apply set_insert_In in I as [->|I]; [exact OX|exact (ON x I)].
      * assert (IX : inp X s') by (apply S3, set_insert_in; left; apply pteq_refl).
        assert (IXE : forall Z, Z =p= X -> inp Z s') by (intros Z EZ; destruct IX as (y & I & E2); exists y; split; [exact I|eapply pteq_trans; eassumption]).
        exists s'. split; [exact E'|]. split; [exact S1|]. split; [exact S2|]. split; [intros x I; apply S3, set_insert_in; right; exact I|].
        assert (NE' : s' <> []) by (destruct IX as (y & I & _); destruct s'; [destruct I|discriminate]).
        split; [|split; [auto|]].
        -- intros i' C' D' [<-|I] EI; [destruct (EQD C' D' EI) as [-> ->]|exact (S4 i' C' D' I EI)]. split; [intros Z Z1 Z2; destruct (CONT Z Z1 Z2) as [H|H]; [left; apply IXE, H|right; exact H]|].
           split; [intro HC; destruct (VERT HC) as [H|H]; [left; apply IXE, H|right; exact H]|auto].
        -- intros _. right. exists i, C, D. split; [left; reflexivity|]. split; [split; assumption|exact M].
Qed.

(** The set with the two ends. *)
Definition full_set (K0 : list pt) : Prop :=
  StronglySorted lexlt K0 /\ (forall x, In x K0 -> on_segment A B x) /\ inp A K0 /\ inp B K0 /\
  (forall i C D Z, polygon_edge ps i C D -> on_segment A B Z -> on_segment C D Z -> inp Z K0 \/ cross (vsub B A) (vsub D C) == 0) /\
  (forall i C D, polygon_edge ps i C D -> on_segment A B C -> inp C K0).

Lemma projects_unfold : exists s, border_points direct A B ps (seq 0 (length ps)) [] = Some s /\ full_set (set_insert direct B (set_insert direct A s)) /\
  ((exists i C D, polygon_edge ps i C D /\ meet A B C D) <-> s <> []).
Proof.
  destruct (border_points_ok (seq 0 (length ps)) []) as (s & E & S1 & S2 & _ & S4 & _ & S6); [intros i I; apply in_seq in I; lia|constructor|intros x []|].
  exists s. split; [exact E|]. assert (IDX : forall i C D, polygon_edge ps i C D -> In i (seq 0 (length ps))) by (intros i C D EI; apply edge_pnth in EI as (Hi & _); apply in_seq; lia).
  assert (UP : forall x, inp x s -> inp x (set_insert direct B (set_insert direct A s))) by (intros x I; rewrite !set_insert_in; auto).
  assert (UA : inp A (set_insert direct B (set_insert direct A s))) by (rewrite !set_insert_in; right; left; apply pteq_refl).
  assert (UB : inp B (set_insert direct B (set_insert direct A s))) by (rewrite !set_insert_in; left; apply pteq_refl).
  split; [split; [|split; [|split; [|split; [|split]]]]|].
  - apply set_insert_sorted, set_insert_sorted, S1.
  - intros x I. apply set_insert_In in I as [->|I]; [apply end_on|]. apply set_insert_In in I as [->|I]; [apply start_on|apply S2, I].
  - exact UA.
  - exact UB.
  - intros i C D Z EI Z1 Z2. destruct (S4 i C D (IDX _ _ _ EI) EI) as (H & _). destruct (H Z Z1 Z2) as [K|K]; [left; apply UP, K|right; exact K].
  - intros i C D EI HC. destruct (S4 i C D (IDX _ _ _ EI) EI) as (_ & H & _). destruct (H HC) as [K|[K|K]]; [apply UP, K| |].
    + destruct UA as (y & I & EY). exists y. split; [exact I|eapply pteq_trans; eassumption].
    + destruct UB as (y & I & EY). exists y. split; [exact I|eapply pteq_trans; eassumption].
  - split.
    + intros (i & C & D & EI & M). destruct (S4 i C D (IDX _ _ _ EI) EI) as (_ & _ & H). exact (H M).
    + intro NE. destruct (S6 NE) as [H|(i & C & D & _ & EI & M)]; [congruence|]. exists i, C, D. split; assumption.
Qed.

(** Between two points next to each other, a side either contains everything or nothing. *)
Lemma side_spans_one : forall K0 P Q Z i C D, full_set K0 -> adj K0 P Q \/ adj K0 Q P -> inside_segment P Q Z -> polygon_edge ps i C D -> on_segment C D Z -> on_segment C D P.
Proof.
  intros K0 P Q Z i C D (SS & ON & IA & IB & CONT & VERT) ADJ IZ EI ZC.
  assert (PQ : on_segment A B P /\ on_segment A B Q) by (destruct ADJ as [ADJ|ADJ]; apply adj_in in ADJ as [I1 I2]; split; apply ON; assumption). destruct PQ as [OP OQ].
  assert (GAP : forall Y, inside_segment P Q Y -> ~ inp Y K0).
  { intros Y IY IN. destruct ADJ as [ADJ|ADJ].
    - apply (adj_gap K0 P Q Y SS ADJ IN). apply (inside_lex P Q Y (adj_lt _ _ _ SS ADJ) IY).
    - apply (adj_gap K0 Q P Y SS ADJ IN). apply (inside_lex Q P Y (adj_lt _ _ _ SS ADJ)). destruct IY as (u & U & EY). exists (1 - u). split; [lra|]. eapply pteq_trans; [exact EY|]. split; rewrite ?lerp_px, ?lerp_py; ring. }
  assert (OZ : on_segment A B Z) by (apply (on_segment_trans A B P Q); [exact OP|exact OQ|apply inside_on, IZ]).
  destruct (CONT i C D Z EI OZ ZC) as [K|K]; [exfalso; exact (GAP Z IZ K)|].
  destruct OP as (p & Hp & EP), OQ as (q & Hq & EQ), OZ as (z & Hz & EZ), ZC as (w & Hw & EW).
  (* C and D on the line *)
  assert (LC : exists c, C =p= lerp A B c).
  { apply (collinear_param A B C N). destruct EZ as [Z1 Z2], EW as [W1 W2]. rewrite lerp_px in Z1, W1. rewrite lerp_py in Z2, W2.
    unfold cross, vsub in *. cbn [px py] in *.
    assert (Q1 : px C - px A == z * (px B - px A) - w * (px D - px C)) by lra. assert (Q2 : py C - py A == z * (py B - py A) - w * (py D - py C)) by lra. rewrite Q1, Q2.
    transitivity (- w * ((px B - px A) * (py D - py C) - (py B - py A) * (px D - px C))); [ring|]. rewrite K. ring. }
  assert (LD : exists d, D =p= lerp A B d).
  { apply (collinear_param A B D N). destruct LC as (c & C1 & C2). rewrite lerp_px in C1. rewrite lerp_py in C2. unfold cross, vsub in *. cbn [px py] in *.
    assert (Q1 : px D - px A == c * (px B - px A) + (px D - px C)) by lra. assert (Q2 : py D - py A == c * (py B - py A) + (py D - py C)) by lra. rewrite Q1, Q2.
    transitivity ((px B - px A) * (py D - py C) - (py B - py A) * (px D - px C)); [ring|exact K]. }
  destruct LC as (c & EC), LD as (d & ED).
  assert (ZW : z == c + w * (d - c)).
  { apply (lerp_inj A B _ _ N). eapply pteq_trans; [apply pteq_sym, EZ|]. eapply pteq_trans; [exact EW|]. eapply pteq_trans; [apply lerp_compat_pt; [exact EC|exact ED]|]. apply lerp_on. }
  assert (ZU : p < z /\ z < q \/ q < z /\ z < p).
  { destruct IZ as (u & U & EU). assert (E : z == p + u * (q - p)).
    { apply (lerp_inj A B _ _ N). eapply pteq_trans; [apply pteq_sym, EZ|]. eapply pteq_trans; [exact EU|]. eapply pteq_trans; [apply lerp_compat_pt; [exact EP|exact EQ]|]. apply lerp_on. }
    destruct (Q_dec p q) as [[G|G]|G].
    - left. assert (0 < u * (q - p)) by (apply Qmult_lt_0_compat; lra). assert (0 < (1 - u) * (q - p)) by (apply Qmult_lt_0_compat; lra). lra.
    - right. assert (0 < u * (p - q)) by (apply Qmult_lt_0_compat; lra). assert (0 < (1 - u) * (p - q)) by (apply Qmult_lt_0_compat; lra). lra.
    - exfalso. assert (PQE : P =p= Q) by (eapply pteq_trans; [exact EP|]; eapply pteq_trans; [apply lerp_compat; exact G|apply pteq_sym, EQ]).
      destruct ADJ as [ADJ|ADJ]; apply (adj_lt _ _ _ SS) in ADJ; [exact (lexlt_irrefl _ _ PQE ADJ)|exact (lexlt_irrefl _ _ (pteq_sym _ _ PQE) ADJ)]. }
  assert (NOV : forall V v, V =p= lerp A B v -> (p < v /\ v < q \/ q < v /\ v < p) -> (on_segment A B V -> inp V K0) -> False).
  { intros V v EV HV IV. apply (GAP V).
    - apply (inside_compat (lerp A B p) (lerp A B q) P Q (lerp A B v) V); [apply pteq_sym, EP|apply pteq_sym, EQ|apply pteq_sym, EV|]. apply param_inside, HV.
    - apply IV. exists v. split; [lra|exact EV]. }
  assert (VC : on_segment A B C -> inp C K0) by (exact (VERT i C D EI)).
  assert (VD : on_segment A B D -> inp D K0).
  { assert (LT : (S i mod length ps < length ps)%nat) by (apply Nat.mod_upper_bound; lia). pose proof (edge_at ps _ LT) as E2. destruct EI as [_ EI]. destruct E2 as [E2 E3].
    assert (D = pnth ps (S i mod length ps)) by congruence. subst D. exact (VERT _ _ _ (conj E2 E3)). }
  apply (on_segment_ends (lerp A B c) (lerp A B d)); [apply pteq_sym, EC|apply pteq_sym, ED|]. apply (on_segment_pt _ _ (lerp A B p)); [apply pteq_sym, EP|]. apply param_between.
  assert (ZCD : c <= z /\ z <= d \/ d <= z /\ z <= c).
  { destruct (Qlt_le_dec c d) as [G|G]; [left|right]; [assert (0 <= w * (d - c)) by (apply Qmult_le_0_compat; lra); assert (0 <= (1 - w) * (d - c)) by (apply Qmult_le_0_compat; lra)|assert (0 <= w * (c - d)) by (apply Qmult_le_0_compat; lra); assert (0 <= (1 - w) * (c - d)) by (apply Qmult_le_0_compat; lra)]; lra. }
  destruct (Qlt_le_dec p c) as [G1|G1]; destruct (Qlt_le_dec p d) as [G2|G2].
  - exfalso. destruct ZU as [[U1 U2]|[U1 U2]]; [|destruct ZCD; lra]. destruct ZCD as [[W1 W2]|[W1 W2]]; [apply (NOV C c EC); [left; lra|exact VC]|apply (NOV D d ED); [left; lra|exact VD]].
  - right. lra.
  - left. lra.
  - destruct (Qeq_dec p c) as [PC|PC]; [destruct (Qlt_le_dec c d); [left|right]; lra|]. destruct (Qeq_dec p d) as [PD|PD]; [destruct (Qlt_le_dec c d); [left|right]; lra|].
    exfalso. assert (c < p) by (destruct (Qlt_le_dec c p); [assumption|exfalso; apply PC; lra]). assert (d < p) by (destruct (Qlt_le_dec d p); [assumption|exfalso; apply PD; lra]).
    destruct ZU as [[U1 U2]|[U1 U2]]; [destruct ZCD; lra|]. destruct ZCD as [[W1 W2]|[W1 W2]]; [apply (NOV D d ED); [right; lra|exact VD]|apply (NOV C c EC); [right; lra|exact VC]].
Qed.
Lemma inside_swap : forall P Q Z, inside_segment P Q Z -> inside_segment Q P Z.
Proof. intros P Q Z (u & U & EY). exists (1 - u). split; [lra|]. eapply pteq_trans; [exact EY|]. split; rewrite ?lerp_px, ?lerp_py; ring. Qed.
Lemma side_spans : forall K0 P Q Z i C D, full_set K0 -> adj K0 P Q -> inside_segment P Q Z -> polygon_edge ps i C D -> on_segment C D Z ->
  forall W, on_segment P Q W -> on_segment C D W.
Proof.
  intros K0 P Q Z i C D F AD IZ EI ZC W HW. apply (on_segment_trans C D P Q W); [| |exact HW].
  - exact (side_spans_one K0 P Q Z i C D F (or_introl AD) IZ EI ZC).
  - exact (side_spans_one K0 Q P Z i C D F (or_intror AD) (inside_swap _ _ _ IZ) EI ZC).
Qed.
Lemma mid_lerp : forall P Q, segment_mid_point P Q =p= lerp P Q (1 # 2).
Proof. intros P Q. unfold segment_mid_point. split; [rewrite lerp_px|rewrite lerp_py]; unfold vscale, vadd; cbn [px py]; ring. Qed.

Lemma projects_ok : exists b, segment_projects_outside_polygon direct eps A B ps = Some b /\
  ((exists i C D, polygon_edge ps i C D /\ meet A B C D) -> (b = true <-> exists Z, on_segment A B Z /\ ~ in_region ps Z)) /\
  (~ (exists i C D, polygon_edge ps i C D /\ meet A B C D) -> b = false).
Proof.
  unfold segment_projects_outside_polygon. destruct projects_unfold as (s & E & F & M). rewrite E.
  destruct s as [|s0 s1] eqn:ES.
  - exists false. split; [reflexivity|]. split; [|reflexivity]. intro H. apply M in H. congruence.
  - rewrite <- ES in *. eexists. split; [reflexivity|]. assert (NE : s <> []) by (rewrite ES; discriminate). split; [|intro H; exfalso; apply H, M, NE]. intros _.
    clear E M ES s0 s1. set (SET := set_insert direct B (set_insert direct A s)) in *. clearbody SET. clear NE s.
    rewrite outside_between_ok. split.
    + intros (P & Q & AD & EX). apply (exterior_char eps ps _ SP) in EX. exists (segment_mid_point P Q). split; [|exact EX].
      destruct F as (_ & ON & _). apply adj_in in AD as [I1 I2]. apply (on_segment_trans A B P Q); [exact (ON _ I1)|exact (ON _ I2)|]. exists (1 # 2). split; [lra|apply mid_lerp].
    + intros (Z & OZ & NR).
      assert (AD : exists P Q, adj SET P Q /\ ~ lexlt Z P /\ ~ lexlt Q Z).
      { destruct F as (SS & ON & IA & IB & _). destruct IA as (a & IA & EA), IB as (b & IB & EB).
        assert (ENDS : exists lo hi, In lo SET /\ In hi SET /\ ~ lexlt Z lo /\ ~ lexlt hi Z /\ ~ lo =p= hi).
        { destruct OZ as (z & Hz & EZ). assert (NAB : ~ A =p= B) by (intros [E1 E2]; apply N; unfold vsub; cbn [px py]; split; lra).
          destruct (lex_nonzero A B N) as [LAB|LAB].
          - exists a, b. split; [exact IA|]. split; [exact IB|]. split; [|split].
            + intro K. apply (lexlt_compat_r _ _ _ (pteq_sym _ _ EA)) in K. apply (lexlt_compat_l _ _ _ EZ) in K. apply (lexlt_compat_r _ _ _ (pteq_sym _ _ (lerp_0 A B))) in K. apply lexlt_lerp in K as [[_ K]|[K _]]; [lra|]. exact (lexlt_irrefl _ _ (pteq_refl _) (lexlt_trans _ _ _ LAB K)).
            + intro K. apply (lexlt_compat_l _ _ _ (pteq_sym _ _ EB)) in K. apply (lexlt_compat_r _ _ _ EZ) in K. apply (lexlt_compat_l _ _ _ (pteq_sym _ _ (lerp_1 A B))) in K. apply lexlt_lerp in K as [[_ K]|[K _]]; [lra|]. exact (lexlt_irrefl _ _ (pteq_refl _) (lexlt_trans _ _ _ LAB K)).
            + intro EQ. apply NAB. eapply pteq_trans; [exact EA|]. eapply pteq_trans; [exact EQ|]. apply pteq_sym, EB.
          - exists b, a. split; [exact IB|]. split; [exact IA|]. split; [|split].
            + intro K. apply (lexlt_compat_r _ _ _ (pteq_sym _ _ EB)) in K. apply (lexlt_compat_l _ _ _ EZ) in K. apply (lexlt_compat_r _ _ _ (pteq_sym _ _ (lerp_1 A B))) in K. apply lexlt_lerp in K as [[K _]|[_ K]]; [|lra]. exact (lexlt_irrefl _ _ (pteq_refl _) (lexlt_trans _ _ _ LAB K)).
            + intro K. apply (lexlt_compat_l _ _ _ (pteq_sym _ _ EA)) in K. apply (lexlt_compat_r _ _ _ EZ) in K. apply (lexlt_compat_l _ _ _ (pteq_sym _ _ (lerp_0 A B))) in K. apply lexlt_lerp in K as [[K _]|[_ K]]; [|lra]. exact (lexlt_irrefl _ _ (pteq_refl _) (lexlt_trans _ _ _ LAB K)).
            + intro EQ. apply NAB. eapply pteq_trans; [exact EA|]. eapply pteq_trans; [apply pteq_sym, EQ|]. apply pteq_sym, EB. }
        destruct ENDS as (lo & hi & I1 & I2 & K1 & K2 & NE). apply (adj_cover SET Z hi SS); [|exact I2|exact K2|exists lo, hi; auto].
        destruct SET as [|x r]; [destruct I1|]. exists x, r. split; [reflexivity|]. intro K. destruct I1 as [->|I1]; [contradiction|].
        inversion SS as [|? ? _ FA]; subst. rewrite Forall_forall in FA. apply K1. exact (lexlt_trans _ _ _ K (FA _ I1)). }
      destruct AD as (P & Q & AD & ZP & ZQ). exists P, Q. split; [exact AD|]. apply (exterior_char eps ps _ SP). intro MR.
      pose proof F as (SS & ON & _). pose proof (adj_in _ _ _ AD) as [I1 I2]. pose proof (adj_lt _ _ _ SS AD) as PQ.
      assert (ZPQ : on_segment P Q Z) by (apply (lex_between A B P Z Q N (ON _ I1) OZ (ON _ I2) ZP ZQ)).
      set (M := segment_mid_point P Q) in *. assert (EM : M =p= lerp P Q (1 # 2)) by apply mid_lerp.
      rewrite (region_char ps Z L) in NR. rewrite (region_char ps M L) in MR.
      assert (SPAN : forall W i C D, inside_segment P Q W -> polygon_edge ps i C D -> on_segment C D W -> False).
      { intros W i C D IW EI OW. apply NR. left. exists i, C, D. split; [exact EI|]. exact (side_spans SET P Q W i C D F AD IW EI OW Z ZPQ). }
      destruct MR as [(i & C & D & EI & OM)|PM].
      * apply (SPAN M i C D); [exists (1 # 2); split; [lra|exact EM]|exact EI|exact OM].
      * apply NR. right. rewrite <- PM. apply pip_same_component. intros i C D EI W OW CW.
        destruct ZPQ as (z & Hz & EZ). destruct OW as (u & Hu & EW).
        assert (EW2 : W =p= lerp P Q (z + u * ((1 # 2) - z))) by (eapply pteq_trans; [exact EW|]; eapply pteq_trans; [apply lerp_compat_pt; [exact EZ|exact EM]|apply lerp_on]).
        destruct (Qeq_dec u 0) as [U0|U0].
        -- apply NR. left. exists i, C, D. split; [exact EI|]. apply (on_segment_pt C D W); [|exact CW]. eapply pteq_trans; [exact EW|]. eapply pteq_trans; [apply lerp_compat; exact U0|]. apply lerp_0.
        -- apply (SPAN W i C D); [|exact EI|exact CW]. exists (z + u * ((1 # 2) - z)). split; [|exact EW2].
           assert (0 <= (1 - u) * z) by (apply Qmult_le_0_compat; lra). assert (0 <= (1 - u) * (1 - z)) by (apply Qmult_le_0_compat; lra). lra.
Qed.

(** * One side against the whole polygon *)
Lemma side_result : forall xs i i', nth_error xs i = Some A -> nth_error xs i' = Some B ->
  exists r, search (fun j => is_crossing_out direct eps xs ps i i' j) (seq 0 (length ps)) = Some r /\
  (r = true -> exists Z, on_segment A B Z /\ ~ in_region ps Z) /\
  (r = false -> (forall Z, on_segment A B Z -> in_region ps Z) \/ (forall j C D, polygon_edge ps j C D -> misses A B C D)).
Proof.
  intros xs i i' EA EB. destruct projects_ok as (b & EP & PB & _).
  set (f := fun j => is_crossing_out direct eps xs ps i i' j).
  assert (FV : forall j, (j < length ps)%nat -> exists v, f j = Some v /\ (v = true -> exists Z, on_segment A B Z /\ ~ in_region ps Z) /\
    (v = false -> meet A B (pnth ps j) (pnth ps (S j mod length ps)) -> b = false)).
  { intros j Hj. pose proof (edge_at ps j Hj) as EJ. destruct EJ as [EC ED]. unfold f, is_crossing_out, next. rewrite EA, EB, EC, ED.
    set (C := pnth ps j) in *. set (D := pnth ps (S j mod length ps)) in *. assert (EJ : polygon_edge ps j C D) by (split; assumption).
    destruct (edge_head A B C D N (PP _ _ _ EJ)) as [(pts & E & NM)|(ty & X & r & E & T & M & _)]; rewrite E.
    - exists false. split; [reflexivity|]. split; [discriminate|]. intros _ M. contradiction.
    - destruct T as [->|[->| ->]].
      + exists true. split; [reflexivity|]. split; [|discriminate]. intros _. exact (crossing_leaves ps j A B C D _ SP N EJ E).
      + exists b. split; [exact EP|]. split; [|auto]. apply PB. exists j, C, D. split; assumption.
      + exists b. split; [exact EP|]. split; [|auto]. apply PB. exists j, C, D. split; assumption. }
  destruct (search_ok f (seq 0 (length ps))) as (r & ER & IR).
  { intros j I. apply in_seq in I. destruct (FV j) as (v & E & _); [lia|]. exists v. exact E. }
  exists r. split; [exact ER|]. split.
  - intro R. apply IR in R as (j & I & E). apply in_seq in I. destruct (FV j) as (v & E2 & H & _); [lia|]. assert (v = true) by congruence. auto.
  - intro R. assert (ALL : forall j, (j < length ps)%nat -> meet A B (pnth ps j) (pnth ps (S j mod length ps)) -> b = false).
    { intros j Hj. destruct (FV j Hj) as (v & E & _ & H). apply H. destruct v; [|reflexivity]. exfalso. assert (r = true); [|congruence]. apply IR. exists j. split; [apply in_seq; lia|exact E]. }
    assert (DEC : (exists j, (j < length ps)%nat /\ meet A B (pnth ps j) (pnth ps (S j mod length ps))) \/ (forall j, (j < length ps)%nat -> ~ meet A B (pnth ps j) (pnth ps (S j mod length ps)))).
    { assert (G : forall m, (m <= length ps)%nat -> (exists j, (j < m)%nat /\ meet A B (pnth ps j) (pnth ps (S j mod length ps))) \/ (forall j, (j < m)%nat -> ~ meet A B (pnth ps j) (pnth ps (S j mod length ps)))).
      { induction m as [|m IH]; intro LM; [right; lia|]. destruct IH as [(j & Hj & M)|H]; [lia|left; exists j; split; [lia|exact M]|].
        destruct (segseg_cases A B (pnth ps m) (pnth ps (S m mod length ps)) N (PP _ _ _ (edge_at ps m LM))) as (ty & pts & _ & [[_ NM]|(_ & M & _)]).
        - right. intros j Hj. destruct (Nat.eq_dec j m) as [->|]; [exact NM|apply H; lia].
        - left. exists m. split; [lia|exact M]. }
      exact (G _ (le_n _)). }
    destruct DEC as [(j & Hj & M)|NONE].
    + left. intros Z OZ. destruct (region_dec ps Z L) as [H|H]; [exact H|]. exfalso. assert (b = true); [|rewrite (ALL j Hj M) in *; discriminate].
      apply PB; [exists j, (pnth ps j), (pnth ps (S j mod length ps)); split; [apply edge_at, Hj|exact M]|]. exists Z. split; assumption.
    + right. intros j C D EJ X X1 X2. apply edge_pnth in EJ as (Hj & -> & ->). apply (NONE j Hj). exists X. split; assumption.
Qed.
(** A side that misses the border is inside or outside as a whole. *)
Lemma misses_constant : (forall j C D, polygon_edge ps j C D -> misses A B C D) -> forall Y Z, on_segment A B Y -> on_segment A B Z -> in_region ps Y -> in_region ps Z.
Proof.
  intros M Y Z OY OZ. rewrite (region_char ps Y L), (region_char ps Z L). intros [(j & C & D & EJ & H)|H]; [exfalso; exact (M j C D EJ Y OY H)|]. right. rewrite <- H. symmetry. apply pip_same_component.
  intros j C D EJ X OX. apply (M j C D EJ X). exact (on_segment_trans A B Y Z X OY OZ OX).
Qed.
End Segment.
