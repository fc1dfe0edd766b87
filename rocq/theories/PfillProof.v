From Verif Require Import Base CmpModel OrientModel OrientSpec OrientProof DistSpec PolygonModel PolygonSpec PolygonConvexProof
  GridModel GridSpec GridProof FloodModel FloodSpec VoxelModel VoxelSpec VoxelProof CvxSpec CvxProof PfillModel PfillSpec.
From Coq Require Import Permutation.

(** ** The columns of a walk *)
Lemma visit_in : forall (c : key) r l, visit c r = Visited l -> exists l', r = Visited l' /\ l = c :: l'.
Proof. intros c [l'| |] l H; cbn in H; try discriminate. injection H as <-. eauto. Qed.
Lemma strip_cells : forall mk e fuel k l, strip mk e fuel k = Visited l -> forall c, In c l -> exists j, c = mk j /\ (Z.min k e <= j)%Z.
Proof.
  intros mk e fuel. induction fuel as [|fuel IH]; intros k l H c I; cbn [strip] in H; [discriminate|].
  destruct (Z.eqb_spec k e) as [->|N]; [injection H as <-; contradiction|]. cbv zeta in H. apply visit_in in H as (l' & H & ->).
  destruct I as [<-|I].
  - eexists. split; [reflexivity|]. destruct (Z.ltb_spec k e); lia.
  - destruct (IH _ _ H c I) as (j & E & L). exists j. split; [exact E|]. destruct (Z.ltb_spec k e); lia.
Qed.
Lemma loop_back : forall oI oJ sJ ie je tdx tdy fuel i j tx ty l, voxel_loop oI oJ (-1) sJ ie je tdx tdy fuel i j tx ty = Visited l ->
  forall c, In c l -> (ie <= fst c)%Z.
Proof.
  intros oI oJ sJ ie je tdx tdy fuel.
  assert (NB : forall i j, beyond (-1) sJ ie je i j = false -> (ie <= i)%Z).
  { intros i' j' B. unfold beyond in B. cbn [Z.ltb Z.compare andb orb] in B. destruct (Z.ltb_spec i' ie); [discriminate|assumption]. }
  induction fuel as [|fuel IH]; intros i j tx ty l H c I; cbn [voxel_loop] in H; [discriminate|].
  destruct (Qltb tx ty); (destruct (_ =? _)%Z; [injection H as <-; contradiction|]); cbv zeta in H;
    (destruct (beyond _ _ _ _ _ _) eqn:B; [injection H as <-; contradiction|]); apply visit_in in H as (l' & H & ->);
    (destruct I as [<-|I]; [exact (NB _ _ B)|exact (IH _ _ _ _ _ H c I)]).
Qed.
Lemma loop_forth : forall W oJ sJ ie je tdx tdy fuel i j tx ty l, (W < two32)%Z -> (0 <= i < W)%Z ->
  voxel_loop W oJ 1 sJ ie je tdx tdy fuel i j tx ty = Visited l -> forall c, In c l -> (i <= fst c)%Z.
Proof.
  intros W oJ sJ ie je tdx tdy fuel. induction fuel as [|fuel IH]; intros i j tx ty l HW Hi H c I; cbn [voxel_loop] in H; [discriminate|].
  destruct (Qltb tx ty).
  - assert (E1 : ((i + 1) mod two32 = i + 1)%Z) by (apply Z.mod_small; lia). cbv zeta in H. rewrite E1 in H.
    rewrite (Z.mod_small W) in H by lia. destruct (Z.eqb_spec (i + 1) W) as [E|N]; [injection H as <-; contradiction|].
    destruct (beyond _ _ _ _ _ _); [injection H as <-; contradiction|]. apply visit_in in H as (l' & H & ->).
    destruct I as [<-|I]; [cbn [fst]; lia|]. assert (Hi' : (0 <= i + 1 < W)%Z) by lia. pose proof (IH _ _ _ _ _ HW Hi' H c I). lia.
  - cbv zeta in H. destruct (_ =? _)%Z; [injection H as <-; contradiction|].
    destruct (beyond _ _ _ _ _ _); [injection H as <-; contradiction|]. apply visit_in in H as (l' & H & ->).
    destruct I as [<-|I]; [cbn [fst]; lia|]. exact (IH _ _ _ _ _ HW Hi H c I).
Qed.

Section Grid.
Variables xmin xmax ymin ymax w : Q.
Variable g : grid.
Hypothesis G : good_bounds xmin xmax ymin ymax w.
Hypothesis Eg : make_grid xmin xmax ymin ymax w = Some g.
Notation region := (in_region xmin xmax ymin ymax).
Notation cell := (in_closed_cell xmin ymin w).

Lemma facts : g_xmin g = xmin /\ g_xmax g = xmax /\ g_ymin g = ymin /\ g_ymax g = ymax /\ g_width g = w /\
  (0 <= g_nx g < two32)%Z /\ (0 <= g_ny g < two32)%Z.
Proof.
  unfold make_grid in Eg. cbv zeta in Eg. destruct (to_uint32 ((xmax - xmin) * (1 / w))) as [n1|]; [|discriminate].
  destruct (to_uint32 ((ymax - ymin) * (1 / w))) as [n2|]; [|discriminate].
  assert (R : forall z, (0 <= z mod two32 < two32)%Z) by (intro z; apply Z.mod_pos_bound; reflexivity).
  injection Eg as <-. cbn. auto 10.
Qed.
Lemma same_index : forall i i' x, xmin + inject_Z i * w <= x < xmin + (inject_Z i + 1) * w ->
  xmin + inject_Z i' * w <= x < xmin + (inject_Z i' + 1) * w -> i = i'.
Proof.
  destruct G as (Hw & _). intros i i' x H1 H2.
  assert (K : forall a b : Z, xmin + inject_Z a * w <= x -> x < xmin + (inject_Z b + 1) * w -> (a <= b)%Z).
  { intros a b A B. destruct (Z_lt_le_dec b a) as [L|L]; [|exact L]. exfalso.
    assert (L' : (b + 1 <= a)%Z) by lia. apply (proj2 (inject_le _ _)) in L'. rewrite inject_Z_plus in L'. change (inject_Z 1) with 1 in L'. nra. }
  assert (A := K i i' ltac:(tauto) ltac:(tauto)). assert (B := K i' i ltac:(tauto) ltac:(tauto)). lia.
Qed.

(** What the walk along an edge inside the region gives. *)
Lemma edge_walk : forall fuel s t, (g_nx g + g_ny g + 4 < Z.of_nat fuel)%Z -> region s -> region t ->
  exists l, fast_voxel_grid_traversal direct fuel g s t = Visited l /\
    (forall c, In c l -> in_grid (g_nx g) (g_ny g) c /\ exists X, on_segment s t X /\ cell (fst c) (snd c) X) /\
    (forall X, on_segment s t X -> exists c, In c l /\ cell (fst c) (snd c) X /\
       (px s == px t -> px X < xmin + (inject_Z (fst c) + 1) * w)) /\
    (forall c, In c l -> px s < xmin + (inject_Z (fst c) + 1) * w \/ px t < xmin + (inject_Z (fst c) + 1) * w).
Proof.
  intros fuel s t F Rs Rt. destruct (voxel_ok _ _ _ _ _ g s t fuel G Eg F) as (l & E & _ & GW).
  assert (Rc : reaches xmin xmax ymin ymax s t).
  { exists 0. split; [lra|]. apply region_convex; [exact Rs|exact Rt|lra]. }
  destruct (GW Rc) as (Cov & Tou & _ & _ & Gr & _). exists l. split; [exact E|]. clear GW Rc.
  destruct facts as (F1 & F2 & F3 & F4 & F5 & F6 & F7).
  destruct (grid_lookup _ _ _ _ _ G) as (g' & E' & _ & L & _). assert (g' = g) by congruence. subst g'. clear E'.
  destruct (L s Rs) as (i & j & I1 & I2 & I3 & I4 & I5). destruct (L t Rt) as (ie & je & J1 & J2 & J3 & J4 & J5).
  unfold fast_voxel_grid_traversal in E. rewrite F1, F2, F3, F4 in E.
  assert (O : forall a b, a <= b -> Qltb b a = false) by (intros a b H; apply not_true_iff_false; rewrite Qltb_lt; lra).
  unfold Qgtb in E. destruct Rs as [[S1 S2] [S3 S4]]. destruct Rt as [[T1 T2] [T3 T4]].
  rewrite !O in E by assumption. cbn [orb] in E. unfold voxel_walk in E.
  change (to_uint32 (get_scaled_grid_coordinate_x g (px s))) with (get_x_index g (px s)) in E.
  change (to_uint32 (get_scaled_grid_coordinate_y g (py s))) with (get_y_index g (py s)) in E.
  change (to_uint32 (get_scaled_grid_coordinate_x g (px t))) with (get_x_index g (px t)) in E.
  change (to_uint32 (get_scaled_grid_coordinate_y g (py t))) with (get_y_index g (py t)) in E.
  rewrite I1, I2, J1, J2 in E. apply visit_in in E as (l' & E & ->).
  assert (Low : forall c, In c ((i, j) :: l') -> (Z.min i ie <= fst c)%Z /\ (i = ie -> fst c = i)).
  { intros c [<-|I]; [cbn; lia|]. destruct (Z.eqb_spec i ie) as [->|N].
    - destruct (j =? je)%Z; [injection E as <-; contradiction|]. destruct (strip_cells _ _ _ _ _ E c I) as (r & -> & _). cbn. lia.
    - split; [|intro; contradiction]. destruct (j =? je)%Z.
      + destruct (strip_cells _ _ _ _ _ E c I) as (r & -> & B). exact B.
      + cbv zeta in E. unfold axis_setup in E at 1. destruct (greater_than direct (px t - px s) 0).
        * destruct (axis_setup _ _ _ _ _ _) as [[sJ oJ] bY]. destruct (_ || _); [discriminate|].
          pose proof (loop_forth _ _ _ _ _ _ _ _ _ _ _ _ _ (proj2 F6) I3 E c I). lia.
        * destruct (axis_setup _ _ _ _ _ _) as [[sJ oJ] bY]. destruct (_ || _); [discriminate|].
          pose proof (loop_back _ _ _ _ _ _ _ _ _ _ _ _ _ E c I). lia. }
  clear E. destruct I5 as [I5 _], J5 as [J5 _]. pose proof G as (Hw & _).
  split; [|split].
  - intros c I. split; [exact (Gr c I)|]. destruct (Tou c I) as (u & Hu & _ & K). exists (lerp s t u). split; [|exact K]. exists u. split; [exact Hu|split; reflexivity].
  - intros X (u & Hu & EX1 & EX2). destruct (Cov u Hu) as (c & I & K).
    { apply region_convex; [split; split; assumption|split; split; assumption|exact Hu]. }
    exists c. split; [exact I|]. split; [destruct K as [K1 K2]; split; lra|]. intro V.
    assert (i = ie) by (apply (same_index i ie (px s)); lra). destruct (Low c I) as [_ Lo]. rewrite (Lo H).
    rewrite EX1, lerp_x. nra.
  - intros c I. destruct (Low c I) as [Lo _]. destruct (Z.min_spec i ie) as [[_ M]|[_ M]]; rewrite M in Lo.
    + left. apply (proj2 (inject_le _ _)) in Lo. nra.
    + right. apply (proj2 (inject_le _ _)) in Lo. nra.
Qed.

(** ** The cells marked along a boundary *)
Definition boundary_cells (ps : list pt) (L : list key) : Prop :=
  (forall c, In c L -> in_grid (g_nx g) (g_ny g) c /\ exists X, on_polygon ps X /\ cell (fst c) (snd c) X) /\
  (forall i A B X, polygon_edge ps i A B -> on_segment A B X -> exists c, In c L /\ cell (fst c) (snd c) X /\
     (px A == px B -> px X < xmin + (inject_Z (fst c) + 1) * w)) /\
  (forall c, In c L -> exists v, In v ps /\ px v < xmin + (inject_Z (fst c) + 1) * w).
Definition edge_cells (ps : list pt) (is : list nat) (L : list key) : Prop :=
  (forall c, In c L -> in_grid (g_nx g) (g_ny g) c /\ exists i A B X, polygon_edge ps i A B /\ on_segment A B X /\ cell (fst c) (snd c) X /\
     (px A < xmin + (inject_Z (fst c) + 1) * w \/ px B < xmin + (inject_Z (fst c) + 1) * w)) /\
  (forall i A B X, In i is -> polygon_edge ps i A B -> on_segment A B X -> exists c, In c L /\ cell (fst c) (snd c) X /\
     (px A == px B -> px X < xmin + (inject_Z (fst c) + 1) * w)).
Lemma mark_edges_ok : forall St (mark : St -> key -> St) fuel ps, (g_nx g + g_ny g + 4 < Z.of_nat fuel)%Z -> within_region xmin xmax ymin ymax ps ->
  forall is s, (forall i, In i is -> (i < length ps)%nat) ->
  exists L, mark_edges mark direct fuel g ps is s = inl (fold_left mark L s) /\ edge_cells ps is L.
Proof.
  intros St mark fuel ps F R is. induction is as [|i is IH]; intros s Hi; cbn [mark_edges].
  - exists []. split; [reflexivity|]. split; [intros c []|intros i A B X []].
  - assert (Li : (i < length ps)%nat) by (apply Hi; left; reflexivity).
    assert (Lj : ((i + 1) mod length ps < length ps)%nat) by (apply Nat.mod_upper_bound; lia).
    rewrite (pnth_error _ _ Li), (pnth_error _ _ Lj). set (p := pnth ps i). set (q := pnth ps ((i + 1) mod length ps)).
    assert (Ed : polygon_edge ps i p q) by (split; [apply pnth_error; exact Li|unfold q; rewrite Nat.add_1_r in *; apply pnth_error; exact Lj]).
    destruct (edge_walk fuel p q F (R _ (pnth_In _ _ Li)) (R _ (pnth_In _ _ Lj))) as (l & E & T & C & M). rewrite E.
    destruct (IH (fold_left mark l s)) as (L & EL & T' & C'). { intros i' I. apply Hi. right. exact I. }
    exists (l ++ L). split; [rewrite EL, fold_left_app; reflexivity|]. split.
    + intros c I. apply in_app_iff in I as [I|I]; [|exact (T' c I)]. destruct (T c I) as (Gr & X & O & K). split; [exact Gr|].
      exists i, p, q, X. split; [exact Ed|]. split; [exact O|]. split; [exact K|exact (M c I)].
    + intros i' A B X [<-|I'] E' O.
      * assert (A = p /\ B = q) as [-> ->] by (destruct E', Ed; split; congruence). destruct (C X O) as (c & I & K). exists c. split; [apply in_app_iff; left; exact I|exact K].
      * destruct (C' i' A B X I' E' O) as (c & I & K). exists c. split; [apply in_app_iff; right; exact I|exact K].
Qed.
Lemma mark_all_ok : forall St (mark : St -> key -> St) fuel ps s, (g_nx g + g_ny g + 4 < Z.of_nat fuel)%Z -> within_region xmin xmax ymin ymax ps ->
  exists L, mark_edges mark direct fuel g ps (seq 0 (length ps)) s = inl (fold_left mark L s) /\ boundary_cells ps L.
Proof.
  intros St mark fuel ps s F R. destruct (mark_edges_ok St mark fuel ps F R (seq 0 (length ps)) s) as (L & E & T & C).
  { intros i I. apply in_seq in I. lia. }
  exists L. split; [exact E|]. split; [|split].
  - intros c I. destruct (T c I) as (Gr & i & A & B & X & Ed & O & K & _). split; [exact Gr|]. exists X. split; [exists i, A, B; auto|exact K].
  - intros i A B X Ed O. apply (C i A B X); [|exact Ed|exact O]. apply in_seq. split; [lia|]. destruct Ed as [Ed _]. apply nth_error_Some. congruence.
  - intros c I. destruct (T c I) as (_ & i & A & B & X & [E1 E2] & _ & _ & [V|V]); [exists A|exists B]; (split; [eapply nth_error_In; eassumption|exact V]).
Qed.
End Grid.

(** ** The bounds of the columns *)
Definition column_bounds (P : key -> Prop) (m : list (Z * (Z * Z))) : Prop :=
  NoDup (map fst m) /\ (forall i a b, In (i, (a, b)) m -> P (i, a) /\ P (i, b)) /\
  (forall i j, P (i, j) -> exists a b, In (i, (a, b)) m /\ (a <= j <= b)%Z).
Lemma update_columns : forall i j m i', In i' (map fst (update_bound i j m)) <-> i' = i \/ In i' (map fst m).
Proof.
  intros i j m i'. induction m as [|[i1 [a b]] m IH]; cbn [update_bound map In fst]; [intuition congruence|].
  destruct (Z.eqb_spec i i1) as [->|N]; cbn [map In fst]; [intuition congruence|]. rewrite IH. intuition congruence.
Qed.
Lemma update_other : forall i j m i' e, i' <> i -> (In (i', e) (update_bound i j m) <-> In (i', e) m).
Proof.
  intros i j m i' e N. induction m as [|[i1 [a b]] m IH]; cbn [update_bound In]; [intuition congruence|].
  destruct (Z.eqb_spec i i1) as [->|N1]; cbn [In]; [intuition congruence|]. rewrite IH. tauto.
Qed.
Lemma update_same : forall i j m, NoDup (map fst m) ->
  (In (i, (j, j)) (update_bound i j m) /\ ~ In i (map fst m) /\ (forall e, In (i, e) (update_bound i j m) -> e = (j, j))) \/
  (exists a b, In (i, (a, b)) m /\ In (i, (Z.min a j, Z.max b j)) (update_bound i j m) /\ (forall e, In (i, e) (update_bound i j m) -> e = (Z.min a j, Z.max b j)) /\
     (forall e, In (i, e) m -> e = (a, b))).
Proof.
  intros i j m. induction m as [|[i1 [a b]] m IH]; cbn [update_bound map fst]; intro ND.
  - left. split; [left; reflexivity|]. split; [intros []|]. intros e [H|[]]. congruence.
  - inversion ND as [|? ? NI ND']; subst. destruct (Z.eqb_spec i i1) as [->|N].
    + right. exists a, b. split; [left; reflexivity|]. split; [left; reflexivity|].
      assert (K : forall e, In (i1, e) m -> False) by (intros e I; apply NI; apply in_map_iff; exists (i1, e); auto).
      split; intros e [H|H]; try congruence; exfalso; eauto.
    + destruct (IH ND') as [(A & B & C)|(a' & b' & A & B & C & D)].
      * left. split; [right; exact A|]. split; [intros [H|H]; [congruence|contradiction]|]. intros e [H|H]; [congruence|auto].
      * right. exists a', b'. split; [right; exact A|]. split; [right; exact B|]. split; intros e [H|H]; try congruence; auto.
Qed.
Lemma update_nodup : forall i j m, NoDup (map fst m) -> NoDup (map fst (update_bound i j m)).
Proof.
  intros i j m. induction m as [|[i1 [a b]] m IH]; cbn [update_bound map fst]; intro ND.
  - constructor; [intros []|constructor].
  - inversion ND as [|? ? NI ND']; subst. destruct (Z.eqb_spec i i1) as [->|N]; cbn [map fst]; constructor; auto.
    rewrite update_columns. intros [E|E]; [congruence|contradiction].
Qed.
Lemma update_bounds : forall P m k, column_bounds P m -> column_bounds (fun c => P c \/ c = k) (update_bound (fst k) (snd k) m).
Proof.
  intros P m [i j] (ND & H1 & H2). cbn [fst snd]. split; [apply update_nodup; exact ND|]. destruct (update_same i j m ND) as [(A & B & C)|(a & b & A & B & C & D)].
  - split.
    + intros i' a b I. destruct (Z.eq_dec i' i) as [->|N]; [|apply update_other in I; [|exact N]; destruct (H1 _ _ _ I); auto].
      apply C in I. injection I as -> ->. auto.
    + intros i' j' [I|I].
      * destruct (Z.eq_dec i' i) as [->|N].
        -- destruct (H2 _ _ I) as (a & b & I' & _). exfalso. apply B. apply in_map_iff. exists (i, (a, b)). auto.
        -- destruct (H2 _ _ I) as (a & b & I' & L). exists a, b. split; [apply update_other; assumption|exact L].
      * injection I as -> ->. exists j, j. split; [exact A|lia].
  - split.
    + intros i' a' b' I. destruct (Z.eq_dec i' i) as [->|N]; [|apply update_other in I; [|exact N]; destruct (H1 _ _ _ I); auto].
      apply C in I. injection I as -> ->. destruct (H1 _ _ _ A) as [P1 P2]. split.
      * destruct (Z.min_spec a j) as [[_ ->]|[_ ->]]; auto.
      * destruct (Z.max_spec b j) as [[_ ->]|[_ ->]]; auto.
    + intros i' j' [I|I].
      * destruct (H2 _ _ I) as (a' & b' & I' & L). destruct (Z.eq_dec i' i) as [->|N].
        -- apply D in I'. injection I' as -> ->. eexists _, _. split; [exact B|lia].
        -- exists a', b'. split; [apply update_other; assumption|exact L].
      * injection I as -> ->. eexists _, _. split; [exact B|lia].
Qed.
Lemma bounds_iff : forall P P' m, (forall c, P c <-> P' c) -> column_bounds P m -> column_bounds P' m.
Proof.
  intros P P' m E (ND & H1 & H2). split; [exact ND|]. split.
  - intros i a b I. rewrite <- !E. exact (H1 i a b I).
  - intros i j I. apply E in I. exact (H2 i j I).
Qed.

(** ** The calls *)
Definition fair (s : pfill) : Prop := pf_visited s = pf_calls s /\ NoDup (pf_calls s).
Lemma visit_ok : forall k s, fair s -> fair (pf_visit k s) /\ pf_color (pf_visit k s) = pf_color s /\ pf_bound (pf_visit k s) = pf_bound s /\
  pf_holes (pf_visit k s) = pf_holes s /\ forall c, In c (pf_calls (pf_visit k s)) <-> In c (pf_calls s) \/ c = k.
Proof.
  intros k s [E N]. unfold pf_visit, visit_cell. destruct (existsb (key_eqb k) (pf_visited s)) eqn:X; cbn [pf_visited pf_calls pf_color pf_bound pf_holes].
  - split; [split; assumption|]. repeat (split; [reflexivity|]). intro c. split; [auto|]. intros [I| ->]; [exact I|].
    apply existsb_exists in X as (k' & I & K). apply key_eqb_eq in K. subst k'. rewrite <- E. exact I.
  - split.
    + split; cbn [pf_visited pf_calls]; [congruence|]. constructor; [|exact N]. intro I. rewrite <- E in I. apply not_true_iff_false in X. apply X.
      apply existsb_exists. exists k. split; [exact I|apply key_eqb_refl].
    + repeat (split; [reflexivity|]). intro c. cbn [In]. intuition congruence.
Qed.
Definition marked (M : key -> Prop) (s : pfill) : Prop :=
  fair s /\ (forall k, pf_color s k = BOUNDARY <-> M k) /\ (forall k, In k (pf_calls s) <-> M k).
Lemma mark_cell_ok : forall M s k b, marked M s ->
  marked (fun c => M c \/ c = k) (pf_visit k (mkpf (set_color (pf_color s) k BOUNDARY) b (pf_holes s) (pf_visited s) (pf_calls s))).
Proof.
  intros M s k b (F & H1 & H2). destruct (visit_ok k (mkpf (set_color (pf_color s) k BOUNDARY) b (pf_holes s) (pf_visited s) (pf_calls s))) as (F' & E1 & E2 & E3 & E4).
  { exact F. }
  split; [exact F'|]. rewrite E1. cbn [pf_color pf_calls] in *. split.
  - intro c. unfold set_color. destruct (key_eqb k c) eqn:K.
    + apply key_eqb_eq in K. subst c. tauto.
    + rewrite H1. split; [auto|]. intros [H| ->]; [exact H|]. rewrite key_eqb_refl in K. discriminate.
  - intro c. rewrite E4, H2. tauto.
Qed.
Lemma marked_iff : forall M M' s, (forall c, M c <-> M' c) -> marked M s -> marked M' s.
Proof. intros M M' s E (F & H1 & H2). split; [exact F|]. split; intro k; rewrite <- E; auto. Qed.

Lemma mark_list : forall L s M P, marked M s -> column_bounds P (pf_bound s) ->
  marked (fun c => M c \/ In c L) (fold_left pf_mark L s) /\ column_bounds (fun c => P c \/ In c L) (pf_bound (fold_left pf_mark L s)) /\
  pf_holes (fold_left pf_mark L s) = pf_holes s.
Proof.
  intro L. induction L as [|k L IH]; intros s M P HM HP; cbn [fold_left].
  - split; [revert HM; apply marked_iff; cbn; tauto|]. split; [revert HP; apply bounds_iff; cbn; tauto|reflexivity].
  - assert (HM' : marked (fun c => M c \/ c = k) (pf_mark s k)) by (apply mark_cell_ok; exact HM).
    assert (Eb : pf_bound (pf_mark s k) = update_bound (fst k) (snd k) (pf_bound s) /\ pf_holes (pf_mark s k) = pf_holes s).
    { unfold pf_mark. destruct (visit_ok k (mkpf (set_color (pf_color s) k BOUNDARY) (update_bound (fst k) (snd k) (pf_bound s)) (pf_holes s) (pf_visited s) (pf_calls s)) (proj1 HM)) as (_ & _ & E & E' & _).
      rewrite E, E'. auto. }
    destruct Eb as [Eb Eh]. assert (HP' := update_bounds P (pf_bound s) k HP). rewrite <- Eb in HP'.
    destruct (IH _ _ _ HM' HP') as (A & B & C). split; [revert A; apply marked_iff; cbn [In]; intuition congruence|]. split; [revert B; apply bounds_iff; cbn [In]; intuition congruence|congruence].
Qed.
Lemma mark_hole_list : forall L s m M P, marked M s -> column_bounds P m ->
  let r := fold_left pf_mark_hole L (s, m) in
  marked (fun c => M c \/ In c L) (fst r) /\ column_bounds (fun c => P c \/ In c L) (snd r) /\ pf_holes (fst r) = pf_holes s /\ pf_bound (fst r) = pf_bound s.
Proof.
  intro L. induction L as [|k L IH]; intros s m M P HM HP; cbn [fold_left].
  - split; [revert HM; apply marked_iff; cbn; tauto|]. split; [revert HP; apply bounds_iff; cbn; tauto|split; reflexivity].
  - unfold pf_mark_hole at 2. cbn [fst snd]. cbv zeta.
    set (s' := pf_visit k (mkpf (set_color (pf_color s) k BOUNDARY) (pf_bound s) (pf_holes s) (pf_visited s) (pf_calls s))).
    assert (HM' : marked (fun c => M c \/ c = k) s') by (apply mark_cell_ok; exact HM).
    assert (Eb : pf_bound s' = pf_bound s /\ pf_holes s' = pf_holes s).
    { unfold s'. destruct (visit_ok k (mkpf (set_color (pf_color s) k BOUNDARY) (pf_bound s) (pf_holes s) (pf_visited s) (pf_calls s)) (proj1 HM)) as (_ & _ & E & E' & _).
      rewrite E, E'. auto. }
    destruct Eb as [Eb Eh]. assert (HP' := update_bounds P m k HP).
    destruct (IH s' (update_bound (fst k) (snd k) m) _ _ HM' HP') as (A & B & C & D).
    split; [revert A; apply marked_iff; cbn [In]; intuition congruence|]. split; [revert B; apply bounds_iff; cbn [In]; intuition congruence|]. split; [exact (eq_trans C Eh)|exact (eq_trans D Eb)].
Qed.
