From Verif Require Import Base CmpModel GridModel GridSpec GridProof FloodModel FloodSpec DistSpec PfillModel PfillSpec PfillProof.
From Coq Require Import Permutation.
Local Open Scope Z_scope.

(** ** The rows of the holes *)
Lemma insert_in : forall e l x, In x (rows_insert e l) <-> x = e \/ In x l.
Proof.
  intros e l x. induction l as [|a l IH]; cbn [rows_insert In]; [intuition congruence|].
  destruct (rows_less a e) eqn:A; [cbn [In]; rewrite IH; intuition congruence|].
  destruct (rows_less e a) eqn:B; cbn [In]; [intuition congruence|].
  assert (a = e); [|intuition congruence]. unfold rows_less in A, B. destruct a as [a1 a2], e as [e1 e2]; cbn [fst snd] in *.
  destruct (Z.ltb_spec a1 e1); [discriminate|]. destruct (Z.ltb_spec e1 a1); [discriminate|].
  assert (a1 = e1) by lia. subst. rewrite Z.eqb_refl in A, B. cbn [orb andb] in A, B. apply Z.ltb_ge in A, B. f_equal. lia.
Qed.
Lemma add_rows_none : forall m holes i, ~ In i (map fst m) -> fold_left add_hole_rows m holes i = holes i.
Proof.
  intro m. induction m as [|e m IH]; intros holes i N; cbn [fold_left]; [reflexivity|].
  rewrite IH by (intro I; apply N; right; exact I). unfold add_hole_rows. destruct (Z.eqb_spec i (fst e)) as [E|_]; [|reflexivity].
  exfalso. apply N. left. symmetry. exact E.
Qed.
Lemma add_rows_some : forall m holes i e, NoDup (map fst m) -> In (i, e) m ->
  fold_left add_hole_rows m holes i = Some (rows_insert e (match holes i with Some l => l | None => [] end)).
Proof.
  intro m. induction m as [|[i1 e1] m IH]; intros holes i e ND I; [destruct I|]. cbn [fold_left map fst] in *. inversion ND as [|? ? NI ND']; subst.
  destruct I as [I|I].
  - injection I as -> ->. rewrite add_rows_none by exact NI. unfold add_hole_rows; cbn [fst snd]. rewrite Z.eqb_refl. reflexivity.
  - rewrite (IH _ _ _ ND' I). unfold add_hole_rows at 1; cbn [fst snd]. destruct (Z.eqb_spec i i1) as [->|_]; [|reflexivity].
    exfalso. apply NI. apply in_map_iff. exists (i1, e). auto.
Qed.

(** ** The scan of a column *)
Definition same_marks (s s' : pfill) : Prop := pf_color s' = pf_color s /\ pf_bound s' = pf_bound s /\ pf_holes s' = pf_holes s.
Lemma same_refl : forall s, same_marks s s.
Proof. intro s. repeat split. Qed.
Lemma same_trans : forall a b c, same_marks a b -> same_marks b c -> same_marks a c.
Proof. intros a b c (A & B & C) (A' & B' & C'). repeat split; congruence. Qed.
Lemma scan_cell_ok : forall i k s, fair s -> fair (scan_cell i k s) /\ same_marks s (scan_cell i k s) /\
  (forall c, In c (pf_calls s) -> In c (pf_calls (scan_cell i k s))) /\
  (forall c, In c (pf_calls (scan_cell i k s)) -> In c (pf_calls s) \/ c = (i, k)) /\
  (In (i, k) (pf_calls (scan_cell i k s)) \/ pf_color s (i, k) = BOUNDARY).
Proof.
  intros i k s F. unfold scan_cell. destruct (Z.eqb_spec (pf_color s (i, k)) BOUNDARY) as [E|N].
  - split; [exact F|]. split; [apply same_refl|]. auto.
  - destruct (visit_ok (i, k) s F) as (F' & E1 & E2 & E3 & E4). split; [exact F'|]. split; [repeat split; assumption|].
    split; [intros c I; apply E4; auto|]. split; [intros c I; apply E4; exact I|]. left. apply E4. auto.
Qed.
Lemma scan_rows_nil : forall n i k jmax s, scan_rows n i k jmax s = scan_rows_holes n i k jmax [] s.
Proof. intro n. induction n as [|n IH]; intros i k jmax s; cbn [scan_rows scan_rows_holes]; [reflexivity|]. destruct (k <? jmax); [apply IH|reflexivity]. Qed.
Lemma succ_small : forall k, 0 <= k -> k + 1 < two32 -> uint_succ k = k + 1.
Proof. intros k A B. unfold uint_succ. apply Z.mod_small. lia. Qed.

Lemma scan_rows_ok : forall n i k jmax bits s, fair s -> 0 <= k -> jmax < two32 -> (forall e, In e bits -> snd e + 1 < two32) -> jmax - k <= Z.of_nat n ->
  let s' := scan_rows_holes n i k jmax bits s in
  fair s' /\ same_marks s s' /\ (forall c, In c (pf_calls s) -> In c (pf_calls s')) /\
  (forall c, In c (pf_calls s') -> In c (pf_calls s) \/ (fst c = i /\ k <= snd c < jmax)) /\
  (forall k', k <= k' < jmax -> In (i, k') (pf_calls s') \/ pf_color s (i, k') = BOUNDARY \/ exists e, In e bits /\ fst e <= k' <= snd e) /\
  (forall lo hi, bits = [(lo, hi)] -> forall c, In c (pf_calls s') -> In c (pf_calls s) \/ ~ (lo <= snd c <= hi)).
Proof.
  intro n. induction n as [|n IH]; intros i k jmax bits s F Hk Hj Hb Hn; cbn [scan_rows_holes]; cbv zeta.
  { split; [exact F|]. split; [apply same_refl|]. split; [auto|]. split; [auto|]. split; [intros k' H; lia|auto]. }
  destruct (Z.ltb_spec k jmax) as [L|L].
  2: { split; [exact F|]. split; [apply same_refl|]. split; [auto|]. split; [auto|]. split; [intros k' H; lia|auto]. }
  (* one cell, then the rest *)
  assert (One : forall bits, (forall e, In e bits -> snd e + 1 < two32) -> (forall lo hi, bits = [(lo, hi)] -> ~ (lo <= k <= hi)) ->
    let s' := scan_rows_holes n i (uint_succ k) jmax bits (scan_cell i k s) in
    fair s' /\ same_marks s s' /\ (forall c, In c (pf_calls s) -> In c (pf_calls s')) /\
    (forall c, In c (pf_calls s') -> In c (pf_calls s) \/ (fst c = i /\ k <= snd c < jmax)) /\
    (forall k', k <= k' < jmax -> In (i, k') (pf_calls s') \/ pf_color s (i, k') = BOUNDARY \/ exists e, In e bits /\ fst e <= k' <= snd e) /\
    (forall lo hi, bits = [(lo, hi)] -> forall c, In c (pf_calls s') -> In c (pf_calls s) \/ ~ (lo <= snd c <= hi))).
  { intros bs Hbs Hskip. destruct (scan_cell_ok i k s F) as (F1 & S1 & K1 & N1 & C1). rewrite succ_small by lia.
    destruct (IH i (k + 1) jmax bs (scan_cell i k s) F1 ltac:(lia) Hj Hbs ltac:(lia)) as (F2 & S2 & K2 & N2 & C2 & X2).
    cbv zeta. split; [exact F2|]. split; [exact (same_trans _ _ _ S1 S2)|]. split; [auto|]. split; [|split].
    - intros c I. apply N2 in I as [I|I]; [|right; split; [tauto|lia]]. apply N1 in I as [I| ->]; [auto|]. right. cbn. lia.
    - intros k' H. destruct (Z.eq_dec k' k) as [->|N]; [destruct C1 as [C1|C1]; auto|].
      destruct (C2 k' ltac:(lia)) as [C|[C|C]]; [auto| |auto]. right; left. rewrite <- C. destruct S1 as (-> & _). reflexivity.
    - intros lo hi E c I. destruct (X2 lo hi E c I) as [J|J]; [|auto]. apply N1 in J as [J| ->]; [auto|]. right. exact (Hskip lo hi E). }
  destruct bits as [|[lo hi] bits].
  { apply (One []); [exact Hb|discriminate]. }
  destruct (Z.leb_spec lo k) as [A|A], (Z.leb_spec k hi) as [B|B]; cbn [andb].
  2,3,4: apply (One ((lo, hi) :: bits)); [exact Hb|intros lo' hi' E; injection E as <- <- _; lia].
  assert (Hh := Hb (lo, hi) (or_introl eq_refl)). cbn [snd] in Hh. rewrite succ_small by lia.
  destruct (IH i (hi + 1) jmax bits s F ltac:(lia) Hj (fun e I => Hb e (or_intror I)) ltac:(lia)) as (F2 & S2 & K2 & N2 & C2 & X2).
  split; [exact F2|]. split; [exact S2|]. split; [exact K2|]. split; [|split].
  - intros c I. apply N2 in I as [I|I]; [auto|]. right. split; [tauto|lia].
  - intros k' H. destruct (Z_le_gt_dec k' hi) as [L'|L'].
    + right; right. exists (lo, hi). split; [left; reflexivity|cbn; lia].
    + destruct (C2 k' ltac:(lia)) as [C|[C|(e & I & C)]]; [auto|auto|]. right; right. exists e. split; [right; exact I|exact C].
  - intros lo' hi' E c I. injection E as <- <- E. apply N2 in I as [I|I]; [auto|]. right. lia.
Qed.

Definition small_rows (s : pfill) : Prop :=
  (forall i a b, In (i, (a, b)) (pf_bound s) -> 0 <= a /\ b + 1 < two32 /\ a <= b) /\
  (forall i l e, pf_holes s i = Some l -> In e l -> snd e + 1 < two32).
Definition hole_rows (s : pfill) (i : Z) : list (Z * Z) := match pf_holes s i with Some l => l | None => [] end.
Lemma scan_column_ok : forall s i a b, fair s -> small_rows s -> In (i, (a, b)) (pf_bound s) ->
  let s' := scan_column s (i, (a, b)) in
  fair s' /\ same_marks s s' /\ (forall c, In c (pf_calls s) -> In c (pf_calls s')) /\
  (forall c, In c (pf_calls s') -> In c (pf_calls s) \/ (fst c = i /\ a < snd c < b)) /\
  (forall k, a < k < b -> In (i, k) (pf_calls s') \/ pf_color s (i, k) = BOUNDARY \/ exists e, In e (hole_rows s i) /\ fst e <= k <= snd e) /\
  (forall lo hi, hole_rows s i = [(lo, hi)] -> forall c, In c (pf_calls s') -> In c (pf_calls s) \/ ~ (lo <= snd c <= hi)).
Proof.
  intros s i a b F (SB & SH) I. destruct (SB _ _ _ I) as (A & B & C). unfold scan_column. cbv zeta.
  rewrite succ_small by lia.
  assert (H : forall bits, (forall e, In e bits -> snd e + 1 < two32) -> let s' := scan_rows_holes (Z.to_nat b) i (a + 1) b bits s in
    fair s' /\ same_marks s s' /\ (forall c, In c (pf_calls s) -> In c (pf_calls s')) /\
    (forall c, In c (pf_calls s') -> In c (pf_calls s) \/ (fst c = i /\ a < snd c < b)) /\
    (forall k, a < k < b -> In (i, k) (pf_calls s') \/ pf_color s (i, k) = BOUNDARY \/ exists e, In e bits /\ fst e <= k <= snd e) /\
    (forall lo hi, bits = [(lo, hi)] -> forall c, In c (pf_calls s') -> In c (pf_calls s) \/ ~ (lo <= snd c <= hi))).
  { intros bits Hb. destruct (scan_rows_ok (Z.to_nat b) i (a + 1) b bits s F ltac:(lia) ltac:(lia) Hb ltac:(lia)) as (H1 & H2 & H3 & H4 & H5 & H6).
    split; [exact H1|]. split; [exact H2|]. split; [exact H3|]. split; [|split; [|exact H6]].
    - intros c J. destruct (H4 c J) as [J'|J']; [auto|right; split; [tauto|lia]].
    - intros k L. apply H5. lia. }
  unfold hole_rows. destruct (pf_holes s i) as [l|] eqn:E.
  - apply H. intros e J. exact (SH i l e E J).
  - rewrite scan_rows_nil. apply H. intros e [].
Qed.

Lemma scan_ok : forall cols s, fair s -> small_rows s -> (forall e, In e cols -> In e (pf_bound s)) ->
  let s' := fold_left scan_column cols s in
  fair s' /\ (forall c, In c (pf_calls s) -> In c (pf_calls s')) /\
  (forall c, In c (pf_calls s') -> In c (pf_calls s) \/ exists a b, In (fst c, (a, b)) cols /\ a < snd c < b) /\
  (forall i a b k, In (i, (a, b)) cols -> a < k < b -> In (i, k) (pf_calls s') \/ pf_color s (i, k) = BOUNDARY \/ exists e, In e (hole_rows s i) /\ fst e <= k <= snd e) /\
  (forall c lo hi, hole_rows s (fst c) = [(lo, hi)] -> In c (pf_calls s') -> In c (pf_calls s) \/ ~ (lo <= snd c <= hi)).
Proof.
  intro cols. induction cols as [|[i [a b]] cols IH]; intros s F SR Hin; cbn [fold_left]; cbv zeta.
  { split; [exact F|]. split; [auto|]. split; [auto|]. split; [intros ? ? ? ? []|auto]. }
  destruct (scan_column_ok s i a b F SR (Hin _ (or_introl eq_refl))) as (F1 & (M1 & M2 & M3) & K1 & N1 & C1 & X1).
  set (s1 := scan_column s (i, (a, b))) in *.
  destruct (IH s1 F1) as (F2 & K2 & N2 & C2 & X2).
  { destruct SR as [SB SH]. split; [rewrite M2; exact SB|rewrite M3; exact SH]. }
  { intros e J. rewrite M2. apply Hin. right. exact J. }
  assert (HR : forall i, hole_rows s1 i = hole_rows s i) by (intro i'; unfold hole_rows; rewrite M3; reflexivity).
  split; [exact F2|]. split; [auto|]. split; [|split].
  - intros c J. destruct (N2 c J) as [J'|(a' & b' & J' & L)]; [|right; exists a', b'; split; [right; exact J'|exact L]].
    destruct (N1 c J') as [J''|[E L]]; [auto|]. right. exists a, b. split; [left; congruence|exact L].
  - intros i' a' b' k [E|J] L.
    + injection E as -> -> ->. destruct (C1 k L) as [C|[C|C]]; auto.
    + destruct (C2 i' a' b' k J L) as [C|[C|C]]; [auto|rewrite M1 in C; auto|rewrite HR in C; auto].
  - intros c lo hi E J. rewrite <- HR in E. destruct (X2 c lo hi E J) as [J'|J']; [|auto]. destruct (N1 c J') as [J''|[E' L]]; [auto|].
    rewrite HR in E. rewrite E' in E. exact (X1 lo hi E c J').
Qed.

(** ** The whole fill, in terms of the marked cells *)
Section Fill.
Variables xmin xmax ymin ymax w : Q.
Variable g : grid.
Hypothesis G : good_bounds xmin xmax ymin ymax w.
Hypothesis Eg : make_grid xmin xmax ymin ymax w = Some g.
Variable fuel : nat.
Hypothesis Fu : g_nx g + g_ny g + 4 < Z.of_nat fuel.
Notation walls := (boundary_cells xmin ymin w g).
Notation inside := (within_region xmin xmax ymin ymax).

Lemma mark_hole_ok : forall h s M, inside h -> marked M s ->
  exists Lh m s', mark_hole direct fuel g h s = inl s' /\ walls h Lh /\ marked (fun c => M c \/ In c Lh) s' /\ pf_bound s' = pf_bound s /\
    column_bounds (fun c => In c Lh) m /\ pf_holes s' = fold_left add_hole_rows m (pf_holes s).
Proof.
  intros h s M R HM. unfold mark_hole.
  destruct (mark_all_ok _ _ _ _ _ _ G Eg _ pf_mark_hole fuel h (s, []) Fu R) as (Lh & E & W). rewrite E.
  assert (CB : column_bounds (fun _ => False) []) by (split; [constructor|]; split; [intros ? ? ? []|intros ? ? []]).
  destruct (mark_hole_list Lh s [] M (fun _ => False) HM CB) as (A & B & C & D).
  destruct (fold_left pf_mark_hole Lh (s, [])) as [s1 m]. cbn [fst snd] in *.
  exists Lh, m. eexists. split; [reflexivity|]. split; [exact W|]. split; [exact A|]. split; [exact D|].
  split; [revert B; apply bounds_iff; tauto|]. cbn [pf_holes]. rewrite C. reflexivity.
Qed.
Definition hole_cells (D : list (list pt * list key)) (s : pfill) : Prop :=
  forall i e, In e (hole_rows s i) -> exists h Lh, In (h, Lh) D /\ In (i, fst e) Lh /\ In (i, snd e) Lh.
Lemma mark_holes_ok : forall hs s M D, (forall h, In h hs -> inside h) -> marked M s -> hole_cells D s ->
  exists D' s', mark_holes direct fuel g hs s = inl s' /\ map fst D' = hs /\ (forall h Lh, In (h, Lh) D' -> walls h Lh) /\
    marked (fun c => M c \/ exists h Lh, In (h, Lh) D' /\ In c Lh) s' /\ pf_bound s' = pf_bound s /\ hole_cells (D' ++ D) s' /\
    (forall h Lh, D' = [(h, Lh)] -> (forall i, pf_holes s i = None) -> forall i j, In (i, j) Lh -> exists lo hi, hole_rows s' i = [(lo, hi)] /\ lo <= j <= hi).
Proof.
  intro hs. induction hs as [|h hs IH]; intros s M D R HM HD; cbn [mark_holes].
  { exists [], s. split; [reflexivity|]. split; [reflexivity|]. split; [intros ? ? []|]. split.
    - revert HM. apply marked_iff. intro c. split; [auto|]. intros [H|(h & Lh & [] & _)]; exact H.
    - split; [reflexivity|]. split; [exact HD|discriminate]. }
  destruct (mark_hole_ok h s M (R h (or_introl eq_refl)) HM) as (Lh & m & s1 & E & W & HM1 & B1 & CB & EH). rewrite E.
  assert (HD1 : hole_cells ((h, Lh) :: D) s1).
  { intros i e I. unfold hole_rows in I. rewrite EH in I. destruct CB as (ND & CB1 & CB2).
    destruct (in_dec Z.eq_dec i (map fst m)) as [J|J].
    - apply in_map_iff in J as ((i', [a b]) & Ei & J). cbn in Ei. subst i'. rewrite (add_rows_some m _ i (a, b) ND J) in I.
      apply insert_in in I as [->|I].
      + exists h, Lh. split; [left; reflexivity|]. exact (CB1 i a b J).
      + destruct (HD i e I) as (h' & L' & I' & K). exists h', L'. split; [right; exact I'|exact K].
    - rewrite add_rows_none in I by exact J. destruct (HD i e I) as (h' & L' & I' & K). exists h', L'. split; [right; exact I'|exact K]. }
  destruct (IH s1 _ _ (fun h' I => R h' (or_intror I)) HM1 HD1) as (D' & s' & E' & Mf & W' & HM' & B' & HD' & Single).
  exists ((h, Lh) :: D'), s'. split; [exact E'|]. split; [cbn; congruence|]. split.
  { intros h' L' [J|J]; [injection J as <- <-; exact W|exact (W' _ _ J)]. }
  split.
  { revert HM'. apply marked_iff. intro c. split.
    - intros [[H|H]|(h' & L' & I' & H)]; [auto|right; exists h, Lh; split; [left; reflexivity|exact H]|right; exists h', L'; split; [right; exact I'|exact H]].
    - intros [H|(h' & L' & [J|J] & H)]; [auto|injection J as <- <-; auto|right; eauto]. }
  split; [congruence|]. split.
  { intros i e I. destruct (HD' i e I) as (h' & L' & J & K). exists h', L'. split; [|exact K]. apply in_app_iff in J as [J|[J|J]]; cbn [app In]; [right; apply in_app_iff; auto|auto|right; apply in_app_iff; auto]. }
  intros h0 L0 Eq Emp i j I. injection Eq as <- <- ->. destruct hs; [|discriminate]. cbn [mark_holes] in E'. injection E' as <-.
  destruct CB as (ND & CB1 & CB2). destruct (CB2 i j I) as (a & b & J & L). exists a, b. split; [|exact L].
  unfold hole_rows. rewrite EH, (add_rows_some m _ i (a, b) ND J), Emp. reflexivity.
Qed.

Theorem fill_cells : forall order ps holes, (forall l, Permutation (order l) l) -> inside ps -> (forall h, In h holes -> inside h) ->
  exists calls L D, floodfill_polygon order direct fuel g ps holes = PfDone calls /\ walls ps L /\ map fst D = holes /\ (forall h Lh, In (h, Lh) D -> walls h Lh) /\
    NoDup calls /\ (forall c, In c L -> In c calls) /\ (forall h Lh c, In (h, Lh) D -> In c Lh -> In c calls) /\
    (forall c, In c calls -> In c L \/ (exists h Lh, In (h, Lh) D /\ In c Lh) \/ exists a b, In (fst c, a) L /\ In (fst c, b) L /\ a < snd c < b) /\
    (forall i a b k, In (i, a) L -> In (i, b) L -> a <= k <= b -> In (i, k) calls \/
       exists h Lh lo hi, In (h, Lh) D /\ In (i, lo) Lh /\ In (i, hi) Lh /\ lo <= k <= hi) /\
    (forall h Lh c lo hi, D = [(h, Lh)] -> In (fst c, lo) Lh -> In (fst c, hi) Lh -> lo <= snd c <= hi -> In c calls -> In c L \/ In c Lh).
Proof.
  intros order ps holes Or R Rh. unfold floodfill_polygon.
  destruct (mark_all_ok _ _ _ _ _ _ G Eg _ pf_mark fuel ps pf_new Fu R) as (L & E & W). rewrite E.
  assert (CB : column_bounds (fun _ => False) (pf_bound pf_new)) by (split; [constructor|]; split; [intros ? ? ? []|intros ? ? []]).
  assert (M0 : marked (fun _ => False) pf_new).
  { split; [split; [reflexivity|constructor]|]. split; intro k; cbn; [|tauto]. split; [discriminate|tauto]. }
  destruct (mark_list L pf_new _ _ M0 CB) as (M1 & CB1 & H1). set (s1 := fold_left pf_mark L pf_new) in *.
  assert (HD : hole_cells [] s1). { intros i e I. unfold hole_rows in I. rewrite H1 in I. destruct I. }
  destruct (mark_holes_ok holes s1 _ [] Rh M1 HD) as (D & s2 & E2 & Mf & WD & M2 & B2 & HD2 & Single). rewrite E2, app_nil_r in *.
  assert (SM : small_rows s2).
  { destruct (facts _ _ _ _ _ _ Eg) as (_ & _ & _ & _ & _ & _ & Ny).
    split.
    - intros i a b I. rewrite B2 in I. destruct CB1 as (ND & CB1 & CB2). destruct (CB1 i a b I) as [[[]|Ia] [[]|Ib]].
      destruct (proj1 W _ Ia) as [[_ Ga] _]. destruct (proj1 W _ Ib) as [[_ Gb] _]. cbn [snd] in Ga, Gb.
      destruct (CB2 i a (or_intror Ia)) as (a' & b' & I' & Ll).
      assert (Eab : (a', b') = (a, b)).
      { clear - ND I I'. revert ND I I'. generalize (pf_bound s1). intros m ND I I'. induction m as [|[i1 e1] m IH]; [destruct I|]. cbn [map fst] in ND. inversion ND as [|? ? NI ND']; subst.
        destruct I as [I|I], I' as [I'|I']; [congruence| | |auto].
        - exfalso. apply NI. apply in_map_iff. exists (i, (a', b')). split; [cbn; congruence|exact I'].
        - exfalso. apply NI. apply in_map_iff. exists (i, (a, b)). split; [cbn; congruence|exact I]. }
      injection Eab as -> ->. lia.
    - intros i l e El I. destruct (HD2 i e) as (h & Lh & J & _ & K); [unfold hole_rows; rewrite El; exact I|].
      destruct (proj1 (WD h Lh J) _ K) as [[_ Gb] _]. cbn [snd] in Gb. lia. }
  destruct M2 as (F2 & Col2 & Cal2).
  destruct (scan_ok (order (pf_bound s2)) s2 F2 SM) as (F3 & K3 & N3 & C3 & X3).
  { intros e I. revert I. apply Permutation_in. apply Or. }
  set (s3 := fold_left scan_column (order (pf_bound s2)) s2) in *.
  exists (rev (pf_calls s3)), L, D. split; [reflexivity|]. split; [exact W|]. split; [exact Mf|]. split; [exact WD|].
  split; [apply NoDup_rev; exact (proj2 F3)|].
  assert (ML : forall c, In c L -> In c (pf_calls s3)) by (intros c I; apply K3; apply Cal2; auto).
  assert (MH : forall h Lh c, In (h, Lh) D -> In c Lh -> In c (pf_calls s3)) by (intros h Lh c I J; apply K3; apply Cal2; right; eauto).
  split; [intros c I; apply -> in_rev; auto|]. split; [intros h Lh c I J; apply -> in_rev; eauto|].
  split; [|split].
  - intros c I. apply in_rev in I. destruct (N3 c I) as [J|(a & b & J & Lt)].
    + apply Cal2 in J as [[[]|J]|J]; auto.
    + right; right. exists a, b. assert (J' : In (fst c, (a, b)) (pf_bound s2)) by (revert J; apply Permutation_in; apply Or). rewrite B2 in J'.
      destruct CB1 as (_ & CB1 & _). destruct (CB1 _ _ _ J') as [[[]|Ia] [[]|Ib]]. auto.
  - intros i a b k Ia Ib Lk. rewrite <- in_rev. destruct CB1 as (ND & CB1 & CB2).
    destruct (CB2 i a (or_intror Ia)) as (lo & hi & I & La). destruct (CB2 i b (or_intror Ib)) as (lo' & hi' & I' & Lb).
    assert (Eab : (lo', hi') = (lo, hi)).
    { clear - ND I I'. revert ND I I'. generalize (pf_bound s1). intros m ND I I'. induction m as [|[i1 e1] m IH]; [destruct I|]. cbn [map fst] in ND. inversion ND as [|? ? NI ND']; subst.
      destruct I as [I|I], I' as [I'|I']; [congruence| | |auto].
      - exfalso. apply NI. apply in_map_iff. exists (i, (lo', hi')). split; [cbn; congruence|exact I'].
      - exfalso. apply NI. apply in_map_iff. exists (i, (lo, hi)). split; [cbn; congruence|exact I]. }
    injection Eab as -> ->. destruct (CB1 _ _ _ I) as [[[]|Il] [[]|Ih]].
    destruct (Z.eq_dec k lo) as [->|N1]; [left; auto|]. destruct (Z.eq_dec k hi) as [->|N2]; [left; auto|].
    destruct (C3 i lo hi k) as [C|[C|(e & Ie & Le)]].
    { revert I. rewrite <- B2. apply Permutation_in. apply Permutation_sym. apply Or. }
    { lia. }
    + auto.
    + left. apply K3. apply Cal2. apply Col2. exact C.
    + right. destruct (HD2 i e Ie) as (h & Lh & J & K1 & K2). exists h, Lh, (fst e), (snd e). auto.
  - intros h Lh [i k] lo hi ED Il Ih Lk I. cbn [fst snd] in *. apply in_rev in I.
    assert (Emp : forall i, pf_holes s1 i = None) by (intro; rewrite H1; reflexivity).
    destruct (Single h Lh ED Emp i lo Il) as (a & b & Er & L1). destruct (Single h Lh ED Emp i hi Ih) as (a' & b' & Er' & L2).
    rewrite Er in Er'. injection Er' as <- <-. destruct (X3 (i, k) a b Er I) as [J|J]; [|exfalso; apply J; cbn; lia].
    apply Cal2 in J as [[[]|J]|(h' & L' & J' & J)]; [auto|]. rewrite ED in J'. destruct J' as [J'|[]]. injection J' as <- <-. auto.
Qed.
End Fill.
