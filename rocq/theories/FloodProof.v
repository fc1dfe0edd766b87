(** Proofs about flood fill. *)
From Verif Require Import Base GridModel FloodModel FloodSpec.
Local Open Scope Z_scope.

Lemma key_eqb_eq : forall a b, key_eqb a b = true <-> a = b.
Proof.
  intros [a1 a2] [b1 b2]. unfold key_eqb. cbn [fst snd]. rewrite andb_true_iff, !Z.eqb_eq. split.
  - intros [-> ->]. reflexivity.
  - intro E. injection E as -> ->. auto.
Qed.
Lemma key_dec : forall a b : key, a = b \/ a <> b.
Proof. intros a b. destruct (key_eqb a b) eqn:E; [left; apply key_eqb_eq; exact E|right; intro X; apply key_eqb_eq in X; congruence]. Qed.
Definition key_eq_dec : forall a b : key, {a = b} + {a <> b}.
Proof. intros [a b] [c d]. destruct (Z.eq_dec a c), (Z.eq_dec b d); subst; auto; right; congruence. Defined.
Lemma set_color_same : forall color k v, set_color color k v k = v.
Proof. intros. unfold set_color. rewrite (proj2 (key_eqb_eq k k) eq_refl). reflexivity. Qed.
Lemma set_color_other : forall color k v k', k <> k' -> set_color color k v k' = color k'.
Proof. intros. unfold set_color. destruct (key_eqb k k') eqn:E; [apply key_eqb_eq in E; contradiction|reflexivity]. Qed.

(** ** Counting *)
Definition range (n : Z) : list Z := map Z.of_nat (seq 0 (Z.to_nat n)).
Lemma in_range : forall n x, In x (range n) <-> 0 <= x < n.
Proof.
  intros n x. unfold range. rewrite in_map_iff. split.
  - intros (k & <- & H). apply in_seq in H. lia.
  - intro H. exists (Z.to_nat x). split; [lia|]. apply in_seq. lia.
Qed.
Definition cells (w h : Z) : list key := list_prod (range w) (range h).
Lemma in_cells : forall w h c, In c (cells w h) <-> in_grid w h c.
Proof. intros w h [x y]. unfold cells, in_grid. cbn [fst snd]. rewrite <- !in_range. exact (in_prod_iff _ _ x y). Qed.
Lemma cells_length : forall w h, 0 <= w -> 0 <= h -> Z.of_nat (length (cells w h)) = w * h.
Proof. intros w h Hw Hh. unfold cells. etransitivity; [apply f_equal; exact (prod_length (range w) (range h))|]. unfold range. rewrite !map_length, !seq_length. lia. Qed.
Definition count (old : Z) (color : key -> Z) (l : list key) : Z := Z.of_nat (length (filter (fun c => color c =? old) l)).
Lemma count_le : forall old color l, 0 <= count old color l <= Z.of_nat (length l).
Proof.
  intros old color l. unfold count. split; [lia|]. induction l as [|c l IH]; [cbn; lia|].
  cbn [filter]. destruct (color c =? old); cbn [length]; lia.
Qed.
Lemma count_mono : forall old color k new l, old <> new -> count old (set_color color k new) l <= count old color l.
Proof.
  intros old color k new l N. unfold count. induction l as [|c l IH]; [cbn; lia|]. cbn [filter].
  destruct (key_dec k c) as [<-|E].
  - rewrite set_color_same. destruct (Z.eqb_spec new old); [congruence|]. destruct (color k =? old); cbn [length]; lia.
  - rewrite set_color_other by exact E. destruct (color c =? old); cbn [length]; lia.
Qed.
Lemma count_fill : forall old color k new l, old <> new -> color k = old -> In k l -> count old (set_color color k new) l + 1 <= count old color l.
Proof.
  intros old color k new l N C. induction l as [|c l IH]; [contradiction|]. intro H.
  pose proof (count_mono old color k new l N) as M. unfold count in *. cbn [filter].
  destruct (key_dec k c) as [<-|E].
  - rewrite set_color_same. destruct (Z.eqb_spec new old); [congruence|]. rewrite C, Z.eqb_refl. cbn [length]. lia.
  - rewrite set_color_other by exact E. destruct H as [H|H]; [congruence|]. specialize (IH H). destruct (color c =? old); cbn [length]; lia.
Qed.

(** ** The traversal *)
Section Traversal.
Variables w h old new : Z.
Variable color0 : key -> Z.
Variable seed : key.
Variable visited0 : list key.

Definition U (color : key -> Z) (c : key) : Prop := in_grid w h c /\ color c = old.
Definition comp (c : key) : Prop := connected (fun k => in_grid w h k /\ color0 k = old) seed c.
Definition covers (color : key -> Z) (s c : key) : Prop :=
  fst s = fst c /\ forall z, Z.min (snd s) (snd c) <= z <= Z.max (snd s) (snd c) -> U color (fst c, z).
Definition covered (color : key -> Z) (stack : list key) (c : key) : Prop := exists s, In s stack /\ covers color s c.
Definition vert (a b : key) : Prop := fst a = fst b /\ (snd b = snd a + 1 \/ snd a = snd b + 1).
Definition horiz (a b : key) : Prop := snd a = snd b /\ (fst b = fst a + 1 \/ fst a = fst b + 1).

(** What holds of the colours and of the visits at all times. *)
Definition base (s : loop_state) : Prop :=
  (forall c, ls_color s c = color0 c \/ (ls_color s c = new /\ comp c)) /\
  (forall c, In c (ls_stack s) -> comp c) /\
  (forall c, In c (ls_visited s) <-> In c visited0 \/ ls_color s c = new) /\
  NoDup (ls_calls s) /\
  (forall c, In c (ls_calls s) <-> ls_color s c = new /\ ~ In c visited0).
(** What holds between two passes of the outer loop. *)
Definition closed (s : loop_state) : Prop :=
  (forall c c', ls_color s c = new -> vert c c' -> ~ U (ls_color s) c') /\
  (forall c c', ls_color s c = new -> horiz c c' -> U (ls_color s) c' -> covered (ls_color s) (ls_stack s) c') /\
  (U (ls_color s) seed -> covered (ls_color s) (ls_stack s) seed).
(** What holds in the loop up column x, about to look at row y. *)
Definition ahead (color : key -> Z) (x y : Z) (c : key) : Prop :=
  fst c = x /\ y <= snd c /\ forall z, y <= z <= snd c -> U color (x, z).
Definition rising (x y : Z) (spanL spanR : bool) (s : loop_state) : Prop :=
  (forall c c', ls_color s c = new -> vert c c' -> U (ls_color s) c' -> c' = (x, y)) /\
  (forall c c', ls_color s c = new -> horiz c c' -> U (ls_color s) c' ->
     covered (ls_color s) (ls_stack s) c' \/ ahead (ls_color s) x y c') /\
  (U (ls_color s) seed -> covered (ls_color s) (ls_stack s) seed \/ ahead (ls_color s) x y seed) /\
  ~ U (ls_color s) (x, y - 1) /\
  (U (ls_color s) (x, y) -> comp (x, y)) /\
  (spanL = true -> covered (ls_color s) (ls_stack s) (x - 1, y - 1)) /\
  (spanR = true -> covered (ls_color s) (ls_stack s) (x + 1, y - 1)).

Hypothesis Hw : 0 < w < two32.
Hypothesis Hh : 0 < h < two32.
Hypothesis Hold : old <> BOUNDARY.
Hypothesis Hnew : old <> new.
Hypothesis H0 : forall c, color0 c <> new.

Definition measure (s : loop_state) : Z := 3 * count old (ls_color s) (cells w h) + Z.of_nat (length (ls_stack s)).

Lemma covered_more : forall color stack k c, covered color stack c -> covered color (k :: stack) c.
Proof. intros color stack k c (s & I & C). exists s. split; [right; exact I|exact C]. Qed.
Lemma covered_end : forall color stack c, covered color stack c -> U color c.
Proof. intros color stack [x y] (s & I & E & C). apply (C y). cbn [snd]. lia. Qed.
Lemma covered_up : forall color stack x y, covered color stack (x, y - 1) -> U color (x, y) -> covered color stack (x, y).
Proof.
  intros color stack x y (s & I & E & C) K. exists s. split; [exact I|]. split; [exact E|]. cbn [fst snd] in *. intros z Z1.
  destruct (Z.eq_dec z y) as [->|N]; [exact K|]. apply C. lia.
Qed.

Lemma set_old : forall color k c, color k = old -> (set_color color k new c = old <-> color c = old /\ c <> k).
Proof.
  intros color k c C. destruct (key_dec k c) as [<-|E].
  - rewrite set_color_same. split; [intro X; congruence|tauto].
  - rewrite set_color_other by exact E. split; [auto|tauto].
Qed.
Lemma set_new : forall color k c, set_color color k new c = new <-> color c = new \/ c = k.
Proof.
  intros color k c. destruct (key_dec k c) as [<-|E].
  - rewrite set_color_same. tauto.
  - rewrite set_color_other by exact E. split; [auto|]. intros [X|X]; congruence.
Qed.
Lemma set_U : forall color k c, color k = old -> (U (set_color color k new) c <-> U color c /\ c <> k).
Proof. intros color k c C. unfold U. rewrite set_old by exact C. tauto. Qed.

Lemma step_base : forall s x y stack', base s -> U (ls_color s) (x, y) -> comp (x, y) ->
  (forall c, In c stack' -> comp c) ->
  base (mkls (set_color (ls_color s) (x, y) new) (fst (visit_cell (x, y) (ls_visited s) (ls_calls s)))
             (snd (visit_cell (x, y) (ls_visited s) (ls_calls s))) stack').
Proof.
  intros s x y stack' (B1 & B2 & B3 & B4 & B5) [Hin Hc] Hcomp Hs. unfold base. cbn [ls_color ls_visited ls_calls ls_stack].
  split; [|split; [exact Hs|]].
  - intro c. destruct (key_dec (x, y) c) as [<-|E].
    + right. rewrite set_color_same. auto.
    + rewrite set_color_other by exact E. apply B1.
  - assert (Nn : ls_color s (x, y) <> new) by congruence.
    unfold visit_cell. destruct (existsb (key_eqb (x, y)) (ls_visited s)) eqn:Ex; cbn [fst snd].
    + apply existsb_exists in Ex. destruct Ex as (k & Ik & Ek). apply key_eqb_eq in Ek. subst k.
      assert (V0 : In (x, y) visited0) by (apply B3 in Ik; tauto).
      split; [|split; [exact B4|]].
      * intro c. rewrite B3, set_new. split; [tauto|]. intros [?|[?| ->]]; auto.
      * intro c. rewrite B5, set_new. split; [tauto|]. intros [[?| ->] ?]; tauto.
    + assert (NI : ~ In (x, y) (ls_visited s)).
      { intro I. assert (existsb (key_eqb (x, y)) (ls_visited s) = true); [|congruence].
        apply existsb_exists. exists (x, y). split; [exact I|apply key_eqb_eq; reflexivity]. }
      assert (N0 : ~ In (x, y) visited0) by (intro I; apply NI, B3; auto).
      split; [|split].
      * intro c. cbn [In]. rewrite B3, set_new. split; [intros [<-|[?|?]]; auto|intros [?|[?| ->]]; auto].
      * constructor; [|exact B4]. intro I. apply B5 in I. tauto.
      * intro c. cbn [In]. rewrite B5, set_new. split; [intros [<-|[? ?]]; auto|intros [[?| ->] ?]; auto].
Qed.

Lemma covered_set : forall color stack x y c, color (x, y) = old -> ~ U color (x, y - 1) ->
  covered color stack c -> c <> (x, y) -> covered (set_color color (x, y) new) stack c \/ ahead (set_color color (x, y) new) x (y + 1) c.
Proof.
  intros color stack x y c C NU (s & I & E & K) N. destruct c as [cx cy]. cbn [fst snd] in *.
  destruct (Z.eq_dec cx x) as [->|Nx].
  - assert (cy <> y) by congruence.
    destruct (Z.le_gt_cases (Z.min (snd s) cy) y) as [L1|L1]; [destruct (Z.le_gt_cases y (Z.max (snd s) cy)) as [L2|L2]|].
    + right. destruct (Z.lt_ge_cases cy y) as [L|L].
      * exfalso. apply NU. apply K. lia.
      * split; [reflexivity|]. cbn [snd]. split; [lia|]. intros z Hz. apply set_U; [exact C|]. split; [apply K; lia|]. intro X. injection X. lia.
    + left. exists s. split; [exact I|]. split; [exact E|]. cbn [fst snd]. intros z Hz. apply set_U; [exact C|]. split; [apply K; lia|]. intro X. injection X. lia.
    + left. exists s. split; [exact I|]. split; [exact E|]. cbn [fst snd]. intros z Hz. apply set_U; [exact C|]. split; [apply K; lia|]. intro X. injection X. lia.
  - left. exists s. split; [exact I|]. split; [exact E|]. cbn [fst snd]. intros z Hz. apply set_U; [exact C|]. split; [apply K; exact Hz|]. congruence.
Qed.
Lemma ahead_set : forall color x y c, color (x, y) = old -> ahead color x y c -> c <> (x, y) ->
  ahead (set_color color (x, y) new) x (y + 1) c.
Proof.
  intros color x y [cx cy] C (E & L & K) N. cbn [fst snd] in *. subst cx. assert (cy <> y) by congruence.
  split; [reflexivity|]. cbn [snd]. split; [lia|]. intros z Hz. apply set_U; [exact C|]. split; [apply K; lia|]. intro X. injection X. lia.
Qed.

Lemma side_covers : forall (inside : bool) color nx y1 span stack span' stack',
  side inside (color (nx, y1)) old nx y1 span stack = (span', stack') ->
  (inside = true -> 0 <= nx < w) -> 0 <= y1 < h ->
  (span = true -> covered color stack (nx, y1 - 1)) ->
  (inside = false -> span = false) ->
  (forall c, In c stack -> In c stack') /\ Z.of_nat (length stack') <= Z.of_nat (length stack) + 1 /\
  (forall c, In c stack' -> In c stack \/ (c = (nx, y1) /\ U color (nx, y1))) /\
  (span' = true -> covered color stack' (nx, y1)) /\
  (inside = true -> U color (nx, y1) -> covered color stack' (nx, y1)) /\
  (inside = false -> span' = false).
Proof.
  intros inside color nx y1 span stack span' stack' S Hi Hy Hs Hf. unfold side in S.
  assert (Self : forall st, U color (nx, y1) -> covered color ((nx, y1) :: st) (nx, y1)).
  { intros st HU. exists (nx, y1). split; [left; reflexivity|]. split; [reflexivity|]. cbn [fst snd]. intros z Hz. replace z with y1 by lia. exact HU. }
  assert (HU : inside = true -> color (nx, y1) = old -> U color (nx, y1)) by (intros X E; split; [split; cbn [fst snd]; auto|exact E]).
  destruct span, inside, (Z.eqb_spec (color (nx, y1)) old) as [E|E]; cbn in S; injection S as <- <-;
    try (specialize (Hf eq_refl); discriminate).
  - split; [auto|]. split; [lia|]. split; [auto|]. split; [intros _; apply covered_up; auto|]. split; [intros _ _; apply covered_up; auto|discriminate].
  - split; [auto|]. split; [lia|]. split; [auto|]. split; [discriminate|]. split; [intros _ [_ X]; contradiction|discriminate].
  - split; [intros; right; assumption|]. split; [cbn [length]; lia|]. split; [intros c [<-|I]; [right; auto|left; exact I]|].
    split; [auto|]. split; [auto|discriminate].
  - split; [auto|]. split; [lia|]. split; [auto|]. split; [discriminate|]. split; [intros _ [_ X]; contradiction|discriminate].
  - split; [auto|]. split; [lia|]. split; [auto|]. split; [discriminate|]. split; [discriminate|reflexivity].
  - split; [auto|]. split; [lia|]. split; [auto|]. split; [discriminate|]. split; [discriminate|reflexivity].
Qed.

Lemma covered_sub : forall color st st' c, (forall k, In k st -> In k st') -> covered color st c -> covered color st' c.
Proof. intros color st st' c S (s & I & C). exists s. auto. Qed.

Lemma comp_step : forall a b, comp a -> neighbours a b -> in_grid w h b -> color0 b = old -> comp b.
Proof. intros a b A N I C. eapply connected_step; [exact A|exact N|]. auto. Qed.
Lemma comp_U : forall s a b, base s -> comp a -> neighbours a b -> U (ls_color s) b -> comp b.
Proof.
  intros s a b (B1 & _) A N [I C]. apply (comp_step a b A N I). destruct (B1 b) as [<-|[X _]]; [exact C|congruence].
Qed.

Lemma up_ok : forall fuel x y spanL spanR s, 0 <= x < w -> 0 <= y <= h -> (Z.to_nat (h - y) < fuel)%nat ->
  (x = 0 -> spanL = false) -> (w - 1 <= x -> spanR = false) ->
  base s -> rising x y spanL spanR s ->
  exists s', up fuel w h old new x y spanL spanR s = Some s' /\ base s' /\ closed s' /\ measure s' <= measure s.
Proof.
  induction fuel as [|fuel IH]; intros x y spanL spanR s Hx Hy F SL0 SR0 B R; [lia|].
  cbn [up]. destruct ((y <? h) && (ls_color s (x, y) =? old)) eqn:Cond.
  2:{ exists s. split; [reflexivity|]. split; [exact B|]. split; [|lia].
      assert (NU : ~ U (ls_color s) (x, y)).
      { intros [[_ I] E]. cbn [snd] in I. rewrite E, Z.eqb_refl, andb_true_r in Cond. apply Z.ltb_ge in Cond. lia. }
      destruct R as (R1 & R2 & R3 & _).
      assert (NA : forall c, ~ ahead (ls_color s) x y c) by (intros c (_ & L & K); apply NU, K; lia).
      split; [|split].
      - intros c c' N V X. apply NU. rewrite <- (R1 c c' N V X). exact X.
      - intros c c' N V X. destruct (R2 c c' N V X) as [|A]; [assumption|destruct (NA c' A)].
      - intro X. destruct (R3 X) as [|A]; [assumption|destruct (NA seed A)]. }
  apply andb_true_iff in Cond. destruct Cond as [Ly Ec]. apply Z.ltb_lt in Ly. apply Z.eqb_eq in Ec.
  rewrite Ec. destruct (Z.eqb_spec old BOUNDARY) as [X|_]; [contradiction|].
  assert (HU : U (ls_color s) (x, y)) by (split; [split; cbn [fst snd]; lia|exact Ec]).
  destruct R as (R1 & R2 & R3 & R4 & R5 & R6 & R7). specialize (R5 HU).
  destruct (visit_cell (x, y) (ls_visited s) (ls_calls s)) as [vis calls] eqn:EV.
  set (color := set_color (ls_color s) (x, y) new) in *.
  (* left *)
  assert (EL : (0 <? x) = true -> (x - 1) mod two32 = x - 1) by (intro X; apply Z.ltb_lt in X; apply Z.mod_small; lia).
  assert (ER : (x + 1) mod two32 = x + 1 \/ (x <? w - 1) = false).
  { destruct (Z.ltb_spec x (w - 1)); [left; apply Z.mod_small; lia|right; reflexivity]. }
  assert (CL : forall c, fst c <> x -> color c = ls_color s c).
  { intros c N. apply set_color_other. intro X. apply N. rewrite <- X. reflexivity. }
  assert (Keep : forall st c, fst c <> x -> covered (ls_color s) st c -> covered color st c).
  { intros st [cx cy] N (t & I & E & K). exists t. split; [exact I|]. split; [exact E|]. cbn [fst snd] in *. intros z Hz.
    destruct (K z Hz) as [G C]. split; [exact G|]. rewrite CL by exact N. exact C. }
  destruct (side (0 <? x) (color ((x - 1) mod two32, y)) old (x - 1) y spanL (ls_stack s)) as [spanL' st1] eqn:SL.
  assert (PL : (forall c, In c (ls_stack s) -> In c st1) /\ Z.of_nat (length st1) <= Z.of_nat (length (ls_stack s)) + 1 /\
     (forall c, In c st1 -> In c (ls_stack s) \/ (c = (x - 1, y) /\ U color (x - 1, y))) /\
     (spanL' = true -> covered color st1 (x - 1, y)) /\
     ((0 <? x) = true -> U color (x - 1, y) -> covered color st1 (x - 1, y)) /\ ((0 <? x) = false -> spanL' = false)).
  { destruct (Z.ltb_spec 0 x) as [P|P].
    - rewrite (EL eq_refl) in SL. eapply side_covers; [exact SL|intros; lia|lia| |discriminate].
      intro X. apply Keep; [cbn [fst]; lia|exact (R6 X)].
    - rewrite (SL0 ltac:(lia)) in SL. cbn in SL. injection SL as <- <-. split; [auto|]. split; [lia|]. split; [auto|].
      split; [discriminate|]. split; [discriminate|reflexivity]. }
  destruct PL as (PL1 & PL2 & PL3 & PL4 & PL5 & PL6).
  destruct (side (x <? w - 1) (color ((x + 1) mod two32, y)) old (x + 1) y spanR st1) as [spanR' st2] eqn:SR.
  assert (PR : (forall c, In c st1 -> In c st2) /\ Z.of_nat (length st2) <= Z.of_nat (length st1) + 1 /\
     (forall c, In c st2 -> In c st1 \/ (c = (x + 1, y) /\ U color (x + 1, y))) /\
     (spanR' = true -> covered color st2 (x + 1, y)) /\
     ((x <? w - 1) = true -> U color (x + 1, y) -> covered color st2 (x + 1, y)) /\ ((x <? w - 1) = false -> spanR' = false)).
  { destruct (Z.ltb_spec x (w - 1)) as [P|P].
    - assert (E : (x + 1) mod two32 = x + 1) by (apply Z.mod_small; lia). rewrite E in SR. eapply side_covers; [exact SR|intros; lia|lia| |discriminate].
      intro X. eapply covered_sub; [exact PL1|]. apply Keep; [cbn [fst]; lia|exact (R7 X)].
    - rewrite (SR0 ltac:(lia)) in SR. cbn in SR. injection SR as <- <-. split; [auto|]. split; [lia|]. split; [auto|].
      split; [discriminate|]. split; [discriminate|reflexivity]. }
  destruct PR as (PR1 & PR2 & PR3 & PR4 & PR5 & PR6).
  set (s1 := mkls color vis calls st2).
  assert (Bs : base (mkls color vis calls (ls_stack s))).
  { replace vis with (fst (visit_cell (x, y) (ls_visited s) (ls_calls s))) by (rewrite EV; reflexivity).
    replace calls with (snd (visit_cell (x, y) (ls_visited s) (ls_calls s))) by (rewrite EV; reflexivity).
    apply step_base; [exact B|exact HU|exact R5|]. apply B. }
  assert (B1 : base s1).
  { pose proof Bs as (Q1 & Q2 & Q3 & Q4 & Q5). split; [exact Q1|]. split; [|split; [exact Q3|split; [exact Q4|exact Q5]]].
    cbn [ls_stack s1]. intros c I. apply PR3 in I. destruct I as [I|[-> K]]; [apply PL3 in I; destruct I as [I|[-> K]]|].
    - apply B. exact I.
    - apply (comp_U _ (x, y) _ Bs R5); [right; cbn; lia|exact K].
    - apply (comp_U _ (x, y) _ Bs R5); [right; cbn; lia|exact K]. }
  assert (Sub : forall c, In c (ls_stack s) -> In c st2) by auto.
  assert (R' : rising x (y + 1) spanL' spanR' s1).
  { cbn [ls_color ls_stack s1]. unfold rising; cbn [ls_color ls_stack s1]. split; [|split; [|split; [|split; [|split; [|split]]]]].
    - intros c c' N V X. apply set_new in N. apply set_U in X; [|exact Ec]. destruct X as [X Nx].
      destruct N as [N| ->].
      + exfalso. apply Nx. exact (R1 c c' N V X).
      + destruct V as [V1 [V2|V2]]; destruct c' as [cx cy]; cbn [fst snd] in *; subst cx; [f_equal; lia|].
        exfalso. apply R4. replace (y - 1) with cy by lia. exact X.
    - intros c c' N V X. apply set_new in N. pose proof X as X'. apply set_U in X; [|exact Ec]. destruct X as [X Nx].
      destruct N as [N| ->].
      + destruct (R2 c c' N V X) as [K|K].
        * destruct (covered_set _ _ x y c' Ec R4 K Nx) as [K'|K']; [left; eapply covered_sub; [exact Sub|exact K']|right; exact K'].
        * right. apply ahead_set; assumption.
      + left. destruct V as [V1 V2]. destruct c' as [cx cy]. cbn [fst snd] in *. subst cy. destruct X as [[G1 G2] _]. cbn [fst snd] in *.
        destruct V2 as [V2|V2].
        * assert (cx = x + 1) by lia. subst cx. apply PR5; [apply Z.ltb_lt; lia|exact X'].
        * assert (cx = x - 1) by lia. subst cx. eapply covered_sub; [exact PR1|]. apply PL5; [apply Z.ltb_lt; lia|exact X'].
    - intro X. apply set_U in X; [|exact Ec]. destruct X as [X Nx]. destruct (R3 X) as [K|K].
      + destruct (covered_set _ _ x y seed Ec R4 K Nx) as [K'|K']; [left; eapply covered_sub; [exact Sub|exact K']|right; exact K'].
      + right. apply ahead_set; assumption.
    - replace (y + 1 - 1) with y by lia. intro X. apply set_U in X; [|exact Ec]. tauto.
    - intro X. apply (comp_U _ (x, y) _ Bs R5); [left; cbn; lia|exact X].
    - replace (y + 1 - 1) with y by lia. intro X. eapply covered_sub; [exact PR1|]. exact (PL4 X).
    - replace (y + 1 - 1) with y by lia. exact PR4. }
  destruct (IH x (y + 1) spanL' spanR' s1 Hx ltac:(lia) ltac:(lia)) as (s' & E' & B' & C' & M').
  { intro X. apply PL6. apply Z.ltb_ge. lia. }
  { intro X. apply PR6. apply Z.ltb_ge. lia. }
  { exact B1. } { exact R'. }
  exists s'. split; [exact E'|]. split; [exact B'|]. split; [exact C'|].
  assert (Cn : count old color (cells w h) + 1 <= count old (ls_color s) (cells w h)).
  { apply count_fill; [exact Hnew|exact Ec|]. apply in_cells. apply HU. }
  unfold measure in *. cbn [ls_color ls_stack s1] in M'. lia.
Qed.

Lemma down_ok : forall fuel color x y, 0 <= y -> (Z.to_nat (y + 1) < fuel)%nat ->
  exists y1, down fuel color old x y = Some y1 /\ -1 <= y1 <= y /\ (forall z, y1 < z <= y -> color (x, z) = old) /\
    (y1 = -1 \/ color (x, y1) <> old).
Proof.
  induction fuel as [|fuel IH]; intros color x y Hy F; [lia|]. cbn [down].
  destruct (Z.leb_spec 0 y); [|lia]. cbn [andb]. destruct (Z.eqb_spec (color (x, y)) old) as [E|E].
  - destruct (Z.eq_dec y 0) as [->|N].
    + destruct fuel as [|fuel]; [lia|]. exists (-1). cbn [down]. split; [reflexivity|]. split; [lia|]. split; [|left; reflexivity].
      intros z Hz. replace z with 0 by lia. exact E.
    + destruct (IH color x (y - 1) ltac:(lia) ltac:(lia)) as (y1 & R & L & A & Z1). exists y1. split; [exact R|]. split; [lia|].
      split; [|exact Z1]. intros z Hz. destruct (Z.eq_dec z y) as [->|]; [exact E|]. apply A. lia.
  - exists y. split; [reflexivity|]. split; [lia|]. split; [intros; lia|right; exact E].
Qed.

Lemma comp_in : forall c, comp c -> in_grid w h c /\ color0 c = old.
Proof. intros c H. destruct H; assumption. Qed.

Lemma drain_ok : forall m fuel s, h + 1 < Z.of_nat fuel -> measure s < Z.of_nat m -> base s -> closed s ->
  exists s', drain m fuel w h old new s = Some s' /\ base s' /\ closed s' /\ ls_stack s' = [].
Proof.
  induction m as [|m IH]; intros fuel s F M B C.
  { pose proof (count_le old (ls_color s) (cells w h)). unfold measure in M. lia. }
  cbn [drain]. destruct (ls_stack s) as [|[x y] stack] eqn:ES.
  { exists s. auto. }
  pose proof B as (B1 & B2 & B3 & B4 & B5). destruct C as (C1 & C2 & C3).
  assert (Hc : comp (x, y)) by (apply B2; rewrite ES; left; reflexivity).
  destruct (comp_in _ Hc) as [[Gx Gy] Ec]. cbn [fst snd] in Gx, Gy.
  destruct (down_ok fuel (ls_color s) x y ltac:(lia) ltac:(lia)) as (y1 & -> & L & A & St).
  set (s0 := mkls (ls_color s) (ls_visited s) (ls_calls s) stack).
  assert (AU : forall z, y1 < z <= y -> U (ls_color s) (x, z)).
  { intros z Hz. split; [split; cbn [fst snd]; lia|apply A; exact Hz]. }
  assert (NU : ~ U (ls_color s) (x, y1)).
  { intros [[_ G] E]. cbn [snd] in G. destruct St as [->|St]; [lia|contradiction]. }
  assert (Cov : forall c, U (ls_color s) c -> covered (ls_color s) (ls_stack s) c -> covered (ls_color s) stack c \/ ahead (ls_color s) x (y1 + 1) c).
  { intros [cx cy] HU (t & I & E & K). rewrite ES in I. destruct I as [<-|I]; [|left; exists t; split; [exact I|split; assumption]].
    cbn [fst snd] in *. subst cx. right. split; [reflexivity|]. cbn [snd].
    assert (Lc : y1 < cy). { destruct (Z.lt_ge_cases y1 cy); [assumption|]. exfalso. apply NU. apply K. lia. }
    split; [lia|]. intros z Hz. destruct (Z.le_gt_cases z y); [apply AU; lia|apply K; lia]. }
  assert (R : rising x (y1 + 1) false false s0).
  { unfold rising; cbn [ls_color ls_stack s0]. split; [|split; [|split; [|split; [|split; [|split]]]]]; try discriminate.
    - intros c c' N V X. destruct (C1 c c' N V X).
    - intros c c' N V X. apply Cov; [exact X|]. exact (C2 c c' N V X).
    - intro X. apply Cov; [exact X|exact (C3 X)].
    - replace (y1 + 1 - 1) with y1 by lia. exact NU.
    - intro X. destruct (Z.eq_dec y1 y) as [->|N].
      + exfalso. assert (ls_color s (x, y) = new).
        { destruct (B1 (x, y)) as [Q|[Q _]]; [|exact Q]. destruct NU. split; [split; cbn [fst snd]; lia|congruence]. }
        apply (C1 (x, y) (x, y + 1)); [assumption|split; cbn; lia|exact X].
      + assert (K : forall n : nat, Z.of_nat n <= y - y1 - 1 -> comp (x, y - Z.of_nat n)).
        { induction n as [|n IHn]; intro Hn; [replace (y - Z.of_nat 0) with y by lia; exact Hc|].
          apply (comp_U s (x, y - Z.of_nat n)); [exact B|apply IHn; lia|left; cbn; lia|]. apply AU. lia. }
        specialize (K (Z.to_nat (y - y1 - 1)) ltac:(lia)). replace (y - Z.of_nat (Z.to_nat (y - y1 - 1))) with (y1 + 1) in K by lia. exact K. }
  assert (B0 : base s0).
  { split; [exact B1|]. split; [|split; [exact B3|split; [exact B4|exact B5]]]. intros c I. apply B2. rewrite ES. right. exact I. }
  destruct (up_ok fuel x (y1 + 1) false false s0 Gx ltac:(lia) ltac:(lia) (fun _ => eq_refl) (fun _ => eq_refl) B0 R) as (s1 & -> & Bs1 & Cs1 & M1).
  apply IH; [exact F| |exact Bs1|exact Cs1].
  unfold measure in *. cbn [ls_color ls_stack s0] in M1. rewrite ES in M. cbn [length] in M. lia.
Qed.

Lemma filled_component : forall s, base s -> closed s -> ls_stack s = [] -> color0 seed = old -> in_grid w h seed ->
  forall c, ls_color s c = new <-> comp c.
Proof.
  intros s (B1 & _) (C1 & C2 & C3) ES Es Gs c. split.
  - intro N. destruct (B1 c) as [X|[_ X]]; [exfalso; apply (H0 c); congruence|exact X].
  - rewrite ES in *.
    assert (NC : forall k, ~ covered (ls_color s) [] k) by (intros k (t & [] & _)).
    assert (New : forall k, in_grid w h k -> color0 k = old -> ~ U (ls_color s) k -> ls_color s k = new).
    { intros k G E N. destruct (B1 k) as [X|[X _]]; [|exact X]. destruct N. split; [exact G|congruence]. }
    intro H. induction H as [_|b c Hb IH N [G E]].
    + apply New; [exact Gs|exact Es|]. intro X. exact (NC _ (C3 X)).
    + apply New; [exact G|exact E|]. intro X. destruct N as [[N1 N2]|[N1 N2]].
      * apply (C1 b c IH); [split; assumption|exact X].
      * apply (NC c). apply (C2 b c IH); [split; assumption|exact X].
Qed.
End Traversal.

Theorem traversal_ok : forall f x y fuel, colours_ok f -> ff_last f + 1 < BOUNDARY ->
  in_grid (ff_width f) (ff_height f) (x, y) -> enough_fuel (ff_width f) (ff_height f) fuel ->
  exists answer calls f', traversal fuel f x y = Some (answer, calls, f') /\
    ff_last f' = ff_last f + 1 /\ ff_width f' = ff_width f /\ ff_height f' = ff_height f /\ colours_ok f' /\
    (ff_color f (x, y) = BOUNDARY -> answer = false /\ calls = [] /\ ff_color f' = ff_color f /\ ff_visited f' = ff_visited f) /\
    (ff_color f (x, y) <> BOUNDARY -> answer = true /\ NoDup calls /\
      (forall c, In c calls <-> component (ff_width f) (ff_height f) (ff_color f) (x, y) c /\ ~ In c (ff_visited f)) /\
      (forall c, In c (ff_visited f') <-> In c (ff_visited f) \/ In c calls) /\
      (forall c, component (ff_width f) (ff_height f) (ff_color f) (x, y) c -> ff_color f' c = ff_last f + 1) /\
      (forall c, ~ component (ff_width f) (ff_height f) (ff_color f) (x, y) c -> ff_color f' c = ff_color f c)).
Proof.
  intros [last color h w visited] x y fuel (Hw & Hh & Hl & Hc) Hroom Hin Hf. cbn [ff_last ff_color ff_height ff_width ff_visited] in *.
  unfold traversal. cbn [ff_last ff_color ff_height ff_width ff_visited].
  assert (EB : BOUNDARY = two32 - 1) by reflexivity.
  rewrite (Z.mod_small (last + 1) two32) by lia.
  destruct (Z.eqb_spec (color (x, y)) BOUNDARY) as [E|E].
  - exists false, []. eexists. split; [reflexivity|]. cbn [ff_last ff_color ff_height ff_width ff_visited].
    split; [reflexivity|]. split; [reflexivity|]. split; [reflexivity|]. split.
    { unfold colours_ok. cbn [ff_last ff_color ff_height ff_width ff_visited]. split; [exact Hw|]. split; [exact Hh|]. split; [lia|].
      intro k. destruct (Hc k); [left; lia|right; assumption]. }
    split; [auto|contradiction].
  - assert (H0 : forall c, color c <> last + 1) by (intros c X; destruct (Hc c); lia).
    assert (Hn : color (x, y) <> last + 1) by apply H0.
    pose (s0 := mkls color visited [] [(x, y)]).
    assert (Hself : comp w h (color (x, y)) color (x, y) (x, y)) by (apply connected_refl; auto).
    assert (B0 : base w h (color (x, y)) (last + 1) color (x, y) visited s0).
    { split; [left; reflexivity|]. split; [intros c [<-|[]]; exact Hself|]. cbn [ls_visited ls_calls ls_color s0].
      split; [intro c; split; [auto|intros [I|I]; [exact I|destruct (H0 c I)]]|]. split; [constructor|].
      intro c; split; [contradiction|intros [I _]; destruct (H0 c I)]. }
    assert (C0 : closed w h (color (x, y)) (last + 1) (x, y) s0).
    { split; [intros c c' N; destruct (H0 c N)|]. split; [intros c c' N; destruct (H0 c N)|].
      intro HU. exists (x, y). split; [left; reflexivity|]. split; [reflexivity|]. cbn [fst snd]. intros z Hz. replace z with y by lia. exact HU. }
    assert (Ms : measure w h (color (x, y)) s0 < Z.of_nat fuel).
    { unfold measure. cbn [ls_color ls_stack s0 length]. pose proof (count_le (color (x, y)) color (cells w h)) as K.
      rewrite cells_length in K by lia. unfold enough_fuel in Hf. lia. }
    unfold enough_fuel in Hf.
    destruct (drain_ok w h (color (x, y)) (last + 1) color (x, y) visited Hw Hh E Hn fuel fuel s0 ltac:(nia) Ms B0 C0)
      as (s & D & B & C & St).
    unfold s0 in D. rewrite D.
    pose proof (filled_component w h (color (x, y)) (last + 1) color (x, y) visited H0 s B C St eq_refl Hin) as FC.
    destruct B as (B1 & B2 & B3 & B4 & B5).
    exists true. eexists. eexists. split; [reflexivity|]. cbn [ff_last ff_color ff_height ff_width ff_visited].
    split; [reflexivity|]. split; [reflexivity|]. split; [reflexivity|]. split.
    { unfold colours_ok. cbn [ff_last ff_color ff_height ff_width ff_visited]. split; [exact Hw|]. split; [exact Hh|]. split; [lia|].
      intro k. destruct (B1 k) as [->|[-> _]]; [destruct (Hc k); [left; lia|right; assumption]|left; lia]. }
    split; [contradiction|]. intros _. split; [reflexivity|].
    split; [apply NoDup_rev; exact B4|]. split; [|split; [|split]].
    + intro c. rewrite <- in_rev, B5, FC. reflexivity.
    + intro c. rewrite <- in_rev, B5, B3. destruct (in_dec key_eq_dec c visited); tauto.
    + intros c Hcc. apply FC. exact Hcc.
    + intros c Hcc. destruct (B1 c) as [X|[_ X]]; [exact X|contradiction].
Qed.


Lemma mark_ok : forall f k, colours_ok f ->
  colours_ok (snd (mark_cell f k)) /\ NoDup (fst (mark_cell f k)) /\
  (forall c, In c (fst (mark_cell f k)) <-> c = k /\ ~ In c (ff_visited f)) /\
  (forall c, In c (ff_visited (snd (mark_cell f k))) <-> In c (ff_visited f) \/ In c (fst (mark_cell f k))).
Proof.
  intros [last color h w visited] k (Hw & Hh & Hl & Hc). unfold mark_cell, colours_ok in *. cbn [ff_last ff_color ff_height ff_width ff_visited] in *.
  unfold visit_cell. destruct (existsb (key_eqb k) visited) eqn:Ex; cbn [fst snd ff_last ff_color ff_height ff_width ff_visited].
  - apply existsb_exists in Ex. destruct Ex as (k' & Ik & Ek). apply key_eqb_eq in Ek. subst k'.
    split; [|split; [constructor|split]].
    + split; [exact Hw|]. split; [exact Hh|]. split; [exact Hl|]. intro c. unfold set_color. destruct (key_eqb k c); [right; reflexivity|apply Hc].
    + intro c. split; [contradiction|]. intros [-> N]. contradiction.
    + cbn. tauto.
  - assert (NI : ~ In k visited).
    { intro I. assert (existsb (key_eqb k) visited = true); [|congruence].
      apply existsb_exists. exists k. split; [exact I|apply key_eqb_eq; reflexivity]. }
    split; [|split; [repeat constructor; auto|split]].
    + split; [exact Hw|]. split; [exact Hh|]. split; [exact Hl|]. intro c. unfold set_color. destruct (key_eqb k c); [right; reflexivity|apply Hc].
    + intro c. cbn. split; [intros [<-|[]]; auto|intros [-> _]; auto].
    + intro c. cbn. intuition congruence.
Qed.
Lemma mark_other : forall f k, ff_last (snd (mark_cell f k)) = ff_last f /\ ff_width (snd (mark_cell f k)) = ff_width f /\
  ff_height (snd (mark_cell f k)) = ff_height f /\ ff_color (snd (mark_cell f k)) = set_color (ff_color f) k BOUNDARY.
Proof. intros f k. unfold mark_cell. destruct (visit_cell k (ff_visited f) []). cbn. auto. Qed.

Lemma nodup_app : forall (A : Type) (a b : list A), NoDup a -> NoDup b -> (forall c, In c a -> ~ In c b) -> NoDup (a ++ b).
Proof.
  intros A a b Na Nb D. induction Na as [|x a Nx Na IH]; [exact Nb|]. cbn [app]. constructor.
  - intro I. apply in_app_or in I. destruct I as [I|I]; [contradiction|]. exact (D x (or_introl eq_refl) I).
  - apply IH. intros c I. apply D. right. exact I.
Qed.

Lemma life_ok : forall es f fuel, colours_ok f -> ff_last f + fills es < BOUNDARY ->
  Forall (event_ok (ff_width f) (ff_height f)) es -> enough_fuel (ff_width f) (ff_height f) fuel ->
  exists calls f', life fuel f es = Some (calls, f') /\ NoDup calls /\ (forall c, In c calls -> ~ In c (ff_visited f)) /\
    (forall c, ff_color f' c = BOUNDARY <-> ff_color f c = BOUNDARY \/ marked es c).
Proof.
  induction es as [|e es IH]; intros f fuel HC HL HE HF; cbn [life].
  { exists [], f. split; [reflexivity|]. split; [constructor|]. split; [intros c []|]. intro c. unfold marked. cbn. tauto. }
  inversion HE as [|? ? He Hes]; subst. destruct e as [k|x y].
  - cbn [event_ok] in He. destruct (mark_ok f k HC) as (M1 & M2 & M3 & M4). destruct (mark_other f k) as (O1 & O2 & O3 & O4).
    destruct (mark_cell f k) as [calls0 f0] eqn:EM. cbn [fst snd] in *.
    unfold fills in HL. cbn [filter] in HL. fold (fills es) in HL.
    destruct (IH f0 fuel M1) as (calls & f' & L & N & D & Bd); [rewrite O1; exact HL|rewrite O2, O3; exact Hes|rewrite O2, O3; exact HF|].
    rewrite L. exists (calls0 ++ calls), f'. split; [reflexivity|]. split; [|split].
    + apply nodup_app; [exact M2|exact N|]. intros c I I'. apply (D c I'). apply M4. auto.
    + intros c I V. apply in_app_or in I. destruct I as [I|I]; [apply M3 in I; tauto|]. apply (D c I). apply M4. auto.
    + intro c. rewrite Bd, O4. unfold marked. cbn [In]. destruct (key_dec k c) as [<-|Nk].
      * rewrite set_color_same. tauto.
      * rewrite set_color_other by exact Nk. intuition congruence.
  - cbn [event_ok] in He.
    assert (HL' : ff_last f + 1 + fills es < BOUNDARY) by (unfold fills in *; cbn [filter length] in HL; lia).
    assert (0 <= fills es) by (unfold fills; lia).
    destruct (traversal_ok f x y fuel HC ltac:(lia) He HF) as (ans & calls0 & f0 & T & T1 & T2 & T3 & T4 & T5 & T6). rewrite T.
    destruct (IH f0 fuel T4) as (calls & f' & L & N & D & Bd); [rewrite T1; exact HL'|rewrite T2, T3; exact Hes|rewrite T2, T3; exact HF|].
    rewrite L. exists (calls0 ++ calls), f'. split; [reflexivity|].
    assert (K : NoDup calls0 /\ (forall c, In c calls0 -> ~ In c (ff_visited f)) /\
      (forall c, In c (ff_visited f0) <-> In c (ff_visited f) \/ In c calls0) /\
      (forall c, ff_color f0 c = BOUNDARY <-> ff_color f c = BOUNDARY)).
    { destruct (Z.eq_dec (ff_color f (x, y)) BOUNDARY) as [E|E].
      - destruct (T5 E) as (_ & -> & -> & ->). split; [constructor|]. split; [intros c []|]. split; [cbn; tauto|]. tauto.
      - destruct (T6 E) as (_ & K1 & K2 & K3 & K4 & K5). split; [exact K1|]. split; [intros c I; apply K2 in I; tauto|]. split; [exact K3|].
        intro c. destruct (Z.eq_dec (ff_color f c) BOUNDARY) as [Eb|Eb].
        + rewrite K5; [tauto|]. intro X. destruct X as [X|b c _ _ [_ X]]; congruence.
        + split; [|contradiction]. intro X. destruct T4 as (_ & _ & _ & _).
          exfalso. destruct (Z.eq_dec (ff_color f0 c) (ff_last f + 1)) as [Q|Q]; [lia|].
          assert (~ component (ff_width f) (ff_height f) (ff_color f) (x, y) c) by (intro Y; apply Q, K4, Y).
          apply Eb. rewrite <- (K5 c); assumption. }
    destruct K as (K1 & K2 & K3 & K4). split; [|split].
    + apply nodup_app; [exact K1|exact N|]. intros c I I'. apply (D c I'). apply K3. auto.
    + intros c I V. apply in_app_or in I. destruct I as [I|I]; [exact (K2 c I V)|]. apply (D c I). apply K3. auto.
    + intro c. rewrite Bd, K4. unfold marked. cbn [In]. intuition congruence.
Qed.
