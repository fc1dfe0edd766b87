(** Proofs about the walk guided by cell corners: the whole walk. *)
From Verif Require Import Base CmpModel OrientModel OrientProof BoxModel BoxSpec ClipModel ClipSpec ClipProof GridModel GridSpec GridProof FloodSpec VoxelModel VoxelSpec VoxelProof OwalkModel OwalkSpec OwalkProof.
From Coq Require Import Lia.

(** ** Paths of cells *)
Lemma kpath_monotone : forall st i j e f l, (st = 1 \/ st = -1)%Z -> kpath st i j e f l -> forall c, In c l -> (i + st * j < fst c + st * snd c)%Z.
Proof.
  intros st i j e f l S K. induction K as [i j|i j i' j' e f l Hi Hj N K IH]; intros c I; [destruct I|].
  assert (L : (i + st * j < i' + st * j')%Z). { assert ((i' <> i \/ j' <> j)%Z) by (destruct (Z.eq_dec i' i), (Z.eq_dec j' j); auto; subst; exfalso; apply N; reflexivity). destruct S as [-> | ->], Hi as [-> | ->], Hj as [-> | ->]; lia. }
  destruct I as [<-|I]; [exact L|]. pose proof (IH c I). lia.
Qed.
Lemma kpath_nodup : forall st i j e f l, (st = 1 \/ st = -1)%Z -> kpath st i j e f l -> NoDup ((i, j) :: l).
Proof.
  intros st i j e f l S K. induction K as [i j|i j i' j' e f l Hi Hj N K IH]; [constructor; [intros []|constructor]|].
  constructor; [|exact IH]. intro I. pose proof (kpath_monotone st i j e f ((i', j') :: l) S ltac:(apply kp_step with (i' := i') (j' := j'); auto) (i, j) I). cbn in *. lia.
Qed.
Lemma kpath_last : forall st i j e f l, kpath st i j e f l -> nth_error ((i, j) :: l) (length ((i, j) :: l) - 1) = Some (e, f).
Proof.
  intros st i j e f l K. induction K as [i j|i j i' j' e f l Hi Hj N K IH]; [reflexivity|].
  assert (X : (length ((i, j) :: (i', j') :: l) - 1 = S (length ((i', j') :: l) - 1))%nat) by (cbn [length]; lia). rewrite X. exact IH.
Qed.
Lemma kpath_king : forall st i j e f l, (st = 1 \/ st = -1)%Z -> kpath st i j e f l -> king_chain ((i, j) :: l).
Proof.
  intros st i j e f l S K. induction K as [i j|i j i' j' e f l Hi Hj N K IH]; intros n a b H1 H2.
  - destruct n as [|n]; [discriminate|]. destruct n; discriminate.
  - destruct n as [|n].
    + cbn in H1, H2. injection H1 as <-. injection H2 as <-. split; [intro X; apply N; symmetry; exact X|]. cbn [fst snd]. destruct S, Hi, Hj; subst; lia.
    + exact (IH n a b H1 H2).
Qed.

Lemma up_strip_y : forall n fuel i k e, e = (k + Z.of_nat n)%Z -> (0 <= k)%Z -> (e < two32)%Z -> (n < fuel)%nat ->
  exists l, up_strip (fun j => (i, j)) e fuel k = Visited l /\ kpath 1 i k i e l /\ forall c, In c ((i, k) :: l) <-> fst c = i /\ (k <= snd c <= e)%Z.
Proof.
  induction n as [|n IH]; intros fuel i k e E R1 R2 Fu; (destruct fuel as [|fuel]; [lia|]); cbn [up_strip].
  - assert (X : e = k) by lia. clear E. subst e. rewrite Z.eqb_refl. exists []. split; [reflexivity|]. split; [constructor|].
    intro c. split; [intros [<-|[]]; cbn; lia|]. destruct c as [c1 c2]; cbn. intros [-> Hc]. left. f_equal. lia.
  - destruct (Z.eqb_spec k e); [lia|]. unfold uint_succ. rewrite Z.mod_small by lia. destruct (IH fuel i (k + 1)%Z e ltac:(lia) ltac:(lia) R2 ltac:(lia)) as (l & -> & K & C).
    exists ((i, (k + 1)%Z) :: l). split; [reflexivity|]. split; [apply kp_step; auto; injection; lia|]. intro c. split.
    + intros [<-|I]; [cbn; lia|]. apply C in I. lia.
    + intros [H1 H2]. destruct (Z.eq_dec (snd c) k) as [Ec|Nc]; [left; destruct c; cbn in *; subst; reflexivity|]. right. apply C. lia.
Qed.
Lemma up_strip_x : forall st n fuel j k e, e = (k + Z.of_nat n)%Z -> (0 <= k)%Z -> (e < two32)%Z -> (n < fuel)%nat ->
  exists l, up_strip (fun i => (i, j)) e fuel k = Visited l /\ kpath st k j e j l /\ forall c, In c ((k, j) :: l) <-> snd c = j /\ (k <= fst c <= e)%Z.
Proof.
  intro st. induction n as [|n IH]; intros fuel j k e E R1 R2 Fu; (destruct fuel as [|fuel]; [lia|]); cbn [up_strip].
  - assert (X : e = k) by lia. clear E. subst e. rewrite Z.eqb_refl. exists []. split; [reflexivity|]. split; [constructor|].
    intro c. split; [intros [<-|[]]; cbn; lia|]. destruct c as [c1 c2]; cbn. intros [-> Hc]. left. f_equal. lia.
  - destruct (Z.eqb_spec k e); [lia|]. unfold uint_succ. rewrite Z.mod_small by lia. destruct (IH fuel j (k + 1)%Z e ltac:(lia) ltac:(lia) R2 ltac:(lia)) as (l & -> & K & C).
    exists (((k + 1)%Z, j) :: l). split; [reflexivity|]. split; [apply kp_step; auto; injection; lia|]. intro c. split.
    + intros [<-|I]; [cbn; lia|]. apply C in I. lia.
    + intros [H1 H2]. destruct (Z.eq_dec (fst c) k) as [Ec|Nc]; [left; destruct c; cbn in *; subst; reflexivity|]. right. apply C. lia.
Qed.

Section Walk.
Variables xmin xmax ymin ymax w : Q.
Variable g : grid.
Hypothesis G : good_bounds xmin xmax ymin ymax w.
Hypothesis Eg : make_grid xmin xmax ymin ymax w = Some g.
Variables s t p q : pt.
Variables a b : Q.
Hypothesis Ha : 0 <= a.
Hypothesis Hab : a <= b.
Hypothesis Hb : b <= 1.
Hypothesis Ep : p =p= lerp s t a.
Hypothesis Eq : q =p= lerp s t b.
Hypothesis Hin : forall u, 0 <= u <= 1 -> (in_region xmin xmax ymin ymax (lerp s t u) <-> a <= u <= b).
Hypothesis Hlex : px s <= px t.

Lemma assemble_king : forall st i j e f l nx ny, (st = 1 \/ st = -1)%Z -> kpath st i j e f l ->
  in_cell xmin ymin w i j p -> in_cell xmin ymin w e f q ->
  (forall c, In c ((i, j) :: l) -> in_grid nx ny c /\ exists u, a <= u <= b /\ in_closed_cell xmin ymin w (fst c) (snd c) (lerp s t u)) ->
  (forall u, a <= u <= b -> exists c, In c ((i, j) :: l) /\ in_closed_cell xmin ymin w (fst c) (snd c) (lerp s t u)) ->
  good_king_walk xmin xmax ymin ymax w nx ny s t ((i, j) :: l).
Proof.
  intros st i j e f l nx ny S K Cp Cq T C. split; [|split; [|split; [|split; [|split]]]].
  - intros u Hu R. apply Hin in R; [|exact Hu]. exact (C u R).
  - intros c I. destruct (T c I) as (_ & u & Hu & W). exists u. split; [lra|]. split; [apply Hin; [lra|exact Hu]|exact W].
  - apply (kpath_king st i j e f l S K).
  - apply (kpath_nodup st i j e f l S K).
  - intros c I. apply T. exact I.
  - exists (i, j), (e, f), a, b. split; [split; [lra|split; [lra|exact Hin]]|]. split; [reflexivity|]. split; [apply (kpath_last st i j e f l K)|]. left.
    cbn [fst snd]. destruct Ep as [E1 E2], Eq as [E3 E4], Cp as [C1 C2], Cq as [C3 C4]. unfold in_cell. lra.
Qed.

Lemma grid_facts : g_xmin g = xmin /\ g_ymin g = ymin /\ g_width g = w /\ g_divisor g = 1 / w /\ (g_nx g < two32)%Z /\ (g_ny g < two32)%Z.
Proof.
  unfold make_grid in Eg. cbv zeta in Eg. destruct (to_uint32 ((xmax - xmin) * (1 / w))) as [n1|]; [|discriminate].
  destruct (to_uint32 ((ymax - ymin) * (1 / w))) as [n2|]; [|discriminate].
  assert (R : forall z, (z mod two32 < two32)%Z) by (intro z; apply Z.mod_pos_bound; reflexivity).
  injection Eg as <-. cbn. auto 10.
Qed.

(** The walk and the cells of its two ends. *)
Theorem corner_walk_ok : exists i j ie je, in_cell xmin ymin w i j p /\ in_cell xmin ymin w ie je q /\
  (0 <= i < g_nx g /\ 0 <= j < g_ny g /\ 0 <= ie < g_nx g /\ 0 <= je < g_ny g)%Z /\ (i <= ie)%Z /\
  ((i <> ie \/ j <= je)%Z -> forall fuel, (g_nx g + g_ny g + 2 < Z.of_nat fuel)%Z ->
     exists l, corner_walk direct fuel g s t p q = Visited l /\ good_king_walk xmin xmax ymin ymax w (g_nx g) (g_ny g) s t l) /\
  (i = ie -> (je < j)%Z -> forall fuel, corner_walk direct fuel g s t p q = visit (i, j) (up_strip (fun j => (i, j)) je fuel j)).
Proof.
  destruct (grid_lookup _ _ _ _ _ G) as (g' & E' & _ & L & _). assert (g' = g) by congruence. subst g'. clear E'.
  pose proof G as (Hw & _ & _ & Fx & Fy). destruct grid_facts as (G1 & G2 & G3 & GD & G4 & G5).
  assert (Rp : in_region xmin xmax ymin ymax p).
  { assert (R : in_region xmin xmax ymin ymax (lerp s t a)) by (apply Hin; lra). destruct Ep as [E1 E2]. destruct R as [R1 R2]. split; lra. }
  assert (Rq : in_region xmin xmax ymin ymax q).
  { assert (R : in_region xmin xmax ymin ymax (lerp s t b)) by (apply Hin; lra). destruct Eq as [E1 E2]. destruct R as [R1 R2]. split; lra. }
  destruct (L p Rp) as (i & j & I1 & I2 & I3 & I4 & I5). destruct (L q Rq) as (ie & je & J1 & J2 & J3 & J4 & J5).
  exists i, j, ie, je. split; [exact I5|]. split; [exact J5|]. split; [lia|].
  assert (Hpq : px p <= px q).
  { destruct Ep as [E1 _], Eq as [E2 _]. pose proof (lerp_x s t a). pose proof (lerp_x s t b). assert (0 <= (b - a) * (px t - px s)) by (apply Qmult_le_0_compat; lra). lra. }
  assert (Hie : (i <= ie)%Z).
  { destruct I5 as [[K1 _] _], J5 as [[_ K2] _]. apply inject_lt_inv. assert (0 < (inject_Z ie + 1 - inject_Z i) * w) by lra. assert (0 < inject_Z ie + 1 - inject_Z i) by (apply (pos_product w); lra). lra. }
  split; [exact Hie|].
  assert (Idx : forall fuel, corner_walk direct fuel g s t p q = visit (i, j)
      (if (i =? ie)%Z then if (j =? je)%Z then Visited [] else up_strip (fun j => (i, j)) je fuel j
       else if (j =? je)%Z then up_strip (fun i => (i, j)) ie fuel i
       else corner_loop direct g s t (Qgeb (get_scaled_grid_coordinate_y g (py q)) (get_scaled_grid_coordinate_y g (py p)))
              (get_scaled_grid_coordinate_x g (px q)) (get_scaled_grid_coordinate_y g (py q)) fuel i j (get_scaled_grid_coordinate_x g (px p)) (get_scaled_grid_coordinate_y g (py p)))).
  { intro fuel. unfold corner_walk. change (to_uint32 (get_scaled_grid_coordinate_x g (px p))) with (get_x_index g (px p)).
    change (to_uint32 (get_scaled_grid_coordinate_y g (py p))) with (get_y_index g (py p)).
    change (to_uint32 (get_scaled_grid_coordinate_x g (px q))) with (get_x_index g (px q)).
    change (to_uint32 (get_scaled_grid_coordinate_y g (py q))) with (get_y_index g (py q)).
    rewrite I1, I2, J1, J2. reflexivity. }
  split; [|intros -> Hj fuel; rewrite Idx, Z.eqb_refl; destruct (Z.eqb_spec j je); [lia|reflexivity]].
  intros Case fuel Fu. rewrite Idx. clear Idx.
  set (dx := px t - px s). set (dy := py t - py s). set (sx := px s). set (sy := py s).
  assert (LX : forall u, px (lerp s t u) == sx + u * dx) by (intro; apply lerp_x).
  assert (LY : forall u, py (lerp s t u) == sy + u * dy) by (intro; apply lerp_y).
  assert (AX : xmin + inject_Z i * w <= sx + a * dx < xmin + (inject_Z i + 1) * w).
  { destruct Ep as [E1 _]. rewrite LX in E1. destruct I5 as [C _]. lra. }
  assert (AY : ymin + inject_Z j * w <= sy + a * dy < ymin + (inject_Z j + 1) * w).
  { destruct Ep as [_ E1]. rewrite LY in E1. destruct I5 as [_ C]. lra. }
  assert (BX : xmin + inject_Z ie * w <= sx + b * dx < xmin + (inject_Z ie + 1) * w).
  { destruct Eq as [E1 _]. rewrite LX in E1. destruct J5 as [C _]. lra. }
  assert (BY : ymin + inject_Z je * w <= sy + b * dy < ymin + (inject_Z je + 1) * w).
  { destruct Eq as [_ E1]. rewrite LY in E1. destruct J5 as [_ C]. lra. }
  assert (CC : forall c d u, (xmin + inject_Z c * w <= sx + u * dx <= xmin + (inject_Z c + 1) * w) ->
                (ymin + inject_Z d * w <= sy + u * dy <= ymin + (inject_Z d + 1) * w) -> in_closed_cell xmin ymin w c d (lerp s t u)).
  { intros c d u C1 C2. unfold in_closed_cell. pose proof (LX u) as E1. pose proof (LY u) as E2. split; lra. }
  destruct (Z.eqb_spec i ie) as [Xi|Xi].
  - (* one column *)
    subst ie.
    assert (KX : forall u, a <= u <= b -> xmin + inject_Z i * w <= sx + u * dx <= xmin + (inject_Z i + 1) * w).
    { intros u Hu. destruct (between_cell xmin w sx dx a b u i i Hw Hu AX BX) as (c & C1 & C2). replace c with i in C2 by lia. lra. }
    destruct (up_strip_y (Z.to_nat (je - j)) fuel i j je ltac:(lia) ltac:(lia) ltac:(lia) ltac:(lia)) as (l & R & K & C).
    exists ((i, j) :: l). split.
    { destruct (Z.eqb_spec j je) as [Xj|Xj]; [|rewrite R; reflexivity]. subst je. destruct l as [|c l]; [reflexivity|].
      pose proof (kpath_monotone 1 i j i j (c :: l) ltac:(auto) K c ltac:(left; reflexivity)). assert (In c ((i, j) :: c :: l)) as Ic by (right; left; reflexivity). apply C in Ic. lia. }
    apply (assemble_king 1 i j i je); auto.
    + intros c I. apply C in I. destruct I as [F1 F2]. rewrite F1. split; [split; lia|].
      destruct (crosses_cell ymin w sy dy a b j je (snd c) Hw Hab AY BY ltac:(lia)) as (u & Hu & Cu). exists u. split; [exact Hu|]. apply CC; [apply KX; exact Hu|exact Cu].
    + intros u Hu. destruct (between_cell ymin w sy dy a b u j je Hw Hu AY BY) as (c & C1 & C2). exists (i, c). split; [apply C; cbn; lia|]. cbn [fst snd]. apply CC; [apply KX; exact Hu|lra].
  - destruct (Z.eqb_spec j je) as [Xj|Xj].
    + subst je.
      assert (KY : forall u, a <= u <= b -> ymin + inject_Z j * w <= sy + u * dy <= ymin + (inject_Z j + 1) * w).
      { intros u Hu. destruct (between_cell ymin w sy dy a b u j j Hw Hu AY BY) as (c & C1 & C2). replace c with j in C2 by lia. lra. }
      destruct (up_strip_x 1 (Z.to_nat (ie - i)) fuel j i ie ltac:(lia) ltac:(lia) ltac:(lia) ltac:(lia)) as (l & R & K & C).
      exists ((i, j) :: l). rewrite R. split; [reflexivity|]. apply (assemble_king 1 i j ie j); auto.
      * intros c I. apply C in I. destruct I as [F1 F2]. rewrite F1. split; [split; lia|].
        destruct (crosses_cell xmin w sx dx a b i ie (fst c) Hw Hab AX BX ltac:(lia)) as (u & Hu & Cu). exists u. split; [exact Hu|]. apply CC; [exact Cu|apply KY; exact Hu].
      * intros u Hu. destruct (between_cell xmin w sx dx a b u i ie Hw Hu AX BX) as (c & C1 & C2). exists (c, j). split; [apply C; cbn; lia|]. cbn [fst snd]. apply CC; [lra|apply KY; exact Hu].
    + (* sloped *)
      set (x1 := get_scaled_grid_coordinate_x g (px p)). set (y1 := get_scaled_grid_coordinate_y g (py p)). set (x2 := get_scaled_grid_coordinate_x g (px q)). set (y2 := get_scaled_grid_coordinate_y g (py q)).
      assert (X1 : xmin + x1 * w == sx + a * dx). { destruct Ep as [E1 _]. rewrite LX in E1. rewrite <- E1. unfold x1, get_scaled_grid_coordinate_x. rewrite G1, GD. field. lra. }
      assert (Y1 : ymin + y1 * w == sy + a * dy). { destruct Ep as [_ E1]. rewrite LY in E1. rewrite <- E1. unfold y1, get_scaled_grid_coordinate_y. rewrite G2, GD. field. lra. }
      assert (X2 : xmin + x2 * w == sx + b * dx). { destruct Eq as [E1 _]. rewrite LX in E1. rewrite <- E1. unfold x2, get_scaled_grid_coordinate_x. rewrite G1, GD. field. lra. }
      assert (Y2 : ymin + y2 * w == sy + b * dy). { destruct Eq as [_ E1]. rewrite LY in E1. rewrite <- E1. unfold y2, get_scaled_grid_coordinate_y. rewrite G2, GD. field. lra. }
      clearbody x1 y1 x2 y2.
      assert (Sc : forall lo k z v, lo + z * w == v -> lo + inject_Z k * w <= v < lo + (inject_Z k + 1) * w -> inject_Z k <= z < inject_Z k + 1).
      { intros lo k z v E H. assert (0 <= z - inject_Z k) by (apply (nonneg_product w); lra). assert (0 < inject_Z k + 1 - z) by (apply (pos_product w); lra). lra. }
      pose proof (Sc _ _ _ _ X1 AX) as Hx1. pose proof (Sc _ _ _ _ Y1 AY) as Hy1. pose proof (Sc _ _ _ _ X2 BX) as Hx2. pose proof (Sc _ _ _ _ Y2 BY) as Hy2.
      set (ex := x2 - x1). set (ey := y2 - y1).
      assert (Dx : 0 < ex). { assert (K := inject_lt1 i ie ltac:(lia)). unfold ex. lra. }
      assert (Lab : a < b). { destruct (Qlt_le_dec a b) as [?|La]; [assumption|exfalso]. assert (Eab : a == b) by lra. rewrite Eab in X1. assert (x1 * w == x2 * w) by lra. assert (0 < ex * w) by (apply Qmult_lt_0_compat; lra). unfold ex in *. lra. }
      assert (PX : forall u, xmin + (x1 + u * ex) * w == sx + (a + u * (b - a)) * dx). { intro u. unfold ex. setoid_replace (xmin + (x1 + u * (x2 - x1)) * w) with ((1 - u) * (xmin + x1 * w) + u * (xmin + x2 * w)) by ring. rewrite X1, X2. ring. }
      assert (PY : forall u, ymin + (y1 + u * ey) * w == sy + (a + u * (b - a)) * dy). { intro u. unfold ey. setoid_replace (ymin + (y1 + u * (y2 - y1)) * w) with ((1 - u) * (ymin + y1 * w) + u * (ymin + y2 * w)) by ring. rewrite Y1, Y2. ring. }
      assert (UC : forall c u, unit_cell c (x1 + u * ex) (y1 + u * ey) -> in_closed_cell xmin ymin w (fst c) (snd c) (lerp s t (a + u * (b - a)))).
      { intros c u [U1 U2]. apply CC; [rewrite <- PX|rewrite <- PY].
        - assert (0 <= (x1 + u * ex - inject_Z (fst c)) * w) by (apply Qmult_le_0_compat; lra). assert (0 <= (inject_Z (fst c) + 1 - (x1 + u * ex)) * w) by (apply Qmult_le_0_compat; lra). lra.
        - assert (0 <= (y1 + u * ey - inject_Z (snd c)) * w) by (apply Qmult_le_0_compat; lra). assert (0 <= (inject_Z (snd c) + 1 - (y1 + u * ey)) * w) by (apply Qmult_le_0_compat; lra). lra. }
      assert (Par : forall u, 0 <= u <= 1 -> a <= a + u * (b - a) <= b). { intros u Hu. assert (0 <= u * (b - a)) by (apply Qmult_le_0_compat; lra). assert (0 <= (1 - u) * (b - a)) by (apply Qmult_le_0_compat; lra). lra. }
      assert (Inv : forall v, a <= v <= b -> exists u, 0 <= u <= 1 /\ a + u * (b - a) == v).
      { intros v Hv. exists ((v - a) / (b - a)). assert (K : (v - a) / (b - a) * (b - a) == v - a) by (field; lra). split; [|rewrite K; ring].
        revert K. generalize ((v - a) / (b - a)). intros u K. assert (0 <= u) by (apply (nonneg_product (b - a)); lra). assert (0 <= 1 - u) by (apply (nonneg_product (b - a)); lra). lra. }
      assert (Sgn : forall A B : Z, (b - a) * cross (vsub t s) (vsub (mkpt (xmin + inject_Z A * w) (ymin + inject_Z B * w)) s) == w * w * F x1 y1 ex ey (inject_Z A) (inject_Z B)).
      { intros A B. unfold cross, vsub, F; cbn [px py]. fold dx dy sx sy.
        assert (K1 : (b - a) * dx == ex * w) by (pose proof (PX 1); unfold ex in *; lra). assert (K2 : (b - a) * dy == ey * w) by (pose proof (PY 1); unfold ey in *; lra).
        transitivity ((b - a) * dx * (ymin + inject_Z B * w - sy) - (b - a) * dy * (xmin + inject_Z A * w - sx)); [ring|]. rewrite K1, K2.
        assert (K3 : sy == ymin + y1 * w - a * dy) by lra. assert (K4 : sx == xmin + x1 * w - a * dx) by lra. rewrite K3, K4.
        assert (K5 : a * (ex * dy - ey * dx) == 0). { assert (K6 : (b - a) * dx * dy == ex * w * dy) by (rewrite K1; reflexivity). assert (K7 : (b - a) * dy * dx == ey * w * dx) by (rewrite K2; reflexivity).
          assert (K8 : w * (ex * dy - ey * dx) == 0) by lra. assert (K9 : ex * dy - ey * dx == 0) by (apply Qmult_integral in K8; destruct K8; [lra|assumption]). rewrite K9. ring. }
        transitivity (w * w * (ex * (inject_Z B - y1) - ey * (inject_Z A - x1)) + w * (a * (ex * dy - ey * dx))); [ring|rewrite K5; ring]. }
      assert (Pos : forall A B : Z, let cr := cross (vsub t s) (vsub (mkpt (xmin + inject_Z A * w) (ymin + inject_Z B * w)) s) in
        (0 < cr -> 0 < F x1 y1 ex ey (inject_Z A) (inject_Z B)) /\ (cr < 0 -> F x1 y1 ex ey (inject_Z A) (inject_Z B) < 0) /\ (cr == 0 -> F x1 y1 ex ey (inject_Z A) (inject_Z B) == 0)).
      { intros A B cr. pose proof (Sgn A B) as K. fold cr in K. assert (W : 0 < w * w) by (apply Qmult_lt_0_compat; lra). revert K. generalize (F x1 y1 ex ey (inject_Z A) (inject_Z B)). intros f K. split; [|split]; intro H.
        - apply (pos_product (w * w)); [exact W|]. rewrite <- K. apply Qmult_lt_0_compat; lra.
        - assert (0 < - f); [|lra]. apply (pos_product (w * w)); [exact W|]. assert (0 < (b - a) * - cr) by (apply Qmult_lt_0_compat; lra). lra.
        - rewrite H in K. assert (K' : w * w * f == 0) by lra. apply Qmult_integral in K'. destruct K'; [lra|assumption]. }
      assert (FE : forall A B A' B', A == A' -> B == B' -> F x1 y1 ex ey A B == F x1 y1 ex ey A' B') by (intros A B A' B' Q1 Q2; unfold F; rewrite Q1, Q2; reflexivity).
      assert (C2 : forall i' j', (0 <= i' <= ie)%Z -> (0 <= j' < g_ny g)%Z -> get_cell_corner2 g i' j' = mkpt (xmin + inject_Z (i' + 1) * w) (ymin + inject_Z (j' + 1) * w)).
      { intros i' j' R1 R2. unfold get_cell_corner2, uint_succ. rewrite G1, G2, G3, !Z.mod_small by lia. reflexivity. }
      assert (C1 : forall i' j', (0 <= i' <= ie)%Z -> get_cell_corner1 g i' j' = mkpt (xmin + inject_Z (i' + 1) * w) (ymin + inject_Z j' * w)).
      { intros i' j' R1. unfold get_cell_corner1, uint_succ. rewrite G1, G2, G3, !Z.mod_small by lia. reflexivity. }
      destruct (Z.lt_ge_cases j je) as [Lj|Lj].
      * assert (Up : Qgeb y2 y1 = true). { assert (K := inject_lt1 j je Lj). destruct (Qgeb_spec y2 y1); [reflexivity|lra]. }
        assert (Dy : 0 < ey). { assert (K := inject_lt1 j je Lj). unfold ey. lra. }
        rewrite Up.
        destruct (up_loop g s t x1 y1 x2 y2 ex ey i j ie je ltac:(reflexivity) ltac:(reflexivity) Dx Hy1 Hx2 Hy2 ltac:(lia) Dy ltac:(lia)) with (fuel := fuel) (i := i) (j := j) (x := x1) (y := y1) as (l & R & K & C & V).
        { intros i' j' R1 R2. unfold corner_side. rewrite C2 by lia. destruct (orientation_direct s t (mkpt (xmin + inject_Z (i' + 1) * w) (ymin + inject_Z (j' + 1) * w))) as (O1 & O2 & O3).
          destruct (Pos (i' + 1)%Z (j' + 1)%Z) as (P1 & P2 & P3). pose proof (FE _ _ _ _ (inject_succ i') (inject_succ j')) as E.
          destruct (get_orientation direct s t _) eqn:Eo; rewrite <- E; [apply P2, O2|apply P3, O3|apply P1, O1]; reflexivity. }
        { unfold pos. assert (K := inject_lt1 i ie ltac:(lia)). assert (K' := inject_lt1 j je Lj). repeat split; try lia; lra. }
        { unfold touched_up. split; [lia|]. split; [lia|]. unfold F. split.
          - assert (0 <= ex * (inject_Z j + 1 - y1)) by (apply Qmult_le_0_compat; lra). assert (0 <= ey * (x1 - inject_Z i)) by (apply Qmult_le_0_compat; lra). lra.
          - assert (0 <= ex * (y1 - inject_Z j)) by (apply Qmult_le_0_compat; lra). assert (0 <= ey * (inject_Z i + 1 - x1)) by (apply Qmult_le_0_compat; lra). lra. }
        { lia. }
        exists ((i, j) :: l). rewrite R. split; [reflexivity|]. apply (assemble_king 1 i j ie je); auto.
        -- intros c [<-|I].
           ++ split; [unfold in_grid; cbn [fst snd]; lia|]. cbn [fst snd]. exists a. split; [lra|]. apply CC; lra.
           ++ pose proof (C c I) as T. destruct (up_point x1 y1 x2 y2 ex ey i j ie je ltac:(reflexivity) ltac:(reflexivity) Dx Hx1 Hy1 Hx2 Hy2 Dy _ _ T) as (u & Hu & U).
              split; [destruct T as (T1 & T2 & _); split; lia|]. exists (a + u * (b - a)). split; [apply Par; exact Hu|]. exact (UC (fst c, snd c) u U).
        -- intros v Hv. destruct (Inv v Hv) as (u & Hu & Ev). destruct (V u Hu) as (c & I & U).
           ++ assert (0 <= u * ex) by (apply Qmult_le_0_compat; lra). lra.
           ++ assert (0 <= u * ey) by (apply Qmult_le_0_compat; lra). lra.
           ++ exists c. split; [exact I|]. pose proof (UC c u U) as W. unfold in_closed_cell in W. rewrite !LX, !LY in W. rewrite Ev in W. apply CC; tauto.
      * assert (Up : Qgeb y2 y1 = false). { assert (K := inject_lt1 je j ltac:(lia)). destruct (Qgeb_spec y2 y1); [lra|reflexivity]. }
        assert (Dy : ey < 0). { assert (K := inject_lt1 je j ltac:(lia)). unfold ey. lra. }
        rewrite Up.
        destruct (down_loop g s t x1 y1 x2 y2 ex ey i j ie je ltac:(reflexivity) ltac:(reflexivity) Dx Hy1 Hx2 Hy2 ltac:(lia) Dy ltac:(lia)) with (fuel := fuel) (i := i) (j := j) (x := x1) (y := y1) as (l & R & K & C & V).
        { intros i' j' R1 R2. unfold corner_side. rewrite C1 by lia. destruct (orientation_direct s t (mkpt (xmin + inject_Z (i' + 1) * w) (ymin + inject_Z j' * w))) as (O1 & O2 & O3).
          destruct (Pos (i' + 1)%Z j') as (P1 & P2 & P3). pose proof (FE _ _ _ _ (inject_succ i') (Qeq_refl (inject_Z j'))) as E.
          destruct (get_orientation direct s t _) eqn:Eo; rewrite <- E; [apply P2, O2|apply P3, O3|apply P1, O1]; reflexivity. }
        { unfold pos. assert (K := inject_lt1 i ie ltac:(lia)). assert (K' := inject_lt1 je j ltac:(lia)). repeat split; try lia; lra. }
        { unfold touched_down. split; [lia|]. split; [lia|]. unfold F. split.
          - assert (0 <= ex * (y1 - inject_Z j)) by (apply Qmult_le_0_compat; lra). assert (0 <= - ey * (x1 - inject_Z i)) by (apply Qmult_le_0_compat; lra). lra.
          - assert (0 <= ex * (inject_Z j + 1 - y1)) by (apply Qmult_le_0_compat; lra). assert (0 <= - ey * (inject_Z i + 1 - x1)) by (apply Qmult_le_0_compat; lra). lra. }
        { lia. }
        exists ((i, j) :: l). rewrite R. split; [reflexivity|]. apply (assemble_king (-1) i j ie je); auto.
        -- intros c [<-|I].
           ++ split; [unfold in_grid; cbn [fst snd]; lia|]. cbn [fst snd]. exists a. split; [lra|]. apply CC; lra.
           ++ pose proof (C c I) as T. destruct (down_point x1 y1 x2 y2 ex ey i j ie je ltac:(reflexivity) ltac:(reflexivity) Dx Hx1 Hy1 Hx2 Hy2 Dy _ _ T) as (u & Hu & U).
              split; [destruct T as (T1 & T2 & _); split; lia|]. exists (a + u * (b - a)). split; [apply Par; exact Hu|]. exact (UC (fst c, snd c) u U).
        -- intros v Hv. destruct (Inv v Hv) as (u & Hu & Ev). destruct (V u Hu) as (c & I & U).
           ++ assert (0 <= u * ex) by (apply Qmult_le_0_compat; lra). lra.
           ++ assert (0 <= u * - ey) by (apply Qmult_le_0_compat; lra). lra.
           ++ exists c. split; [exact I|]. pose proof (UC c u U) as W. unfold in_closed_cell in W. rewrite !LX, !LY in W. rewrite Ev in W. apply CC; tauto.
Qed.
End Walk.

(** ** Walking with wrap-around *)
Lemma up_strip_wraps : forall mk e fuel k, (0 <= k < two32)%Z -> (0 <= e < two32)%Z ->
  ((Z.of_nat fuel <= (e - k) mod two32)%Z -> up_strip mk e fuel k = TravNoFuel) /\
  (((e - k) mod two32 < Z.of_nat fuel)%Z -> exists l, up_strip mk e fuel k = Visited l /\ Z.of_nat (length l) = ((e - k) mod two32)%Z /\
     forall m, (e < k < m)%Z -> (m < two32)%Z -> In (mk m) l).
Proof.
  intros mk e fuel. induction fuel as [|fuel IH]; intros k Hk He.
  - split; intro H; [reflexivity|]. pose proof (Z.mod_pos_bound (e - k) two32 eq_refl). lia.
  - cbn [up_strip]. destruct (Z.eqb_spec k e) as [->|N].
    + rewrite Z.sub_diag, Z.mod_0_l by discriminate. split; intro H; [lia|]. exists []. split; [reflexivity|]. split; [reflexivity|]. intros m Hm; lia.
    + assert (Hk' : (0 <= uint_succ k < two32)%Z) by (unfold uint_succ; apply Z.mod_pos_bound; reflexivity).
      assert (Em : ((e - uint_succ k) mod two32 = (e - k) mod two32 - 1)%Z).
      { unfold uint_succ. rewrite Zminus_mod_idemp_r. replace (e - (k + 1))%Z with (e - k - 1)%Z by lia.
        destruct (Z.lt_ge_cases e k) as [L|L].
        - replace (e - k)%Z with (e - k + two32 + -1 * two32)%Z at 2 by lia. rewrite Z.mod_add by discriminate. replace (e - k - 1)%Z with (e - k - 1 + two32 + -1 * two32)%Z by lia. rewrite Z.mod_add by discriminate. rewrite !Z.mod_small by lia. lia.
        - rewrite !Z.mod_small by lia. lia. }
      destruct (IH (uint_succ k) Hk' He) as [I1 I2]. split; intro H.
      * rewrite I1 by lia. reflexivity.
      * destruct I2 as (l & R & Ln & M); [lia|]. exists (mk (uint_succ k) :: l). rewrite R. split; [reflexivity|]. split; [cbn [length]; lia|].
        intros m Hm Hm2. assert (Es : uint_succ k = (k + 1)%Z) by (unfold uint_succ; apply Z.mod_small; lia).
        destruct (Z.eq_dec m (k + 1)) as [->|Nm]; [left; rewrite Es; reflexivity|]. right. apply M; lia.
Qed.

(** ** The walk on a segment given from left to right *)
Definition ordered_walk (cmp : policy) (fuel : nat) (g : grid) (s t : pt) : trav key :=
  if Qltb (px s) (g_xmin g) || Qgtb (px s) (g_xmax g) || Qltb (py s) (g_ymin g) || Qgtb (py s) (g_ymax g) ||
     Qltb (px t) (g_xmin g) || Qgtb (px t) (g_xmax g) || Qltb (py t) (g_ymin g) || Qgtb (py t) (g_ymax g)
  then
    match cohen_sutherland_line_clip cmp fuel s t (mkbox2 (mkpt (g_xmin g) (g_ymin g)) (mkpt (g_xmax g) (g_ymax g))) with
    | Clipped p q => corner_walk cmp fuel g s t p q
    | Rejected => Visited []
    | ClipUndefined => Overflow
    | ClipNoFuel => TravNoFuel
    end
  else corner_walk cmp fuel g s t s t.

Definition walk_result (xmin xmax ymin ymax w : Q) (g : grid) (s t : pt) (fuel : nat) (r : trav key) : Prop :=
  (~ reaches xmin xmax ymin ymax s t -> r = Visited []) /\
  (reaches xmin xmax ymin ymax s t -> exists a b i j ie je, inside_part xmin xmax ymin ymax s t a b /\
     in_cell xmin ymin w i j (lerp s t a) /\ in_cell xmin ymin w ie je (lerp s t b) /\
     (0 <= i < g_nx g /\ 0 <= j < g_ny g /\ 0 <= ie < g_nx g /\ 0 <= je < g_ny g)%Z /\ (i <= ie)%Z /\
     ((i <> ie \/ j <= je)%Z -> exists l, r = Visited l /\ good_king_walk xmin xmax ymin ymax w (g_nx g) (g_ny g) s t l) /\
     (i = ie -> (je < j)%Z -> r = visit (i, j) (up_strip (fun j => (i, j)) je fuel j))).

Lemma ordered_ok : forall xmin xmax ymin ymax w g s t fuel,
  good_bounds xmin xmax ymin ymax w -> make_grid xmin xmax ymin ymax w = Some g ->
  (g_nx g + g_ny g + 4 < Z.of_nat fuel)%Z -> px s <= px t ->
  walk_result xmin xmax ymin ymax w g s t fuel (ordered_walk direct fuel g s t).
Proof.
  intros xmin xmax ymin ymax w g s t fuel G Eg F Hlex.
  assert (Gg : g_xmin g = xmin /\ g_xmax g = xmax /\ g_ymin g = ymin /\ g_ymax g = ymax /\ (0 <= g_nx g)%Z /\ (0 <= g_ny g)%Z).
  { unfold make_grid in Eg. cbv zeta in Eg. destruct (to_uint32 ((xmax - xmin) * (1 / w))) as [n1|]; [|discriminate].
    destruct (to_uint32 ((ymax - ymin) * (1 / w))) as [n2|]; [|discriminate].
    assert (R : forall z, (0 <= z mod two32)%Z) by (intro z; apply Z.mod_pos_bound; reflexivity).
    injection Eg as <-. cbn. auto 10. }
  destruct Gg as (G1 & G2 & G3 & G4 & N1 & N2). unfold ordered_walk. rewrite G1, G2, G3, G4.
  assert (Main : forall p q a b, 0 <= a -> a <= b -> b <= 1 -> p =p= lerp s t a -> q =p= lerp s t b ->
     (forall u, 0 <= u <= 1 -> (in_region xmin xmax ymin ymax (lerp s t u) <-> a <= u <= b)) ->
     walk_result xmin xmax ymin ymax w g s t fuel (corner_walk direct fuel g s t p q)).
  { intros p q a b Ha Hab Hb Ep Eq H. destruct (corner_walk_ok xmin xmax ymin ymax w g G Eg s t p q a b Ha Hab Hb Ep Eq H Hlex) as (i & j & ie & je & C1 & C2 & Rg & Le & Good & Bad).
    split; [intro N; exfalso; apply N; exists a; split; [lra|apply H; lra]|]. intros _. exists a, b, i, j, ie, je.
    split; [split; [lra|split; [lra|exact H]]|].
    split; [destruct Ep as [E1 E2]; destruct C1; unfold in_cell; lra|].
    split; [destruct Eq as [E1 E2]; destruct C2; unfold in_cell; lra|].
    split; [exact Rg|]. split; [exact Le|]. split; [intro Cs; apply Good; [exact Cs|lia]|]. intros X Y. apply Bad; assumption. }
  match goal with |- context [if ?c then _ else _] => destruct c eqn:Out end.
  - set (bx := mkbox2 (mkpt xmin ymin) (mkpt xmax ymax)).
    assert (Wb : window bx) by (destruct G as (_ & H1 & H2 & _); split; cbn; lra).
    assert (IR : forall p, in2 bx p <-> in_region xmin xmax ymin ymax p) by (intro p; unfold in2, in_region; cbn; tauto).
    pose proof (clip_exact s t bx fuel Wb ltac:(lia)) as C.
    destruct (cohen_sutherland_line_clip direct fuel s t bx) as [p q| | |]; try contradiction.
    + destruct C as (a & b & Ha & Hab & Hb & Ep & Eq & H). apply (Main p q a b Ha Hab Hb Ep Eq). intros u Hu. rewrite <- IR. apply H. exact Hu.
    + split; [reflexivity|]. intros (u & Hu & I). exfalso. apply (C u Hu). apply IR. exact I.
  - unfold Qgtb in Out. repeat (apply orb_false_iff in Out; destruct Out as [Out ?]).
    repeat match goal with H : Qltb _ _ = false |- _ => apply not_true_iff_false in H; rewrite Qltb_lt in H end.
    assert (Rs : in_region xmin xmax ymin ymax s) by (split; split; apply Qnot_lt_le; assumption).
    assert (Rt : in_region xmin xmax ymin ymax t) by (split; split; apply Qnot_lt_le; assumption).
    apply (Main s t 0 1 ltac:(lra) ltac:(lra) ltac:(lra) (lerp_0 s t) (lerp_1 s t)).
    intros u Hu. split; [intros _; exact Hu|]. intros _. apply region_convex; assumption.
Qed.

(** ** The same segment from its other end *)
Lemma lerp_swap : forall s t u v, v == 1 - u -> lerp t s u =p= lerp s t v.
Proof. intros s t u v E. split; [rewrite !lerp_x|rewrite !lerp_y]; rewrite E; ring. Qed.
Section Swap.
Variables xmin xmax ymin ymax w : Q.
Lemma region_eq : forall p q, p =p= q -> in_region xmin xmax ymin ymax p -> in_region xmin xmax ymin ymax q.
Proof. intros p q [E1 E2] [H1 H2]. split; lra. Qed.
Lemma closed_eq : forall i j p q, p =p= q -> in_closed_cell xmin ymin w i j p -> in_closed_cell xmin ymin w i j q.
Proof. intros i j p q [E1 E2] [H1 H2]. split; lra. Qed.
Lemma cell_eq : forall i j p q, p =p= q -> in_cell xmin ymin w i j p -> in_cell xmin ymin w i j q.
Proof. intros i j p q [E1 E2] [H1 H2]. split; lra. Qed.
Lemma reaches_swap : forall s t, reaches xmin xmax ymin ymax s t -> reaches xmin xmax ymin ymax t s.
Proof. intros s t (u & Hu & R). exists (1 - u). split; [lra|]. apply (region_eq (lerp s t u)); [apply lerp_swap; ring|exact R]. Qed.
Lemma inside_swap : forall s t a b, inside_part xmin xmax ymin ymax s t a b -> inside_part xmin xmax ymin ymax t s (1 - b) (1 - a).
Proof.
  intros s t a b (H1 & H2 & H). split; [lra|]. split; [lra|]. intros u Hu. assert (X : in_region xmin xmax ymin ymax (lerp s t (1 - u)) <-> a <= 1 - u <= b) by (apply H; lra).
  split; intro Y.
  - assert (a <= 1 - u <= b) by (apply X; apply (region_eq (lerp t s u)); [apply lerp_swap; ring|exact Y]). lra.
  - apply (region_eq (lerp s t (1 - u))); [apply lerp_swap; ring|]. apply X. lra.
Qed.
Lemma walk_swap : forall s t nx ny l, good_king_walk xmin xmax ymin ymax w nx ny s t l -> good_king_walk xmin xmax ymin ymax w nx ny t s l.
Proof.
  intros s t nx ny l (C & T & K & N & I & J). split; [|split; [|split; [exact K|split; [exact N|split; [exact I|]]]]].
  - intros u Hu R. destruct (C (1 - u) ltac:(lra)) as (c & Ic & Cc); [apply (region_eq (lerp t s u)); [apply lerp_swap; ring|exact R]|].
    exists c. split; [exact Ic|]. apply (closed_eq _ _ (lerp s t (1 - u))); [apply lerp_swap; ring|exact Cc].
  - intros c Ic. destruct (T c Ic) as (u & Hu & R & Cc). exists (1 - u). split; [lra|]. split; [apply (region_eq (lerp s t u)); [apply lerp_swap; ring|exact R]|].
    apply (closed_eq _ _ (lerp s t u)); [apply lerp_swap; ring|exact Cc].
  - destruct J as (c & c' & u0 & u1 & P & N1 & N2 & E). exists c, c', (1 - u1), (1 - u0). split; [apply inside_swap; exact P|]. split; [exact N1|]. split; [exact N2|].
    destruct E as [[E1 E2]|[E1 E2]]; [right|left]; (split; eapply cell_eq; try eassumption; apply lerp_swap; ring).
Qed.
Lemma falls_swap : forall s t, falls_in_column xmin xmax ymin ymax w s t -> falls_in_column xmin xmax ymin ymax w t s.
Proof.
  intros s t (i & j & j' & u0 & u1 & P & C1 & C2 & D). exists i, j', j, (1 - u1), (1 - u0). split; [apply inside_swap; exact P|].
  split; [eapply cell_eq; [|exact C2]; apply lerp_swap; ring|]. split; [eapply cell_eq; [|exact C1]; apply lerp_swap; ring|].
  destruct (lerp_swap s t (1 - u0) u0 ltac:(ring)) as [E0 _]. destruct (lerp_swap s t (1 - u1) u1 ltac:(ring)) as [E1 _]. destruct D as [[D1 D2]|[D1 D2]]; [right|left]; (split; [lra|lia]).
Qed.
End Swap.

Lemma inside_unique : forall xmin xmax ymin ymax s t a b a' b', inside_part xmin xmax ymin ymax s t a b -> inside_part xmin xmax ymin ymax s t a' b' -> a == a' /\ b == b'.
Proof.
  intros xmin xmax ymin ymax s t a b a' b' (H1 & H2 & H) (H1' & H2' & H').
  assert (X : forall u, 0 <= u <= 1 -> (a <= u <= b <-> a' <= u <= b')) by (intros u Hu; rewrite <- H, <- H' by exact Hu; tauto).
  pose proof (proj1 (X a ltac:(lra)) ltac:(lra)). pose proof (proj1 (X b ltac:(lra)) ltac:(lra)). pose proof (proj2 (X a' ltac:(lra)) ltac:(lra)). pose proof (proj2 (X b' ltac:(lra)) ltac:(lra)). lra.
Qed.
Lemma one_cell : forall xmin ymin w i j i' j' p, 0 < w -> in_cell xmin ymin w i j p -> in_cell xmin ymin w i' j' p -> i = i' /\ j = j'.
Proof.
  intros xmin ymin w i j i' j' p W [A1 A2] [B1 B2].
  assert (K : forall lo k k' x, lo + inject_Z k * w <= x < lo + (inject_Z k + 1) * w -> lo + inject_Z k' * w <= x < lo + (inject_Z k' + 1) * w -> (k <= k')%Z).
  { intros lo k k' x H1 H2. apply inject_lt_inv. assert (0 < inject_Z k' + 1 - inject_Z k) by (apply (pos_product w); lra). lra. }
  split; apply Z.le_antisymm; eapply K; eassumption.
Qed.

(** What is known of the walk in terms of the segment as given. *)
Definition full_result (xmin xmax ymin ymax w : Q) (g : grid) (s t : pt) (fuel : nat) (r : trav key) : Prop :=
  (~ reaches xmin xmax ymin ymax s t -> r = Visited []) /\
  (reaches xmin xmax ymin ymax s t -> ~ falls_in_column xmin xmax ymin ymax w s t ->
     exists l, r = Visited l /\ good_king_walk xmin xmax ymin ymax w (g_nx g) (g_ny g) s t l) /\
  (falls_in_column xmin xmax ymin ymax w s t -> exists i j je, (0 <= i < g_nx g /\ 0 <= j < g_ny g /\ 0 <= je < j)%Z /\
     r = visit (i, j) (up_strip (fun j => (i, j)) je fuel j)).
Lemma walk_full : forall xmin xmax ymin ymax w g s t fuel r, 0 < w -> px s <= px t -> (px s == px t -> py s <= py t) ->
  walk_result xmin xmax ymin ymax w g s t fuel r -> full_result xmin xmax ymin ymax w g s t fuel r.
Proof.
  intros xmin xmax ymin ymax w g s t fuel r W L1 L2 (R0 & R1). split; [exact R0|]. split.
  - intros Re NF. destruct (R1 Re) as (a & b & i & j & ie & je & P & C1 & C2 & Rg & Le & Good & _). apply Good.
    destruct (Z.eq_dec i ie) as [->|N]; [|left; exact N]. right. destruct (Z.le_gt_cases j je) as [?|Lj]; [assumption|exfalso].
    apply NF. exists ie, j, je, a, b. split; [exact P|]. split; [exact C1|]. split; [exact C2|]. left. split; [|lia].
    pose proof P as (P1 & P2 & _). rewrite !lerp_x. destruct (Qlt_le_dec 0 ((b - a) * (px t - px s))) as [K|K]; [lra|exfalso].
    (* a falling part has a < b, so the segment would be vertical, and then it rises *)
    destruct C1 as [_ Y1], C2 as [_ Y2]. rewrite lerp_y in Y1, Y2. pose proof (inject_lt1 je j Lj) as I.
    assert (D : (b - a) * (py t - py s) < 0). { assert (0 <= (inject_Z j - inject_Z je - 1) * w) by (apply Qmult_le_0_compat; lra). lra. }
    assert (Hab : a < b). { destruct (Qlt_le_dec a b); [assumption|]. exfalso. assert (E : b - a == 0) by lra. rewrite E in D. lra. }
    assert (E : px s == px t). { destruct (Qlt_le_dec (px s) (px t)) as [L|L]; [|lra]. assert (0 < (b - a) * (px t - px s)) by (apply Qmult_lt_0_compat; lra). lra. }
    specialize (L2 E). assert (0 <= (b - a) * (py t - py s)) by (apply Qmult_le_0_compat; lra). lra.
  - intros (i & j & j' & u0 & u1 & P & C1 & C2 & D). assert (Re : reaches xmin xmax ymin ymax s t). { destruct P as (P1 & P2 & P3). exists u0. split; [lra|]. apply P3; lra. }
    destruct (R1 Re) as (a & b & i0 & j0 & ie & je & P' & C1' & C2' & Rg & Le & _ & Bad). destruct (inside_unique _ _ _ _ _ _ _ _ _ _ P P') as [E0 E1].
    assert (X1 : lerp s t u0 =p= lerp s t a) by (split; [rewrite !lerp_x|rewrite !lerp_y]; rewrite E0; reflexivity).
    assert (X2 : lerp s t u1 =p= lerp s t b) by (split; [rewrite !lerp_x|rewrite !lerp_y]; rewrite E1; reflexivity).
    apply (cell_eq _ _ _ _ _ _ _ X1) in C1. apply (cell_eq _ _ _ _ _ _ _ X2) in C2.
    destruct (one_cell _ _ _ _ _ _ _ _ W C1 C1') as [-> ->]. destruct (one_cell _ _ _ _ _ _ _ _ W C2 C2') as [-> ->].
    destruct D as [[_ D]|[D _]].
    + exists ie, j0, je. split; [lia|]. apply Bad; [reflexivity|exact D].
    + exfalso. rewrite !lerp_x in D. destruct P as (P1 & P2 & _). assert (0 <= (u1 - u0) * (px t - px s)) by (apply Qmult_le_0_compat; lra). lra.
Qed.

Theorem owalk_ok : forall xmin xmax ymin ymax w g s t fuel,
  good_bounds xmin xmax ymin ymax w -> make_grid xmin xmax ymin ymax w = Some g ->
  (g_nx g + g_ny g + 4 < Z.of_nat fuel)%Z ->
  full_result xmin xmax ymin ymax w g s t fuel (orientation_segment_traversal direct fuel g s t).
Proof.
  intros xmin xmax ymin ymax w g s t fuel G Eg F. pose proof G as (W & _). unfold orientation_segment_traversal.
  destruct (lexicographical direct [px s; py s] [px t; py t]) eqn:Lx; cbn in Lx.
  - fold (ordered_walk direct fuel g s t). apply walk_full; [exact W| | |apply ordered_ok; try assumption].
    + destruct (Qltb_spec (px s) (px t)); [lra|]. destruct (Qeqb_spec (px s) (px t)); [lra|discriminate].
    + intro E. destruct (Qltb_spec (px s) (px t)); [lra|]. destruct (Qeqb_spec (px s) (px t)); [|discriminate]. destruct (Qltb_spec (py s) (py t)); [lra|]. destruct (Qeqb_spec (py s) (py t)); discriminate.
    + destruct (Qltb_spec (px s) (px t)); [lra|]. destruct (Qeqb_spec (px s) (px t)); [lra|discriminate].
  - fold (ordered_walk direct fuel g t s).
    assert (L1 : px t <= px s) by (destruct (Qltb_spec (px s) (px t)); [discriminate|lra]).
    assert (L2 : px t == px s -> py t <= py s). { intro E. destruct (Qltb_spec (px s) (px t)); [discriminate|]. destruct (Qeqb_spec (px s) (px t)); [|lra]. destruct (Qltb_spec (py s) (py t)); [discriminate|lra]. }
    destruct (walk_full xmin xmax ymin ymax w g t s fuel _ W L1 L2 (ordered_ok xmin xmax ymin ymax w g t s fuel G Eg F L1)) as (R0 & R1 & R2).
    split; [intro N; apply R0; intro Re; apply N, reaches_swap, Re|]. split.
    + intros Re NF. destruct R1 as (l & E & Gw); [apply reaches_swap, Re|intro Fa; apply NF, falls_swap, Fa|]. exists l. split; [exact E|]. apply walk_swap, Gw.
    + intro Fa. apply R2, falls_swap, Fa.
Qed.
