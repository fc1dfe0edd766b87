(** A chain of points that winds around a point once has everything to its left in its hull. *)
From Verif Require Import Base OrientSpec OrientProof PolygonModel PolygonSpec PolygonProof PolygonConvexProof CvxSpec CvxProof CvxProof4 PfillProof3.

(** ** Four points of the plane: three suffice *)
Lemma release : forall l : list (Q * Q), Forall (fun p => 0 <= fst p) l -> Exists (fun p => 0 < snd p) l ->
  exists t, 0 <= t /\ Forall (fun p => 0 <= fst p - t * snd p) l /\ Exists (fun p => fst p - t * snd p == 0) l.
Proof.
  induction l as [|[w a] l IH]; intros F E; [inversion E|].
  apply Forall_cons_iff in F as [F1 F]. cbn [fst] in F1.
  assert (D : Exists (fun p => 0 < snd p) l \/ Forall (fun p => snd p <= 0) l).
  { clear. induction l as [|[v b] l [IH|IH]]; [right; constructor|left; right; exact IH|].
    destruct (Qlt_le_dec 0 b) as [K|K]; [left; left; exact K|right; constructor; assumption]. }
  assert (G : forall t, 0 <= t -> Forall (fun p : Q * Q => snd p <= 0) l -> Forall (fun p => 0 <= fst p - t * snd p) l).
  { intros t Ht N. rewrite Forall_forall in *. intros p Hp. specialize (N p Hp). specialize (F p Hp). cbn beta in *.
    assert (0 <= t * - snd p) by (apply Qmult_le_0_compat; lra). lra. }
  destruct D as [D|D].
  - destruct (IH F D) as (t & Ht & A & B). destruct (Qlt_le_dec (w - t * a) 0) as [K|K].
    + assert (Pa : 0 < a) by (destruct (Qlt_le_dec 0 a) as [P|P]; [exact P|]; assert (0 <= t * - a) by (apply Qmult_le_0_compat; lra); lra).
      exists (w / a). assert (EW : w / a * a == w) by (field; lra).
      assert (W0 : 0 <= w / a) by (apply Qle_shift_div_l; lra). assert (WT : w / a <= t) by (apply Qle_shift_div_r; lra).
      split; [exact W0|]. split; [constructor; [cbn [fst snd]; lra|]|left; cbn [fst snd]; lra].
      rewrite Forall_forall in *. intros [v b] Hp. specialize (A _ Hp). specialize (F _ Hp). cbn [fst snd] in *.
      destruct (Qlt_le_dec 0 b) as [P|P].
      * assert (0 <= (t - w / a) * b) by (apply Qmult_le_0_compat; lra). lra.
      * assert (0 <= w / a * - b) by (apply Qmult_le_0_compat; lra). lra.
    + exists t. split; [exact Ht|]. split; [constructor; assumption|right; exact B].
  - assert (Pa : 0 < a).
    { inversion E as [p l' H|p l' H]; subst; [exact H|]. exfalso. rewrite Exists_exists in H. destruct H as (p & Hp & H). rewrite Forall_forall in D. specialize (D p Hp). cbn beta in D. lra. }
    exists (w / a). assert (EW : w / a * a == w) by (field; lra). assert (W0 : 0 <= w / a) by (apply Qle_shift_div_l; lra).
    split; [exact W0|]. split; [constructor; [cbn [fst snd]; lra|apply G; assumption]|left; cbn [fst snd]; lra].
Qed.
Definition comb4 (A B C D : pt) (a b c d : Q) : pt := mkpt (a * px A + b * px B + c * px C + d * px D) (a * py A + b * py B + c * py C + d * py D).
Lemma dependent : forall A B C D, exists a b c d, a + b + c + d == 0 /\ comb4 A B C D a b c d =p= mkpt 0 0 /\ (0 < a \/ 0 < b \/ 0 < c \/ 0 < d).
Proof.
  intros A B C D. destruct (Qeq_dec (tri2 A B C) 0) as [Z|Z].
  - destruct (Qeq_dec (px B) (px A)) as [E1|E1].
    + destruct (Qeq_dec (py B) (py A)) as [E2|E2].
      * exists 1, (-1), 0, 0. split; [ring|]. split; [|left; lra]. split; unfold comb4; cbn [px py]; [rewrite E1|rewrite E2]; ring.
      * set (s := (py C - py A) / (py B - py A)). assert (S : s * (py B - py A) == py C - py A) by (unfold s; field; lra).
        assert (X : px C == px A) by (unfold tri2, cross, vsub in Z; cbn [px py] in Z; rewrite E1 in Z; nra).
        exists (s - 1), (- s), 1, 0. split; [ring|]. split; [|right; right; left; lra]. split; unfold comb4; cbn [px py]; [rewrite E1, X; ring|lra].
    + set (s := (px C - px A) / (px B - px A)). assert (S : s * (px B - px A) == px C - px A) by (unfold s; field; lra).
      assert (Y : s * (py B - py A) == py C - py A).
      { apply (Qmult_inj_l _ _ (px B - px A)); [lra|]. unfold tri2, cross, vsub in Z; cbn [px py] in Z.
        setoid_replace ((px B - px A) * (s * (py B - py A))) with ((s * (px B - px A)) * (py B - py A)) by ring. rewrite S. lra. }
      exists (s - 1), (- s), 1, 0. split; [ring|]. split; [|right; right; left; lra]. split; unfold comb4; cbn [px py]; lra.
  - exists (- (tri2 B C D / tri2 A B C)), (- (tri2 C A D / tri2 A B C)), (- (tri2 A B D / tri2 A B C)), 1.
    split; [|split; [split|right; right; right; lra]]; unfold comb4; cbn [px py]; unfold tri2, cross, vsub in *; cbn [px py] in *; field; exact Z.
Qed.
Lemma three_of_four : forall l A B C D a b c d Y, In A l -> In B l -> In C l -> In D l -> 0 <= a -> 0 <= b -> 0 <= c -> 0 <= d -> a + b + c + d == 1 ->
  Y =p= comb4 A B C D a b c d -> in_hull l Y.
Proof.
  intros l A B C D a b c d Y IA IB IC ID Ha Hb Hc Hd S [EX EY]. unfold comb4 in EX, EY; cbn [px py] in EX, EY.
  destruct (dependent A B C D) as (a' & b' & c' & d' & S' & [X' Y'] & POS). unfold comb4 in X', Y'; cbn [px py] in X', Y'.
  destruct (release [(a, a'); (b, b'); (c, c'); (d, d')]) as (t & Ht & F & E).
  - repeat constructor; assumption.
  - destruct POS as [K|[K|[K|K]]]; [left|right; left|right; right; left|right; right; right; left]; exact K.
  - repeat (apply Forall_cons_iff in F as [? F]). clear F. cbn [fst snd] in *.
    assert (E4 : a - t * a' == 0 \/ b - t * b' == 0 \/ c - t * c' == 0 \/ d - t * d' == 0).
    { inversion E as [p q K|p q K]; subst; [auto|]. inversion K as [p q K1|p q K1]; subst; [auto|]. inversion K1 as [p q K2|p q K2]; subst; [auto|]. inversion K2 as [p q K3|p q K3]; subst; [auto|inversion K3]. }
    assert (S2 : (a - t * a') + (b - t * b') + (c - t * c') + (d - t * d') == 1) by (rewrite <- S; setoid_replace (a' ) with (- b' - c' - d') by lra; ring).
    assert (X2 : px Y == (a - t * a') * px A + (b - t * b') * px B + (c - t * c') * px C + (d - t * d') * px D).
    { rewrite EX. setoid_replace (a * px A + b * px B + c * px C + d * px D) with (a * px A + b * px B + c * px C + d * px D - t * (a' * px A + b' * px B + c' * px C + d' * px D)) by (rewrite X'; ring). ring. }
    assert (Y2 : py Y == (a - t * a') * py A + (b - t * b') * py B + (c - t * c') * py C + (d - t * d') * py D).
    { rewrite EY. setoid_replace (a * py A + b * py B + c * py C + d * py D) with (a * py A + b * py B + c * py C + d * py D - t * (a' * py A + b' * py B + c' * py C + d' * py D)) by (rewrite Y'; ring). ring. }
    set (a2 := a - t * a') in *. set (b2 := b - t * b') in *. set (c2 := c - t * c') in *. set (d2 := d - t * d') in *. clearbody a2 b2 c2 d2.
    destruct E4 as [Z|[Z|[Z|Z]]]; rewrite Z in S2, X2, Y2.
    + exists B, C, D. split; [exact IB|]. split; [exact IC|]. split; [exact ID|]. exists b2, c2, d2. split; [assumption|]. split; [assumption|]. split; [assumption|]. split; [lra|]. split; cbn [px py vadd vscale]; lra.
    + exists A, C, D. split; [exact IA|]. split; [exact IC|]. split; [exact ID|]. exists a2, c2, d2. split; [assumption|]. split; [assumption|]. split; [assumption|]. split; [lra|]. split; cbn [px py vadd vscale]; lra.
    + exists A, B, D. split; [exact IA|]. split; [exact IB|]. split; [exact ID|]. exists a2, b2, d2. split; [assumption|]. split; [assumption|]. split; [assumption|]. split; [lra|]. split; cbn [px py vadd vscale]; lra.
    + exists A, B, C. split; [exact IA|]. split; [exact IB|]. split; [exact IC|]. exists a2, b2, c2. split; [assumption|]. split; [assumption|]. split; [assumption|]. split; [lra|]. split; cbn [px py vadd vscale]; lra.
Qed.
(** A hull is star-shaped about its generators. *)
Lemma hull_towards : forall l X V t, in_hull l X -> In V l -> 0 <= t <= 1 -> in_hull l (lerp X V t).
Proof.
  intros l X V t (A & B & C & IA & IB & IC & a & b & c & Ha & Hb & Hc & S & [E1 E2]) IV Ht. cbn [px py vadd vscale] in E1, E2.
  apply (three_of_four l A B C V ((1 - t) * a) ((1 - t) * b) ((1 - t) * c) t); try assumption; try (apply Qmult_le_0_compat; lra); try lra.
  - setoid_replace a with (1 - b - c) by lra. ring.
  - split; unfold lerp, comb4; cbn [px py vadd vscale vsub]; [rewrite E1|rewrite E2]; ring.
Qed.
Lemma hull_three : forall l X U V a b c Y, in_hull l X -> In U l -> In V l -> 0 <= a -> 0 <= b -> 0 <= c -> a + b + c == 1 ->
  px Y == a * px X + b * px U + c * px V -> py Y == a * py X + b * py U + c * py V -> in_hull l Y.
Proof.
  intros l X U V a b c Y HX HU HV Ha Hb Hc S E1 E2. destruct (Qeq_dec (a + b) 0) as [Z|Z].
  - apply (hull_pteq l V); [|apply vertex_in_hull; exact HV]. assert (a == 0) by lra. assert (b == 0) by lra. assert (c == 1) by lra. split; [rewrite E1|rewrite E2]; rewrite H, H0, H1; ring.
  - assert (B1 : 0 <= b / (a + b) <= 1) by (split; [apply Qle_shift_div_l; lra|apply Qle_shift_div_r; lra]).
    apply (hull_pteq l (lerp (lerp X U (b / (a + b))) V c)); [|apply hull_towards; [apply hull_towards; assumption|exact HV|lra]].
    assert (EC : c == 1 - (a + b)) by lra.
    split; [rewrite E1|rewrite E2]; unfold lerp; cbn [px py vadd vscale vsub]; rewrite EC; field; exact Z.
Qed.

(** ** Lifted angles *)
Lemma lift_from : forall v a, exists t, angle_of v t /\ a <= t < a + 4.
Proof.
  intros v a. set (k := Qround.Qceiling ((a - dia v) / 4)). exists (dia v + 4 * inject_Z k). split; [exists k; reflexivity|].
  pose proof (Qround.Qle_ceiling ((a - dia v) / 4)) as L. pose proof (Qround.Qceiling_lt ((a - dia v) / 4)) as U. fold k in L, U.
  unfold Z.sub in U. rewrite inject_Z_plus in U. change (inject_Z (-(1))) with (-1) in U.
  assert (E : (a - dia v) / 4 * 4 == a - dia v) by field. nra.
Qed.
Lemma lift_left : forall w u t, nonzero w -> nonzero u -> 0 < cross w u -> angle_of u t -> exists g, angle_of w g /\ t - 2 < g < t.
Proof.
  intros w u t Nw Nu C (z & E). destruct (dia_left w u Nw Nu C) as [D|D].
  - exists (dia w + 4 * inject_Z z). split; [exists z; reflexivity|lra].
  - exists (dia w + 4 * inject_Z (z - 1)). split; [exists (z - 1)%Z; reflexivity|]. unfold Z.sub. rewrite inject_Z_plus. change (inject_Z (-(1))) with (-1). lra.
Qed.
(** Two lifts of the same angle less than a turn apart are equal. *)
Lemma lift_unique : forall v s t, angle_of v s -> angle_of v t -> -4 < t - s < 4 -> s == t.
Proof.
  intros v s t (z & E1) (w & E2) D. assert (E : t - s == 4 * inject_Z (w - z)) by (rewrite E1, E2; unfold Z.sub; rewrite inject_Z_plus, inject_Z_opp; ring).
  assert (K : (w - z <= -1 \/ w - z = 0 \/ 1 <= w - z)%Z) by lia. set (k := (w - z)%Z) in *. destruct K as [K|[K|K]].
  - rewrite Zle_Qle in K. change (inject_Z (-1)) with (-1) in K. lra.
  - rewrite K in E. change (inject_Z 0) with 0 in E. lra.
  - rewrite Zle_Qle in K. change (inject_Z 1) with 1 in K. lra.
Qed.

Section Chain.
Variable C : pt -> Prop.
Variable X0 : pt.
Definition link (x y : pt) : Prop := forall Y, C Y -> 0 <= tri2 x y Y.
(** The list is in reverse order; [f1] and [f] are angles of its first and last point, seen from X0. *)
Inductive chain (X1 : pt) (f1 : Q) : list pt -> Q -> Prop :=
| chain_one : C X1 -> nonzero (vsub X1 X0) -> angle_of (vsub X1 X0) f1 -> chain X1 f1 [X1] f1
| chain_next : forall x l f y g, chain X1 f1 (x :: l) f -> C y -> nonzero (vsub y X0) -> angle_of (vsub y X0) g -> link x y -> f <= g < f + 2 -> chain X1 f1 (y :: x :: l) g.
Lemma chain_in : forall X1 f1 l f, chain X1 f1 l f -> In X1 l /\ Forall C l.
Proof. intros X1 f1 l f H. induction H as [HC|x l f y g H [I1 I2] HC]; [split; [left; reflexivity|auto]|split; [right; exact I1|constructor; assumption]]. Qed.
Lemma chain_last : forall X1 f1 x l f, chain X1 f1 (x :: l) f -> nonzero (vsub x X0) /\ angle_of (vsub x X0) f.
Proof. intros X1 f1 x l f H. inversion H; subst; auto. Qed.
Lemma ray : forall X1 f1 l f, chain X1 f1 l f -> forall r t, nonzero r -> angle_of r t -> f1 <= t < f ->
  exists x y, In x l /\ In y l /\ link x y /\ 0 < cross (vsub x X0) (vsub y X0) /\ 0 <= cross (vsub x X0) r /\ 0 < cross r (vsub y X0).
Proof.
  intros X1 f1 l f H. induction H as [HC|x l f y g H IH HC NY AY LK D]; intros r t Nr Ar B; [lra|].
  destruct (Qlt_le_dec t f) as [K|K].
  - destruct (IH r t Nr Ar ltac:(lra)) as (a & b & I1 & I2 & R). exists a, b. split; [right; exact I1|]. split; [right; exact I2|exact R].
  - destruct (chain_last _ _ _ _ _ H) as [NX AX]. exists x, y. split; [right; left; reflexivity|]. split; [left; reflexivity|]. split; [exact LK|].
    split; [apply (proj1 (angle_signs _ _ _ _ NX NY AX AY)); lra|]. split; [|apply (proj1 (angle_signs _ _ _ _ Nr NY Ar AY)); lra].
    destruct (angle_signs _ _ _ _ NX Nr AX Ar) as (S1 & _ & S3 & _). destruct (Qeq_dec t f) as [E|E]; [destruct (S3 E); lra|]. specialize (S1 ltac:(lra)). lra.
Qed.
Lemma wound : forall X1 f1 l f, chain X1 f1 l f -> f1 + 4 <= f -> forall Y, C Y -> in_hull l Y.
Proof.
  intros X1 f1 l f H W.
  assert (R : forall r, nonzero r -> exists x y b c, In x l /\ In y l /\ 0 < b /\ 0 <= c /\ px r == b * (px x - px X0) + c * (px y - px X0) /\ py r == b * (py x - py X0) + c * (py y - py X0) /\
     (forall Y, C Y -> Y =p= vadd X0 r -> b + c <= 1)).
  { intros r Nr. destruct (lift_from r f1) as (t & At & Bt). destruct (ray _ _ _ _ H r t Nr At ltac:(lra)) as (x & y & Ix & Iy & LK & D & G1 & G2).
    exists x, y. set (u := vsub x X0) in *. set (v := vsub y X0) in *. exists (cross r v / cross u v), (cross u r / cross u v).
    split; [exact Ix|]. split; [exact Iy|]. split; [apply Qlt_shift_div_l; lra|]. split; [apply Qle_shift_div_l; lra|].
    change (px x - px X0) with (px u). change (py x - py X0) with (py u). change (px y - px X0) with (px v). change (py y - py X0) with (py v).
    split; [unfold cross in *; field; lra|]. split; [unfold cross in *; field; lra|].
    intros Y CY EY. specialize (LK _ CY). rewrite (tri2_pteq _ _ _ _ EY) in LK. assert (E : tri2 x y (vadd X0 r) == cross u v - cross r v - cross u r) by (unfold u, v, tri2, cross, vsub, vadd; cbn [px py]; ring).
    rewrite E in LK. setoid_replace (cross r v / cross u v + cross u r / cross u v) with ((cross r v + cross u r) / cross u v) by (field; lra). apply Qle_shift_div_r; lra. }
  destruct (chain_in _ _ _ _ H) as [I1 _].
  assert (N1 : nonzero (vsub X0 X1)).
  { assert (N : nonzero (vsub X1 X0)).
    { clear - H. induction H as [HC N|x l f y g H IH]; [exact N|exact IH]. }
    intros [E1 E2]. apply N. unfold vsub in *; cbn [px py] in *. split; cbn [px py]; lra. }
  assert (H0 : in_hull l X0).
  { destruct (R (vsub X0 X1) N1) as (x & y & b & c & Ix & Iy & Pb & Pc & E1 & E2 & _). cbn [px py vsub] in E1, E2.
    exists X1, x, y. split; [exact I1|]. split; [exact Ix|]. split; [exact Iy|]. exists (1 / (1 + b + c)), (b / (1 + b + c)), (c / (1 + b + c)).
    assert (P : 0 < 1 + b + c) by lra.
    split; [apply Qle_shift_div_l; lra|]. split; [apply Qle_shift_div_l; lra|]. split; [apply Qle_shift_div_l; lra|]. split; [field; lra|].
    split; cbn [px py vadd vscale].
    - apply (Qmult_inj_l _ _ (1 + b + c)); [lra|]. transitivity (px X1 + b * px x + c * px y); [lra|field; lra].
    - apply (Qmult_inj_l _ _ (1 + b + c)); [lra|]. transitivity (py X1 + b * py x + c * py y); [lra|field; lra]. }
  intros Y CY. destruct (Qeq_dec (px Y) (px X0)) as [EX|EX].
  1: destruct (Qeq_dec (py Y) (py X0)) as [EY|EY]; [apply (hull_pteq l X0); [split; symmetry; assumption|exact H0]|].
  all: assert (N : nonzero (vsub Y X0)) by (intros [A B]; cbn [px py vsub] in A, B; lra).
  all: destruct (R (vsub Y X0) N) as (x & y & b & c & Ix & Iy & Pb & Pc & E1 & E2 & L); cbn [px py vsub] in E1, E2.
  all: specialize (L Y CY ltac:(split; cbn [px py vadd vsub]; ring)); apply (hull_three l X0 x y (1 - b - c) b c); try assumption; lra.
Qed.
End Chain.
