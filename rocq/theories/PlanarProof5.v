(** The points of a segment outside a simple polygon; containment of polylines and polygons. *)
From Verif Require Import Base CmpModel OrientModel OrientSpec OrientProof DistModel DistSpec LinIntModel LinIntSpec LinIntProof PolygonModel PolygonSpec PolygonProof PolygonBorderProof PlanarModel PlanarSpec PlanarProof PlanarProof2 PlanarProof4.
From Coq Require Import Lia Sorting.Sorted.

(** * The lexicographic order *)
Definition lexlt (a b : pt) : Prop := px a < px b \/ (px a == px b /\ py a < py b).
Lemma point_less_lex : forall a b, point_less direct a b = true <-> lexlt a b.
Proof.
  intros a b. unfold point_less, lexlt. cbn. destruct (Qltb_spec (px a) (px b)) as [H|H].
  - split; [intros _; left; exact H|reflexivity].
  - destruct (Qeqb_spec (px a) (px b)) as [E|E].
    + destruct (Qltb_spec (py a) (py b)) as [K|K]; [split; [intros _; right; auto|reflexivity]|].
      destruct (Qeqb (py a) (py b)); split; try discriminate; intros [X|[_ X]]; lra.
    + split; [discriminate|]. intros [X|[X _]]; [lra|contradiction].
Qed.
Lemma point_less_not : forall a b, point_less direct a b = false <-> ~ lexlt a b.
Proof. intros. rewrite <- point_less_lex. destruct (point_less direct a b); split; try discriminate; try congruence; intro H; exfalso; apply H; reflexivity. Qed.
Lemma lexlt_trans : forall a b c, lexlt a b -> lexlt b c -> lexlt a c.
Proof. unfold lexlt. intros a b c [H|[H1 H2]] [K|[K1 K2]]; [left; lra|left; lra|left; lra|right; split; lra]. Qed.
Lemma lexlt_irrefl : forall a b, a =p= b -> ~ lexlt a b.
Proof. intros a b [E1 E2] [H|[H1 H2]]; lra. Qed.
Lemma lex_total : forall a b, ~ lexlt a b -> ~ lexlt b a -> a =p= b.
Proof.
  unfold lexlt. intros a b H K. assert (px a == px b).
  { destruct (Qlt_le_dec (px a) (px b)); [exfalso; apply H; left; assumption|]. destruct (Qlt_le_dec (px b) (px a)); [exfalso; apply K; left; assumption|]. lra. }
  split; [assumption|]. destruct (Qlt_le_dec (py a) (py b)); [exfalso; apply H; right; split; assumption|]. destruct (Qlt_le_dec (py b) (py a)); [exfalso; apply K; right; split; lra|]. lra.
Qed.
Lemma lexlt_compat_l : forall a a' b, a =p= a' -> lexlt a b -> lexlt a' b.
Proof. unfold lexlt. intros a a' b [E1 E2] [H|[H1 H2]]; [left; lra|right; lra]. Qed.
Lemma lexlt_compat_r : forall a b b', b =p= b' -> lexlt a b -> lexlt a b'.
Proof. unfold lexlt. intros a b b' [E1 E2] [H|[H1 H2]]; [left; lra|right; lra]. Qed.
Lemma lexlt_dec : forall a b, lexlt a b \/ ~ lexlt a b.
Proof. intros a b. destruct (point_less direct a b) eqn:E; [left; apply point_less_lex, E|right; apply point_less_not, E]. Qed.

(** * The set of points *)
Definition inp (x : pt) (l : list pt) : Prop := exists y, In y l /\ x =p= y.
Lemma inp_cons : forall x a l, inp x (a :: l) <-> x =p= a \/ inp x l.
Proof.
  intros x a l. split.
  - intros (y & [<-|I] & E); [left; exact E|right; exists y; auto].
  - intros [E|(y & I & E)]; [exists a; split; [left; reflexivity|exact E]|exists y; split; [right; exact I|exact E]].
Qed.
Lemma set_insert_in : forall p l x, inp x (set_insert direct p l) <-> x =p= p \/ inp x l.
Proof.
  intros p. induction l as [|q l IH]; intro x; cbn [set_insert].
  - rewrite inp_cons. tauto.
  - destruct (point_less direct q p) eqn:E1; [rewrite !inp_cons, IH; tauto|]. destruct (point_less direct p q) eqn:E2; [rewrite !inp_cons; tauto|].
    apply point_less_not in E1, E2. pose proof (lex_total p q E2 E1) as E. rewrite !inp_cons. split; [tauto|]. intros [H|H]; [left; eapply pteq_trans; eassumption|exact H].
Qed.
Lemma set_insert_In : forall p l x, In x (set_insert direct p l) -> x = p \/ In x l.
Proof.
  intros p. induction l as [|q l IH]; intros x I; cbn [set_insert] in I.
  - destruct I as [<-|[]]. left. reflexivity.
  - destruct (point_less direct q p); [destruct I as [<-|I]; [right; left; reflexivity|]; destruct (IH x I); [left; assumption|right; right; assumption]|].
    destruct (point_less direct p q); [destruct I as [<-|I]; [left; reflexivity|right; exact I]|right; exact I].
Qed.
Lemma set_insert_sorted : forall p l, StronglySorted lexlt l -> StronglySorted lexlt (set_insert direct p l).
Proof.
  intros p. induction 1 as [|q l S IH F]; cbn [set_insert]; [constructor; [constructor|constructor]|].
  destruct (point_less direct q p) eqn:E1.
  - constructor; [exact IH|]. rewrite Forall_forall in *. intros x I. apply set_insert_In in I as [->|I]; [apply point_less_lex, E1|auto].
  - destruct (point_less direct p q) eqn:E2; [|constructor; assumption]. apply point_less_lex in E2. constructor; [constructor; assumption|].
    constructor; [exact E2|]. rewrite Forall_forall in *. intros x I. apply (lexlt_trans _ q); [exact E2|auto].
Qed.
(** Next to each other in the set. *)
Definition adj (l : list pt) (P Q : pt) : Prop := exists l1 l2, l = l1 ++ P :: Q :: l2.
Lemma outside_between_ok : forall eps ps l, outside_between direct eps ps l = true <->
  exists P Q, adj l P Q /\ is_exterior (point_polygon_containment_or_on_border direct eps (segment_mid_point P Q) ps) = true.
Proof.
  intros eps ps. induction l as [|a l IH]; [cbn; split; [discriminate|intros (P & Q & (l1 & l2 & E) & _); destruct l1; discriminate]|].
  destruct l as [|b l]; [cbn; split; [discriminate|intros (P & Q & (l1 & l2 & E) & _); destruct l1 as [|? [|? ?]]; discriminate]|].
  change (outside_between direct eps ps (a :: b :: l)) with (is_exterior (point_polygon_containment_or_on_border direct eps (segment_mid_point a b) ps) || outside_between direct eps ps (b :: l)).
  rewrite orb_true_iff, IH. split.
  - intros [H|(P & Q & (l1 & l2 & E) & H)]; [exists a, b; split; [exists [], l; reflexivity|exact H]|]. exists P, Q. split; [exists (a :: l1), l2; rewrite E; reflexivity|exact H].
  - intros (P & Q & (l1 & l2 & E) & H). destruct l1 as [|x l1]; [injection E as <- <- _; left; exact H|]. injection E as _ E. right. exists P, Q. split; [exists l1, l2; exact E|exact H].
Qed.
Lemma adj_in : forall l P Q, adj l P Q -> In P l /\ In Q l.
Proof. intros l P Q (l1 & l2 & ->). split; apply in_or_app; right; [left; reflexivity|right; left; reflexivity]. Qed.
Lemma sorted_app_lt : forall l1 x l2 y, StronglySorted lexlt (l1 ++ x :: l2) -> In y l1 -> lexlt y x.
Proof.
  induction l1 as [|a l1 IH]; intros x l2 y S I; [destruct I|]. cbn in S. inversion S as [|? ? S1 F]; subst. destruct I as [<-|I]; [|exact (IH _ _ _ S1 I)].
  rewrite Forall_forall in F. apply F. apply in_or_app. right. left. reflexivity.
Qed.
Lemma sorted_app_r : forall l1 l2, StronglySorted lexlt (l1 ++ l2) -> StronglySorted lexlt l2.
Proof. induction l1; intros l2 S; [exact S|]. inversion S; subst; auto. Qed.
Lemma adj_gap : forall l P Q Y, StronglySorted lexlt l -> adj l P Q -> inp Y l -> ~ (lexlt P Y /\ lexlt Y Q).
Proof.
  intros l P Q Y S (l1 & l2 & ->) (y & I & E) [H1 H2]. apply (lexlt_compat_r _ _ _ E) in H1. apply (lexlt_compat_l _ _ _ E) in H2. clear E Y.
  apply in_app_or in I as [I|[<-|[<-|I]]].
  - pose proof (sorted_app_lt _ _ _ _ S I) as K. exact (lexlt_irrefl _ _ (pteq_refl _) (lexlt_trans _ _ _ H1 K)).
  - exact (lexlt_irrefl _ _ (pteq_refl _) H1).
  - exact (lexlt_irrefl _ _ (pteq_refl _) H2).
  - apply sorted_app_r in S. inversion S as [|? ? S1 F]; subst. inversion S1 as [|? ? S2 F2]; subst. rewrite Forall_forall in F2. exact (lexlt_irrefl _ _ (pteq_refl _) (lexlt_trans _ _ _ H2 (F2 y I))).
Qed.
Lemma adj_lt : forall l P Q, StronglySorted lexlt l -> adj l P Q -> lexlt P Q.
Proof. intros l P Q S (l1 & l2 & ->). apply sorted_app_r in S. inversion S as [|? ? S1 F]; subst. inversion F; subst. assumption. Qed.
Lemma adj_cover : forall l Z w, StronglySorted lexlt l -> (exists a r, l = a :: r /\ ~ lexlt Z a) -> In w l -> ~ lexlt w Z -> (exists x y, In x l /\ In y l /\ ~ x =p= y) ->
  exists P Q, adj l P Q /\ ~ lexlt Z P /\ ~ lexlt Q Z.
Proof.
  induction l as [|a l IH]; intros Z w S (a' & r & E & HA) I HW DIST; [discriminate|]. injection E as <- <-.
  destruct l as [|b l]; [exfalso; destruct DIST as (x & y & [<-|[]] & [<-|[]] & NE); apply NE, pteq_refl|].
  inversion S as [|? ? S1 F]; subst. destruct (lexlt_dec b Z) as [B|B].
  - assert (LA : lexlt a b) by (inversion F; assumption).
    assert (I2 : In w l).
    { destruct I as [<-|[<-|I]]; [exfalso; apply HW; exact (lexlt_trans _ _ _ LA B)|contradiction|exact I]. }
    destruct (IH Z w S1) as (P & Q & (l1 & l2 & E) & H1 & H2).
    + exists b, l. split; [reflexivity|]. intro K. exact (lexlt_irrefl _ _ (pteq_refl _) (lexlt_trans _ _ _ B K)).
    + right. exact I2.
    + exact HW.
    + exists b, w. split; [left; reflexivity|]. split; [right; exact I2|]. intro E. apply HW. exact (lexlt_compat_l _ _ _ E B).
    + exists P, Q. split; [exists (a :: l1), l2; rewrite E; reflexivity|auto].
  - exists a, b. split; [exists [], l; reflexivity|]. split; assumption.
Qed.

(** * Points on one segment *)
Lemma lerp_on : forall A B s t u, lerp (lerp A B s) (lerp A B t) u =p= lerp A B (s + u * (t - s)).
Proof. intros. split; rewrite ?lerp_px, ?lerp_py, ?lerp_px, ?lerp_py; ring. Qed.
Lemma lexlt_lerp : forall A B s t, lexlt (lerp A B s) (lerp A B t) <-> (lexlt A B /\ s < t \/ lexlt B A /\ t < s).
Proof.
  intros A B s t. unfold lexlt. rewrite !lerp_px, !lerp_py. set (ax := px A). set (ay := py A). set (bx := px B). set (by0 := py B).
  destruct (Q_dec ax bx) as [[H|H]|H].
  - split.
    + intros [K|[K1 K2]]; left; (split; [left; exact H|]).
      * destruct (Qlt_le_dec s t); [assumption|]. exfalso. assert (0 <= (s - t) * (bx - ax)) by (apply Qmult_le_0_compat; lra). lra.
      * exfalso. assert (Z : (s - t) * (bx - ax) == 0) by lra. apply Qmult_integral in Z as [Z|Z]; [|lra]. assert (s * (by0 - ay) == t * (by0 - ay)) by (assert (s == t) as -> by lra; reflexivity). lra.
    + intros [[_ K]|[[K|[K _]] _]]; [|lra|lra]. left. assert (0 < (t - s) * (bx - ax)) by (apply Qmult_lt_0_compat; lra). lra.
  - split.
    + intros [K|[K1 K2]]; right; (split; [left; exact H|]).
      * destruct (Qlt_le_dec t s); [assumption|]. exfalso. assert (0 <= (t - s) * (ax - bx)) by (apply Qmult_le_0_compat; lra). lra.
      * exfalso. assert (Z : (s - t) * (bx - ax) == 0) by lra. apply Qmult_integral in Z as [Z|Z]; [|lra]. assert (s * (by0 - ay) == t * (by0 - ay)) by (assert (s == t) as -> by lra; reflexivity). lra.
    + intros [[[K|[K _]] _]|[_ K]]; [lra|lra|]. left. assert (0 < (s - t) * (ax - bx)) by (apply Qmult_lt_0_compat; lra). lra.
  - assert (EQ : s * (bx - ax) == t * (bx - ax)) by (assert (bx - ax == 0) as -> by lra; ring). split.
    + intros [K|[K1 K2]]; [lra|]. destruct (Q_dec ay by0) as [[G|G]|G].
      * left. split; [right; split; assumption|]. destruct (Qlt_le_dec s t); [assumption|]. exfalso. assert (0 <= (s - t) * (by0 - ay)) by (apply Qmult_le_0_compat; lra). lra.
      * right. split; [right; split; lra|]. destruct (Qlt_le_dec t s); [assumption|]. exfalso. assert (0 <= (t - s) * (ay - by0)) by (apply Qmult_le_0_compat; lra). lra.
      * exfalso. assert (Z1 : s * (by0 - ay) == t * (by0 - ay)) by (assert (by0 - ay == 0) as -> by lra; ring). lra.
    + intros [[[K|[K1 K]] L]|[[K|[K1 K]] L]]; try lra; right; (split; [lra|]).
      * assert (0 < (t - s) * (by0 - ay)) by (apply Qmult_lt_0_compat; lra). lra.
      * assert (0 < (s - t) * (ay - by0)) by (apply Qmult_lt_0_compat; lra). lra.
Qed.
Lemma lex_nonzero : forall A B, nonzero (vsub B A) -> lexlt A B \/ lexlt B A.
Proof.
  intros A B N. destruct (lexlt_dec A B) as [H|H]; [left; exact H|]. right. destruct (lexlt_dec B A) as [K|K]; [exact K|]. exfalso. apply N. destruct (lex_total A B H K) as [E1 E2].
  unfold vsub. cbn [px py]. split; lra.
Qed.
Lemma nonzero_lex : forall A B, lexlt A B -> nonzero (vsub B A).
Proof. intros A B [H|[H1 H2]] [K1 K2]; unfold vsub in *; cbn [px py] in *; lra. Qed.
(** Betweenness of parameters. *)
Lemma param_between : forall A B p z q, (p <= z /\ z <= q \/ q <= z /\ z <= p) -> on_segment (lerp A B p) (lerp A B q) (lerp A B z).
Proof.
  intros A B p z q H. destruct (Qeq_dec p q) as [E|E].
  - exists 0. split; [lra|]. eapply pteq_trans; [|apply pteq_sym, lerp_on]. apply lerp_compat. lra.
  - exists ((z - p) / (q - p)). assert (EQ : (z - p) / (q - p) * (q - p) == z - p) by (field; lra). set (u := (z - p) / (q - p)) in *. split.
    + destruct (Qlt_le_dec p q) as [L|L].
      * split; [destruct (Qlt_le_dec u 0); [exfalso; assert (0 < (- u) * (q - p)) by (apply Qmult_lt_0_compat; lra); lra|assumption]|].
        destruct (Qlt_le_dec 1 u); [exfalso; assert (0 < (u - 1) * (q - p)) by (apply Qmult_lt_0_compat; lra); lra|assumption].
      * assert (L' : q < p) by (destruct (Qlt_le_dec q p); [assumption|exfalso; apply E; lra]).
        split; [destruct (Qlt_le_dec u 0); [exfalso; assert (0 < (- u) * (p - q)) by (apply Qmult_lt_0_compat; lra); lra|assumption]|].
        destruct (Qlt_le_dec 1 u); [exfalso; assert (0 < (u - 1) * (p - q)) by (apply Qmult_lt_0_compat; lra); lra|assumption].
    + eapply pteq_trans; [|apply pteq_sym, lerp_on]. apply lerp_compat. lra.
Qed.
Lemma on_segment_pt : forall A B X Y, X =p= Y -> on_segment A B X -> on_segment A B Y.
Proof. intros A B X Y E H. apply (on_segment_compat A B A B X Y); [apply pteq_refl|apply pteq_refl|exact E|exact H]. Qed.
Lemma on_segment_ends : forall A B A' B' X, A =p= A' -> B =p= B' -> on_segment A B X -> on_segment A' B' X.
Proof. intros A B A' B' X E1 E2 H. apply (on_segment_compat A B A' B' X X); [exact E1|exact E2|apply pteq_refl|exact H]. Qed.
(** Between two points of AB in the order is between them on the segment. *)
Lemma lex_between : forall A B P Z Q, nonzero (vsub B A) -> on_segment A B P -> on_segment A B Z -> on_segment A B Q -> ~ lexlt Z P -> ~ lexlt Q Z -> on_segment P Q Z.
Proof.
  intros A B P Z Q N (p & _ & EP) (z & _ & EZ) (q & _ & EQ) H1 H2.
  apply (on_segment_ends (lerp A B p) (lerp A B q)); [apply pteq_sym, EP|apply pteq_sym, EQ|]. apply (on_segment_pt _ _ (lerp A B z)); [apply pteq_sym, EZ|].
  apply param_between. assert (G1 : ~ lexlt (lerp A B z) (lerp A B p)) by (intro K; apply H1; apply (lexlt_compat_l _ _ _ (pteq_sym _ _ EZ)); apply (lexlt_compat_r _ _ _ (pteq_sym _ _ EP)); exact K).
  assert (G2 : ~ lexlt (lerp A B q) (lerp A B z)) by (intro K; apply H2; apply (lexlt_compat_l _ _ _ (pteq_sym _ _ EQ)); apply (lexlt_compat_r _ _ _ (pteq_sym _ _ EZ)); exact K).
  rewrite lexlt_lerp in G1, G2. destruct (lex_nonzero A B N) as [L|L].
  - left. split; [destruct (Qlt_le_dec z p); [exfalso; apply G1; left; auto|assumption]|destruct (Qlt_le_dec q z); [exfalso; apply G2; left; auto|assumption]].
  - right. split; [destruct (Qlt_le_dec z q); [exfalso; apply G2; right; auto|assumption]|destruct (Qlt_le_dec p z); [exfalso; apply G1; right; auto|assumption]].
Qed.
Lemma on_segment_trans : forall A B P Q Z, on_segment A B P -> on_segment A B Q -> on_segment P Q Z -> on_segment A B Z.
Proof.
  intros A B P Q Z (p & Hp & EP) (q & Hq & EQ) (u & Hu & EZ). exists (p + u * (q - p)). split.
  - assert (0 <= u * q) by (apply Qmult_le_0_compat; lra). assert (0 <= (1 - u) * p) by (apply Qmult_le_0_compat; lra).
    assert (0 <= u * (1 - q)) by (apply Qmult_le_0_compat; lra). assert (0 <= (1 - u) * (1 - p)) by (apply Qmult_le_0_compat; lra). lra.
  - eapply pteq_trans; [exact EZ|]. eapply pteq_trans; [apply lerp_compat_pt; [exact EP|exact EQ]|]. apply lerp_on.
Qed.
(** Strictly between. *)
Lemma inside_lex : forall P Q Y, lexlt P Q -> inside_segment P Q Y -> lexlt P Y /\ lexlt Y Q.
Proof.
  intros P Q Y L (u & Hu & E). split.
  - apply (lexlt_compat_r _ _ _ (pteq_sym _ _ E)). apply (lexlt_compat_l _ _ _ (lerp_0 P Q)). apply lexlt_lerp. left. split; [exact L|lra].
  - apply (lexlt_compat_l _ _ _ (pteq_sym _ _ E)). apply (lexlt_compat_r _ _ _ (lerp_1 P Q)). apply lexlt_lerp. left. split; [exact L|lra].
Qed.
