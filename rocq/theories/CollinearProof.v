From Verif Require Import Base CmpModel OrientModel OrientSpec OrientProof CollinearModel CollinearSpec.

Section Line.
Variables O V : pt.
Hypothesis VP : 0 < px V \/ (px V == 0 /\ 0 < py V).

Definition pos (X : pt) : Q := dot V (vsub X O) / dot V V.
Definition onl (X : pt) : Prop := X =p= vadd O (vscale (pos X) V).

Lemma VV : 0 < dot V V.
Proof.
  unfold dot. pose proof (sq_nonneg (px V)) as S1. pose proof (sq_nonneg (py V)) as S2. destruct VP as [L|[L1 L2]]; nra.
Qed.

Lemma onl_x : forall P, onl P -> px P == px O + pos P * px V.
Proof. intros P [H _]; unfold vadd, vscale in H; simpl in H; exact H. Qed.
Lemma onl_y : forall P, onl P -> py P == py O + pos P * py V.
Proof. intros P [_ H]; unfold vadd, vscale in H; simpl in H; exact H. Qed.

Lemma pos_at : forall P t, P =p= vadd O (vscale t V) -> pos P == t.
Proof.
  intros P t [Hx Hy]; unfold vadd, vscale in Hx, Hy; simpl in Hx, Hy. unfold pos.
  pose proof VV as W.
  assert (E : dot V (vsub P O) == t * dot V V) by (unfold dot, vsub; simpl; rewrite Hx, Hy; ring).
  rewrite E. field. lra.
Qed.
Lemma onl_at : forall P t, P =p= vadd O (vscale t V) -> onl P.
Proof.
  intros P t H. pose proof (pos_at P t H) as E. destruct H as [Hx Hy]. unfold onl, vadd, vscale in *; simpl in *.
  split; simpl; rewrite E; assumption.
Qed.

Lemma lex_pos : forall P Q, onl P -> onl Q -> lexicographical direct (cpt P) (cpt Q) = Qltb (pos P) (pos Q).
Proof.
  intros P Q HP HQ. pose proof (onl_x P HP) as A1. pose proof (onl_y P HP) as A2.
  pose proof (onl_x Q HQ) as B1. pose proof (onl_y Q HQ) as B2. simpl.
  destruct VP as [H|[H1 H2]].
  - destruct (Qltb_spec (pos P) (pos Q)); destruct (Qltb_spec (px P) (px Q)); try reflexivity; try (exfalso; nra).
    destruct (Qeqb_spec (px P) (px Q)) as [E|]; [|reflexivity].
    assert (EP : pos P == pos Q) by nra.
    destruct (Qltb_spec (py P) (py Q)) as [L|L]; [exfalso; rewrite EP in A2; lra|].
    destruct (Qeqb (py P) (py Q)); reflexivity.
  - assert (px P == px Q) by (rewrite A1, B1, H1; ring).
    destruct (Qltb_spec (px P) (px Q)); [exfalso; lra|].
    destruct (Qeqb_spec (px P) (px Q)) as [_|N]; [|exfalso; apply N; assumption].
    destruct (Qltb_spec (pos P) (pos Q)); destruct (Qltb_spec (py P) (py Q)); try reflexivity; try (exfalso; nra).
    destruct (Qeqb (py P) (py Q)); reflexivity.
Qed.

Lemma pos_eq : forall P Q, onl P -> onl Q -> (pos P == pos Q <-> P =p= Q).
Proof.
  intros P Q HP HQ. pose proof (onl_x P HP) as A1. pose proof (onl_y P HP) as A2.
  pose proof (onl_x Q HQ) as B1. pose proof (onl_y Q HQ) as B2. split.
  - intro E. rewrite E in A1, A2. split; lra.
  - intros [E1 E2]. destruct VP as [H|[H1 H2]]; nra.
Qed.

Lemma same_pos : forall P Q, onl P -> onl Q -> same_point direct P Q = Qeqb (pos P) (pos Q).
Proof.
  intros P Q HP HQ. apply bool_iff. rewrite Qeqb_eq, (pos_eq P Q HP HQ).
  unfold same_point; simpl. rewrite !andb_true_iff, !Qeqb_eq. unfold pteq. tauto.
Qed.

Lemma col_pos : forall A B C, onl A -> onl B -> onl C -> is_collinear direct A B C = true.
Proof.
  intros A B C HA HB HC. apply collinear_direct. unfold cross, vsub; simpl.
  rewrite (onl_x A HA), (onl_y A HA), (onl_x B HB), (onl_y B HB), (onl_x C HC), (onl_y C HC). ring.
Qed.

Definition btw (a b c : Q) : bool := (Qleb a c && Qleb c b) || (Qleb c a && Qleb b c).

Lemma btw_iff : forall a b c, btw a b c = true <-> (a <= c <= b \/ b <= c <= a).
Proof. intros; unfold btw. rewrite orb_true_iff, !andb_true_iff, !Qleb_le. tauto. Qed.

Lemma between_pos : forall A B C, onl A -> onl B -> onl C -> ~ pos A == pos B ->
  is_between direct A B C true = btw (pos A) (pos B) (pos C).
Proof.
  intros A B C HA HB HC N. unfold is_between. rewrite col_pos by assumption. simpl.
  apply bool_iff. rewrite btw_iff. unfold is_collinear_point_between; simpl. unfold Qgeb.
  pose proof (onl_x A HA) as A1. pose proof (onl_y A HA) as A2.
  pose proof (onl_x B HB) as B1. pose proof (onl_y B HB) as B2.
  pose proof (onl_x C HC) as C1. pose proof (onl_y C HC) as C2.
  destruct (Qeqb_spec (px A) (px B)) as [E|E]; simpl; rewrite orb_true_iff, !andb_true_iff, !Qleb_le.
  - assert (px V == 0 /\ 0 < py V) as [V1 V2].
    { destruct VP as [H|H]; [|exact H]. exfalso. apply N. nra. }
    assert (K : forall P Q, onl P -> onl Q -> (py P <= py Q <-> pos P <= pos Q)).
    { intros P Q HP HQ. rewrite (onl_y P HP), (onl_y Q HQ). split; intro; nra. }
    rewrite (K A C), (K C B), (K C A), (K B C) by assumption. tauto.
  - assert (0 < px V) as V1.
    { destruct VP as [H|[H _]]; [exact H|]. exfalso. apply E. rewrite A1, B1, H. ring. }
    assert (K : forall P Q, onl P -> onl Q -> (px P <= px Q <-> pos P <= pos Q)).
    { intros P Q HP HQ. rewrite (onl_x P HP), (onl_x Q HQ). split; intro; nra. }
    rewrite (K A C), (K C B), (K C A), (K B C) by assumption. tauto.
Qed.

(** Segments by the positions of their ends. *)
Definition lo (s : iseg) : Q := qmin (pos (fst s)) (pos (snd s)).
Definition hi (s : iseg) : Q := qmax (pos (fst s)) (pos (snd s)).
Definition good (s : iseg) : Prop := onl (fst s) /\ onl (snd s) /\ ~ pos (fst s) == pos (snd s).

Lemma lo_hi : forall s, good s -> lo s < hi s.
Proof. intros s (_ & _ & H). unfold lo, hi, qmin, qmax. repeat qcase; try lra. Qed.

Lemma less_pos : forall s t, good s -> good t -> interval_less direct s t = Qltb (hi s) (lo t).
Proof.
  intros s t (S1 & S2 & S3) (T1 & T2 & T3). unfold interval_less, segment_interval_compare.
  cbn [fst snd]. rewrite !lex_pos by assumption.
  assert (E1 : pos (if Qltb (pos (fst s)) (pos (snd s)) then snd s else fst s) == hi s).
  { unfold hi, qmax. destruct (Qltb (pos (fst s)) (pos (snd s))); lra. }
  assert (E2 : pos (if Qltb (pos (fst t)) (pos (snd t)) then fst t else snd t) == lo t).
  { unfold lo, qmin. repeat qcase; lra. }
  replace (if Qltb (pos (fst s)) (pos (snd s)) then cpt (snd s) else cpt (fst s))
    with (cpt (if Qltb (pos (fst s)) (pos (snd s)) then snd s else fst s))
    by (destruct (Qltb (pos (fst s)) (pos (snd s))); reflexivity).
  replace (if Qltb (pos (fst t)) (pos (snd t)) then cpt (fst t) else cpt (snd t))
    with (cpt (if Qltb (pos (fst t)) (pos (snd t)) then fst t else snd t))
    by (destruct (Qltb (pos (fst t)) (pos (snd t))); reflexivity).
  rewrite lex_pos.
  - apply bool_iff. rewrite !Qltb_lt. rewrite E1, E2. tauto.
  - destruct (Qltb (pos (fst s)) (pos (snd s))); assumption.
  - destruct (Qltb (pos (fst t)) (pos (snd t))); assumption.
Qed.

Definition cov (s : iseg) (x : Q) : Prop := lo s <= x <= hi s.

Lemma seg_cov : forall s X, good s -> (on_segment (fst s) (snd s) X <-> onl X /\ cov s (pos X)).
Proof.
  intros s X (S1 & S2 & S3). split.
  - intros (t & Ht & HX).
    assert (E : X =p= vadd O (vscale (pos (fst s) + t * (pos (snd s) - pos (fst s))) V)).
    { destruct HX as [Hx Hy]. unfold lerp, vadd, vscale, vsub in Hx, Hy; simpl in Hx, Hy.
      rewrite (onl_x _ S1), (onl_x _ S2) in Hx. rewrite (onl_y _ S1), (onl_y _ S2) in Hy.
      split; unfold vadd, vscale; simpl; [rewrite Hx | rewrite Hy]; ring. }
    split; [eapply onl_at; exact E|].
    pose proof (pos_at _ _ E) as P. unfold cov, lo, hi, qmin, qmax.
    repeat qcase; split; nra.
  - intros [HX HC].
    set (a := pos (fst s)) in *. set (b := pos (snd s)) in *. set (x := pos X) in *.
    exists ((x - a) / (b - a)).
    assert (D : ~ b - a == 0) by (intro; apply S3; lra).
    assert (M : (x - a) / (b - a) * (b - a) == x - a) by (field; exact D).
    split.
    + unfold cov, lo, hi, qmin, qmax in HC. fold a b in HC.
      set (t := (x - a) / (b - a)) in *.
      destruct (Qltb_spec b a); destruct (Qltb_spec a b); try (exfalso; lra); split; nra.
    + set (t := (x - a) / (b - a)) in *.
      assert (X1 : x == a + t * (b - a)) by lra.
      pose proof (onl_x X HX) as H1. pose proof (onl_y X HX) as H2. fold x in H1, H2.
      pose proof (onl_x _ S1) as H3. pose proof (onl_y _ S1) as H4. fold a in H3, H4.
      pose proof (onl_x _ S2) as H5. pose proof (onl_y _ S2) as H6. fold b in H5, H6.
      split; unfold lerp, vadd, vscale, vsub; simpl.
      * rewrite H1, H3, H5, X1. ring.
      * rewrite H2, H4, H6, X1. ring.
Qed.

(** ** Sorted lists of separated segments *)

Definition before (s t : iseg) : Prop := hi s < lo t.
Definition apart (s t : iseg) : Prop := before s t \/ before t s.
Fixpoint sep (l : list iseg) : Prop :=
  match l with [] => True | x :: l' => (forall y, In y l' -> before x y) /\ sep l' end.
Definition allgood (l : list iseg) : Prop := forall s, In s l -> good s.

Lemma sep_app : forall l1 l2, sep (l1 ++ l2) <-> sep l1 /\ sep l2 /\ (forall x y, In x l1 -> In y l2 -> before x y).
Proof.
  induction l1 as [|x l1 IH]; intros l2; simpl.
  - split; [intro W; split; [exact I|split; [exact W|intros x y []]] | tauto].
  - rewrite IH. split.
    + intros [H (H1 & H2 & H3)]. repeat split; auto.
      * intros y Hy; apply H; apply in_or_app; auto.
      * intros y z [<-|Hy] Hz; [apply H; apply in_or_app; auto | auto].
    + intros ((H1 & H2) & H3 & H4). repeat split; auto.
      intros y Hy. apply in_app_or in Hy. destruct Hy; auto.
Qed.

Lemma span_app : forall p l, fst (span p l) ++ snd (span p l) = l.
Proof. induction l as [|x l IH]; simpl; auto. destruct (p x); simpl; congruence. Qed.
Lemma span_fst : forall p l x, In x (fst (span p l)) -> p x = true.
Proof.
  induction l as [|y l IH]; simpl; intros x H; [contradiction|]. destruct (p y) eqn:E; simpl in H; [|contradiction].
  destruct H as [<-|H]; auto.
Qed.
Lemma span_snd : forall p l, match snd (span p l) with [] => True | y :: _ => p y = false end.
Proof. induction l as [|y l IH]; simpl; auto. destruct (p y) eqn:E; simpl; auto. Qed.

Lemma range_ok : forall l key b m a, good key -> allgood l -> sep l -> equal_range direct l key = (b, m, a) ->
  l = b ++ m ++ a /\ (forall x, In x b -> before x key) /\ (forall x, In x a -> before key x) /\
  (forall x, In x m -> ~ before x key /\ ~ before key x).
Proof.
  intros l key b m a K G S. unfold equal_range.
  destruct (span (fun x => interval_less direct x key) l) as [b' r] eqn:E1.
  destruct (span (fun x => negb (interval_less direct key x)) r) as [m' a'] eqn:E2.
  intro H; injection H as <- <- <-.
  pose proof (span_app (fun x => interval_less direct x key) l) as L1. rewrite E1 in L1; simpl in L1.
  pose proof (span_app (fun x => negb (interval_less direct key x)) r) as L2. rewrite E2 in L2; simpl in L2.
  pose proof (span_fst (fun x => interval_less direct x key) l) as F1. rewrite E1 in F1; simpl in F1.
  pose proof (span_fst (fun x => negb (interval_less direct key x)) r) as F2. rewrite E2 in F2; simpl in F2.
  pose proof (span_snd (fun x => interval_less direct x key) l) as N1. rewrite E1 in N1; simpl in N1.
  pose proof (span_snd (fun x => negb (interval_less direct key x)) r) as N2. rewrite E2 in N2; simpl in N2.
  assert (L : l = b' ++ m' ++ a') by (rewrite L2; auto).
  assert (Gb : allgood b') by (intros x Hx; apply G; rewrite L; apply in_or_app; auto).
  assert (Gr : allgood r) by (intros x Hx; apply G; rewrite <- L1; apply in_or_app; auto).
  assert (Gm : allgood m') by (intros x Hx; apply Gr; rewrite <- L2; apply in_or_app; auto).
  assert (Ga : allgood a') by (intros x Hx; apply Gr; rewrite <- L2; apply in_or_app; auto).
  assert (Sr : sep r) by (rewrite <- L1 in S; apply sep_app in S; tauto).
  assert (Sa : sep a') by (rewrite <- L2 in Sr; apply sep_app in Sr; tauto).
  split; [exact L|]. split.
  { intros x Hx. specialize (F1 x Hx). rewrite less_pos in F1 by auto. apply Qltb_lt; exact F1. }
  split.
  { intros x Hx. destruct a' as [|y a']; [contradiction|].
    rewrite negb_false_iff, less_pos in N2 by (auto; apply Ga; left; reflexivity). apply Qltb_lt in N2.
    destruct Hx as [<-|Hx]; [exact N2|]. destruct Sa as [Sa _]. specialize (Sa x Hx). unfold before in *.
    pose proof (lo_hi y (Ga y (or_introl eq_refl))). lra. }
  intros x Hx. split.
  - assert (Hr : In x r) by (rewrite <- L2; apply in_or_app; auto).
    destruct r as [|y r]; [contradiction|].
    rewrite less_pos in N1 by (auto; apply Gr; left; reflexivity).
    intro Bx. destruct (Qltb_spec (hi y) (lo key)) as [|N]; [discriminate|].
    destruct Hr as [<-|Hr]; [unfold before in Bx; lra|].
    destruct Sr as [Sr _]. specialize (Sr x Hr). unfold before in *.
    pose proof (lo_hi x (Gm x Hx)). lra.
  - specialize (F2 x Hx). rewrite negb_true_iff, less_pos in F2 by auto. intro Bx.
    apply Qltb_lt in Bx. congruence.
Qed.

Lemma insert_ok : forall x l, good x -> allgood l -> sep l -> (forall y, In y l -> apart y x) ->
  sep (set_insert direct x l) /\ (forall s, In s (set_insert direct x l) <-> s = x \/ In s l).
Proof.
  intros x l Gx. induction l as [|y l IH]; intros G S A; simpl.
  - split; [split; [intros ? []|exact I]|]. intro s; split; intros [<-|[]]; auto.
  - assert (Gy : good y) by (apply G; left; reflexivity).
    assert (Gl : allgood l) by (intros z Hz; apply G; right; exact Hz).
    destruct S as [Sy Sl].
    destruct (IH Gl Sl (fun z Hz => A z (or_intror Hz))) as [I1 I2].
    rewrite !less_pos by assumption.
    destruct (Qltb_spec (hi y) (lo x)) as [L|L].
    + split.
      * split; [|exact I1]. intros z Hz. apply I2 in Hz. destruct Hz as [-> |Hz]; auto.
      * intro s. simpl. rewrite I2. clear; intuition.
    + destruct (Qltb_spec (hi x) (lo y)) as [L2|L2].
      * split.
        -- split; [|split; assumption]. intros z [<-|Hz]; [exact L2|]. specialize (Sy z Hz). unfold before in *.
           pose proof (lo_hi y Gy). lra.
        -- intro s. simpl. intuition.
      * exfalso. destruct (A y (or_introl eq_refl)); unfold before in *; lra.
Qed.

Fixpoint pairwise_apart (l : list iseg) : Prop :=
  match l with [] => True | x :: l' => (forall y, In y l' -> apart x y) /\ pairwise_apart l' end.

Lemma apart_sym : forall s t, apart s t -> apart t s.
Proof. unfold apart; tauto. Qed.

Lemma insert_all_ok : forall ps l, allgood ps -> allgood l -> sep l -> pairwise_apart ps ->
  (forall p y, In p ps -> In y l -> apart y p) ->
  sep (fold_left (fun l p => set_insert direct p l) ps l) /\
  (forall s, In s (fold_left (fun l p => set_insert direct p l) ps l) <-> In s ps \/ In s l).
Proof.
  induction ps as [|p ps IH]; intros l Gp G S PA A; simpl.
  - split; auto. intro; tauto.
  - destruct PA as [P1 P2].
    destruct (insert_ok p l (Gp p (or_introl eq_refl)) G S (fun y Hy => A p y (or_introl eq_refl) Hy)) as [I1 I2].
    destruct (IH (set_insert direct p l)) as [J1 J2].
    + intros z Hz; apply Gp; right; exact Hz.
    + intros z Hz. apply I2 in Hz. destruct Hz as [-> |Hz]; [apply Gp; left; reflexivity|auto].
    + exact I1.
    + exact P2.
    + intros q y Hq Hy. apply I2 in Hy. destruct Hy as [-> |Hy]; [apply P1; exact Hq|apply A; [right|]; auto].
    + split; [exact J1|]. intro s. rewrite J2, I2. intuition.
Qed.

(** ** Union *)

Ltac ordcase :=
  repeat (match goal with
  | |- context [Qleb ?a ?b] => destruct (Qleb_spec a b)
  | |- context [Qeqb ?a ?b] => destruct (Qeqb_spec a b)
  end; cbn [andb orb negb]; try (exfalso; lra)).

Ltac vcase :=
  repeat (match goal with
  | |- context [Qltb ?a ?b] => is_var a; is_var b; destruct (Qltb_spec a b)
  end; try (exfalso; lra)).

Lemma union_step_ok : forall u s, good u -> good s -> ~ before u s -> ~ before s u ->
  exists u', union_step direct u s = Some (u', false) /\ good u' /\
    lo u' == qmin (lo u) (lo s) /\ hi u' == qmax (hi u) (hi s).
Proof.
  intros [C D] [A B] (C1 & D1 & N1) (A1 & B1 & N2) U1 U2.
  unfold before, lo, hi in U1, U2. cbn [fst snd] in *.
  unfold union_step. cbn [fst snd].
  rewrite !col_pos by assumption. cbn [andb negb].
  rewrite !between_pos by assumption.
  unfold good, lo, hi. unfold btw.
  set (a := pos A) in *. set (b := pos B) in *. set (c := pos C) in *. set (d := pos D) in *.
  assert (L1 : c < d \/ d < c) by (destruct (Qlt_le_dec c d); [left|right]; auto; destruct (Qlt_le_dec d c); auto; exfalso; apply N1; lra).
  assert (L2 : a < b \/ b < a) by (destruct (Qlt_le_dec a b); [left|right]; auto; destruct (Qlt_le_dec b a); auto; exfalso; apply N2; lra).
  unfold qmin, qmax in *.
  destruct L1 as [L1|L1], L2 as [L2|L2];
    repeat (qcase_in U1; try (exfalso; lra)); repeat (qcase_in U2; try (exfalso; lra)); ordcase;
    (eexists; split; [reflexivity|]; cbn [fst snd]; fold a b c d;
     split; [split; [assumption|split; [assumption|intro; lra]]|]; split; vcase; lra).
Qed.

Lemma union_loop_ok : forall m u, good u -> allgood m -> sep m ->
  (forall s, In s m -> ~ before u s /\ ~ before s u) ->
  exists v, union_loop direct u m = Some (v, []) /\ good v /\
    lo v <= lo u /\ hi u <= hi v /\
    (forall s, In s m -> lo v <= lo s /\ hi s <= hi v) /\
    (lo v == lo u \/ exists s, In s m /\ lo v == lo s) /\
    (hi v == hi u \/ exists s, In s m /\ hi v == hi s) /\
    (forall x, cov v x -> cov u x \/ exists s, In s m /\ cov s x).
Proof.
  induction m as [|s m IH]; intros u Gu G S T; simpl.
  - exists u. split; [reflexivity|]. split; [exact Gu|]. split; [lra|]. split; [lra|]. split; [intros s []|]. split; [left; lra|]. split; [left; lra|]. intros x Hx; left; exact Hx.
  - assert (Gs : good s) by (apply G; left; reflexivity).
    destruct (T s (or_introl eq_refl)) as [T1 T2].
    destruct (union_step_ok u s Gu Gs T1 T2) as (u' & E & Gu' & L & H). rewrite E.
    destruct S as [S1 S2].
    pose proof (lo_hi u Gu). pose proof (lo_hi s Gs).
    assert (Lq : lo u' <= lo u /\ lo u' <= lo s) by (rewrite L; pose proof (qmin_spec (lo u) (lo s)); lra).
    assert (Hq : hi u <= hi u' /\ hi s <= hi u') by (rewrite H; pose proof (qmax_spec (hi u) (hi s)); lra).
    destruct (IH u' Gu') as (v & E2 & Gv & V1 & V2 & V3 & V4 & V5 & V6).
    { intros z Hz; apply G; right; exact Hz. }
    { exact S2. }
    { intros z Hz. destruct (T z (or_intror Hz)) as [Z1 Z2]. unfold before in *. split; lra. }
    rewrite E2. exists v. split; [reflexivity|]. split; [exact Gv|].
    assert (Lc : lo u' == lo u \/ lo u' == lo s) by (rewrite L; pose proof (qmin_spec (lo u) (lo s)); tauto).
    assert (Hc : hi u' == hi u \/ hi u' == hi s) by (rewrite H; pose proof (qmax_spec (hi u) (hi s)); tauto).
    split; [lra|]. split; [lra|]. split.
    { intros z [<-|Hz]; [lra|]. destruct (V3 z Hz). lra. }
    split.
    { destruct V4 as [V4|(z & Hz & V4)]; [|right; exists z; split; [right; exact Hz|exact V4]].
      destruct Lc as [Lc|Lc]; [left; lra|right; exists s; split; [left; reflexivity|lra]]. }
    split.
    { destruct V5 as [V5|(z & Hz & V5)]; [|right; exists z; split; [right; exact Hz|exact V5]].
      destruct Hc as [Hc|Hc]; [left; lra|right; exists s; split; [left; reflexivity|lra]]. }
    intros x Hx. destruct (V6 x Hx) as [Hu|(z & Hz & Hv)].
    + unfold before, cov in *. rewrite L, H in Hu. unfold qmin, qmax in Hu.
      destruct (Qlt_le_dec x (lo u)) as [Q1|Q1]; [right; exists s; split; [left; reflexivity|]; repeat qcase_in Hu; lra|].
      destruct (Qlt_le_dec (hi u) x) as [Q2|Q2]; [right; exists s; split; [left; reflexivity|]; repeat qcase_in Hu; lra|].
      left; lra.
    + right; exists z; split; [right; exact Hz|exact Hv].
Qed.

Definition lcov (l : list iseg) (x : Q) : Prop := exists s, In s l /\ cov s x.

Lemma union_ok : forall l key, good key -> allgood l -> sep l ->
  exists l', collinear_segment_union direct l key = Some l' /\ allgood l' /\ sep l' /\
    (forall x, lcov l' x <-> lcov l x \/ cov key x).
Proof.
  intros l key K G S. unfold collinear_segment_union.
  destruct (equal_range direct l key) as [[b m] a] eqn:E.
  destruct (range_ok l key b m a K G S E) as (L & B & A & M).
  assert (Kf : (fst key, snd key) = key) by (destruct key; reflexivity). rewrite Kf.
  rewrite L in S. apply sep_app in S. destruct S as (Sb & S & Sbm). apply sep_app in S. destruct S as (Sm & Sa & Sma).
  assert (Gb : allgood b) by (intros x Hx; apply G; rewrite L; apply in_or_app; auto).
  assert (Gm : allgood m) by (intros x Hx; apply G; rewrite L; apply in_or_app; right; apply in_or_app; auto).
  assert (Ga : allgood a) by (intros x Hx; apply G; rewrite L; apply in_or_app; right; apply in_or_app; auto).
  destruct (union_loop_ok m key K Gm Sm) as (v & E2 & Gv & V1 & V2 & V3 & V4 & V5 & V6).
  { intros s Hs. destruct (M s Hs); split; assumption. }
  rewrite E2. simpl.
  assert (Gba : allgood (b ++ a)) by (intros x Hx; apply in_app_or in Hx; destruct Hx; auto).
  destruct (insert_ok v (b ++ a) Gv Gba) as [I1 I2].
  { apply sep_app; split; [|split]; auto. intros x y Hx Hy. apply Sbm; auto. apply in_or_app; auto. }
  { intros y Hy. apply in_app_or in Hy. destruct Hy as [Hy|Hy].
    - left. unfold before in *. destruct V4 as [V4|(z & Hz & V4)]; rewrite V4; [apply B; exact Hy|].
      apply Sbm; auto. apply in_or_app; auto.
    - right. unfold before in *. destruct V5 as [V5|(z & Hz & V5)]; rewrite V5; [apply A; exact Hy|]. apply Sma; auto. }
  eexists; split; [reflexivity|]. split.
  { intros x Hx. apply I2 in Hx. destruct Hx as [-> |Hx]; auto. }
  split; [exact I1|]. intro x. split.
  - intros (s & Hs & Hc). apply I2 in Hs. destruct Hs as [-> |Hs].
    + destruct (V6 x Hc) as [Hk|(z & Hz & Hv)]; [right; exact Hk|left]. exists z; split; [|exact Hv].
      rewrite L. apply in_or_app; right; apply in_or_app; auto.
    + left. exists s; split; [|exact Hc]. rewrite L. apply in_app_or in Hs. apply in_or_app. destruct Hs; [left; auto|right; apply in_or_app; auto].
  - intros [(s & Hs & Hc)|Hc].
    + rewrite L in Hs. apply in_app_or in Hs. destruct Hs as [Hs|Hs].
      * exists s; split; [apply I2; right; apply in_or_app; auto|exact Hc].
      * apply in_app_or in Hs. destruct Hs as [Hs|Hs].
        -- exists v; split; [apply I2; auto|]. destruct (V3 s Hs). unfold cov in *; lra.
        -- exists s; split; [apply I2; right; apply in_or_app; auto|exact Hc].
    + exists v; split; [apply I2; auto|]. unfold cov in *; lra.
Qed.

(** ** Difference *)

Definition pieces_ok (key s : iseg) (new : list iseg) : Prop :=
  allgood new /\ pairwise_apart new /\
  (forall p, In p new -> lo s <= lo p /\ hi p <= hi s) /\
  (forall x, ~ x == pos (fst key) -> ~ x == pos (snd key) -> (lcov new x <-> cov s x /\ ~ cov key x)).

Lemma lcov_nil : forall x, lcov [] x <-> False.
Proof. intro x; split; [intros (s & [] & _)|contradiction]. Qed.
Lemma lcov_cons : forall s l x, lcov (s :: l) x <-> cov s x \/ lcov l x.
Proof.
  intros s l x; split.
  - intros (t & [<-|H] & Hc); [left; exact Hc|right; exists t; auto].
  - intros [H|(t & H & Hc)]; [exists s; simpl; auto|exists t; simpl; auto].
Qed.
Lemma lcov_app : forall l1 l2 x, lcov (l1 ++ l2) x <-> lcov l1 x \/ lcov l2 x.
Proof.
  intros; split.
  - intros (t & H & Hc). apply in_app_or in H. destruct H; [left|right]; exists t; auto.
  - intros [(t & H & Hc)|(t & H & Hc)]; exists t; split; auto; apply in_or_app; auto.
Qed.

Lemma difference_step_ok : forall key s, good key -> good s -> ~ before key s -> ~ before s key ->
  exists r, difference_step direct key s = Some r /\
    pieces_ok key s (match r with None => [s] | Some new => new end).
Proof.
  intros [C D] [A B] (C1 & D1 & N1) (A1 & B1 & N2) U1 U2.
  unfold before, lo, hi in U1, U2. cbn [fst snd] in *.
  unfold difference_step. cbn [fst snd].
  rewrite !col_pos by assumption. cbn [andb negb].
  rewrite !(between_pos C D), !(between_pos A B) by assumption.
  rewrite !same_pos by assumption.
  set (a := pos A) in *. set (b := pos B) in *. set (c := pos C) in *. set (d := pos D) in *.
  assert (E1 : is_between direct C B D true && negb (Qeqb b c) = btw c b d && negb (Qeqb b c)).
  { destruct (Qeqb_spec b c) as [|NE]; cbn [negb]; [rewrite !andb_false_r; reflexivity|].
    unfold c, b, d. rewrite between_pos; auto. fold c b. intro; apply NE; lra. }
  assert (E2 : is_between direct A C D true && negb (Qeqb a c) = btw a c d && negb (Qeqb a c)).
  { destruct (Qeqb_spec a c) as [|NE]; cbn [negb]; [rewrite !andb_false_r; reflexivity|].
    unfold c, a, d. rewrite between_pos; auto. }
  rewrite E1, E2. clear E1 E2. unfold btw.
  assert (L1 : c < d \/ d < c) by (destruct (Qlt_le_dec c d); [left|right]; auto; destruct (Qlt_le_dec d c); auto; exfalso; apply N1; lra).
  assert (L2 : a < b \/ b < a) by (destruct (Qlt_le_dec a b); [left|right]; auto; destruct (Qlt_le_dec b a); auto; exfalso; apply N2; lra).
  unfold qmin, qmax in U1, U2.
  destruct L1 as [L1|L1], L2 as [L2|L2];
    repeat (qcase_in U1; try (exfalso; lra)); repeat (qcase_in U2; try (exfalso; lra)); ordcase;
    (eexists; split; [reflexivity|]; cbn [app]; unfold pieces_ok, allgood, good, apart, before, lo, hi, qmin, qmax;
     cbn [pairwise_apart fst snd]; fold a b c d).
  all: split; [intros s Hs; repeat (destruct Hs as [<-|Hs]; [cbn [fst snd]; fold a b c d; split; [assumption|split; [assumption|intro; lra]]|]); destruct Hs|].
  all: split; [repeat split; try (intros y Hy; repeat (destruct Hy as [<-|Hy]; [unfold apart, before, lo, hi, qmin, qmax; cbn [fst snd]; fold a b c d; vcase; lra|]); destruct Hy)|].
  all: split; [intros s Hs; repeat (destruct Hs as [<-|Hs]; [cbn [fst snd]; fold a b c d; vcase; split; lra|]); destruct Hs|].
  all: intros x X1 X2; rewrite ?lcov_cons, ?lcov_nil; unfold cov, lo, hi, qmin, qmax; cbn [fst snd]; fold a b c d.
  all: vcase.
  all: destruct (Qlt_le_dec x c); destruct (Qlt_le_dec c x); try (exfalso; apply X1; lra); try (exfalso; lra);
       destruct (Qlt_le_dec x d); destruct (Qlt_le_dec d x); try (exfalso; apply X2; lra); try (exfalso; lra);
       split; intro; lra.
Qed.

Lemma pairwise_app : forall l1 l2, pairwise_apart (l1 ++ l2) <->
  pairwise_apart l1 /\ pairwise_apart l2 /\ (forall x y, In x l1 -> In y l2 -> apart x y).
Proof.
  induction l1 as [|x l1 IH]; intros l2; simpl.
  - split; [intro W; split; [exact I|split; [exact W|intros x y []]] | tauto].
  - rewrite IH. split.
    + intros [H (H1 & H2 & H3)]. repeat split; auto.
      * intros y Hy; apply H; apply in_or_app; auto.
      * intros y z [<-|Hy] Hz; [apply H; apply in_or_app; auto | auto].
    + intros ((H1 & H2) & H3 & H4). repeat split; auto.
      intros y Hy. apply in_app_or in Hy. destruct Hy; auto.
Qed.

Lemma difference_loop_ok : forall m key, good key -> allgood m -> sep m ->
  (forall s, In s m -> ~ before key s /\ ~ before s key) ->
  exists kept ps, difference_loop direct key m = Some (kept, ps) /\
    allgood kept /\ allgood ps /\ sep kept /\ pairwise_apart ps /\
    (forall p y, In p ps -> In y kept -> apart y p) /\
    (forall p, In p ps \/ In p kept -> exists s, In s m /\ lo s <= lo p /\ hi p <= hi s) /\
    (forall x, ~ x == pos (fst key) -> ~ x == pos (snd key) ->
       (lcov (kept ++ ps) x <-> lcov m x /\ ~ cov key x)).
Proof.
  induction m as [|s m IH]; intros key K G S T; simpl.
  - exists [], []. split; [reflexivity|]. split; [intros ? []|]. split; [intros ? []|]. split; [exact I|].
    split; [exact I|]. split; [intros ? ? []|]. split; [intros p [[]|[]]|].
    intros x _ _. cbn [app]. rewrite lcov_nil. tauto.
  - assert (Gs : good s) by (apply G; left; reflexivity).
    destruct (T s (or_introl eq_refl)) as [T1 T2].
    destruct (difference_step_ok key s K Gs T1 T2) as (r & E & P1 & P2 & P3 & P4).
    destruct S as [S1 S2].
    destruct (IH key K (fun z Hz => G z (or_intror Hz)) S2 (fun z Hz => T z (or_intror Hz)))
      as (kept & ps & E2 & Q1 & Q2 & Q3 & Q4 & Q5 & Q6 & Q7).
    rewrite E, E2. clear IH.
    assert (Far : forall q p, In q (match r with None => [s] | Some new => new end) -> In p ps \/ In p kept -> before q p).
    { intros q p Hq Hp. destruct (P3 q Hq). destruct (Q6 p Hp) as (z & Hz & Z1 & Z2).
      specialize (S1 z Hz). unfold before in *. lra. }
    destruct r as [new|].
    + exists kept, (new ++ ps). split; [reflexivity|]. split; [exact Q1|]. split.
      { intros z Hz. apply in_app_or in Hz. destruct Hz; auto. }
      split; [exact Q3|]. split.
      { apply pairwise_app. split; [exact P2|]. split; [exact Q4|]. intros x y Hx Hy. left. apply Far; auto. }
      split.
      { intros p y Hp Hy. apply in_app_or in Hp. destruct Hp as [Hp|Hp]; [right; apply Far; auto|auto]. }
      split.
      { intros p [Hp|Hp].
        - apply in_app_or in Hp. destruct Hp as [Hp|Hp]; [exists s; split; [left; reflexivity|apply P3; exact Hp]|].
          destruct (Q6 p (or_introl Hp)) as (z & Hz & ?). exists z; split; [right|]; auto.
        - destruct (Q6 p (or_intror Hp)) as (z & Hz & ?). exists z; split; [right|]; auto. }
      intros x X1 X2. specialize (P4 x X1 X2). specialize (Q7 x X1 X2). rewrite !lcov_app in *. rewrite lcov_cons. tauto.
    + exists (s :: kept), ps. split; [reflexivity|]. split; [intros z [<-|Hz]; auto|]. split; [exact Q2|].
      split.
      { split; [|exact Q3]. intros y Hy. apply Far; [left; reflexivity|right; exact Hy]. }
      split; [exact Q4|]. split.
      { intros p y Hp [<-|Hy]; [left; apply Far; [left; reflexivity|left; exact Hp]|auto]. }
      split.
      { intros p [Hp|[<-|Hp]].
        - destruct (Q6 p (or_introl Hp)) as (z & Hz & ?). exists z; split; [right|]; auto.
        - exists s; split; [left; reflexivity|lra].
        - destruct (Q6 p (or_intror Hp)) as (z & Hz & ?). exists z; split; [right|]; auto. }
      intros x X1 X2. specialize (P4 x X1 X2). specialize (Q7 x X1 X2).
      cbn [app]. rewrite !lcov_cons, lcov_nil in *. rewrite lcov_app in *. tauto.
Qed.

Lemma difference_ok : forall l key, good key -> allgood l -> sep l ->
  exists l', collinear_segment_difference direct l key = Some l' /\ allgood l' /\ sep l' /\
    (forall x, ~ x == pos (fst key) -> ~ x == pos (snd key) -> (lcov l' x <-> lcov l x /\ ~ cov key x)).
Proof.
  intros l key K G S. unfold collinear_segment_difference.
  assert (K' := K). destruct K' as (K1 & K2 & K3).
  rewrite same_pos by assumption. destruct (Qeqb_spec (pos (fst key)) (pos (snd key))) as [|_]; [exfalso; auto|].
  destruct (equal_range direct l key) as [[b m] a] eqn:E.
  destruct (range_ok l key b m a K G S E) as (L & B & A & M).
  rewrite L in S. apply sep_app in S. destruct S as (Sb & S & Sbm). apply sep_app in S. destruct S as (Sm & Sa & Sma).
  assert (Gb : allgood b) by (intros x Hx; apply G; rewrite L; apply in_or_app; auto).
  assert (Gm : allgood m) by (intros x Hx; apply G; rewrite L; apply in_or_app; right; apply in_or_app; auto).
  assert (Ga : allgood a) by (intros x Hx; apply G; rewrite L; apply in_or_app; right; apply in_or_app; auto).
  destruct (difference_loop_ok m key K Gm Sm) as (kept & ps & E2 & Q1 & Q2 & Q3 & Q4 & Q5 & Q6 & Q7).
  { intros s Hs. destruct (M s Hs); split; assumption. }
  rewrite E2.
  assert (Fb : forall x p, In x b -> In p ps \/ In p kept -> before x p).
  { intros x p Hx Hp. destruct (Q6 p Hp) as (z & Hz & Z1 & Z2).
    assert (before x z) by (apply Sbm; auto; apply in_or_app; auto). unfold before in *; lra. }
  assert (Fa : forall x p, In x a -> In p ps \/ In p kept -> before p x).
  { intros x p Hx Hp. destruct (Q6 p Hp) as (z & Hz & Z1 & Z2).
    assert (before z x) by (apply Sma; auto). unfold before in *; lra. }
  destruct (insert_all_ok ps (b ++ kept ++ a) Q2) as [I1 I2].
  { intros x Hx. apply in_app_or in Hx. destruct Hx as [Hx|Hx]; [auto|]. apply in_app_or in Hx. destruct Hx; auto. }
  { apply sep_app. split; [exact Sb|]. split.
    - apply sep_app. split; [exact Q3|]. split; [exact Sa|]. intros x y Hx Hy. apply Fa; auto.
    - intros x y Hx Hy. apply in_app_or in Hy. destruct Hy; [apply Fb; auto|apply Sbm; auto; apply in_or_app; auto]. }
  { exact Q4. }
  { intros p y Hp Hy. apply in_app_or in Hy. destruct Hy as [Hy|Hy]; [left; apply Fb; auto|].
    apply in_app_or in Hy. destruct Hy as [Hy|Hy]; [apply Q5; auto|right; apply Fa; auto]. }
  eexists; split; [reflexivity|]. split.
  { intros x Hx. apply I2 in Hx. destruct Hx as [Hx|Hx]; [auto|]. apply in_app_or in Hx. destruct Hx as [Hx|Hx]; [auto|].
    apply in_app_or in Hx. destruct Hx; auto. }
  split; [exact I1|]. intros x X1 X2. specialize (Q7 x X1 X2).
  assert (R : lcov (fold_left (fun l p => set_insert direct p l) ps (b ++ kept ++ a)) x <-> lcov ps x \/ lcov (b ++ kept ++ a) x).
  { rewrite <- lcov_app. unfold lcov. split; intros (s & Hs & Hc); exists s; split; auto.
    - apply I2 in Hs. apply in_or_app; exact Hs.
    - apply I2. apply in_app_or; exact Hs. }
  rewrite R, L, !lcov_app in *.
  assert (Nb : lcov b x -> ~ cov key x).
  { intros (s & Hs & Hc) Hk. specialize (B s Hs). unfold before, cov in *. lra. }
  assert (Na : lcov a x -> ~ cov key x).
  { intros (s & Hs & Hc) Hk. specialize (A s Hs). unfold before, cov in *. lra. }
  tauto.
Qed.

End Line.
