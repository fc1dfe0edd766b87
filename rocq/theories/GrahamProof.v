(** Graham's scan computes the hull when the first point is the lowest one. *)
From Verif Require Import Base CmpModel CmpProof OrientModel OrientSpec OrientProof PolygonModel PolygonSpec PolygonProof GrahamModel GrahamSpec.
From Coq Require Import Sorting.Permutation Sorting.Sorted.

Ltac t2 := unfold tri2, cross, vsub in *; cbn [px py] in *.
(** ** The order of angles above a point *)
Lemma ang_id : forall o a b c, tri2 o a c * (py b - py o) == tri2 o a b * (py c - py o) + tri2 o b c * (py a - py o).
Proof. intros. t2. ring. Qed.
Lemma ang_trans : forall o a b c, below o a -> below o b -> below o c -> 0 <= tri2 o a b -> 0 <= tri2 o b c -> 0 <= tri2 o a c.
Proof.
  intros o a b c A B C H1 H2.
  assert (Ya : 0 <= py a - py o) by (destruct A as [?|[? ?]]; lra). assert (Yc : 0 <= py c - py o) by (destruct C as [?|[? ?]]; lra).
  destruct B as [B|[B1 B2]].
  - pose proof (ang_id o a b c) as E. assert (Y : 0 < py b - py o) by lra. pose proof (Qmult_le_0_compat _ _ H1 Yc). pose proof (Qmult_le_0_compat _ _ H2 Ya).
    destruct (Qlt_le_dec (tri2 o a c) 0) as [N|N]; [|exact N]. exfalso. assert (0 < (- tri2 o a c) * (py b - py o)) by (apply Qmult_lt_0_compat; lra). lra.
  - t2. assert (Y : py b - py o == 0) by lra. rewrite Y in H2. assert (0 <= (px o - px b) * (- (py c - py o))) by lra.
    assert (Z : py c - py o == 0). { destruct (Qlt_le_dec 0 (py c - py o)) as [P|P]; [|lra]. exfalso. assert (0 < (px o - px b) * (py c - py o)) by (apply Qmult_lt_0_compat; lra). lra. }
    rewrite Z. destruct C as [C|[_ C]]; [lra|]. assert (0 <= (py a - py o) * (px o - px c)) by (apply Qmult_le_0_compat; lra). lra.
Qed.
Lemma tri2_anti : forall o a b, tri2 o b a == - tri2 o a b.
Proof. intros. t2. ring. Qed.
Lemma ang_trans_lt : forall o a b c, below o a -> below o b -> below o c -> 0 < tri2 o a b -> 0 <= tri2 o b c -> 0 < tri2 o a c.
Proof.
  intros o a b c A B C H1 H2. pose proof (ang_trans o a b c A B C ltac:(lra) H2) as H. destruct (Qlt_le_dec 0 (tri2 o a c)) as [P|P]; [exact P|exfalso].
  assert (0 <= tri2 o c a) by (rewrite tri2_anti; lra). pose proof (ang_trans o b c a B C A H2 H0) as K. rewrite tri2_anti in K. lra.
Qed.
Lemma ang_trans_lt2 : forall o a b c, below o a -> below o b -> below o c -> 0 <= tri2 o a b -> 0 < tri2 o b c -> 0 < tri2 o a c.
Proof.
  intros o a b c A B C H1 H2. pose proof (ang_trans o a b c A B C H1 ltac:(lra)) as H. destruct (Qlt_le_dec 0 (tri2 o a c)) as [P|P]; [exact P|exfalso].
  assert (0 <= tri2 o c a) by (rewrite tri2_anti; lra). pose proof (ang_trans o c a b C A B H0 H1) as K. rewrite tri2_anti in K. lra.
Qed.
Lemma bary : forall o a b s q x, tri2 s q x * tri2 o a b == tri2 s q o * tri2 a b x + tri2 s q a * tri2 o x b + tri2 s q b * tri2 o a x.
Proof. intros. t2. ring. Qed.
Lemma bary_pos : forall o a b s q x, 0 < tri2 o a b -> 0 <= tri2 s q o * tri2 a b x -> 0 <= tri2 s q a * tri2 o x b -> 0 <= tri2 s q b * tri2 o a x -> 0 <= tri2 s q x.
Proof.
  intros o a b s q x T H1 H2 H3. pose proof (bary o a b s q x) as E. destruct (Qlt_le_dec (tri2 s q x) 0) as [N|N]; [|exact N]. exfalso.
  assert (0 < (- tri2 s q x) * tri2 o a b) by (apply Qmult_lt_0_compat; lra). lra.
Qed.
Lemma prod0 : forall a b, 0 <= a -> 0 <= b -> 0 <= a * b.
Proof. exact Qmult_le_0_compat. Qed.
Lemma tri2_ss : forall s q, tri2 s q q == 0. Proof. intros. t2. ring. Qed.
Lemma tri2_sqs : forall s q, tri2 s q s == 0. Proof. intros. t2. ring. Qed.
Lemma tri2_oo : forall o b, tri2 o o b == 0. Proof. intros. t2. ring. Qed.
Lemma tri2_cyc1 : forall a b c, tri2 a b c == tri2 b c a. Proof. intros. t2. ring. Qed.

(** Erasing [b] above [a] because of [q]. *)
Lemma pop_ok : forall o a b q x, below o a -> below o b -> below o q -> (x = o \/ below o x) ->
  0 <= tri2 o a b -> 0 <= tri2 o b q -> tri2 a b q <= 0 -> 0 <= tri2 a b x -> 0 <= tri2 o x q ->
  (0 <= tri2 o x b \/ 0 <= tri2 b q x) -> (0 <= tri2 o x a \/ 0 <= tri2 a q x).
Proof.
  intros o a b q x A B Q X AB BQ P E XQ H. destruct (Qlt_le_dec (tri2 o x a) 0) as [N|N]; [right|left; exact N].
  destruct X as [->|X]; [rewrite tri2_oo in N; lra|]. assert (AX : 0 < tri2 o a x) by (rewrite tri2_anti; lra).
  assert (AQ : 0 <= tri2 o a q) by (apply (ang_trans o a b q); assumption).
  assert (QA : 0 <= tri2 a q o) by (rewrite <- tri2_cyc1; exact AQ).
  assert (QB : 0 <= tri2 a q b) by (rewrite tri2_anti; lra).
  destruct (Qlt_le_dec (tri2 o x b) 0) as [M|M].
  - destruct H as [H|H]; [lra|]. assert (BX : 0 < tri2 o b x) by (rewrite tri2_anti; lra). assert (T : 0 < tri2 o b q) by (apply (ang_trans_lt o b x q); assumption).
    apply (bary_pos o b q a q x T); [apply prod0; assumption|apply prod0; assumption|rewrite tri2_ss; lra].
  - assert (T : 0 < tri2 o a b) by (apply (ang_trans_lt o a x b); assumption).
    apply (bary_pos o a b a q x T); [apply prod0; assumption|rewrite tri2_sqs; lra|apply prod0; [assumption|lra]].
Qed.
(** Pushing [q] above [b]. *)
Lemma push_ok : forall o a b q x, 0 < tri2 o a b -> 0 <= tri2 o b q -> 0 <= tri2 a b q -> 0 <= tri2 a b x -> (0 <= tri2 o x b \/ 0 <= tri2 b q x) -> 0 <= tri2 b q x.
Proof.
  intros o a b q x T BQ P E [H|H]; [|exact H].
  apply (bary_pos o a b b q x T); [apply prod0; [rewrite <- tri2_cyc1; exact BQ|exact E]|apply prod0; [rewrite <- tri2_cyc1; exact P|exact H]|rewrite tri2_sqs; lra].
Qed.
(** A point to the left of the last edge is to the left of the one before. *)
Lemma before_ok : forall o a b c q, 0 < tri2 o b c -> 0 <= tri2 o a b -> 0 <= tri2 a b c -> 0 <= tri2 b c q -> 0 <= tri2 o b q -> 0 <= tri2 a b q.
Proof.
  intros o a b c q T AB L E BQ. apply (bary_pos o b c a b q T); [apply prod0; [rewrite <- tri2_cyc1; exact AB|exact E]|rewrite tri2_ss; lra|apply prod0; assumption].
Qed.

(** ** The stack *)
Definition near (o a b : pt) : Prop := exists r, 0 < r < 1 /\ forall u, tri2 o u b == r * tri2 o u a /\ tri2 a b u == (r - 1) * tri2 o a u.
Fixpoint schain (o s1 : pt) (D st : list pt) : Prop :=
  match st with
  | [] => False
  | b :: st' =>
    match st' with
    | [] => False
    | a :: st'' =>
      match st'' with
      | [] => a = o /\ b = s1 /\ forall x, In x D -> 0 <= tri2 o s1 x
      | c :: _ => In b D /\ 0 < tri2 o a b /\ 0 < tri2 c a b /\ (forall x, In x D -> 0 <= tri2 a b x) /\ schain o s1 D st'
      end
    end
  end.
Definition tchain (o s1 : pt) (D st : list pt) : Prop :=
  schain o s1 D st \/
  exists b a c l, st = b :: a :: c :: l /\ In b D /\ near o a b /\ 0 < tri2 c a b /\ (forall x, In x D -> 0 <= tri2 a b x) /\ schain o s1 D (a :: c :: l).
Definition points_ok (o s1 : pt) (D : list pt) : Prop :=
  In o D /\ In s1 D /\ below o s1 /\ (forall x, In x D -> x = o \/ below o x) /\ forall x, In x D -> x = o \/ x = s1 \/ 0 < tri2 o s1 x.

Lemma schain_in : forall o s1 D st, points_ok o s1 D -> schain o s1 D st -> forall v, In v st -> In v D.
Proof.
  intros o s1 D st P. induction st as [|b [|a [|c l]] IH]; intros S v V; try contradiction.
  - destruct S as (-> & -> & _). destruct P as (P1 & P2 & _). destruct V as [<-|[<-|[]]]; assumption.
  - cbn [schain] in S. destruct S as (S1 & _ & _ & _ & S2). destruct V as [<-|V]; [exact S1|exact (IH S2 v V)].
Qed.
Lemma schain_top : forall o s1 D b st, points_ok o s1 D -> schain o s1 D (b :: st) -> below o b.
Proof.
  intros o s1 D b st P S. destruct st as [|a [|c l]]; [contradiction| |].
  - destruct S as (_ & -> & _). apply P.
  - cbn [schain] in S. destruct S as (S1 & S2 & _). destruct P as (_ & _ & _ & P & _). destruct (P b S1) as [->|B]; [|exact B]. exfalso. t2. lra.
Qed.
(** New points to the left of the edges keep the chain. *)
Lemma schain_more : forall o s1 D q st, points_ok o s1 D -> below o q -> 0 < tri2 o s1 q -> schain o s1 D st ->
  (forall b a l, st = b :: a :: l -> 0 <= tri2 a b q /\ 0 <= tri2 o b q) -> schain o s1 (q :: D) st.
Proof.
  intros o s1 D q st P Q F. induction st as [|b [|a [|c l]] IH]; intros S T; try contradiction.
  - destruct S as (-> & -> & S). split; [reflexivity|split; [reflexivity|]]. intros x [<-|X]; [lra|exact (S x X)].
  - cbn [schain] in S. destruct S as (S1 & S2 & S3 & S4 & S5). destruct (T b a (c :: l) eq_refl) as [T1 T2].
    assert (B : below o b) by (apply (schain_top o s1 D b (a :: c :: l) P); cbn [schain]; auto). assert (A : below o a) by exact (schain_top o s1 D a (c :: l) P S5).
    assert (AQ : 0 <= tri2 o a q) by (apply (ang_trans o a b q); try assumption; lra).
    cbn [schain]. split; [right; exact S1|]. split; [exact S2|]. split; [exact S3|]. split; [intros x [<-|X]; [exact T1|exact (S4 x X)]|].
    apply IH; [exact S5|]. intros b' a' l' E. inversion E; subst b' a' l'. split; [|exact AQ].
    apply (before_ok o c a b q); [exact S2| |lra|exact T1|exact AQ].
    destruct l as [|d l]; [destruct S5 as (-> & _); rewrite tri2_oo; lra|]. cbn [schain] in S5. destruct S5 as (_ & S5 & _). lra.
Qed.

Lemma insert_step : forall p2 p1 l q, graham_insert direct (p2 :: p1 :: l) q = if Qltb 0 (tri2 p1 p2 q) then Some (q :: p2 :: p1 :: l) else graham_insert direct (p1 :: l) q.
Proof.
  intros. cbn [graham_insert]. unfold get_orientation, get_orientation_v, orientation. cbn [direct less_than greater_than equals].
  unfold tri2, cross. cbv zeta.
  repeat match goal with |- context [Qltb ?a ?b] => destruct (Qltb_spec a b) | |- context [Qgtb ?a ?b] => destruct (Qgtb_spec a b) end; try reflexivity; exfalso; lra.
Qed.
Lemma insert_ok : forall o s1 D q st, points_ok o s1 D -> below o q -> 0 < tri2 o s1 q -> (forall x, In x D -> 0 <= tri2 o x q) ->
  schain o s1 D st -> (forall b l, st = b :: l -> forall x, In x D -> 0 <= tri2 o x b \/ 0 <= tri2 b q x) ->
  exists st', graham_insert direct st q = Some (q :: st') /\ tchain o s1 (q :: D) (q :: st').
Proof.
  intros o s1 D q st P Q F XQ. assert (P' := P). destruct P' as (P1 & P2 & P3 & P4 & P5). induction st as [|b [|a [|c l]] IH]; intros S T; try contradiction.
  - destruct S as (-> & -> & S). exists [s1; o]. rewrite insert_step. destruct (Qltb_spec 0 (tri2 o s1 q)) as [G|G]; [|lra]. split; [reflexivity|]. left. cbn [schain].
    split; [left; reflexivity|]. split; [exact F|]. split; [exact F|]. split.
    + intros x [<-|X]; [rewrite tri2_ss; lra|]. destruct (P5 x X) as [->|[->|Y]]; [rewrite <- tri2_cyc1; lra|rewrite tri2_sqs; lra|]. destruct (T s1 [o] eq_refl x X) as [H|H]; [rewrite tri2_anti in H; lra|exact H].
    + split; [reflexivity|split; [reflexivity|]]. intros x [<-|X]; [lra|exact (S x X)].
  - cbn [schain] in S. destruct S as (S1 & S2 & S3 & S4 & S5).
    assert (SB : schain o s1 D (b :: a :: c :: l)) by (cbn [schain]; auto). assert (B : below o b) by exact (schain_top o s1 D b _ P SB). assert (A : below o a) by exact (schain_top o s1 D a (c :: l) P S5).
    assert (BQ : 0 <= tri2 o b q) by (apply XQ; exact S1).
    rewrite insert_step. destruct (Qltb_spec 0 (tri2 a b q)) as [G|G].
    + exists (b :: a :: c :: l). split; [reflexivity|].
      assert (M : schain o s1 (q :: D) (b :: a :: c :: l)).
      { apply schain_more; try assumption. intros b' a' l' E. inversion E; subst b' a' l'. split; [lra|exact BQ]. }
      assert (EDGE : forall x, In x (q :: D) -> 0 <= tri2 b q x).
      { intros x [<-|X]; [rewrite tri2_ss; lra|]. apply (push_ok o a b q x S2 BQ ltac:(lra) (S4 x X)). exact (T b _ eq_refl x X). }
      destruct (Qlt_le_dec 0 (tri2 o b q)) as [H|H].
      * left. cbn [schain]. split; [left; reflexivity|]. split; [exact H|]. split; [exact G|]. split; [exact EDGE|]. exact M.
      * right. exists q, b, a, (c :: l). split; [reflexivity|]. split; [left; reflexivity|]. split; [|split; [exact G|split; [exact EDGE|exact M]]].
        (* q is on the ray of b *)
        assert (Z : tri2 o b q == 0) by lra.
        assert (R : exists r, 0 < r /\ px q - px o == r * (px b - px o) /\ py q - py o == r * (py b - py o)).
        { destruct B as [B|[B1 B2]].
          - assert (NZ : ~ py b - py o == 0) by lra. exists ((py q - py o) / (py b - py o)).
            assert (QY : 0 < py q - py o).
            { destruct Q as [Q|[Q1 Q2]]; [lra|]. exfalso. t2. assert (Y : py q - py o == 0) by lra. rewrite Y in Z. assert (0 < (py b - py o) * (px o - px q)) by (apply Qmult_lt_0_compat; lra). lra. }
            split; [apply Qlt_shift_div_l; lra|]. split; [|field; exact NZ]. apply (Qmult_inj_r _ _ (py b - py o) NZ). t2. transitivity ((px b - px o) * (py q - py o)); [lra|field; exact NZ].
          - t2. assert (Y : py b - py o == 0) by lra. rewrite Y in Z. assert (QY : (px b - px o) * (py q - py o) == 0) by lra.
            assert (QY0 : py q - py o == 0). { destruct (Qmult_integral _ _ QY); [lra|assumption]. }
            destruct Q as [Q|[_ Q2]]; [lra|]. assert (NZ : ~ px b - px o == 0) by lra. exists ((px o - px q) / (px o - px b)). split; [apply Qlt_shift_div_l; lra|]. split; [field; lra|rewrite QY0, Y; ring]. }
        destruct R as (r & R0 & R1 & R2). exists r.
        assert (U : forall u, tri2 o u q == r * tri2 o u b /\ tri2 b q u == (r - 1) * tri2 o b u).
        { intro u. t2. assert (X1 : px q == px o + r * (px b - px o)) by lra. assert (X2 : py q == py o + r * (py b - py o)) by lra. rewrite X1, X2. split; ring. }
        split; [|exact U]. split; [exact R0|].
        (* the turn at b is to the left *)
        destruct (U a) as [U1 U2]. assert (E : tri2 b q a == tri2 a b q) by (symmetry; apply tri2_cyc1). rewrite E in U2. rewrite (tri2_anti o a b) in U2.
        destruct (Qlt_le_dec r 1) as [L|L]; [exact L|exfalso]. assert (0 <= (r - 1) * tri2 o a b) by (apply prod0; lra). lra.
    + apply IH; [exact S5|]. intros b' l' E x X. inversion E; subst b' l'.
      apply (pop_ok o a b q x A B Q (P4 x X) ltac:(lra) BQ G (S4 x X) (XQ x X)). exact (T b _ eq_refl x X).
Qed.
Lemma insert_any : forall o s1 D q b l, points_ok o s1 D -> below o q -> 0 < tri2 o s1 q -> (forall x, In x D -> 0 <= tri2 o x q) ->
  tchain o s1 D (b :: l) -> (forall x, In x D -> 0 <= tri2 o x b) ->
  exists st', graham_insert direct (b :: l) q = Some (q :: st') /\ tchain o s1 (q :: D) (q :: st').
Proof.
  intros o s1 D q b l P Q F XQ [S|(b' & a & c & l' & E & IB & N & C & ED & S)] T.
  - apply (insert_ok o s1 D q (b :: l) P Q F XQ S). intros b' l' E x X. inversion E; subst. left. exact (T x X).
  - inversion E; subst b' l. destruct N as (r & [R0 R1] & N). rewrite insert_step. assert (A : below o a) by exact (schain_top o s1 D a (c :: l') P S).
    assert (IA : In a D) by (apply (schain_in o s1 D (a :: c :: l') P S); left; reflexivity).
    assert (G : tri2 a b q <= 0). { destruct (N q) as [_ N2]. rewrite N2. pose proof (prod0 (1 - r) (tri2 o a q) ltac:(lra) (XQ a IA)). lra. }
    destruct (Qltb_spec 0 (tri2 a b q)) as [G'|_]; [lra|].
    apply (insert_ok o s1 D q (a :: c :: l') P Q F XQ S). intros b' l'' E' x X. inversion E'; subst b' l''. left.
    destruct (N x) as [N1 _]. specialize (T x X). rewrite N1 in T. destruct (Qlt_le_dec (tri2 o x a) 0) as [Y|Y]; [|exact Y]. exfalso. assert (0 < r * (- tri2 o x a)) by (apply Qmult_lt_0_compat; lra). lra.
Qed.

(** ** All points *)
Lemma loop_ok : forall o s1 ps D b l, points_ok o s1 D -> tchain o s1 D (b :: l) -> In b D -> (forall x, In x D -> 0 <= tri2 o x b) ->
  (forall q, In q ps -> below o q /\ 0 < tri2 o s1 q) -> (forall q x, In q ps -> In x D -> 0 <= tri2 o x q) -> StronglySorted (fun a b => 0 <= tri2 o a b) ps ->
  exists b' l', graham_loop direct (b :: l) ps = Some (b' :: l') /\ points_ok o s1 (rev ps ++ D) /\ tchain o s1 (rev ps ++ D) (b' :: l') /\ In b' (rev ps ++ D) /\ forall x, In x (rev ps ++ D) -> 0 <= tri2 o x b'.
Proof.
  intros o s1. induction ps as [|q ps IH]; intros D b l P T IB X QS XQ SS.
  - exists b, l. cbn [graham_loop rev app]. auto.
  - cbn [graham_loop]. destruct (QS q (or_introl eq_refl)) as [Q F].
    destruct (insert_any o s1 D q b l P Q F (fun x X' => XQ q x (or_introl eq_refl) X') T X) as (st' & -> & T').
    inversion SS as [|? ? SS1 SS2]; subst. rewrite Forall_forall in SS2. cbn [rev]. rewrite <- app_assoc. cbn [app].
    apply IH; [| exact T'|left; reflexivity| | | |exact SS1].
    + destruct P as (P1 & P2 & P3 & P4 & P5). split; [right; exact P1|]. split; [right; exact P2|]. split; [exact P3|]. split.
      * intros x [<-|X']; [right; exact Q|exact (P4 x X')].
      * intros x [<-|X']; [right; right; exact F|exact (P5 x X')].
    + intros x [<-|X']; [rewrite tri2_ss; lra|apply (XQ q x); [left; reflexivity|exact X']].
    + intros p I. apply QS. right. exact I.
    + intros p x I [<-|X']; [apply SS2, I|apply (XQ p x); [right; exact I|exact X']].
Qed.

(** ** What the chain bounds *)
Lemma schain_edges : forall o s1 D st, schain o s1 D st -> forall l1 B A l2 x, st = l1 ++ B :: A :: l2 -> In x D -> 0 <= tri2 A B x.
Proof.
  intros o s1 D. induction st as [|b [|a [|c l]] IH]; intros S l1 B A l2 x E X; try contradiction.
  - destruct S as (-> & -> & S). destruct l1 as [|u l1]; [inversion E; subst; exact (S x X)|]. destruct l1 as [|u' [|u'' l1]]; inversion E.
  - cbn [schain] in S. destruct S as (_ & _ & _ & S4 & S5). destruct l1 as [|u l1]; [inversion E; subst; exact (S4 x X)|]. inversion E; subst. apply (IH S5 l1 B A l2 x); assumption.
Qed.
Lemma schain_hull : forall o s1 D st, points_ok o s1 D -> schain o s1 D st -> forall b l x, st = b :: l -> In x D -> 0 <= tri2 o x b -> in_hull st x /\ In o st.
Proof.
  intros o s1 D st P. assert (P' := P). destruct P' as (P1 & P2 & P3 & P4 & P5).
  assert (VX : forall r v, In v r -> in_hull r v).
  { intros r v V. exists v, v, v. repeat split; try exact V. exists 1, 0, 0. repeat split; try lra; unfold vadd, vscale; cbn [px py]; ring. }
  induction st as [|b [|a [|c l]] IH]; intros S b' l' x E X H; try contradiction; inversion E; subst b' l'; clear E.
  - destruct S as (-> & -> & S). split; [|right; left; reflexivity]. apply VX. destruct (P5 x X) as [->|[->|G]]; [right; left; reflexivity|left; reflexivity|]. rewrite tri2_anti in H. lra.
  - assert (SB : schain o s1 D (b :: a :: c :: l)) by exact S. assert (B : below o b) by exact (schain_top o s1 D b _ P SB). cbn [schain] in S. destruct S as (S1 & S2 & S3 & S4 & S5).
    assert (IA : In a D) by (apply (schain_in o s1 D (a :: c :: l) P S5); left; reflexivity).
    assert (A : below o a) by exact (schain_top o s1 D a (c :: l) P S5).
    assert (OI : In o (a :: c :: l)) by (apply (IH S5 a (c :: l) a eq_refl IA); rewrite tri2_ss; lra).
    split; [|right; exact OI]. destruct (Qlt_le_dec (tri2 o x a) 0) as [N|N].
    + exists o, a, b. split; [right; exact OI|]. split; [right; left; reflexivity|]. split; [left; reflexivity|]. apply in_triangle_iff; [exact S2|]. split; [rewrite tri2_anti; lra|]. split; [exact (S4 x X)|]. rewrite tri2_cyc1. exact H.
    + destruct (IH S5 a (c :: l) x eq_refl X N) as [(u & v & w & U & V & W & I) _]. exists u, v, w. repeat split; try (right; assumption). exact I.
Qed.

Lemma tchain_bounds : forall o s1 D b l, points_ok o s1 D -> tchain o s1 D (b :: l) -> In b D -> (forall x, In x D -> 0 <= tri2 o x b) ->
  (forall v, In v (b :: l) -> In v D) /\ (forall A B x, follows (b :: l) B A -> In x D -> 0 <= tri2 A B x) /\ (forall x, In x D -> in_hull (b :: l) x).
Proof.
  intros o s1 D b l P T IB X.
  assert (HASO : forall st, schain o s1 D st -> exists l', st = l' ++ [o] /\ l' <> []).
  { induction st as [|u [|v [|w m]] IH]; intro S; try contradiction.
    - destruct S as (-> & -> & _). exists [s1]. split; [reflexivity|discriminate].
    - cbn [schain] in S. destruct S as (_ & _ & _ & _ & S). destruct (IH S) as (l' & E & _). exists (u :: l'). split; [rewrite E; reflexivity|discriminate]. }
  assert (CLOSE : forall A B x, (exists l', b :: l = l' ++ [o] /\ l' <> []) -> (exists m, b :: l = A :: m ++ [B]) -> In x D -> 0 <= tri2 A B x).
  { intros A B x (l' & E1 & NE) (m & E2) IX. destruct l' as [|b' l']; [contradiction|]. cbn [app] in E1. inversion E1; subst b' l. inversion E2; subst A. apply app_inj_tail in H1. destruct H1 as [_ <-].
    rewrite <- tri2_cyc1. rewrite <- tri2_cyc1. rewrite <- tri2_cyc1. rewrite tri2_cyc1. apply X, IX. }
  destruct T as [S|(b' & a & c & l' & E & _ & N & C & ED & S)].
  - split; [apply (schain_in o s1 D _ P S)|]. split; [|intros x IX; apply (schain_hull o s1 D _ P S b l x eq_refl IX (X x IX))].
    intros A B x [(l1 & l2 & E)|F] IX; [exact (schain_edges o s1 D _ S l1 B A l2 x E IX)|]. exact (CLOSE A B x (HASO _ S) F IX).
  - inversion E; subst b' l. clear E. split; [intros v [<-|V]; [exact IB|exact (schain_in o s1 D _ P S v V)]|]. split.
    + intros A B x [(l1 & l2 & E)|F] IX.
      * destruct l1 as [|u l1]; inversion E; subst; [exact (ED x IX)|]. exact (schain_edges o s1 D _ S l1 B A l2 x H1 IX).
      * apply CLOSE; [|exact F|exact IX]. destruct (HASO _ S) as (m & E & _). exists (b :: m). split; [rewrite E; reflexivity|discriminate].
    + intros x IX. destruct N as (r & [R0 R1] & N). destruct (N x) as [N1 _]. pose proof (X x IX) as H. rewrite N1 in H.
      assert (Y : 0 <= tri2 o x a). { destruct (Qlt_le_dec (tri2 o x a) 0) as [Y|Y]; [|exact Y]. exfalso. assert (0 < r * (- tri2 o x a)) by (apply Qmult_lt_0_compat; lra). lra. }
      destruct (schain_hull o s1 D _ P S a (c :: l') x eq_refl IX Y) as [(u & v & w & U & V & W & I) _]. exists u, v, w. repeat split; try (right; assumption). exact I.
Qed.
Lemma tchain_turns : forall o s1 D st, tchain o s1 D st -> forall l1 C B A l2, st = l1 ++ C :: B :: A :: l2 -> 0 < tri2 A B C.
Proof.
  intros o s1 D st T.
  assert (SC : forall st, schain o s1 D st -> forall l1 C B A l2, st = l1 ++ C :: B :: A :: l2 -> 0 < tri2 A B C).
  { clear. induction st as [|b [|a [|c l]] IH]; intros S l1 C B A l2 E; try contradiction.
    - destruct l1 as [|u [|u' [|u'' l1]]]; inversion E.
    - cbn [schain] in S. destruct S as (_ & _ & S3 & _ & S5). destruct l1 as [|u l1]; inversion E; subst; [exact S3|]. apply (IH S5 l1 C B A l2 H1). }
  destruct T as [S|(b & a & c & l & -> & _ & _ & T & _ & S)]; [exact (SC st S)|].
  intros l1 C B A l2 E. destruct l1 as [|u l1]; inversion E; subst; [exact T|]. exact (SC _ S l1 C B A l2 H1).
Qed.

(** ** The first point is the lowest *)
Lemma find_lowest_id : forall p0 rest, (forall x, In x rest -> below p0 x) -> find_lowest direct (p0 :: rest) = p0 :: rest.
Proof.
  intros p0 rest B. unfold find_lowest. cbn [length]. rewrite Nat.sub_succ, Nat.sub_0_r.
  assert (G : forall n i, (1 <= i)%nat -> (i + n <= S (length rest))%nat -> find_lowest_loop direct n i 0 (p0 :: rest) = p0 :: rest).
  { induction n as [|n IH]; intros i L1 L2; [reflexivity|]. cbn [find_lowest_loop]. change (nth 0 (p0 :: rest) (mkpt 0 0)) with p0.
    destruct i as [|i]; [lia|]. change (nth (S i) (p0 :: rest) (mkpt 0 0)) with (nth i rest (mkpt 0 0)). set (x := nth i rest (mkpt 0 0)).
    assert (H : below p0 x) by (apply B, nth_In; lia). cbn [direct less_than equals greater_than].
    destruct (Qltb_spec (py x) (py p0)) as [H1|H1]; [destruct H as [H|[H H']]; lra|]. cbn [orb].
    destruct (Qeqb_spec (py x) (py p0)) as [H2|H2]; cbn [andb]; [|apply IH; lia].
    destruct (Qgtb_spec (px x) (px p0)) as [H3|H3]; [destruct H as [H|[H H']]; lra|]. apply IH; lia. }
  apply G; lia.
Qed.
Lemma compare_false : forall o a b, graham_compare direct o b a = false <-> 0 <= tri2 o a b.
Proof.
  intros o a b. unfold graham_compare. cbn [direct greater_than]. fold (tri2 o b a). rewrite (tri2_anti o b a). destruct (Qgtb_spec (tri2 o b a) 0); split; intro; (discriminate || reflexivity || lra).
Qed.
Lemma graham_ok : forall p0 s1 rest others result, (forall x, In x rest -> below p0 x) -> Permutation rest (s1 :: others) -> (forall x, In x others -> 0 < tri2 p0 s1 x) ->
  get_convex_hull direct (p0 :: rest) result ->
  exists h, result = Some h /\ bounds_clockwise h (p0 :: rest) /\ (forall l1 A B C l2, h = l1 ++ A :: B :: C :: l2 -> tri2 A B C < 0).
Proof.
  intros p0 s1 rest others result B PR F (q0 & rest' & sorted & E1 & [PS SS] & E2). rewrite (find_lowest_id p0 rest B) in E1. inversion E1; subst q0 rest'. clear E1.
  assert (PO : Permutation (s1 :: others) sorted) by (transitivity rest; [symmetry; exact PR|exact PS]).
  destruct sorted as [|f tl]; [apply Permutation_sym, Permutation_nil_cons in PO; contradiction|].
  inversion SS as [|? ? SS1 SS2]; subst. rewrite Forall_forall in SS2.
  assert (EF : f = s1).
  { assert (I : In f (s1 :: others)) by (apply (Permutation_in _ (Permutation_sym PO)); left; reflexivity). destruct I as [I|I]; [symmetry; exact I|]. exfalso. pose proof (F f I) as G.
    assert (J : In s1 (f :: tl)) by (apply (Permutation_in _ PO); left; reflexivity). destruct J as [->|J]; [rewrite tri2_ss in G; lra|].
    specialize (SS2 s1 J). apply compare_false in SS2. rewrite tri2_anti in SS2. lra. }
  subst f. apply Permutation_cons_inv in PO.
  assert (IR : forall x, In x rest <-> x = s1 \/ In x tl).
  { intro x. split; intro I; [apply (Permutation_in _ PS) in I; destruct I as [<-|I]; auto|]. apply (Permutation_in _ (Permutation_sym PS)). destruct I as [->|I]; [left; reflexivity|right; exact I]. }
  assert (TL : forall x, In x tl -> below p0 x /\ 0 < tri2 p0 s1 x).
  { intros x I. split; [apply B, IR; right; exact I|apply F, (Permutation_in _ (Permutation_sym PO)), I]. }
  assert (B1 : below p0 s1) by (apply B, IR; left; reflexivity).
  assert (P0 : points_ok p0 s1 [s1; p0]).
  { split; [right; left; reflexivity|]. split; [left; reflexivity|]. split; [exact B1|]. split; intros x [<-|[<-|[]]]; auto. }
  destruct (loop_ok p0 s1 tl [s1; p0] s1 [p0] P0) as (b & l & G & P & T & IB & X).
  - left. cbn [schain]. split; [reflexivity|split; [reflexivity|]]. intros x [<-|[<-|[]]]; [rewrite tri2_ss|rewrite tri2_sqs]; lra.
  - left. reflexivity.
  - intros x [<-|[<-|[]]]; [rewrite tri2_ss|rewrite tri2_oo]; lra.
  - exact TL.
  - intros q x I [<-|[<-|[]]]; [destruct (TL q I); lra|rewrite tri2_oo; lra].
  - clear - SS1. induction SS1 as [|a m H IH N]; constructor; [exact IH|]. rewrite Forall_forall in *. intros y Y. apply compare_false, N, Y.
  - cbn [graham_scan]. rewrite G. exists (b :: l). split; [reflexivity|].
    assert (ID : forall x, In x (rev tl ++ [s1; p0]) <-> In x (p0 :: rest)).
    { intro x. rewrite in_app_iff, <- in_rev. cbn [In]. rewrite IR. intuition congruence. }
    destruct (tchain_bounds p0 s1 _ b l P T IB X) as (K1 & K2 & K3). split; [split; [|split]|].
    + intros v V. apply ID, K1, V.
    + intros A C x FO I. apply ID in I. pose proof (K2 C A x FO I) as H. assert (Y : tri2 A C x == - tri2 C A x) by (t2; ring). lra.
    + intros x I. apply K3, ID, I.
    + intros l1 A M C l2 E. pose proof (tchain_turns p0 s1 _ _ T l1 A M C l2 E) as H. assert (Y : tri2 A M C == - tri2 C M A) by (t2; ring). lra.
Qed.
