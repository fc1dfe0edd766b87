(** Proofs about the cut of a polygon by a plane: border and passages of the two parts. *)
From Coq Require Import Setoid.
From Verif Require Import Base LinIntSpec DistModel BoxIntModel CutModel CutSpec CutProof.

(** Sums over the closed edges are sums along the path. *)
Lemma last_any : forall (ps : list pt3) a b, ps <> [] -> last ps a = last ps b.
Proof. induction ps as [|x ps IH]; intros a b H; [contradiction|]. cbn [last]. destruct ps as [|y ps]; [reflexivity|]. apply IH. discriminate. Qed.

Lemma split_polygon_cut : forall ps pl, ps <> [] -> exists p F B, split_polygon ps pl = Some (F, B) /\ last ps p = p /\ (forall q, last ps q = p) /\ cut pl p ps F B.
Proof.
  intros ps pl H. destruct ps as [|p ps]; [contradiction|]. cbn [split_polygon].
  assert (G : forall q, last (p :: ps) q = last (p :: ps) p).
  { intro q. apply last_any. discriminate. }
  destruct (split_loop_cut pl (p :: ps) (last (p :: ps) p)) as (F & B & E & C).
  exists (last (p :: ps) p), F, B. split; [exact E|]. split; [apply G|]. split; [apply G|exact C].
Qed.

Lemma sides : forall pl a ps F B, cut pl a ps F B -> (forall X, In X F -> 0 <= above pl X) /\ (forall X, In X B -> above pl X <= 0).
Proof.
  intros pl a ps F B C. induction C as [a|a b ps fs bs fs' bs' C1 C2 [IH1 IH2]]; [split; intros X []|].
  split; intros X H; apply in_app_or in H; destruct H as [H|H]; auto;
  inversion C1 as [x A B' X'|A B'|x A B' X'|A B'|A B'|A B'|A B']; subst; cbn [In] in H; try (destruct X' as [X' _]);
  repeat (destruct H as [H|H]; [subst; lra|]); try contradiction.
Qed.

(** *** Passages *)
Lemma passage_out : forall pl c A B, (above pl A <= c /\ above pl B <= c) \/ (c < above pl A /\ c < above pl B) -> passage pl c (A, B) = [].
Proof.
  intros pl c A B H. unfold passage.
  destruct (Qleb_spec (above pl A) c) as [H1|H1]; destruct (Qltb_spec c (above pl B)) as [H2|H2]; cbn [andb];
  destruct (Qleb_spec (above pl B) c) as [H3|H3]; destruct (Qltb_spec c (above pl A)) as [H4|H4]; cbn [andb]; try reflexivity; exfalso; lra.
Qed.
Lemma passage_up : forall pl c A B, above pl A <= c < above pl B -> passage pl c (A, B) = [(true, lerp3 A B ((c - above pl A) / (above pl B - above pl A)))].
Proof.
  intros pl c A B H. unfold passage. assert (Qleb (above pl A) c = true) as -> by (apply Qleb_le; lra). assert (Qltb c (above pl B) = true) as -> by (apply Qltb_lt; lra). reflexivity.
Qed.
Lemma passage_down : forall pl c A B, above pl B <= c < above pl A -> passage pl c (A, B) = [(false, lerp3 A B ((c - above pl A) / (above pl B - above pl A)))].
Proof.
  intros pl c A B H. unfold passage. destruct (Qleb_spec (above pl A) c); [exfalso; lra|]. cbn [andb].
  assert (Qleb (above pl B) c = true) as -> by (apply Qleb_le; lra). assert (Qltb c (above pl A) = true) as -> by (apply Qltb_lt; lra). reflexivity.
Qed.
Lemma lerp_of_lerp_l : forall pl A B x t c, pt3eq x (lerp3 A B t) -> above pl x == 0 -> 0 < t < 1 -> ~ above pl A == above pl B -> ~ above pl A == 0 ->
  pt3eq (lerp3 A B ((c - above pl A) / (above pl B - above pl A))) (lerp3 A x ((c - above pl A) / (above pl x - above pl A))).
Proof.
  intros pl A B x t c E X T N NA. assert (K : above pl (lerp3 A B t) == 0) by (rewrite <- (above_eq pl _ _ E); exact X). rewrite above_lerp in K.
  assert (T0 : t * (above pl B - above pl A) == - above pl A) by lra.
  assert (S1 : (c - above pl A) / (above pl x - above pl A) * t == (c - above pl A) / (above pl B - above pl A)).
  { rewrite X. assert (t == - above pl A / (above pl B - above pl A)) as -> by (apply (Qmult_inj_r _ _ (above pl B - above pl A)); [lra|rewrite T0; field; lra]). field. split; lra. }
  set (s := (c - above pl A) / (above pl x - above pl A)) in *. set (r := (c - above pl A) / (above pl B - above pl A)) in *. clearbody s r. destruct E as (E1 & E2 & E3).
  unfold pt3eq, lerp3, vadd3, vscale3, vsub3 in *; simpl in *. rewrite E1, E2, E3, <- S1. repeat split; ring.
Qed.
Lemma lerp_of_lerp_r : forall pl A B x t c, pt3eq x (lerp3 A B t) -> above pl x == 0 -> 0 < t < 1 -> ~ above pl A == above pl B -> ~ above pl B == 0 ->
  pt3eq (lerp3 A B ((c - above pl A) / (above pl B - above pl A))) (lerp3 x B ((c - above pl x) / (above pl B - above pl x))).
Proof.
  intros pl A B x t c E X T N NB. assert (K : above pl (lerp3 A B t) == 0) by (rewrite <- (above_eq pl _ _ E); exact X). rewrite above_lerp in K.
  assert (S1 : t + (c - above pl x) / (above pl B - above pl x) * (1 - t) == (c - above pl A) / (above pl B - above pl A)).
  { rewrite X. assert (t == - above pl A / (above pl B - above pl A)) as -> by (apply (Qmult_inj_r _ _ (above pl B - above pl A)); [lra|]; assert (T0 : t * (above pl B - above pl A) == - above pl A) by lra; rewrite T0; field; lra). field. split; lra. }
  set (s := (c - above pl x) / (above pl B - above pl x)) in *. set (r := (c - above pl A) / (above pl B - above pl A)) in *. clearbody s r. destruct E as (E1 & E2 & E3).
  unfold pt3eq, lerp3, vadd3, vscale3, vsub3 in *; simpl in *. rewrite E1, E2, E3, <- S1. repeat split; ring.
Qed.
Lemma same_passage_refl : forall p, same_passage p p.
Proof. intro p. split; [reflexivity|]. unfold pt3eq. repeat split; reflexivity. Qed.
#[global] Instance passages_equiv : Equivalence (Forall2 same_passage).
Proof.
  split.
  - intro l. induction l; constructor; auto using same_passage_refl.
  - intros l l' H. induction H; constructor; auto. destruct H as [H1 (H2 & H3 & H4)]. split; [auto|]. unfold pt3eq; repeat split; symmetry; assumption.
  - intros l1 l2 l3 H. revert l3. induction H as [|x y l1 l2 H H' IH]; intros l3 K; inversion K as [|y' z l2' l3' K1 K2]; subst; constructor; auto.
    destruct H as [H1 (H2 & H3 & H4)], K1 as [K1 (K3 & K4 & K5)]. split; [congruence|]. unfold pt3eq. repeat split; etransitivity; eassumption.
Qed.
Lemma passage_split : forall pl c a b x, ~ c == 0 -> between pl a b x -> above pl a * above pl b < 0 ->
  Forall2 same_passage (passage pl c (a, b)) (passage pl c (a, x) ++ passage pl c (x, b)).
Proof.
  intros pl c a b x C (X & t & T & E) H.
  assert (NE : ~ above pl a == above pl b) by (intro; nra). assert (NA : ~ above pl a == 0) by (intro; nra). assert (NB : ~ above pl b == 0) by (intro; nra).
  pose proof (lerp_of_lerp_l pl a b x t c E X T NE NA) as L. pose proof (lerp_of_lerp_r pl a b x t c E X T NE NB) as R.
  destruct (Qlt_le_dec c (above pl a)) as [A|A], (Qlt_le_dec c (above pl b)) as [B|B].
  - rewrite (passage_out pl c a b) by lra. rewrite (passage_out pl c a x), (passage_out pl c x b); [constructor| |]; nra.
  - rewrite (passage_down pl c a b) by lra. destruct (Qlt_le_dec c 0).
    + rewrite (passage_out pl c a x), (passage_down pl c x b) by lra. cbn [app]. constructor; [split; [reflexivity|exact R]|constructor].
    + rewrite (passage_down pl c a x), (passage_out pl c x b) by lra. cbn [app]. constructor; [split; [reflexivity|exact L]|constructor].
  - rewrite (passage_up pl c a b) by lra. destruct (Qlt_le_dec c 0).
    + rewrite (passage_out pl c x b), (passage_up pl c a x) by lra. cbn [app]. constructor; [split; [reflexivity|exact L]|constructor].
    + rewrite (passage_out pl c a x), (passage_up pl c x b) by lra. cbn [app]. constructor; [split; [reflexivity|exact R]|constructor].
  - rewrite (passage_out pl c a b) by lra. rewrite (passage_out pl c a x), (passage_out pl c x b); [constructor| |]; nra.
Qed.
Lemma passages_path : forall pl c ps a, (forall q, last ps q = a) \/ ps = [] -> passages pl c ps = path [] (@app _) (fun A B => passage pl c (A, B)) a ps.
Proof.
  intros pl c ps a H. unfold passages, closed_edges. destruct ps as [|p ps]; [reflexivity|]. destruct H as [H|H]; [|discriminate]. rewrite H. clear H.
  generalize (p :: ps) as l. clear. intro l. revert a. induction l as [|b l IH]; intro a; [reflexivity|]. change (combine (a :: b :: l) (b :: l)) with ((a, b) :: combine (b :: l) l). cbn [flat_map path]. rewrite IH. reflexivity.
Qed.

Lemma cut_passages : forall ps pl F B c, split_polygon ps pl = Some (F, B) ->
  (0 < c -> Forall2 same_passage (passages pl c F) (passages pl c ps)) /\ (c < 0 -> Forall2 same_passage (passages pl c B) (passages pl c ps)).
Proof.
  intros ps pl F B c H. assert (N : ps <> []) by (intro; subst; discriminate).
  destruct (split_polygon_cut ps pl N) as (p & F' & B' & E & L & LA & C). rewrite E in H. injection H as -> ->.
  assert (PF : forall l : list pt3, (forall q, last l q = last l p) \/ l = []).
  { intro l. destruct l as [|x l]; [right; reflexivity|left]. intro q. apply last_any. discriminate. }
  assert (PR : forall a b c d : list (bool * pt3), Forall2 same_passage a b -> Forall2 same_passage c d -> Forall2 same_passage (a ++ c) (b ++ d)) by (intros; apply Forall2_app; assumption).
  split; intro CC; rewrite (passages_path pl c ps p (or_introl LA)).
  - rewrite (passages_path pl c F _ (PF F)). eapply (front_path [] (@app _) (Forall2 same_passage)); try exact C.
    + exact PR.
    + intro a; reflexivity.
    + intro a. rewrite app_nil_r. reflexivity.
    + intros. rewrite app_assoc. reflexivity.
    + intros a b x X Y. apply passage_split; [lra|exact X|exact Y].
    + intros a b X Y. rewrite passage_out by lra. constructor.
    + pose proof (cut_front_last pl p ps F B C p (front_link_refl pl p)) as K. rewrite L in K. exact K.
  - rewrite (passages_path pl c B _ (PF B)). eapply (back_path [] (@app _) (Forall2 same_passage)); try exact C.
    + exact PR.
    + intro a; reflexivity.
    + intro a. rewrite app_nil_r. reflexivity.
    + intros. rewrite app_assoc. reflexivity.
    + intros a b x X Y. apply passage_split; [lra|exact X|exact Y].
    + intros a b X Y. rewrite passage_out by lra. constructor.
    + pose proof (cut_back_last pl p ps F B C p (back_link_refl pl p)) as K. rewrite L in K. exact K.
Qed.
Lemma passages_none : forall pl c l, (forall X, In X l -> above pl X <= c) \/ (forall X, In X l -> c < above pl X) -> passages pl c l = [].
Proof.
  intros pl c l H. unfold passages, closed_edges. destruct l as [|p l]; [reflexivity|].
  assert (LI : In (last (p :: l) p) (p :: l)) by (clear; revert p; induction l as [|x l IH]; intro p; [left; reflexivity|]; cbn [last] in *; right; destruct l; [left; reflexivity|rewrite (last_any _ p x) by discriminate; apply IH]).
  assert (G : forall e, In e (combine (last (p :: l) p :: p :: l) (p :: l)) -> passage pl c e = []).
  { intros [A B] HI. pose proof (in_combine_l _ _ _ _ HI) as IA. pose proof (in_combine_r _ _ _ _ HI) as IB.
    assert (IA' : In A (p :: l)) by (destruct IA as [<-|IA]; [exact LI|exact IA]). apply passage_out. destruct H as [H|H]; [left|right]; split; auto. }
  revert G. generalize (combine (last (p :: l) p :: p :: l) (p :: l)). intros es G. induction es as [|e es IH]; [reflexivity|].
  cbn [flat_map]. rewrite G by (left; reflexivity). apply IH. intros e' H'. apply G. right. exact H'.
Qed.
Lemma winding_same : forall u q (l l' : list (bool * pt3)), Forall2 same_passage l l' ->
  fold_right (fun (p : bool * pt3) (s : Z) => if Qltb 0 (dot3 u (vsub3 (snd p) q)) then (s + if fst p then 1 else -1)%Z else s) 0%Z l =
  fold_right (fun (p : bool * pt3) (s : Z) => if Qltb 0 (dot3 u (vsub3 (snd p) q)) then (s + if fst p then 1 else -1)%Z else s) 0%Z l'.
Proof.
  intros u q l l' H. induction H as [|x y l l' [H1 (H2 & H3 & H4)] H' IH]; [reflexivity|]. cbn [fold_right]. rewrite IH, H1.
  assert (E : dot3 u (vsub3 (snd x) q) == dot3 u (vsub3 (snd y) q)) by (unfold dot3, vsub3; simpl; rewrite H2, H3, H4; reflexivity).
  destruct (Qltb_spec 0 (dot3 u (vsub3 (snd x) q))), (Qltb_spec 0 (dot3 u (vsub3 (snd y) q))); try reflexivity; exfalso; lra.
Qed.

(** *** Border *)
Lemma on_segment3_split : forall A B x t X, pt3eq x (lerp3 A B t) -> 0 < t < 1 -> (on_segment3 A B X <-> on_segment3 A x X \/ on_segment3 x B X).
Proof.
  intros A B x t X (E1 & E2 & E3) T. unfold on_segment3, pt3eq, lerp3, vadd3, vscale3, vsub3 in *; simpl in *. split.
  - intros (s & Hs & X1 & X2 & X3). destruct (Qlt_le_dec t s) as [C|C].
    + right. exists ((s - t) / (1 - t)). split; [split; [apply Qle_shift_div_l; lra|apply Qle_shift_div_r; lra]|]. rewrite X1, X2, X3, E1, E2, E3. repeat split; field; lra.
    + left. exists (s / t). split; [split; [apply Qle_shift_div_l; lra|apply Qle_shift_div_r; lra]|]. rewrite X1, X2, X3, E1, E2, E3. repeat split; field; lra.
  - intros [(s & Hs & X1 & X2 & X3)|(s & Hs & X1 & X2 & X3)].
    + exists (s * t). split; [nra|]. rewrite X1, X2, X3, E1, E2, E3. repeat split; ring.
    + exists (t + s * (1 - t)). split; [nra|]. rewrite X1, X2, X3, E1, E2, E3. repeat split; ring.
Qed.
Lemma on_segment3_above : forall pl A B X, on_segment3 A B X -> (above pl A <= 0 -> above pl B <= 0 -> above pl X <= 0) /\ (0 <= above pl A -> 0 <= above pl B -> 0 <= above pl X).
Proof.
  intros pl A B X (t & T & E). rewrite (above_eq pl _ _ E), above_lerp. split; intros; nra.
Qed.
Lemma border_path : forall ps a X, (forall q, last ps q = a) \/ ps = [] -> (on_border ps X <-> path False or (fun A B => on_segment3 A B X) a ps).
Proof.
  intros ps a X H. unfold on_border, closed_edges. destruct ps as [|p ps]; [cbn; split; [intros (A & B & [] & _)|tauto]|]. destruct H as [H|H]; [|discriminate]. rewrite H. clear H.
  generalize (p :: ps) as l. clear. intro l. revert a. induction l as [|b l IH]; intro a; cbn [path].
  - cbn. split; [intros (A & B & [] & _)|tauto].
  - rewrite <- IH. change (combine (a :: b :: l) (b :: l)) with ((a, b) :: combine (b :: l) l). split.
    + intros (A & B & [E|HI] & S); [injection E as -> ->; left; exact S|right; exists A, B; tauto].
    + intros [S|(A & B & HI & S)]; [exists a, b; split; [left; reflexivity|exact S]|exists A, B; split; [right; exact HI|exact S]].
Qed.
Lemma cut_border : forall ps pl F B X, split_polygon ps pl = Some (F, B) ->
  (0 < above pl X -> (on_border F X <-> on_border ps X)) /\ (above pl X < 0 -> (on_border B X <-> on_border ps X)).
Proof.
  intros ps pl F B X H. assert (N : ps <> []) by (intro; subst; discriminate).
  destruct (split_polygon_cut ps pl N) as (p & F' & B' & E & L & LA & C). rewrite E in H. injection H as -> ->.
  assert (PF : forall l : list pt3, (forall q, last l q = last l p) \/ l = []).
  { intro l. destruct l as [|x l]; [right; reflexivity|left]. intro q. apply last_any. discriminate. }
  split; intro CC; rewrite (border_path ps p X (or_introl LA)).
  - rewrite (border_path F _ X (PF F)). eapply (front_path False or iff); try exact C; try tauto.
    + intros a b x (X1 & t & T & EX) Y. eapply on_segment3_split; eassumption.
    + intros a b Y1 Y2. split; [|tauto]. intro S. apply (on_segment3_above pl) in S. destruct S as [S _]. specialize (S Y1 Y2). lra.
    + pose proof (cut_front_last pl p ps F B C p (front_link_refl pl p)) as K. rewrite L in K. exact K.
  - rewrite (border_path B _ X (PF B)). eapply (back_path False or iff); try exact C; try tauto.
    + intros a b x (X1 & t & T & EX) Y. eapply on_segment3_split; eassumption.
    + intros a b Y1 Y2. split; [|tauto]. intro S. apply (on_segment3_above pl) in S. destruct S as [_ S]. specialize (S Y1 Y2). lra.
    + pose proof (cut_back_last pl p ps F B C p (back_link_refl pl p)) as K. rewrite L in K. exact K.
Qed.
