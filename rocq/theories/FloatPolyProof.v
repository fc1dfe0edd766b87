(** Points of doubles: running bounds, one edge of the polygon test. *)
From Coq Require Import Reals Floats ZArith QArith List Lra Lia Bool.
Require Import Flocq.Core.Core Flocq.IEEE754.BinarySingleNaN Flocq.IEEE754.PrimFloat.
From Verif Require Import Base PolygonModel FloatModel FloatSpec FloatProof FloatProof2 FloatProof3 FloatPolyModel FloatPolySpec.
From Coq Require Import Lra.
Import ListNotations.
Local Open Scope R_scope.

(** ** A running bound *)
Section Running.
Variable b : PrimFloat.float -> PrimFloat.float -> bool.
Variable start : PrimFloat.float.
Variable le : R -> R -> Prop.
Hypothesis le_refl : forall x, le x x.
Hypothesis le_trans : forall x y z, le x y -> le y z -> le x z.
Hypothesis b_start : forall x, finite x -> b x start = true.
Hypothesis b_true : forall x m, finite x -> finite m -> b x m = true -> le (val x) (val m).
Hypothesis b_self : forall x, finite x -> b x x = false.
Hypothesis b_false : forall x m n, finite x -> finite m -> finite n -> b x m = false -> le (val n) (val m) -> b x n = false.
Definition run (xs : list PrimFloat.float) (m : PrimFloat.float) : PrimFloat.float := fold_left (fun m x => if b x m then x else m) xs m.
Lemma run_spec : forall xs m, finite m -> Forall finite xs ->
  finite (run xs m) /\ le (val (run xs m)) (val m) /\ (run xs m = m \/ In (run xs m) xs) /\ forall x, In x xs -> b x (run xs m) = false.
Proof.
  induction xs as [|a xs IH]; intros m M F; cbn.
  - repeat split; [exact M|apply le_refl|left; reflexivity|intros x []].
  - inversion F as [|? ? A F']; subst. assert (N : finite (if b a m then a else m)) by (destruct (b a m); assumption).
    destruct (IH _ N F') as (I1 & I2 & I3 & I4). fold (run xs (if b a m then a else m)).
    set (r := run xs (if b a m then a else m)) in *. clearbody r.
    assert (L : le (val (if b a m then a else m)) (val m)) by (destruct (b a m) eqn:E; [apply b_true; assumption|apply le_refl]).
    assert (K : b a (if b a m then a else m) = false) by (destruct (b a m) eqn:E; [apply b_self, A|exact E]).
    split; [exact I1|]. split; [apply (le_trans _ _ _ I2 L)|]. split.
    + destruct I3 as [I3|I3]; [|right; right; exact I3]. rewrite I3. destruct (b a m); [right; left; reflexivity|left; reflexivity].
    + intros x [<-|H]; [|apply I4, H]. exact (b_false _ _ _ A N I1 K I2).
Qed.
Lemma run_all : forall xs, xs <> [] -> Forall finite xs ->
  finite (run xs start) /\ In (run xs start) xs /\ forall x, In x xs -> b x (run xs start) = false.
Proof.
  intros [|a xs] N F; [contradiction|]. inversion F as [|? ? A F']; subst. unfold run. cbn [fold_left]. rewrite (b_start _ A). fold (run xs a).
  destruct (run_spec xs a A F') as (I1 & I2 & I3 & I4). split; [exact I1|]. split; [destruct I3 as [I3|I3]; [left; symmetry; exact I3|right; exact I3]|].
  intros x [<-|H]; [|apply I4, H]. exact (b_false _ _ _ A A I1 (b_self _ A) I2).
Qed.
End Running.

Lemma bounds_runs : forall cmp ps m, fold_left (widen_bounds cmp) ps m =
  mkfbounds (run (f_lt cmp) (map fx ps) (b_xmin m)) (run (f_gt cmp) (map fx ps) (b_xmax m)) (run (f_lt cmp) (map fy ps) (b_ymin m)) (run (f_gt cmp) (map fy ps) (b_ymax m)).
Proof. intros cmp ps. induction ps as [|p ps IH]; intro m; [destruct m; reflexivity|]. cbn [fold_left]. rewrite IH. reflexivity. Qed.

Lemma inf_B : Prim2B infinity = B754_infinity false. Proof. apply B2SF_inj. rewrite B2SF_Prim2B. reflexivity. Qed.
Lemma neg_inf_B : Prim2B neg_infinity = B754_infinity true. Proof. apply B2SF_inj. rewrite B2SF_Prim2B. reflexivity. Qed.

Lemma usual_lt_start : forall cmp x, usual cmp -> finite x -> f_lt cmp x infinity = true.
Proof.
  intros cmp x [->|(tol & T & N & ->)] X; unfold fdirect, fabsolute; cbn [f_lt].
  - destruct (infinite_less false infinity x inf_B X) as [_ E]. exact E.
  - destruct (sub_infinite infinity x false inf_B X) as [_ E]. destruct (infinite_less _ _ _ E (opp_finite _ T)) as [G _]. exact G.
Qed.
Lemma usual_gt_start : forall cmp x, usual cmp -> finite x -> f_gt cmp x neg_infinity = true.
Proof.
  intros cmp x [->|(tol & T & N & ->)] X; unfold fdirect, fabsolute; cbn [f_gt].
  - destruct (infinite_less true neg_infinity x neg_inf_B X) as [E _]. exact E.
  - destruct (sub_infinite neg_infinity x true neg_inf_B X) as [_ E]. destruct (infinite_less _ _ _ E T) as [_ G]. exact G.
Qed.
(** The order answers of the usual policies on finite doubles. *)
Lemma usual_lt : forall cmp, usual cmp -> exists t, 0 <= t /\ forall x y, finite x -> finite y ->
  f_lt cmp x y = Rlt_bool (rnd (val x - val y)) (- t) /\ f_gt cmp x y = Rlt_bool t (rnd (val x - val y)).
Proof.
  intros cmp [->|(tol & T & N & ->)].
  - exists 0%R. split; [lra|]. intros x y X Y. unfold fdirect; cbn [f_lt f_gt]. rewrite !ltb_val, Ropp_0 by assumption.
    destruct (sub_sign x y) as (A & B & _). split.
    + destruct (Rlt_bool_spec (val x) (val y)); [rewrite Rlt_bool_true by tauto; reflexivity|]. rewrite Rlt_bool_false; [reflexivity|]. apply Rnot_lt_le. intro K. apply A in K. lra.
    + destruct (Rlt_bool_spec (val y) (val x)); [rewrite Rlt_bool_true by tauto; reflexivity|]. rewrite Rlt_bool_false; [reflexivity|]. apply Rnot_lt_le. intro K. apply B in K. lra.
  - exists (val tol). split; [exact N|]. intros x y X Y. unfold fabsolute; cbn [f_lt f_gt]. pose proof (sub_result x y X Y) as S.
    destruct (result_lt _ _ _ S (opp_finite _ T)) as (A & _). destruct (result_lt _ _ _ S T) as (_ & B & _). rewrite A, B, opp_val. split; reflexivity.
Qed.
Lemma usual_run_min : forall cmp xs, usual cmp -> xs <> [] -> Forall finite xs ->
  In (run (f_lt cmp) xs infinity) xs /\ forall x, In x xs -> f_lt cmp x (run (f_lt cmp) xs infinity) = false.
Proof.
  intros cmp xs U N F. destruct (usual_lt cmp U) as (t & T & E).
  destruct (run_all (f_lt cmp) infinity (fun a c => a <= c)) with (xs := xs) as (A & B & C); try assumption.
  - intros; lra.
  - intros; lra.
  - intros x X. apply usual_lt_start; assumption.
  - intros x m X M H. rewrite (proj1 (E _ _ X M)) in H. destruct (Rlt_bool_spec (rnd (val x - val m)) (- t)) as [L|L]; [|discriminate]. destruct (sub_sign x m) as (S & _). apply Rlt_le, S. lra.
  - intros x X. rewrite (proj1 (E _ _ X X)). replace (val x - val x) with 0 by ring. rewrite rnd_0. apply Rlt_bool_false. lra.
  - intros x m n X M K H L. rewrite (proj1 (E _ _ X M)) in H. rewrite (proj1 (E _ _ X K)). destruct (Rlt_bool_spec (rnd (val x - val m)) (- t)) as [?|G]; [discriminate|].
    apply Rlt_bool_false. assert (rnd (val x - val m) <= rnd (val x - val n)) by (apply rnd_le; lra). lra.
  - split; assumption.
Qed.
Lemma usual_run_max : forall cmp xs, usual cmp -> xs <> [] -> Forall finite xs ->
  In (run (f_gt cmp) xs neg_infinity) xs /\ forall x, In x xs -> f_gt cmp x (run (f_gt cmp) xs neg_infinity) = false.
Proof.
  intros cmp xs U N F. destruct (usual_lt cmp U) as (t & T & E).
  destruct (run_all (f_gt cmp) neg_infinity (fun a c => c <= a)) with (xs := xs) as (A & B & C); try assumption.
  - intros; lra.
  - intros; lra.
  - intros x X. apply usual_gt_start; assumption.
  - intros x m X M H. rewrite (proj2 (E _ _ X M)) in H. destruct (Rlt_bool_spec t (rnd (val x - val m))) as [L|L]; [|discriminate]. destruct (sub_sign x m) as (_ & S & _). apply Rlt_le, S. lra.
  - intros x X. rewrite (proj2 (E _ _ X X)). replace (val x - val x) with 0 by ring. rewrite rnd_0. apply Rlt_bool_false. lra.
  - intros x m n X M K H L. rewrite (proj2 (E _ _ X M)) in H. rewrite (proj2 (E _ _ X K)). destruct (Rlt_bool_spec t (rnd (val x - val m))) as [?|G]; [discriminate|].
    apply Rlt_bool_false. assert (rnd (val x - val n) <= rnd (val x - val m)) by (apply rnd_le; lra). lra.
  - split; assumption.
Qed.

(** ** One edge of the polygon test *)
Lemma modest_sub : forall x y, finite x -> finite y -> Rabs (val x) <= powerRZ 2 1022 -> Rabs (val y) <= powerRZ 2 1022 ->
  finite (x - y)%float /\ val (x - y)%float = rnd (val x - val y).
Proof.
  intros x y X Y A B. apply (result_small _ _ (sub_result x y X Y)).
  change 2 with (IZR radix2) in A, B. rewrite <- bpow_powerRZ in A, B. apply Rabs_le_inv in A. apply Rabs_le_inv in B.
  assert (H : bpow radix2 1023 = 2 * bpow radix2 1022) by (change 1023%Z with (1 + 1022)%Z; rewrite bpow_plus; reflexivity).
  assert (G : generic_format radix2 fexp64 (bpow radix2 1023)) by (apply generic_format_bpow; vm_compute; discriminate).
  assert (E : rnd (bpow radix2 1023) = bpow radix2 1023) by (apply round_generic; [apply valid_rnd_N|exact G]).
  assert (U : rnd (val x - val y) <= bpow radix2 1023) by (rewrite <- E; apply rnd_le; lra).
  assert (L : - bpow radix2 1023 <= rnd (val x - val y)) by (rewrite <- E, <- rnd_opp; apply rnd_le; lra).
  assert (T : bpow radix2 1023 < top) by (apply bpow_lt; reflexivity). apply Rabs_def1; lra.
Qed.
Lemma product_order : forall a b c d, finite a -> finite b -> finite c -> finite d -> val c * val d <= val a * val b -> (a * b <? c * d)%float = false.
Proof.
  intros a b c d A B C D H. destruct (a * b <? c * d)%float eqn:E; [|reflexivity].
  pose proof (result_lt2 _ _ _ _ (mul_result _ _ A B) (mul_result _ _ C D) E). lra.
Qed.
Lemma flip_right : forall A u1 u0, modest A -> modest u1 -> modest u0 -> val (fx u1) <= val (fx A) -> val (fx u0) <= val (fx A) -> fpip_flip A u1 u0 = false.
Proof.
  intros A u1 u0 ([AX AY] & AXB & AYB) ([BX BY] & BXB & BYB) ([CX CY] & CXB & CYB) H1 H0. unfold fpip_flip.
  destruct (modest_sub _ _ AX CX AXB CXB) as [F1 V1]. destruct (modest_sub _ _ BY CY BYB CYB) as [F2 V2].
  destruct (modest_sub _ _ AY CY AYB CYB) as [F3 V3]. destruct (modest_sub _ _ BX CX BXB CXB) as [F4 V4].
  assert (K1 : rnd (val (fx u1) - val (fx u0)) <= rnd (val (fx A) - val (fx u0))) by (apply rnd_le; lra).
  assert (K2 : 0 <= rnd (val (fx A) - val (fx u0))) by (rewrite <- rnd_0; apply rnd_le; lra).
  rewrite (ltb_val _ _ AY BY), (leb_val _ _ CY AY), (ltb_val _ _ AY CY).
  destruct (Rlt_bool_spec (val (fy A)) (val (fy u1))) as [L|L].
  - destruct (Rle_bool_spec (val (fy u0)) (val (fy A))) as [M|M]; [|reflexivity].
    apply product_order; try assumption. rewrite V1, V2, V3, V4.
    assert (J1 : 0 <= rnd (val (fy A) - val (fy u0))) by (rewrite <- rnd_0; apply rnd_le; lra).
    assert (J2 : rnd (val (fy A) - val (fy u0)) <= rnd (val (fy u1) - val (fy u0))) by (apply rnd_le; lra). nra.
  - destruct (Rlt_bool_spec (val (fy A)) (val (fy u0))) as [M|M]; [|reflexivity].
    apply product_order; try assumption. rewrite V1, V2, V3, V4.
    assert (J1 : rnd (val (fy A) - val (fy u0)) <= 0) by (rewrite <- rnd_0; apply rnd_le; lra).
    assert (J2 : rnd (val (fy u1) - val (fy u0)) <= rnd (val (fy A) - val (fy u0))) by (apply rnd_le; lra). nra.
Qed.
Lemma flip_above : forall A u1 u0, finite_pt A -> finite_pt u1 -> finite_pt u0 -> val (fy u1) <= val (fy A) -> val (fy u0) <= val (fy A) -> fpip_flip A u1 u0 = false.
Proof.
  intros A u1 u0 [AX AY] [BX BY] [CX CY] H1 H0. unfold fpip_flip. rewrite (ltb_val _ _ AY BY), (ltb_val _ _ AY CY), !Rlt_bool_false by assumption. reflexivity.
Qed.
Lemma flip_below : forall A u1 u0, finite_pt A -> finite_pt u1 -> finite_pt u0 -> val (fy A) < val (fy u1) -> val (fy A) < val (fy u0) -> fpip_flip A u1 u0 = false.
Proof.
  intros A u1 u0 [AX AY] [BX BY] [CX CY] H1 H0. unfold fpip_flip. rewrite (ltb_val _ _ AY BY), (leb_val _ _ CY AY), Rlt_bool_true, Rle_bool_false by assumption. reflexivity.
Qed.

(** The pairs visited are pairs of vertices. *)
Lemma chain_in : forall ps prev u v, In (u, v) (fchain prev ps) -> (u = prev \/ In u ps) /\ In v ps.
Proof.
  induction ps as [|a ps IH]; intros prev u v H; [destruct H|]. destruct H as [H|H].
  - inversion H; subst. split; left; reflexivity.
  - destruct (IH _ _ _ H) as [ [->|X] Y]; split; cbn; tauto.
Qed.
Lemma last_in : forall (ps : list fpt) a, ps <> [] -> In (last ps a) ps.
Proof. induction ps as [|b ps IH]; intros a N; [contradiction|]. destruct ps as [|c ps]; [left; reflexivity|]. right. apply (IH a). discriminate. Qed.
Lemma closed_chain_in : forall ps u v, In (u, v) (fclosed_chain ps) -> In u ps /\ In v ps.
Proof.
  intros [|a ps] u v H; [destruct H|]. unfold fclosed_chain in H. apply chain_in in H. destruct H as [ [H|H] K]; split; try assumption.
  subst u. apply last_in. discriminate.
Qed.
Lemma no_flip : forall A es b, (forall u v, In (u, v) es -> fpip_flip A u v = false) -> fold_left (fun inside e => if fpip_flip A (fst e) (snd e) then negb inside else inside) es b = b.
Proof.
  intros A es. induction es as [|[u v] es IH]; intros b H; [reflexivity|]. cbn. rewrite (H u v (or_introl eq_refl)). apply IH. intros u' v' K. apply H. right. exact K.
Qed.
Lemma outside : forall A ps, (forall u v, In u ps -> In v ps -> fpip_flip A u v = false) -> fpoint_in_polygon A ps = false.
Proof.
  intros A ps H. unfold fpoint_in_polygon. destruct (Nat.ltb (length ps) 3); [reflexivity|]. apply no_flip. intros u v K. destruct (closed_chain_in _ _ _ K). apply H; assumption.
Qed.

(** ** Whole numbers *)
Lemma whole_ltb : forall a b m n, whole a m -> whole b n -> (a <? b)%float = Qltb (inject_Z m) (inject_Z n).
Proof.
  intros a b m n [A VA] [B VB]. rewrite ltb_val, VA, VB by assumption. destruct (Rlt_bool_spec (IZR m) (IZR n)) as [H|H].
  - symmetry. apply Qltb_lt. apply lt_IZR in H. rewrite <- Zlt_Qlt. exact H.
  - symmetry. apply not_true_iff_false. intro K. apply (proj1 (Qltb_lt _ _)) in K. rewrite <- Zlt_Qlt in K. apply IZR_lt in K. lra.
Qed.
Lemma whole_leb : forall a b m n, whole a m -> whole b n -> (a <=? b)%float = Qleb (inject_Z m) (inject_Z n).
Proof.
  intros a b m n [A VA] [B VB]. rewrite leb_val, VA, VB by assumption. destruct (Rle_bool_spec (IZR m) (IZR n)) as [H|H].
  - symmetry. apply Qleb_le. apply le_IZR in H. rewrite <- Zle_Qle. exact H.
  - symmetry. apply not_true_iff_false. intro K. apply (proj1 (Qleb_le _ _)) in K. rewrite <- Zle_Qle in K. apply IZR_le in K. lra.
Qed.
Lemma flip_integer : forall A B C a b c, integer_pt A a -> integer_pt B b -> integer_pt C c -> fpip_flip A B C = pip_flip a b c.
Proof.
  intros A B C a b c (ax & ay & AX & AY & A1 & A2 & ->) (bx & b_y & BX & BY & B1 & B2 & ->) (cx & cy & CX & CY & C1 & C2 & ->).
  unfold fpip_flip, pip_flip. cbn [px py]. rewrite (whole_ltb _ _ _ _ AY BY), (whole_leb _ _ _ _ CY AY), (whole_ltb _ _ _ _ AY CY).
  pose proof (whole_sub _ _ _ _ AX CX ltac:(lia)) as W1. pose proof (whole_sub _ _ _ _ BY CY ltac:(lia)) as W2.
  pose proof (whole_sub _ _ _ _ AY CY ltac:(lia)) as W3. pose proof (whole_sub _ _ _ _ BX CX ltac:(lia)) as W4.
  assert (P1 : (Z.abs ((ax - cx) * (b_y - cy)) <= 2 ^ 53)%Z) by (rewrite Z.abs_mul; apply Z.le_trans with (2 ^ 26 * 2 ^ 26)%Z; [apply Z.mul_le_mono_nonneg; lia|lia]).
  assert (P2 : (Z.abs ((ay - cy) * (bx - cx)) <= 2 ^ 53)%Z) by (rewrite Z.abs_mul; apply Z.le_trans with (2 ^ 26 * 2 ^ 26)%Z; [apply Z.mul_le_mono_nonneg; lia|lia]).
  pose proof (whole_mul _ _ _ _ W1 W2 P1) as M1. pose proof (whole_mul _ _ _ _ W3 W4 P2) as M2.
  rewrite (whole_ltb _ _ _ _ M1 M2), (whole_ltb _ _ _ _ M2 M1).
  assert (E1 : inject_Z ((ax - cx) * (b_y - cy)) == (inject_Z ax - inject_Z cx) * (inject_Z b_y - inject_Z cy)) by (rewrite inject_Z_mult; unfold Z.sub, Qminus; rewrite !inject_Z_plus, !inject_Z_opp; reflexivity).
  assert (E2 : inject_Z ((ay - cy) * (bx - cx)) == (inject_Z ay - inject_Z cy) * (inject_Z bx - inject_Z cx)) by (rewrite inject_Z_mult; unfold Z.sub, Qminus; rewrite !inject_Z_plus, !inject_Z_opp; reflexivity).
  assert (X : forall p q r s, p == r -> q == s -> Qltb p q = Qltb r s).
  { intros p q r s P R. apply eq_true_iff_eq. rewrite !Qltb_lt, P, R. tauto. }
  unfold Qgtb. rewrite (X _ _ _ _ E1 E2), (X _ _ _ _ E2 E1). reflexivity.
Qed.
Lemma chain_integer : forall ps qs p q, integer_pt p q -> Forall2 integer_pt ps qs ->
  Forall2 (fun e g => integer_pt (fst e) (fst g) /\ integer_pt (snd e) (snd g)) (fchain p ps) (chain q qs).
Proof.
  intros ps qs p q P H. revert p q P. induction H as [|a b ps qs A H IH]; intros p q P; cbn; constructor.
  - split; assumption.
  - apply IH, A.
Qed.
Lemma last_integer : forall ps qs p q, integer_pt p q -> Forall2 integer_pt ps qs -> integer_pt (last ps p) (last qs q).
Proof. intros ps qs p q P H. induction H as [|a b ps qs A H IH]; cbn; [exact P|]. destruct H; [exact A|exact IH]. Qed.

(** ** Rotation of the vertices *)
Definition parity (A : fpt) (es : list (fpt * fpt)) : bool := fold_right (fun e b => xorb (fpip_flip A (fst e) (snd e)) b) false es.
Lemma fold_parity : forall A es b, fold_left (fun inside e => if fpip_flip A (fst e) (snd e) then negb inside else inside) es b = xorb b (parity A es).
Proof.
  intros A es. induction es as [|[u v] es IH]; intro b; [cbn; rewrite xorb_false_r; reflexivity|]. cbn [fold_left fst snd]. rewrite IH.
  change (parity A ((u, v) :: es)) with (xorb (fpip_flip A u v) (parity A es)). destruct (fpip_flip A u v), b, (parity A es); reflexivity.
Qed.
Lemma parity_app : forall A es fs, parity A (es ++ fs) = xorb (parity A es) (parity A fs).
Proof. intros A es fs. induction es as [|e es IH]; [cbn [app]; change (parity A []) with false; destruct (parity A fs); reflexivity|].
  change (parity A ((e :: es) ++ fs)) with (xorb (fpip_flip A (fst e) (snd e)) (parity A (es ++ fs))). rewrite IH, <- xorb_assoc. reflexivity. Qed.
Lemma chain_app : forall ps qs p, fchain p (ps ++ qs) = fchain p ps ++ fchain (last ps p) qs.
Proof.
  induction ps as [|a ps IH]; intros qs p; [reflexivity|]. cbn [app fchain]. rewrite IH. f_equal. f_equal. f_equal.
  destruct ps as [|b ps]; [reflexivity|]. clear. revert b. induction ps as [|c ps IH]; intro b; [reflexivity|]. cbn. cbn in IH. apply IH.
Qed.
Lemma last_app_cons : forall (ps qs : list fpt) b d, last (ps ++ b :: qs) d = last (b :: qs) d.
Proof. induction ps as [|a ps IH]; intros qs b d; [reflexivity|]. cbn [app]. rewrite <- (IH qs b d). destruct (ps ++ b :: qs) eqn:E; [destruct ps; discriminate|reflexivity]. Qed.
Lemma last_any : forall (ps : list fpt) b d e, last (b :: ps) d = last (b :: ps) e.
Proof. induction ps as [|c ps IH]; intros b d e; [reflexivity|]. cbn [last]. apply (IH c d e). Qed.
Lemma closed_rotate : forall A ps qs, parity A (fclosed_chain (ps ++ qs)) = parity A (fclosed_chain (qs ++ ps)).
Proof.
  intros A [|a ps] [|b qs]; try reflexivity.
  - rewrite app_nil_r. reflexivity.
  - rewrite app_nil_r. reflexivity.
  - unfold fclosed_chain. cbn [app]. rewrite !app_comm_cons, !chain_app, !parity_app, !last_app_cons, xorb_comm.
    rewrite (last_any qs b a (last (a :: ps) b)), (last_any ps a b (last (b :: qs) a)).
    f_equal. f_equal. f_equal. apply last_any.
Qed.
