From Verif Require Import Base CmpModel BoxModel BoxSpec.

Lemma between_all_iff : forall lo hi p,
  between_all lo hi p <-> length lo = length p /\ length hi = length p /\
    forall i, (i < length p)%nat -> coord i lo <= coord i p <= coord i hi.
Proof.
  intros lo hi p; split.
  - induction 1 as [|l h x lo hi p H1 H2 (IH1 & IH2 & IH3)]; simpl; repeat split; try lia; auto;
      destruct i; unfold coord in *; simpl; try lra; apply IH3; lia.
  - revert lo hi; induction p as [|x p IH]; intros [|l lo] [|h hi] (H1 & H2 & H3); simpl in *; try discriminate.
    + constructor.
    + constructor.
      * apply (H3 0%nat); lia.
      * apply IH; repeat split; try lia. all: specialize (H3 (S i)); unfold coord in *; simpl in H3; apply H3; lia.
Qed.

Lemma dim_compare_point_iff : forall D n lo hi,
  dim_compare_point direct D n lo hi = true <-> forall i, (i <= D)%nat -> coord i lo <= coord i n <= coord i hi.
Proof.
  induction D as [|D IH]; intros n lo hi; simpl.
  - destruct (Qltb_spec (coord 0 n) (coord 0 lo)); simpl.
    { split; [discriminate|]. intro F; specialize (F 0%nat ltac:(lia)); exfalso; lra. }
    destruct (Qgtb_spec (coord 0 n) (coord 0 hi)); simpl.
    { split; [discriminate|]. intro F; specialize (F 0%nat ltac:(lia)); exfalso; lra. }
    split; auto. intros _ i Hi. replace i with 0%nat by lia; lra.
  - destruct (Qltb_spec (coord (S D) n) (coord (S D) lo)); simpl.
    { split; [discriminate|]. intro F; specialize (F (S D) ltac:(lia)); exfalso; lra. }
    destruct (Qgtb_spec (coord (S D) n) (coord (S D) hi)); simpl.
    { split; [discriminate|]. intro F; specialize (F (S D) ltac:(lia)); exfalso; lra. }
    rewrite IH; split; intros F i Hi.
    + destruct (Nat.eq_dec i (S D)) as [->|Hne]; [lra|]. apply F; lia.
    + apply F; lia.
Qed.

Lemma dim_compare_box_iff : forall D a b,
  dim_compare_box direct D a b = true <->
  forall i, (i <= D)%nat -> coord i (low b) <= coord i (high a) /\ coord i (low a) <= coord i (high b).
Proof.
  induction D as [|D IH]; intros a b; simpl.
  - destruct (Qltb_spec (coord 0 (high a)) (coord 0 (low b))); simpl.
    { split; [discriminate|]. intro F; specialize (F 0%nat ltac:(lia)); exfalso; lra. }
    destruct (Qgtb_spec (coord 0 (low a)) (coord 0 (high b))); simpl.
    { split; [discriminate|]. intro F; specialize (F 0%nat ltac:(lia)); exfalso; lra. }
    split; auto. intros _ i Hi. replace i with 0%nat by lia; lra.
  - destruct (Qltb_spec (coord (S D) (high a)) (coord (S D) (low b))); simpl.
    { split; [discriminate|]. intro F; specialize (F (S D) ltac:(lia)); exfalso; lra. }
    destruct (Qgtb_spec (coord (S D) (low a)) (coord (S D) (high b))); simpl.
    { split; [discriminate|]. intro F; specialize (F (S D) ltac:(lia)); exfalso; lra. }
    rewrite IH; split; intros F i Hi.
    + destruct (Nat.eq_dec i (S D)) as [->|Hne]; [lra|]. apply F; lia.
    + apply F; lia.
Qed.

Lemma forall2_coord : forall a b, Forall2 Qle a b ->
  length a = length b /\ forall i, (i < length a)%nat -> coord i a <= coord i b.
Proof.
  induction 1 as [|x y a b H1 H2 (IH1 & IH2)]; simpl; split; try lia.
  intros [|i] Hi; unfold coord in *; simpl; [lra|apply IH2; lia].
Qed.

Lemma intersects_point_iff : forall n b p, valid_box (S n) b -> length p = S n ->
  (intersects_point direct b p = true <-> in_aabb b p).
Proof.
  intros n b p [Hl Hv] Hp; unfold intersects_point, in_aabb.
  apply forall2_coord in Hv as [Hlen _].
  rewrite dim_compare_point_iff, between_all_iff, Hp; split.
  - intro F; repeat split; try congruence; apply F; lia.
  - intros (_ & _ & F) i Hi; apply F; lia.
Qed.

Fixpoint zipmax (a b : coords) : coords :=
  match a, b with x :: a', y :: b' => qmax x y :: zipmax a' b' | _, _ => [] end.
Lemma zipmax_spec : forall a b, length a = length b -> length (zipmax a b) = length a /\
  forall i, (i < length a)%nat -> coord i (zipmax a b) = qmax (coord i a) (coord i b).
Proof.
  induction a as [|x a IH]; intros [|y b] H; simpl in *; try discriminate; split; auto; try lia.
  - destruct (IH b) as [IH1 _]; lia.
  - intros [|i] Hi; unfold coord in *; simpl; auto. apply IH; lia.
Qed.

Lemma intersects_box_iff : forall n a b, valid_box (S n) a -> valid_box (S n) b ->
  (intersects_box direct a b = true <-> exists p, in_aabb a p /\ in_aabb b p).
Proof.
  intros n a b [Ha Va] [Hb Vb]; unfold intersects_box, in_aabb.
  apply forall2_coord in Va as [La Va]; apply forall2_coord in Vb as [Lb Vb].
  rewrite dim_compare_box_iff, Ha; split.
  - intro F. exists (zipmax (low a) (low b)).
    destruct (zipmax_spec (low a) (low b) ltac:(congruence)) as [Z1 Z2].
    rewrite !between_all_iff, Z1; repeat split; try congruence;
    rewrite Z2 by lia; specialize (F i ltac:(lia)); specialize (Va i ltac:(lia)); specialize (Vb i ltac:(lia));
    unfold qmax; qcase; lra.
  - intros (p & Hp & Hq) i Hi. apply between_all_iff in Hp as (P1 & P2 & P3).
    apply between_all_iff in Hq as (Q1 & Q2 & Q3).
    specialize (P3 i ltac:(lia)); specialize (Q3 i ltac:(lia)); lra.
Qed.

Lemma contains_box_iff : forall n a b, valid_box (S n) a -> valid_box (S n) b ->
  (contains_box direct a b = true <-> forall p, in_aabb b p -> in_aabb a p).
Proof.
  intros n a b Wa Wb. pose proof Wa as [Ha Va]; pose proof Wb as [Hb Vb].
  apply forall2_coord in Va as [La Va]; apply forall2_coord in Vb as [Lb Vb].
  unfold contains_box. rewrite andb_true_iff.
  rewrite (intersects_point_iff n a (high b)) by (auto; congruence).
  rewrite (intersects_point_iff n a (low b)) by (auto; congruence).
  unfold in_aabb; split.
  - intros [H1 H2] p Hp. rewrite between_all_iff in *.
    destruct H1 as (_ & _ & H1); destruct H2 as (_ & _ & H2); destruct Hp as (P1 & P2 & P3).
    repeat split; try congruence; specialize (H1 i ltac:(lia)); specialize (H2 i ltac:(lia)); specialize (P3 i ltac:(lia)); lra.
  - intro F; split; apply F; rewrite between_all_iff; repeat split; try congruence;
      try lra; apply Vb; lia.
Qed.

Lemma update_lo_spec : forall a b, length a = length b -> length (update_lo a b) = length a /\
  forall i, (i < length a)%nat -> coord i (update_lo a b) = (if Qltb (coord i b) (coord i a) then coord i b else coord i a).
Proof.
  induction a as [|x a IH]; intros [|y b] H; simpl in *; try discriminate; split; auto; try lia.
  - destruct (IH b) as [IH1 _]; lia.
  - intros [|i] Hi; unfold coord in *; simpl; auto. apply IH; lia.
Qed.
Lemma update_hi_spec : forall a b, length a = length b -> length (update_hi a b) = length a /\
  forall i, (i < length a)%nat -> coord i (update_hi a b) = (if Qltb (coord i a) (coord i b) then coord i b else coord i a).
Proof.
  induction a as [|x a IH]; intros [|y b] H; simpl in *; try discriminate; split; auto; try lia.
  - destruct (IH b) as [IH1 _]; lia.
  - intros [|i] Hi; unfold coord in *; simpl; auto. apply IH; lia.
Qed.

Lemma coords_le_forall2 : forall a b, length a = length b ->
  (forall i, (i < length a)%nat -> coord i a <= coord i b) -> Forall2 Qle a b.
Proof.
  induction a as [|x a IH]; intros [|y b] H F; simpl in *; try discriminate; constructor.
  - apply (F 0%nat); lia.
  - apply IH; [lia|]. intros i Hi; apply (F (S i)); lia.
Qed.

Lemma expand_box_spec : forall n a b, valid_box n a -> valid_box n b ->
  valid_box n (expand_box a b) /\
  (forall p, in_aabb a p \/ in_aabb b p -> in_aabb (expand_box a b) p) /\
  (forall c, valid_box n c -> (forall p, in_aabb a p \/ in_aabb b p -> in_aabb c p) ->
     forall p, in_aabb (expand_box a b) p -> in_aabb c p).
Proof.
  intros n a b [Ha Va] [Hb Vb].
  apply forall2_coord in Va as [La Va]; apply forall2_coord in Vb as [Lb Vb].
  destruct (update_lo_spec (low a) (low b) ltac:(congruence)) as [U1 U2].
  destruct (update_hi_spec (high a) (high b) ltac:(congruence)) as [W1 W2].
  unfold expand_box, valid_box, in_aabb; simpl. split; [|split].
  - split; [congruence|]. apply coords_le_forall2; [congruence|].
    intros i Hi. rewrite U2, W2 by lia. specialize (Va i ltac:(lia)); specialize (Vb i ltac:(lia)).
    repeat qcase; lra.
  - intros p [Hp|Hp]; rewrite between_all_iff in *; destruct Hp as (P1 & P2 & P3); repeat split; try congruence;
    (rewrite U2 by lia) || (rewrite W2 by lia); specialize (P3 i ltac:(lia)); qcase; lra.
  - intros c [Hc Vc] F p Hp. apply forall2_coord in Vc as [Lc Vc].
    assert (A1 : between_all (low c) (high c) (low a)) by (apply F; left; rewrite between_all_iff; repeat split; try congruence; try lra; apply Va; lia).
    assert (A2 : between_all (low c) (high c) (high a)) by (apply F; left; rewrite between_all_iff; repeat split; try congruence; try lra; apply Va; lia).
    assert (A3 : between_all (low c) (high c) (low b)) by (apply F; right; rewrite between_all_iff; repeat split; try congruence; try lra; apply Vb; lia).
    assert (A4 : between_all (low c) (high c) (high b)) by (apply F; right; rewrite between_all_iff; repeat split; try congruence; try lra; apply Vb; lia).
    rewrite between_all_iff in *.
    destruct Hp as (P1 & P2 & P3); destruct A1 as (_ & _ & A1); destruct A2 as (_ & _ & A2);
    destruct A3 as (_ & _ & A3); destruct A4 as (_ & _ & A4).
    repeat split; try congruence; specialize (P3 i ltac:(lia)); rewrite U2, W2 in P3 by lia;
    specialize (A1 i ltac:(lia)); specialize (A2 i ltac:(lia)); specialize (A3 i ltac:(lia)); specialize (A4 i ltac:(lia));
    revert P3; repeat qcase; lra.
Qed.

(** ** Bounds *)

Lemma upd_bounds_nth : forall cmp p b i mn mx, (length b <= length p)%nat ->
  nth_error b i = Some (mn, mx) ->
  nth_error (upd_bounds cmp p b) i = Some (upd_axis cmp (coord i p) (mn, mx)).
Proof.
  induction p as [|v p IH]; intros [|ax b] [|i] mn mx Hl H; simpl in *; try discriminate; try lia.
  - injection H as ->; reflexivity.
  - apply IH; [lia|assumption].
Qed.
Lemma upd_bounds_length : forall cmp p b, length (upd_bounds cmp p b) = length b.
Proof. induction p; intros [|ax b]; simpl; auto. Qed.

(** One axis of the fold. *)
Definition axis_fold (cmp : policy) (vs : list Q) (ax : Q * Q) : Q * Q :=
  fold_left (fun ax v => upd_axis cmp v ax) vs ax.

Lemma bounds_fold_nth : forall cmp ps b i ax,
  (forall p, In p ps -> (length b <= length p)%nat) ->
  nth_error b i = Some ax ->
  nth_error (fold_left (fun b p => upd_bounds cmp p b) ps b) i = Some (axis_fold cmp (column i ps) ax).
Proof.
  induction ps as [|p ps IH]; intros b i ax Hl H; simpl; auto.
  unfold axis_fold; simpl. apply IH.
  - intros q Hq; rewrite upd_bounds_length; apply Hl; simpl; auto.
  - destruct ax as [mn mx]. apply upd_bounds_nth; auto. apply Hl; simpl; auto.
Qed.

(** Running minimum and maximum of one column, exact policy. *)
Definition axis_inv (HI LO : Q) (vs : list Q) (ax : Q * Q) : Prop :=
  (vs = [] /\ ax = (HI, LO)) \/
  (vs <> [] /\ (exists v, In v vs /\ v == fst ax) /\ (exists v, In v vs /\ v == snd ax) /\
   forall v, In v vs -> fst ax <= v <= snd ax).

Lemma axis_fold_inv : forall HI LO vs us ax, axis_inv HI LO us ax ->
  (forall v, In v vs -> LO <= v <= HI) ->
  axis_inv HI LO (us ++ vs) (axis_fold direct vs ax).
Proof.
  intros HI LO vs; induction vs as [|v vs IH]; intros us ax Hi Hr; simpl.
  - rewrite app_nil_r; exact Hi.
  - replace (us ++ v :: vs) with ((us ++ [v]) ++ vs) by (rewrite <- app_assoc; reflexivity).
    unfold axis_fold; simpl. apply IH; [|intros w Hw; apply Hr; simpl; auto].
    right. split; [destruct us; discriminate|].
    destruct ax as [mn mx]; unfold upd_axis; simpl.
    destruct Hi as [[-> Hax] | (Hne & (a & Ha & Ea) & (b & Hb & Eb) & Hall)].
    + injection Hax as -> ->. simpl.
      specialize (Hr v (or_introl eq_refl)).
      split; [exists v; split; [auto|]; destruct (Qltb_spec v HI); lra|].
      split; [exists v; split; [auto|]; destruct (Qgtb_spec v LO); lra|].
      intros w [<-|[]]. destruct (Qltb_spec v HI); destruct (Qgtb_spec v LO); lra.
    + simpl in *. split; [|split].
      * destruct (Qltb_spec v mn); [exists v | exists a]; (split; [apply in_or_app; simpl; auto|lra]).
      * destruct (Qgtb_spec v mx); [exists v | exists b]; (split; [apply in_or_app; simpl; auto|lra]).
      * intros w Hw; apply in_app_or in Hw; destruct Hw as [Hw|[<-|[]]].
        -- specialize (Hall w Hw); destruct (Qltb_spec v mn); destruct (Qgtb_spec v mx); lra.
        -- destruct (Qltb_spec v mn); destruct (Qgtb_spec v mx); try lra;
           specialize (Hall a Ha); lra.
Qed.

Lemma get_bounds_axis : forall cmp HI LO dim ps i, (i < dim)%nat ->
  (forall p, In p ps -> length p = dim) ->
  nth_error (get_bounds cmp HI LO dim ps) i = Some (axis_fold cmp (column i ps) (HI, LO)).
Proof.
  intros cmp HI LO dim ps i Hi Hd; unfold get_bounds; apply bounds_fold_nth.
  - intros p Hp; rewrite repeat_length, (Hd p Hp); lia.
  - revert i Hi; induction dim as [|d IHd]; intros [|i] Hi; simpl; try lia; auto. 
    clear IHd Hd. revert i Hi; induction d as [|d IHd]; intros [|i] Hi; simpl; try lia; auto. apply IHd; lia.
Qed.

(** Tolerant fold: each value is within the tolerance of the reported range. *)
Lemma axis_fold_tol : forall tol vs ax, 0 <= tol ->
  let ax' := axis_fold (absolute tol) vs ax in
  fst ax' <= fst ax /\ snd ax <= snd ax' /\
  (forall v, In v vs -> fst ax' - tol <= v <= snd ax' + tol).
Proof.
  intros tol vs; induction vs as [|v vs IH]; intros ax Ht; simpl.
  - repeat split; try lra; contradiction.
  - unfold axis_fold; simpl. destruct (IH (upd_axis (absolute tol) v ax) Ht) as (H1 & H2 & H3).
    unfold axis_fold in *. destruct ax as [mn mx]; unfold upd_axis in *; simpl in *.
    remember (fold_left (fun ax v0 => (if Qltb (v0 - fst ax) (- tol) then v0 else fst ax,
       if Qgtb (v0 - snd ax) tol then v0 else snd ax)) vs
      (if Qltb (v - mn) (- tol) then v else mn, if Qgtb (v - mx) tol then v else mx)) as R eqn:HR.
    clear HR.
    destruct (Qltb_spec (v - mn) (- tol)); destruct (Qgtb_spec (v - mx) tol);
      (split; [lra|split; [lra|]]); intros w [<-|Hw]; try (apply H3; exact Hw); lra.
Qed.

(** ** Box distances *)

Lemma dist2_expand : forall p q, dist2 p q == (px q - px p) * (px q - px p) + (py q - py p) * (py q - py p).
Proof. intros; unfold dist2, dot, vsub; simpl; lra. Qed.
Lemma dist2_3_expand : forall p q, dist2_3 p q ==
  (x3 q - x3 p) * (x3 q - x3 p) + (y3 q - y3 p) * (y3 q - y3 p) + (z3 q - z3 p) * (z3 q - z3 p).
Proof. intros; unfold dist2_3, dot3, vsub3; simpl; lra. Qed.

(** The squared gap of one axis. *)
Definition gap (x lo hi : Q) : Q :=
  if Qltb x lo then (lo - x) * (lo - x) else if Qgtb x hi then (x - hi) * (x - hi) else 0.

Lemma gap_clamp : forall x lo hi, lo <= hi ->
  lo <= clamp2 x lo hi <= hi /\ gap x lo hi == (clamp2 x lo hi - x) * (clamp2 x lo hi - x) /\
  forall y, lo <= y <= hi -> gap x lo hi <= (y - x) * (y - x).
Proof.
  intros x lo hi H; unfold gap, clamp2; cbv zeta.
  destruct (Qltb_spec x lo).
  - destruct (Qgtb_spec lo hi); [exfalso; lra|]. split; [lra|split; [lra|]]. intros y Hy. nra.
  - destruct (Qgtb_spec x hi); (split; [lra|split; [lra|]]); intros y Hy; [nra|apply sq_nonneg].
Qed.

Lemma pa_gap : forall p b, ok2 b ->
  point_aabb_distance_sqrd p b == gap (px p) (px (lb2 b)) (px (ub2 b)) + gap (py p) (py (lb2 b)) (py (ub2 b)).
Proof.
  intros p b [H1 H2]; unfold point_aabb_distance_sqrd, gap; cbv zeta.
  repeat qcase; lra.
Qed.
Lemma pa_gap3 : forall p b, ok3 b ->
  point_aabb_distance_sqrd3 p b == gap (x3 p) (x3 (lb3 b)) (x3 (ub3 b)) + gap (y3 p) (y3 (lb3 b)) (y3 (ub3 b))
    + gap (z3 p) (z3 (lb3 b)) (z3 (ub3 b)).
Proof.
  intros p b (H1 & H2 & H3); unfold point_aabb_distance_sqrd3, gap; cbv zeta.
  destruct (Qltb_spec (x3 p) (x3 (lb3 b))); destruct (Qgtb_spec (x3 p) (x3 (ub3 b))); try (exfalso; lra);
  destruct (Qltb_spec (y3 p) (y3 (lb3 b))); destruct (Qgtb_spec (y3 p) (y3 (ub3 b))); try (exfalso; lra);
  destruct (Qltb_spec (z3 p) (z3 (lb3 b))); destruct (Qgtb_spec (z3 p) (z3 (ub3 b))); try (exfalso; lra); lra.
Qed.

Lemma point_aabb_closest_ok : forall p b, ok2 b ->
  in2 b (point_aabb_closest_point p b) /\
  point_aabb_distance_sqrd p b == dist2 p (point_aabb_closest_point p b) /\
  forall q, in2 b q -> point_aabb_distance_sqrd p b <= dist2 p q.
Proof.
  intros p b Hb. pose proof Hb as [H1 H2].
  destruct (gap_clamp (px p) _ _ H1) as (A1 & A2 & A3).
  destruct (gap_clamp (py p) _ _ H2) as (B1 & B2 & B3).
  split; [|split].
  - split; simpl; assumption.
  - rewrite (pa_gap p b Hb), dist2_expand; simpl; lra.
  - intros q [Q1 Q2]. rewrite (pa_gap p b Hb), dist2_expand. specialize (A3 _ Q1); specialize (B3 _ Q2); lra.
Qed.
Lemma point_aabb_closest_ok3 : forall p b, ok3 b ->
  in3 b (point_aabb_closest_point3 p b) /\
  point_aabb_distance_sqrd3 p b == dist2_3 p (point_aabb_closest_point3 p b) /\
  forall q, in3 b q -> point_aabb_distance_sqrd3 p b <= dist2_3 p q.
Proof.
  intros p b Hb. pose proof Hb as (H1 & H2 & H3).
  destruct (gap_clamp (x3 p) _ _ H1) as (A1 & A2 & A3).
  destruct (gap_clamp (y3 p) _ _ H2) as (B1 & B2 & B3).
  destruct (gap_clamp (z3 p) _ _ H3) as (C1 & C2 & C3).
  split; [|split].
  - split; [|split]; simpl; assumption.
  - rewrite (pa_gap3 p b Hb), dist2_3_expand; simpl; lra.
  - intros q (Q1 & Q2 & Q3). rewrite (pa_gap3 p b Hb), dist2_3_expand.
    specialize (A3 _ Q1); specialize (B3 _ Q2); specialize (C3 _ Q3); lra.
Qed.

Definition gap2 (l1 u1 l2 u2 : Q) : Q :=
  if Qltb u2 l1 then (u2 - l1) * (u2 - l1) else if Qgtb l2 u1 then (l2 - u1) * (l2 - u1) else 0.
Lemma gap2_spec : forall l1 u1 l2 u2, l1 <= u1 -> l2 <= u2 ->
  (exists a b, l1 <= a <= u1 /\ l2 <= b <= u2 /\ gap2 l1 u1 l2 u2 == (b - a) * (b - a)) /\
  (forall a b, l1 <= a <= u1 -> l2 <= b <= u2 -> gap2 l1 u1 l2 u2 <= (b - a) * (b - a)).
Proof.
  intros l1 u1 l2 u2 H1 H2; unfold gap2.
  destruct (Qltb_spec u2 l1); [|destruct (Qgtb_spec l2 u1)].
  - split; [exists l1, u2; repeat split; lra|]. intros a b Ha Hb; nra.
  - split; [exists u1, l2; repeat split; lra|]. intros a b Ha Hb; nra.
  - split.
    + exists (qmax l1 l2), (qmax l1 l2); unfold qmax; qcase; repeat split; lra.
    + intros a b Ha Hb; apply sq_nonneg.
Qed.

Lemma aabb_aabb_least : forall a b, ok2 a -> ok2 b ->
  least_dist2_sets (in2 a) (in2 b) (aabb_aabb_distance_sqrd a b).
Proof.
  intros a b [A1 A2] [B1 B2].
  assert (E : aabb_aabb_distance_sqrd a b ==
    gap2 (px (lb2 a)) (px (ub2 a)) (px (lb2 b)) (px (ub2 b)) + gap2 (py (lb2 a)) (py (ub2 a)) (py (lb2 b)) (py (ub2 b))).
  { unfold aabb_aabb_distance_sqrd, gap2; cbv zeta; repeat qcase; lra. }
  destruct (gap2_spec _ _ _ _ A1 B1) as ((u & v & Hu & Hv & Euv) & Hx).
  destruct (gap2_spec _ _ _ _ A2 B2) as ((w & z & Hw & Hz & Ewz) & Hy).
  split.
  - exists (mkpt u w), (mkpt v z); unfold in2; simpl; repeat split; try lra.
    rewrite dist2_expand, E; simpl; lra.
  - intros p q [P1 P2] [Q1 Q2]. rewrite dist2_expand, E.
    specialize (Hx _ _ P1 Q1); specialize (Hy _ _ P2 Q2); lra.
Qed.

Lemma dist2_sym : forall p q, dist2 p q == dist2 q p.
Proof. intros; unfold dist2, dot, vsub; simpl; ring. Qed.
Lemma dist2_nonneg : forall p q, 0 <= dist2 p q.
Proof. intros; unfold dist2, dot, vsub; simpl. pose proof (sq_nonneg (px q - px p)); pose proof (sq_nonneg (py q - py p)); lra. Qed.
Lemma dist2_zero : forall p q, dist2 p q == 0 <-> p =p= q.
Proof.
  intros p q; split.
  - intro H; unfold dist2, dot, vsub in H; simpl in H.
    pose proof (sq_nonneg (px q - px p)); pose proof (sq_nonneg (py q - py p)).
    assert (E1 : px q - px p == 0) by (apply sq_zero; lra). assert (E2 : py q - py p == 0) by (apply sq_zero; lra).
    split; lra.
  - intros [H1 H2]; unfold dist2, dot, vsub; simpl. rewrite H1, H2; ring.
Qed.

Lemma aabb_aabb_symmetric_zero : forall a b, ok2 a -> ok2 b ->
  aabb_aabb_distance_sqrd a b == aabb_aabb_distance_sqrd b a /\
  (aabb_aabb_distance_sqrd a b == 0 <-> exists p, in2 a p /\ in2 b p).
Proof.
  intros a b Ha Hb. destruct (aabb_aabb_least a b Ha Hb) as [(p & q & Hp & Hq & E) L].
  destruct (aabb_aabb_least b a Hb Ha) as [(p' & q' & Hp' & Hq' & E') L'].
  split; [|split].
  - specialize (L q' p' Hq' Hp'). specialize (L' q p Hq Hp).
    rewrite (dist2_sym q' p') in L. rewrite (dist2_sym q p) in L'. lra.
  - intro Z. rewrite Z in E. apply dist2_zero in E as [E1 E2]. exists p; split; [exact Hp|].
    unfold in2 in *; lra.
  - intros (x & H1 & H2). specialize (L x x H1 H2). assert (Zx : dist2 x x == 0) by (apply dist2_zero, pteq_refl).
    pose proof (dist2_nonneg p q). lra.
Qed.
