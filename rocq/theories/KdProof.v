From Coq Require Import Permutation.
From Verif Require Import Base CmpModel CmpSpec CmpProof BoxModel BoxSpec BoxProof BoxProps KdModel KdSpec.

(** ** The order *)
Lemma dc_swo : forall dim D, strict_weak_order dim (dimension_compare direct D).
Proof.
  intros dim D. unfold strict_weak_order, dimension_compare; cbn [less_than equals direct]. split; [|split].
  - intros a _. rewrite lex_direct_irrefl. destruct (Qltb_spec (coord D a) (coord D a)); [exfalso; lra|].
    destruct (Qeqb (coord D a) (coord D a)); reflexivity.
  - intros a b c La Lb Lc.
    destruct (Qltb_spec (coord D a) (coord D b)) as [A|A].
    + intros _. destruct (Qltb_spec (coord D b) (coord D c)) as [B|B].
      * intros _. destruct (Qltb_spec (coord D a) (coord D c)); [reflexivity|exfalso; lra].
      * destruct (Qeqb_spec (coord D b) (coord D c)); [|discriminate]. intros _.
        destruct (Qltb_spec (coord D a) (coord D c)); [reflexivity|exfalso; lra].
    + destruct (Qeqb_spec (coord D a) (coord D b)); [|discriminate]. intro Hab.
      destruct (Qltb_spec (coord D b) (coord D c)) as [B|B].
      * intros _. destruct (Qltb_spec (coord D a) (coord D c)); [reflexivity|exfalso; lra].
      * destruct (Qeqb_spec (coord D b) (coord D c)); [|discriminate]. intro Hbc.
        destruct (Qltb_spec (coord D a) (coord D c)); [reflexivity|].
        destruct (Qeqb_spec (coord D a) (coord D c)); [|exfalso; lra].
        apply (lex_direct_trans a b c); congruence.
  - intros a b La Lb.
    assert (Q0 : coords_eq a b -> coord D a == coord D b).
    { unfold coords_eq, coord. intro F. revert D La Lb. generalize dim. induction F; intros d D La Lb; cbn; [destruct D; reflexivity|].
      destruct D; cbn; [assumption|]. destruct d; cbn in La, Lb; [discriminate|]. apply (IHF d D); lia. }
    destruct (lex_direct_total a b ltac:(congruence)) as [(X & Y & Z)|[(X & Y & Z)|(X & Y & Z)]]; rewrite X, Z.
    + destruct (Qltb_spec (coord D a) (coord D b)); [split; [intros [? ?]; discriminate|tauto]|].
      destruct (Qltb_spec (coord D b) (coord D a)); [split; [intros [? ?]; discriminate|tauto]|].
      destruct (Qeqb_spec (coord D a) (coord D b)); [split; [intros [? ?]; discriminate|tauto]|exfalso; lra].
    + specialize (Q0 Y). destruct (Qltb_spec (coord D a) (coord D b)); [exfalso; lra|].
      destruct (Qltb_spec (coord D b) (coord D a)); [exfalso; lra|].
      destruct (Qeqb (coord D a) (coord D b)), (Qeqb (coord D b) (coord D a)); tauto.
    + destruct (Qltb_spec (coord D a) (coord D b)); [split; [intros [? ?]; discriminate|tauto]|].
      destruct (Qltb_spec (coord D b) (coord D a)); [split; [intros [? ?]; discriminate|tauto]|].
      destruct (Qeqb_spec (coord D b) (coord D a)); [split; [intros [? ?]; discriminate|tauto]|exfalso; lra].
Qed.

Lemma dc_false : forall D a b, dimension_compare direct D a b = false -> coord D b <= coord D a.
Proof.
  intros D a b; unfold dimension_compare; cbn [less_than equals direct].
  destruct (Qltb_spec (coord D a) (coord D b)); [discriminate|]. intros _; lra.
Qed.

(** ** The partition *)
Lemma run_up_ok : forall D v l m, coord D m == v -> (forall b, In b l -> v <= coord D b) ->
  (run_up direct D m l <= length l)%nat /\
  (forall a, In a (firstn (S (run_up direct D m l)) (m :: l)) -> coord D a == v).
Proof.
  induction l as [|n l IH]; intros m Em Hl; cbn [run_up length].
  - split; [lia|]. intros a [<-|[]]; exact Em.
  - destruct (dimension_compare direct D m n) eqn:E; cbn [negb].
    + split; [lia|]. intros a [<-|[]]; exact Em.
    + apply dc_false in E. assert (En : coord D n == v) by (specialize (Hl n (or_introl eq_refl)); lra).
      destruct (IH n En) as [I1 I2]; [intros b Hb; apply Hl; right; exact Hb|].
      split; [lia|]. intros a Ha. cbn [firstn] in Ha. destruct Ha as [<-|Ha]; [exact Em|]. apply I2, Ha.
Qed.

Lemma skipn_split : forall (A : Type) k (s : list A) m rest, skipn k s = m :: rest ->
  s = firstn k s ++ m :: rest /\ length (firstn k s) = k.
Proof.
  intros A k s m rest H. split; [rewrite <- H; symmetry; apply firstn_skipn|].
  apply firstn_length_le. destruct (Nat.le_gt_cases k (length s)); [assumption|].
  rewrite skipn_all2 in H by lia; discriminate.
Qed.

Lemma nth_in_firstn : forall (A : Type) (d : A) l k n, (k < n)%nat -> (k < length l)%nat -> In (nth k l d) (firstn n l).
Proof.
  induction l as [|x l IH]; intros [|k] [|n] H1 H2; cbn in *; try lia; [left; reflexivity|].
  right; apply IH; lia.
Qed.
Lemma firstn_in_le : forall (A : Type) (a : A) l m n, (m <= n)%nat -> In a (firstn m l) -> In a (firstn n l).
Proof.
  induction l as [|x l IH]; intros [|m] [|n] H1 H2; cbn in *; try lia; try contradiction.
  destruct H2 as [->|H2]; [left; reflexivity|right]. apply (IH m); [lia|exact H2].
Qed.

Lemma partition_ok : forall nthe D l, (2 <= length l)%nat ->
  nth_element_ok (dimension_compare direct D) (Nat.div (length l) 2) l (nthe D (Nat.div (length l) 2) l) ->
  exists s k, partition nthe direct D l = Some (s, k) /\ Permutation l s /\ (0 < k < length l)%nat /\
    (forall a, In a (firstn k s) -> coord D a <= coord D (nth k s [])) /\
    (forall b, In b (skipn k s) -> coord D (nth k s []) <= coord D b).
Proof.
  intros nthe D l Hl [P N]. unfold partition. set (k := Nat.div (length l) 2) in *.
  assert (Hk : (0 < k < length l)%nat).
  { unfold k. split; [apply Nat.div_str_pos; lia|apply Nat.div_lt; lia]. }
  set (s := nthe D k l) in *.
  pose proof (Permutation_length P) as PL.
  destruct (skipn k s) as [|m rest] eqn:E.
  { exfalso. assert (length (skipn k s) = 0)%nat by (rewrite E; reflexivity). rewrite skipn_length in H. lia. }
  destruct (skipn_split _ _ _ _ _ E) as [Es Ek].
  assert (Em : nth_error s k = Some m).
  { rewrite Es, nth_error_app2 by lia. rewrite Ek, Nat.sub_diag. reflexivity. }
  destruct (N m Em) as [N1 N2]. rewrite ?E in N2.
  destruct (run_up_ok D (coord D m) rest m ltac:(reflexivity)) as [R1 R2].
  { intros b Hb. apply dc_false. apply N2. right; exact Hb. }
  set (r := run_up direct D m rest) in *.
  exists s, (k + r)%nat. split; [reflexivity|]. split; [exact P|].
  assert (Ls : length s = (k + S (length rest))%nat) by (rewrite Es, app_length, Ek; reflexivity).
  split; [lia|].
  assert (F : firstn (k + r) s = firstn k s ++ firstn r (m :: rest)).
  { rewrite Es at 1. rewrite <- Ek at 1. rewrite firstn_app_2. reflexivity. }
  assert (S0 : skipn (k + r) s = skipn r (m :: rest)).
  { rewrite Es at 1. rewrite skipn_app, Ek. rewrite skipn_all2 by lia. cbn [app]. f_equal. lia. }
  assert (Nth : coord D (nth (k + r) s []) == coord D m).
  { apply R2. replace (nth (k + r) s []) with (nth r (m :: rest) []).
    - apply nth_in_firstn; cbn [length]; lia.
    - rewrite Es at 1. rewrite app_nth2 by lia. f_equal. lia. }
  split.
  - intros a Ha. rewrite F in Ha. rewrite Nth. apply in_app_or in Ha as [Ha|Ha].
    + apply dc_false, N1, Ha.
    + rewrite (R2 a); [lra|]. apply (firstn_in_le _ a _ r); [lia|exact Ha].
  - intros b Hb. rewrite S0 in Hb. rewrite Nth. apply dc_false, N2.
    rewrite <- (firstn_skipn r (m :: rest)). apply in_or_app; right; exact Hb.
Qed.

(** ** Regions *)
Lemma set_coord_length : forall D v p, length (set_coord D v p) = length p.
Proof. induction D; intros v [|x p]; cbn; auto. Qed.
Lemma set_coord_get : forall D v p i, (D < length p)%nat ->
  coord i (set_coord D v p) = if Nat.eqb i D then v else coord i p.
Proof.
  unfold coord. induction D; intros v [|x p] [|i] H; cbn in *; try lia; try reflexivity.
  apply IHD; lia.
Qed.

Lemma in_left : forall dim D v r p, (D < dim)%nat -> length (low r) = dim -> length (high r) = dim ->
  in_aabb r p -> coord D p <= v -> in_aabb (mkaabb (low r) (set_coord D v (high r))) p.
Proof.
  intros dim D v r p HD Hl Hh H Hv. unfold in_aabb in *; cbn [low high]. apply between_all_iff in H as (A & B & C).
  apply between_all_iff. rewrite set_coord_length. repeat split; auto; [apply C; assumption|].
  rewrite set_coord_get by lia. destruct (Nat.eqb_spec i D); [subst; exact Hv|apply C; assumption].
Qed.
Lemma in_right : forall dim D v r p, (D < dim)%nat -> length (low r) = dim -> length (high r) = dim ->
  in_aabb r p -> v <= coord D p -> in_aabb (mkaabb (set_coord D v (low r)) (high r)) p.
Proof.
  intros dim D v r p HD Hl Hh H Hv. unfold in_aabb in *; cbn [low high]. apply between_all_iff in H as (A & B & C).
  apply between_all_iff. rewrite set_coord_length. repeat split; auto; [|apply C; assumption].
  rewrite set_coord_get by lia. destruct (Nat.eqb_spec i D); [subst; exact Hv|apply C; assumption].
Qed.

Lemma intersects_cautious : forall cmp a b p, cautious cmp -> low a <> [] ->
  in_aabb a p -> in_aabb b p -> intersects_box cmp a b = true.
Proof.
  intros cmp a b p [C1 C2] Hne Ha Hb. unfold intersects_box, in_aabb in *.
  apply between_all_iff in Ha as (A1 & A2 & A3). apply between_all_iff in Hb as (B1 & B2 & B3).
  assert (HD : (length (low a) - 1 < length p)%nat) by (destruct (low a); [congruence|cbn in *; lia]).
  revert HD. generalize (length (low a) - 1)%nat as D. induction D as [|D IH]; intro HD; cbn [dim_compare_box].
  - specialize (A3 0%nat HD). specialize (B3 0%nat HD).
    destruct (less_than cmp (coord 0 (high a)) (coord 0 (low b))) eqn:E1; [apply C1 in E1; exfalso; lra|].
    destruct (greater_than cmp (coord 0 (low a)) (coord 0 (high b))) eqn:E2; [apply C2 in E2; exfalso; lra|]. reflexivity.
  - specialize (A3 (S D) HD). specialize (B3 (S D) HD).
    destruct (less_than cmp (coord (S D) (high a)) (coord (S D) (low b))) eqn:E1; [apply C1 in E1; exfalso; lra|].
    destruct (greater_than cmp (coord (S D) (low a)) (coord (S D) (high b))) eqn:E2; [apply C2 in E2; exfalso; lra|].
    apply IH; lia.
Qed.

(** ** The tree *)
Definition good (dim : nat) (l : list coords) (t : kd) : Prop :=
  Permutation l (traverse_subtrees t) /\
  (forall p, In p l -> in_aabb (kd_region t) p) /\
  forall cmp range, cautious cmp -> length (low range) = dim -> finds_range l range (search cmp range t).

Lemma finds_all : forall l range v, Permutation l v -> finds_range l range v.
Proof. intros l range v P. exists []. rewrite app_nil_r. split; [exact P|intros p []]. Qed.
Lemma finds_app : forall l range l1 l2 v1 v2, Permutation l (l1 ++ l2) -> finds_range l1 range v1 ->
  finds_range l2 range v2 -> finds_range l range (v1 ++ v2).
Proof.
  intros l range l1 l2 v1 v2 P (r1 & P1 & N1) (r2 & P2 & N2). exists (r1 ++ r2). split.
  - rewrite P, P1, P2. rewrite <- !app_assoc. apply Permutation_app_head.
    rewrite !app_assoc. apply Permutation_app_tail. apply Permutation_app_comm.
  - intros p Hp. apply in_app_or in Hp as [Hp|Hp]; auto.
Qed.

Lemma child_finds : forall dim cmp range l c, (0 < dim)%nat -> cautious cmp -> length (low range) = dim ->
  good dim l c ->
  finds_range l range (if contains_box cmp range (kd_region c) then traverse_subtrees c
                       else if intersects_box cmp range (kd_region c) then search cmp range c else []).
Proof.
  intros dim cmp range l c Hd Hc Hr (G1 & G2 & G3).
  destruct (contains_box cmp range (kd_region c)); [apply finds_all, G1|].
  destruct (intersects_box cmp range (kd_region c)) eqn:E; [apply G3; assumption|].
  exists l. split; [reflexivity|]. intros p Hp Hin.
  rewrite (intersects_cautious cmp range (kd_region c) p) in E; [discriminate|exact Hc| |exact Hin|apply G2, Hp].
  intro Z. rewrite Z in Hr. cbn in Hr. lia.
Qed.

Lemma build_ok : forall nthe dim, (2 <= dim)%nat ->
  (forall D k l, (forall p, In p l -> length p = dim) -> (k < length l)%nat -> nth_element_ok (dimension_compare direct D) k l (nthe D k l)) ->
  forall fuel D region l, (length l <= fuel)%nat -> l <> [] -> (D < dim)%nat ->
    length (low region) = dim -> length (high region) = dim ->
    (forall p, In p l -> in_aabb region p) ->
    exists t, build_tree nthe direct dim fuel D region l = Built t /\ kd_region t = region /\ good dim l t.
Proof.
  intros nthe dim Hdim Hn. induction fuel as [|fuel IH]; intros D region l Hf Hne HD HL HH Hin.
  { destruct l; [congruence|cbn in Hf; lia]. }
  destruct l as [|p1 [|p2 l]]; [congruence| |].
  { cbn [build_tree]. eexists. split; [reflexivity|]. split; [reflexivity|]. cbn [kd_region]. split; [|split].
    - reflexivity.
    - exact Hin.
    - intros. apply finds_all. reflexivity. }
  assert (Hlen : forall p, In p (p1 :: p2 :: l) -> length p = dim).
  { intros p Hp. apply Hin in Hp. apply between_all_iff in Hp as (A & _). congruence. }
  set (ps := p1 :: p2 :: l) in *.
  assert (H2 : (2 <= length ps)%nat) by (cbn; lia).
  destruct (partition_ok nthe D ps H2) as (s & k & E & P & Hk & Hle & Hge).
  { apply Hn; [exact Hlen|]. apply Nat.div_lt; lia. }
  pose proof (Permutation_length P) as PL.
  assert (HD' : (Nat.modulo (S D) dim < dim)%nat) by (apply Nat.mod_upper_bound; lia).
  set (m := coord D (nth k s [])) in *.
  assert (LF : length (firstn k s) = k) by (apply firstn_length_le; lia).
  assert (LS : length (skipn k s) = (length s - k)%nat) by apply skipn_length.
  destruct (IH (Nat.modulo (S D) dim) (mkaabb (low region) (set_coord D m (high region))) (firstn k s)) as (tl & B1 & R1 & G1);
    [rewrite LF; cbn in Hf; cbn in Hk; lia| intro Z; rewrite Z in LF; cbn in LF; lia| exact HD'|exact HL|cbn; rewrite set_coord_length; exact HH| |].
  { intros p Hp. apply (in_left dim); auto.
    apply Hin. apply (Permutation_in p (Permutation_sym P)).
    rewrite <- (firstn_skipn k s). apply in_or_app; left; exact Hp. }
  destruct (IH (Nat.modulo (S D) dim) (mkaabb (set_coord D m (low region)) (high region)) (skipn k s)) as (tr & B2 & R2 & G2);
    [rewrite LS; cbn in Hf; cbn in Hk; cbn in PL; lia| intro Z; rewrite Z in LS; cbn in LS; lia| exact HD'|cbn; rewrite set_coord_length; exact HL|exact HH| |].
  { intros p Hp. apply (in_right dim); auto.
    apply Hin. apply (Permutation_in p (Permutation_sym P)).
    rewrite <- (firstn_skipn k s). apply in_or_app; right; exact Hp. }
  exists (Node region (Some tl) (Some tr)).
  assert (PP : Permutation ps (firstn k s ++ skipn k s)) by (rewrite firstn_skipn; exact P).
  split; [|split; [reflexivity|split; [|split]]].
  - change (build_tree nthe direct dim (S fuel) D region ps) with
      (match partition nthe direct D ps with
      | None => BuildUndefined
      | Some (s, k) =>
        let median := coord D (nth k s []) in
        let left := firstn k s in
        let right := skipn k s in
        let child (part : list coords) (reg : aabb) : built (option kd) :=
          match part with
          | [] => Built None
          | _ => match build_tree nthe direct dim fuel (Nat.modulo (S D) dim) reg part with
                 | Built t => Built (Some t)
                 | BuildUndefined => BuildUndefined
                 | BuildNoFuel => BuildNoFuel
                 end
          end in
        match child left (mkaabb (low region) (set_coord D median (high region))) with
        | Built lt =>
          match child right (mkaabb (set_coord D median (low region)) (high region)) with
          | Built rt => Built (Node region lt rt)
          | BuildUndefined => BuildUndefined
          | BuildNoFuel => BuildNoFuel
          end
        | BuildUndefined => BuildUndefined
        | BuildNoFuel => BuildNoFuel
        end
      end).
    rewrite E. cbv zeta. fold m.
    destruct (firstn k s) eqn:Z1; [cbn in LF; lia|].
    destruct (skipn k s) eqn:Z2; [cbn in LS; lia|].
    rewrite B1, B2. reflexivity.
  - destruct G1 as (G1 & _), G2 as (G2 & _). cbn [traverse_subtrees]. rewrite PP. apply Permutation_app; assumption.
  - exact Hin.
  - intros cmp range Hc Hr. cbn [search]. apply (finds_app _ range (firstn k s) (skipn k s)); [exact PP| |];
      apply (child_finds dim); auto; lia.
Qed.

Lemma make_aabb_in : forall HI LO dim ps, ps <> [] ->
  (forall p, In p ps -> length p = dim /\ forall x, In x p -> LO <= x <= HI) ->
  length (low (make_aabb direct HI LO dim ps)) = dim /\ length (high (make_aabb direct HI LO dim ps)) = dim /\
  forall p, In p ps -> in_aabb (make_aabb direct HI LO dim ps) p.
Proof.
  intros HI LO dim ps Hne H. destruct (C07_bounds_tight HI LO dim ps Hne H) as [L T].
  unfold make_aabb; cbn [low high]. rewrite !map_length. split; [exact L|]. split; [exact L|].
  intros p Hp. unfold in_aabb; cbn [low high]. apply between_all_iff. rewrite !map_length.
  destruct (H p Hp) as [Lp _]. rewrite L, Lp. split; [reflexivity|]. split; [reflexivity|]. intros i Hi.
  destruct (nth_error (get_bounds direct HI LO dim ps) i) as [[mn mx]|] eqn:E.
  2:{ apply nth_error_None in E. lia. }
  destruct (T i mn mx E) as (_ & _ & T3).
  unfold coord. rewrite (nth_error_nth _ i 0 (map_nth_error fst i _ E)), (nth_error_nth _ i 0 (map_nth_error snd i _ E)).
  cbn [fst snd]. apply T3. unfold column. apply in_map_iff. exists p. split; [reflexivity|exact Hp].
Qed.

Lemma kd_ok : forall nthe HI LO dim fuel ps, (2 <= dim)%nat ->
  (forall D k l, (forall p, In p l -> length p = dim) -> (k < length l)%nat -> nth_element_ok (dimension_compare direct D) k l (nthe D k l)) ->
  ps <> [] -> (forall p, In p ps -> length p = dim /\ forall x, In x p -> LO <= x <= HI) -> (length ps <= fuel)%nat ->
  exists t, kd_tree nthe direct HI LO dim fuel ps = Built t /\
    forall cmp range, cautious cmp -> length (low range) = dim -> finds_range ps range (search cmp range t).
Proof.
  intros nthe HI LO dim fuel ps Hd Hn Hne Hp Hf.
  destruct (make_aabb_in HI LO dim ps Hne Hp) as (A & B & C).
  destruct (build_ok nthe dim Hd Hn fuel 0 (make_aabb direct HI LO dim ps) ps Hf Hne ltac:(lia) A B C) as (t & E & _ & (_ & _ & G)).
  exists t. split; [exact E|exact G].
Qed.

(** ** The cells *)
Fixpoint cells (t : kd) : list (aabb * coords) :=
  match t with
  | Leaf r p => [(r, p)]
  | Node _ l r => (match l with Some t => cells t | None => [] end) ++ (match r with Some t => cells t | None => [] end)
  end.
Definition is_node (t : kd) : bool := match t with Leaf _ _ => false | Node _ _ _ => true end.

Lemma point_valid : forall dim r p, in_aabb r p -> length p = dim -> valid_box dim r.
Proof.
  intros dim r p H Hp. unfold in_aabb in H. split.
  - apply between_all_iff in H as (A & _); congruence.
  - clear Hp. induction H; constructor; [lra|assumption].
Qed.

Definition cellular (dim : nat) (t : kd) : Prop :=
  (exists p, length p = dim /\ in_aabb (kd_region t) p) /\
  map snd (cells t) = traverse_subtrees t /\
  (forall c, In c (cells t) -> length (snd c) = dim /\ in_aabb (fst c) (snd c)) /\
  (forall c, In c (cells t) -> forall q, in_aabb (fst c) q -> in_aabb (kd_region t) q) /\
  ForallOrdPairs (fun a b => apart dim (fst a) (fst b)) (cells t) /\
  (forall range, valid_box dim range -> (is_node t = true \/ intersects_box direct range (kd_region t) = true) ->
     search direct range t = map snd (filter (fun c => intersects_box direct range (fst c)) (cells t))).

Lemma filter_all : forall (A : Type) (f : A -> bool) l, (forall x, In x l -> f x = true) -> filter f l = l.
Proof.
  induction l as [|x l IH]; intro H; cbn; [reflexivity|]. rewrite (H x (or_introl eq_refl)), IH; [reflexivity|].
  intros y Hy; apply H; right; exact Hy.
Qed.
Lemma filter_none : forall (A : Type) (f : A -> bool) l, (forall x, In x l -> f x = false) -> filter f l = [].
Proof.
  induction l as [|x l IH]; intro H; cbn; [reflexivity|]. rewrite (H x (or_introl eq_refl)). apply IH.
  intros y Hy; apply H; right; exact Hy.
Qed.
Lemma fop_app : forall (A : Type) (R : A -> A -> Prop) l1 l2, ForallOrdPairs R l1 -> ForallOrdPairs R l2 ->
  (forall a b, In a l1 -> In b l2 -> R a b) -> ForallOrdPairs R (l1 ++ l2).
Proof.
  induction l1 as [|x l1 IH]; intros l2 H1 H2 H; cbn; [exact H2|]. inversion H1; subst. constructor.
  - apply Forall_app. split; [assumption|]. apply Forall_forall. intros b Hb. apply H; [left; reflexivity|exact Hb].
  - apply IH; auto. intros a b Ha Hb. apply H; [right; exact Ha|exact Hb].
Qed.

Lemma child_cells : forall n range c, cellular (S n) c -> valid_box (S n) range ->
  (if contains_box direct range (kd_region c) then traverse_subtrees c
   else if intersects_box direct range (kd_region c) then search direct range c else []) =
  map snd (filter (fun c => intersects_box direct range (fst c)) (cells c)).
Proof.
  intros n range c ((p0 & Hp0 & Hin0) & C2 & C3 & C4 & C5 & C6) V.
  pose proof (point_valid _ _ _ Hin0 Hp0) as Vc.
  destruct (contains_box direct range (kd_region c)) eqn:E1.
  - rewrite (contains_box_iff n) in E1 by assumption. rewrite filter_all; [symmetry; exact C2|].
    intros x Hx. destruct (C3 x Hx) as [L X]. apply (intersects_box_iff n); [assumption|apply (point_valid _ _ _ X L)|].
    exists (snd x). split; [|exact X]. apply E1, (C4 x Hx), X.
  - destruct (intersects_box direct range (kd_region c)) eqn:E2; [apply C6; auto|].
    rewrite filter_none; [reflexivity|]. intros x Hx. destruct (C3 x Hx) as [L X].
    destruct (intersects_box direct range (fst x)) eqn:E3; [|reflexivity]. exfalso.
    apply (intersects_box_iff n) in E3; [|assumption|apply (point_valid _ _ _ X L)].
    destruct E3 as (q & Q1 & Q2).
    assert (Z : intersects_box direct range (kd_region c) = true).
    { apply (intersects_box_iff n); [assumption|assumption|]. exists q. split; [exact Q1|apply (C4 x Hx), Q2]. }
    congruence.
Qed.

Lemma build_cells : forall nthe dim, (2 <= dim)%nat ->
  (forall D k l, (forall p, In p l -> length p = dim) -> (k < length l)%nat -> nth_element_ok (dimension_compare direct D) k l (nthe D k l)) ->
  forall fuel D region l t, (length l <= fuel)%nat -> l <> [] -> (D < dim)%nat ->
    length (low region) = dim -> length (high region) = dim ->
    (forall p, In p l -> in_aabb region p) ->
    build_tree nthe direct dim fuel D region l = Built t ->
    kd_region t = region /\ cellular dim t /\ Permutation l (traverse_subtrees t) /\ ((2 <= length l)%nat -> is_node t = true).
Proof.
  intros nthe dim Hdim Hn. induction fuel as [|fuel IH]; intros D region l t Hf Hne HD HL HH Hin; [discriminate|].
  destruct l as [|p1 [|p2 l]]; [congruence| |].
  { cbn [build_tree]. intro E. injection E as <-. cbn [kd_region].
    assert (X : in_aabb region p1) by (apply Hin; left; reflexivity).
    assert (L1 : length p1 = dim) by (apply between_all_iff in X as (A & _); congruence).
    split; [reflexivity|]. split; [|split; [reflexivity|cbn; intro Z; exfalso; lia]].
    split; [exists p1; split; assumption|]. split; [reflexivity|].
    split; [intros c [<-|[]]; split; assumption|]. split; [intros c [<-|[]] q Hq; exact Hq|].
    split; [constructor; [constructor|constructor]|].
    intros range V [Z|Z]; [discriminate|]. cbn in Z. cbn [search cells filter]. cbn [fst]. rewrite Z. reflexivity. }
  assert (Hlen : forall p, In p (p1 :: p2 :: l) -> length p = dim).
  { intros p Hp. apply Hin in Hp. apply between_all_iff in Hp as (A & _). congruence. }
  set (ps := p1 :: p2 :: l) in *.
  assert (H2 : (2 <= length ps)%nat) by (cbn; lia).
  destruct (partition_ok nthe D ps H2) as (s & k & E & P & Hk & Hle & Hge).
  { apply Hn; [exact Hlen|]. apply Nat.div_lt; lia. }
  pose proof (Permutation_length P) as PL.
  assert (HD' : (Nat.modulo (S D) dim < dim)%nat) by (apply Nat.mod_upper_bound; lia).
  unfold ps at 1. cbn [build_tree]. fold ps.
  rewrite E. cbv zeta.
  set (m := coord D (nth k s [])) in *.
  assert (LF : length (firstn k s) = k) by (apply firstn_length_le; lia).
  assert (LS : length (skipn k s) = (length s - k)%nat) by apply skipn_length.
  specialize (IH (Nat.modulo (S D) dim)).
  pose proof (IH (mkaabb (low region) (set_coord D m (high region))) (firstn k s)) as IL.
  pose proof (IH (mkaabb (set_coord D m (low region)) (high region)) (skipn k s)) as IR. clear IH.
  assert (PP : Permutation ps (firstn k s ++ skipn k s)) by (rewrite firstn_skipn; exact P).
  assert (InL : forall p, In p (firstn k s) -> in_aabb (mkaabb (low region) (set_coord D m (high region))) p).
  { intros p Hp. apply (in_left dim); auto. apply Hin. apply (Permutation_in p (Permutation_sym PP)).
    apply in_or_app; left; exact Hp. }
  assert (InR : forall p, In p (skipn k s) -> in_aabb (mkaabb (set_coord D m (low region)) (high region)) p).
  { intros p Hp. apply (in_right dim); auto. apply Hin. apply (Permutation_in p (Permutation_sym PP)).
    apply in_or_app; right; exact Hp. }
  assert (HL2 : (length (firstn k s) <= fuel)%nat) by (rewrite LF; cbn in Hf, Hk; lia).
  assert (HR2 : (length (skipn k s) <= fuel)%nat) by (rewrite LS; cbn in Hf, Hk, PL; lia).
  assert (NL : firstn k s <> []) by (intro Z; rewrite Z in LF; cbn in LF; lia).
  assert (NR : skipn k s <> []) by (intro Z; rewrite Z in LS; cbn in LS; lia).
  assert (Hm : exists pm, In pm ps /\ coord D pm = m).
  { exists (nth k s []). split; [|reflexivity]. apply (Permutation_in _ (Permutation_sym P)). apply nth_In. lia. }
  revert IL IR PP InL InR HL2 HR2 NL NR. generalize (skipn k s) as R. generalize (firstn k s) as L.
  clear - Hdim HD HD' HL HH Hin Hm. intros L R IL IR PP InL InR HL2 HR2 NL NR.
  destruct L as [|a L]; [congruence|]. destruct R as [|b R]; [congruence|].
  destruct (build_tree nthe direct dim fuel (S D mod dim) {| low := low region; high := set_coord D m (high region) |} (a :: L)) as [tl| |] eqn:BL; try discriminate.
  destruct (build_tree nthe direct dim fuel (S D mod dim) {| low := set_coord D m (low region); high := high region |} (b :: R)) as [tr| |] eqn:BR; try discriminate.
  intro E. injection E as <-.
  destruct (IL tl HL2 NL HD' HL ltac:(cbn; rewrite set_coord_length; exact HH) InL eq_refl) as (RL & CL & PL & _).
  destruct (IR tr HR2 NR HD' ltac:(cbn; rewrite set_coord_length; exact HL) HH InR eq_refl) as (RR & CR & PR & _).
  cbn [kd_region].
  destruct Hm as (pm & Hpm & Em).
  assert (Xm : in_aabb region pm) by (apply Hin, Hpm).
  assert (Lm : length pm = dim) by (apply between_all_iff in Xm as (A & _); congruence).
  assert (Bm : coord D (low region) <= m <= coord D (high region)).
  { apply between_all_iff in Xm as (_ & _ & B). rewrite <- Em. apply B; lia. }
  assert (SL : forall q, in_aabb (mkaabb (low region) (set_coord D m (high region))) q -> in_aabb region q /\ coord D q <= m).
  { intros q Hq. unfold in_aabb in *; cbn [low high] in *. apply between_all_iff in Hq as (A & B & C). rewrite set_coord_length in B.
    split.
    - apply between_all_iff. repeat split; auto; [apply C; assumption|]. specialize (C i H). rewrite set_coord_get in C by lia.
      destruct (Nat.eqb_spec i D); [subst; lra|lra].
    - specialize (C D ltac:(lia)). rewrite set_coord_get, Nat.eqb_refl in C by lia. lra. }
  assert (SR : forall q, in_aabb (mkaabb (set_coord D m (low region)) (high region)) q -> in_aabb region q /\ m <= coord D q).
  { intros q Hq. unfold in_aabb in *; cbn [low high] in *. apply between_all_iff in Hq as (A & B & C). rewrite set_coord_length in A.
    split.
    - apply between_all_iff. repeat split; auto; [|apply C; assumption]. specialize (C i H). rewrite set_coord_get in C by lia.
      destruct (Nat.eqb_spec i D); [subst; lra|lra].
    - specialize (C D ltac:(lia)). rewrite set_coord_get, Nat.eqb_refl in C by lia. lra. }
  pose proof CL as (_ & L2 & L3 & L4 & L5 & L6). pose proof CR as (_ & R2 & R3 & R4 & R5 & R6).
  rewrite RL in L4. rewrite RR in R4.
  split; [reflexivity|]. split; [|split; [cbn [traverse_subtrees]; rewrite PP; apply Permutation_app; assumption|reflexivity]].
  split; [exists pm; split; assumption|].
  cbn [cells traverse_subtrees]. rewrite map_app, L2, R2. split; [reflexivity|].
  split; [intros c Hc; apply in_app_or in Hc as [Hc|Hc]; auto|].
  split.
  { intros c Hc q Hq. apply in_app_or in Hc as [Hc|Hc].
    - apply SL, (L4 c Hc q Hq).
    - apply SR, (R4 c Hc q Hq). }
  split.
  { apply fop_app; auto. intros x y Hx Hy. exists D, m. split; [exact HD|]. split.
    - intros q Hq. apply SL, (L4 x Hx q Hq).
    - intros q Hq. apply SR, (R4 y Hy q Hq). }
  intros range V _. destruct dim as [|n]; [lia|]. cbn [search]. rewrite filter_app, map_app.
  rewrite (child_cells n range tl CL V), (child_cells n range tr CR V). reflexivity.
Qed.

Lemma kd_cells_ok : forall nthe HI LO dim fuel ps t, (2 <= dim)%nat ->
  (forall D k l, (forall p, In p l -> length p = dim) -> (k < length l)%nat -> nth_element_ok (dimension_compare direct D) k l (nthe D k l)) ->
  (2 <= length ps)%nat -> (forall p, In p ps -> length p = dim /\ forall x, In x p -> LO <= x <= HI) -> (length ps <= fuel)%nat ->
  kd_tree nthe direct HI LO dim fuel ps = Built t ->
  exists cs, cell_division dim ps cs /\
    forall range, valid_box dim range -> search direct range t = map snd (filter (fun c => intersects_box direct range (fst c)) cs).
Proof.
  intros nthe HI LO dim fuel ps t Hd Hn H2 Hp Hf E.
  assert (Hne : ps <> []) by (intro Z; rewrite Z in H2; cbn in H2; lia).
  destruct (make_aabb_in HI LO dim ps Hne Hp) as (A & B & C).
  destruct (build_cells nthe dim Hd Hn fuel 0 (make_aabb direct HI LO dim ps) ps t Hf Hne ltac:(lia) A B C E) as (_ & (_ & C2 & C3 & _ & C5 & C6) & P & N).
  exists (cells t). split.
  - split; [rewrite C2; exact P|]. split; [intros c Hc; apply C3, Hc|exact C5].
  - intros range V. apply C6; [exact V|left; apply N, H2].
Qed.

(** ** A rearrangement that meets the promise of nth_element: sorting *)
Fixpoint insert (lt : coords -> coords -> bool) (x : coords) (l : list coords) : list coords :=
  match l with [] => [x] | y :: l' => if lt y x then y :: insert lt x l' else x :: l end.
Fixpoint isort (lt : coords -> coords -> bool) (l : list coords) : list coords :=
  match l with [] => [] | x :: l' => insert lt x (isort lt l') end.
Lemma insert_perm : forall lt x l, Permutation (x :: l) (insert lt x l).
Proof.
  induction l as [|y l IH]; cbn; [reflexivity|]. destruct (lt y x); [|reflexivity].
  rewrite perm_swap. constructor. exact IH.
Qed.
Lemma isort_perm : forall lt l, Permutation l (isort lt l).
Proof. induction l as [|x l IH]; cbn; [reflexivity|]. rewrite <- insert_perm. constructor. exact IH. Qed.
Inductive asc (lt : coords -> coords -> bool) : list coords -> Prop :=
| asc_nil : asc lt []
| asc_cons : forall x l, (forall y, In y l -> lt y x = false) -> asc lt l -> asc lt (x :: l).
Lemma isort_asc : forall dim lt l, strict_weak_order dim lt -> (forall p, In p l -> length p = dim) -> asc lt (isort lt l).
Proof.
  intros dim lt l (I & T & W) H. 
  assert (NT : forall a b c, length a = dim -> length b = dim -> length c = dim -> lt b a = false -> lt c b = false -> lt c a = false).
  { intros a b c La Lb Lc H1 H2. destruct (lt c a) eqn:E; [|reflexivity]. exfalso.
    destruct (lt a b) eqn:E2.
    - rewrite (T c a b) in H2; auto; discriminate.
    - assert (Q0 : coords_eq a b) by (apply W; auto).
      destruct (lt b c) eqn:E3.
      + rewrite (T b c a) in H1; auto; discriminate.
      + assert (Q1 : coords_eq c b) by (apply W; auto).
        assert (Q2 : coords_eq c a).
        { clear -Q0 Q1. unfold coords_eq in *. revert c Q1. induction Q0; intros c Q1; inversion Q1; subst; constructor.
          - lra.
          - apply IHQ0; assumption. }
        apply W in Q2; auto. destruct Q2; congruence. }
  induction l as [|x l IH]; cbn; [constructor|].
  assert (HL : forall p, In p (isort lt l) -> length p = dim).
  { intros p Hp. apply H. right. apply (Permutation_in p (Permutation_sym (isort_perm lt l))), Hp. }
  specialize (IH ltac:(intros p Hp; apply H; right; exact Hp)).
  assert (Hx : length x = dim) by (apply H; left; reflexivity).
  revert HL. induction IH as [|y l' Hy Hl' IH']; intro HL; cbn; [constructor; [intros ? []|constructor]|].
  destruct (lt y x) eqn:E.
  - constructor; [|apply IH'; intros p Hp; apply HL; right; exact Hp].
    intros z Hz. apply (Permutation_in z (Permutation_sym (insert_perm lt x l'))) in Hz. destruct Hz as [<-|Hz].
    + destruct (lt x y) eqn:E2; [|reflexivity].
      assert (LY : length y = dim) by (apply HL; left; reflexivity).
      pose proof (T y x y LY Hx LY E E2) as B. rewrite I in B; auto.
    + apply Hy, Hz.
  - constructor; [|constructor; assumption].
    intros z [<-|Hz]; [exact E|].
    apply (NT x y z); auto; [apply HL; left; reflexivity|apply HL; right; exact Hz].
Qed.
Lemma sort_nth_ok : forall dim lt k l, strict_weak_order dim lt -> (forall p, In p l -> length p = dim) ->
  nth_element_ok lt k l (isort lt l).
Proof.
  intros dim lt k l HW H. split; [apply isort_perm|].
  pose proof (isort_asc dim lt l HW H) as A.
  assert (HL : forall p, In p (isort lt l) -> length p = dim).
  { intros p Hp. apply H. apply (Permutation_in p (Permutation_sym (isort_perm lt l))), Hp. }
  destruct HW as (I & _). clear H. revert k HL. induction A as [|x l' Hx Hl IH]; intros k HL m E; [destruct k; discriminate|].
  destruct k as [|k]; cbn in E.
  - injection E as ->. cbn. split; [intros a []|]. intros b [<-|Hb]; [apply I, HL; left; reflexivity|apply Hx, Hb].
  - destruct (IH k ltac:(intros p Hp; apply HL; right; exact Hp) m E) as [I1 I2]. cbn [firstn skipn]. split; [|exact I2].
    intros a [<-|Ha]; [|apply I1, Ha]. apply Hx. apply nth_error_In in E; exact E.
Qed.

Lemma cautious_direct : cautious direct.
Proof. split; intros a b; cbn; [apply Qltb_lt|]. intro H. destruct (Qgtb_spec a b); [lra|discriminate]. Qed.
Lemma cautious_absolute : forall tol, 0 <= tol -> cautious (absolute tol).
Proof.
  intros tol Ht. split; intros a b; cbn.
  - destruct (Qltb_spec (a - b) (- tol)); [lra|discriminate].
  - destruct (Qgtb_spec (a - b) tol); [lra|discriminate].
Qed.
