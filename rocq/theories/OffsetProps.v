(** Properties of parallel copies of a polyline (C106). *)
From Verif Require Import RBase CurveModel CurveSpec CurveProof OffsetModel OffsetSpec OffsetProof.

Lemma at_corners_length : forall {T : Type} (f : rp -> rp -> rp -> T) (l : rp -> rp -> T) poly, (2 <= length poly)%nat ->
  S (length (at_corners (fun a b c => [f a b c]) l poly)) = length poly.
Proof.
  intros T f l poly. induction poly as [|A poly IH]; intro H; [simpl in H; lia|].
  destruct poly as [|B [|C poly]]; [simpl in H; lia|reflexivity|].
  change (S (S (length (at_corners (fun a b c => [f a b c]) l (B :: C :: poly)))) = S (length (B :: C :: poly))). rewrite IH; [reflexivity|simpl; lia].
Qed.
Lemma at_corners_inner : forall {T : Type} (f : rp -> rp -> rp -> T) (l : rp -> rp -> T) pre A B C post,
  nth_error (at_corners (fun a b c => [f a b c]) l (pre ++ A :: B :: C :: post)) (length pre) = Some (f A B C).
Proof.
  intros T f l pre. induction pre as [|p pre IH]; intros A B C post; [reflexivity|].
  specialize (IH A B C post). destruct pre as [|q [|r pre]]; exact IH.
Qed.
Lemma at_corners_last : forall {T : Type} (f : rp -> rp -> rp -> T) (l : rp -> rp -> T) pre A B,
  nth_error (at_corners (fun a b c => [f a b c]) l (pre ++ [A; B])) (length pre) = Some (l A B).
Proof.
  intros T f l pre. induction pre as [|p pre IH]; intros A B; [reflexivity|].
  specialize (IH A B). destruct pre as [|q [|r pre]]; exact IH.
Qed.

(** C106: the copy has as many points as the polyline; the first and last lie
    straight beside the first and last point at the wanted signed distance; at
    every bend the point has the wanted signed distance from the lines of both
    sides.  At a vertex where the polyline goes straight on or straight back, the
    point is whatever was in memory. *)
Theorem C106_offset : forall left offset poly, (2 <= length poly)%nat -> no_zero_side poly ->
  exists pts, polyline_offset left offset poly = off_points pts /\ length pts = length poly /\
    (forall A B rest, poly = A :: B :: rest -> exists X, nth_error pts 0 = Some (Some X) /\
       height A B X = wanted left offset /\ beside A B A X) /\
    (forall pre A B, poly = pre ++ [A; B] -> exists X, nth_error pts (length poly - 1) = Some (Some X) /\
       height A B X = wanted left offset /\ beside A B B X) /\
    (forall pre A B C post, poly = pre ++ A :: B :: C :: post -> turn A B C <> 0 ->
       exists X, nth_error pts (S (length pre)) = Some (Some X) /\
       height A B X = wanted left offset /\ height B C X = wanted left offset) /\
    (forall pre A B C post, poly = pre ++ A :: B :: C :: post -> turn A B C = 0 ->
       nth_error pts (S (length pre)) = Some None).
Proof.
  intros left offset poly L H. destruct poly as [|A0 [|B0 rest]]; [simpl in L; lia|simpl in L; lia|].
  rewrite offset_ok by exact H. eexists; split; [reflexivity|].
  split; [change (S (length (at_corners (fun A B C => [pushed left offset A B C]) (fun A B => Some (end_of left offset A B)) (A0 :: B0 :: rest))) = length (A0 :: B0 :: rest));
          apply at_corners_length; exact L|].
  split; [|split; [|split]].
  - intros A B r E. injection E as <- <- _. eexists; split; [reflexivity|]. apply beside_start. apply no_zero_cons in H. apply H.
  - intros pre A B E. assert (N : A <> B) by (apply (H pre A B [] E)).
    exists (end_of left offset A B). split; [|apply beside_end; exact N].
    assert (LE : (length (A0 :: B0 :: rest) - 1 = S (length pre))%nat) by (rewrite E, app_length; simpl; lia).
    rewrite LE. cbn [nth_error]. rewrite E.
    exact (at_corners_last (pushed left offset) (fun A B => Some (end_of left offset A B)) pre A B).
  - intros pre A B C post E Z. assert (N1 : A <> B) by (apply (H pre A B (C :: post) E)).
    assert (N2 : B <> C) by (apply (H (pre ++ [A]) B C post); rewrite <- app_assoc; exact E).
    destruct (crossing_ok left offset A B C N1 N2 Z) as (X & E1 & _ & H1 & H2 & _).
    exists X. split; [|split; assumption]. cbn [nth_error]. rewrite E.
    rewrite at_corners_inner. unfold pushed. rewrite E1. reflexivity.
  - intros pre A B C post E Z. cbn [nth_error]. rewrite E. rewrite at_corners_inner. unfold pushed. rewrite straight_unwritten by exact Z. reflexivity.
Qed.

(** C106: hence every side of the copy is parallel to its original. *)
Theorem C106_parallel : forall left offset poly pts pre A B post X Y, (2 <= length poly)%nat -> no_zero_side poly ->
  polyline_offset left offset poly = off_points pts -> poly = pre ++ A :: B :: post ->
  nth_error pts (length pre) = Some (Some X) -> nth_error pts (S (length pre)) = Some (Some Y) ->
  height A B X = wanted left offset /\ height A B Y = wanted left offset /\ rpcross (rpsub B A) (rpsub Y X) = 0.
Proof.
  intros left offset poly pts pre A B post X Y L H R E HX HY.
  destruct (C106_offset left offset poly L H) as (pts' & R' & Ln & F & La & I & St). rewrite R in R'. injection R' as <-.
  assert (N : A <> B) by (apply (H pre A B post E)).
  assert (H1 : height A B X = wanted left offset).
  { destruct pre as [|p pre _] using rev_ind.
    - destruct (F A B post E) as (X' & E1 & E2 & _). change (length (@nil rp)) with 0%nat in HX. rewrite HX in E1. injection E1 as <-. exact E2.
    - rewrite app_length in HX. simpl in HX. replace (length pre + 1)%nat with (S (length pre)) in HX by lia.
      rewrite <- app_assoc in E. cbn [app] in E. destruct (Req_dec (turn p A B) 0) as [Z|Z].
      + rewrite (St pre p A B post E Z) in HX. discriminate.
      + destruct (I pre p A B post E Z) as (X' & E1 & _ & E2). rewrite HX in E1. injection E1 as <-. exact E2. }
  assert (H2 : height A B Y = wanted left offset).
  { destruct post as [|C post].
    - destruct (La pre A B E) as (X' & E1 & E2 & _). rewrite E, app_length in E1. simpl in E1.
      replace (length pre + 2 - 1)%nat with (S (length pre)) in E1 by lia. rewrite HY in E1. injection E1 as <-. exact E2.
    - destruct (Req_dec (turn A B C) 0) as [Z|Z].
      + rewrite (St pre A B C post E Z) in HY. discriminate.
      + destruct (I pre A B C post E Z) as (X' & E1 & E2 & _). rewrite HY in E1. injection E1 as <-. exact E2. }
  split; [exact H1|]. split; [exact H2|].
  pose proof (rdist_pos A B N) as P. unfold height in H1, H2.
  assert (T : turn A B Y = turn A B X).
  { apply (Rmult_eq_reg_r (/ rdist A B)); [|apply Rinv_neq_0_compat; lra]. unfold Rdiv in *. congruence. }
  unfold turn in T. unfold rpcross, rpsub; simpl. lra.
Qed.

(** C106: fewer than two points fail the assertion; a side of length zero is
    divided by zero. *)
Theorem C106_undefined : forall left offset poly,
  (polyline_offset left offset poly = off_assert <-> (length poly < 2)%nat) /\
  (polyline_offset left offset poly = off_zero_side <-> ~ no_zero_side poly).
Proof.
  intros left offset poly. destruct poly as [|A [|B rest]].
  - split; [split; [simpl; lia|reflexivity]|]. split; [discriminate|]. intro N; exfalso; apply N.
    intros pre a b post E. destruct pre; discriminate.
  - split; [split; [simpl; lia|reflexivity]|]. split; [discriminate|]. intro N; exfalso; apply N.
    intros pre a b post E. destruct pre as [|p [|q pre]]; discriminate.
  - assert (Dec : forall l, no_zero_side l \/ exists pre a post, l = pre ++ a :: a :: post).
    { clear. induction l as [|x l IH]; [left; intros [|] a b post E; discriminate|].
      destruct l as [|y l]; [left; intros [|p [|q pre]] a b post E; discriminate|].
      assert (D : x = y \/ x <> y).
      { destruct (Req_dec (rpd2 x y) 0) as [E|E]; rewrite rpd2_zero in E; auto. }
      destruct D as [-> | D]; [right; exists [], y, l; reflexivity|].
      destruct IH as [IH|(pre & a & post & IH)]; [left; apply no_zero_cons; auto|].
      right. exists (x :: pre), a, post. rewrite IH. reflexivity. }
    destruct (Dec (A :: B :: rest)) as [H|(pre & a & post & H)].
    + destruct (C106_offset left offset (A :: B :: rest)) as (pts & E & _); [simpl; lia|exact H|]. rewrite E.
      split; (split; [discriminate|]); [simpl; lia|intro N; contradiction].
    + assert (N : ~ no_zero_side (A :: B :: rest)).
      { intro F. apply (F pre a a post H). reflexivity. }
      assert (E : polyline_offset left offset (A :: B :: rest) = off_zero_side).
      { unfold polyline_offset. destruct (side_shift left offset A B) as [v|] eqn:S1; [|reflexivity].
        destruct pre as [|p pre].
        { injection H as <- <- _. rewrite side_shift_zero in S1. discriminate. }
        injection H as -> H.
        assert (Lp : forall r pre a post B pA pB res, B :: r = pre ++ a :: a :: post ->
                 offset_loop left offset B pA pB r res = None).
        { clear. induction r as [|D r IH]; intros pre a post B pA pB res E.
          - destruct pre as [|? [|? ?]]; discriminate.
          - cbn [offset_loop]. destruct (side_shift left offset B D) as [v|] eqn:S1; [|reflexivity].
            destruct pre as [|p pre].
            + injection E as <- <- _. rewrite side_shift_zero in S1. discriminate.
            + injection E as _ E. apply (IH pre a post). exact E. }
        destruct rest as [|C rest].
        { destruct pre as [|? [|? ?]]; discriminate. }
        rewrite (Lp (C :: rest) pre a post) by exact H. reflexivity. }
      rewrite E. split; [split; [discriminate|simpl; lia]|]. split; auto.
Qed.

(** C106: it does not keep the straight parts of a polyline: the vertex in the
    middle of a straight line is lost for every distance and side. *)
Theorem C106_straight_refuted : ~ (forall left offset poly, (2 <= length poly)%nat -> no_zero_side poly ->
  exists pts, polyline_offset left offset poly = off_points (map Some pts)).
Proof.
  intro F. destruct (F true 1 [(0, 0); (1, 0); (2, 0)]) as (pts & E).
  - simpl; lia.
  - intros [|? [|? [|? ?]]] a b post E; try discriminate; injection E; intros; subst; intro G; try (injection G; lra); try discriminate.
    destruct l; discriminate.
  - destruct (C106_offset true 1 [(0, 0); (1, 0); (2, 0)]) as (p & E1 & _ & _ & _ & _ & S).
    + simpl; lia.
    + intros [|? [|? [|? ?]]] a b post E2; try discriminate; injection E2; intros; subst; intro G; try (injection G; lra); try discriminate.
      destruct l; discriminate.
    + specialize (S [] (0, 0) (1, 0) (2, 0) [] eq_refl). rewrite E in E1. injection E1 as <-.
      assert (T : turn (0, 0) (1, 0) (2, 0) = 0) by (unfold turn; simpl; ring). specialize (S T). simpl in S.
      destruct pts as [|x [|y pts]]; discriminate.
Qed.

(** C106: the other offset, before self-intersections are removed
    ([liu_polyline_offset] returns it unchanged when there are none), runs from the
    point beside the first point over the points of every corner to the point
    beside the last point. *)
Theorem C106_untrimmed : forall left offset A B rest pre Y Z, no_zero_side (A :: B :: rest) -> A :: B :: rest = pre ++ [Y; Z] ->
  exists F E ls, untrimmed_offset left offset (A :: B :: rest) = Some (F :: concat ls ++ [E]) /\
    height A B F = wanted left offset /\ beside A B A F /\ height Y Z E = wanted left offset /\ beside Y Z Z E /\
    corners_of left offset (A :: B :: rest) ls.
Proof.
  intros left offset A B rest pre Y Z H E. rewrite untrimmed_ok by exact H.
  assert (N : A <> B) by (apply no_zero_cons in H; apply H).
  exists (start_of left offset A B), (end_of left offset Y Z).
  assert (K : exists ls, at_corners (corner left offset) (end_of left offset) (A :: B :: rest) = concat ls ++ [end_of left offset Y Z] /\
                corners_of left offset (A :: B :: rest) ls).
  { clear N. revert A B pre H E. induction rest as [|C rest IH]; intros A B pre H E.
    - exists []. destruct pre as [|p [|q [|r pre]]]; try discriminate. injection E as <- <-. split; [reflexivity|exact I].
    - destruct pre as [|p pre]; [discriminate|]. injection E as -> E.
      pose proof H as H'. apply no_zero_cons in H'. destruct H' as [N1 H'].
      destruct (IH B C pre H' E) as (ls & E1 & E2). pose proof H' as H2. apply no_zero_cons in H2. destruct H2 as [N2 _].
      exists (corner left offset p B C :: ls). split.
      + cbn [concat]. rewrite <- app_assoc, <- E1. reflexivity.
      + split; [apply corner_ok; assumption|exact E2]. }
  destruct K as (ls & K1 & K2). exists ls. rewrite K1. split; [reflexivity|].
  destruct (beside_start left offset A B N) as [U1 U2].
  assert (N2 : Y <> Z) by (apply (H pre Y Z [] E)).
  destruct (beside_end left offset Y Z N2) as [U3 U4]. repeat (split; [assumption|]). exact K2.
Qed.

(** C106: where the polyline turns straight back nothing marks the turn, so the
    copy of a path to (10, 0) and back crosses the path at its start. *)
Theorem C106_turn_back_refuted : ~ (forall left offset poly pts, no_zero_side poly -> 0 < offset ->
  untrimmed_offset left offset poly = Some pts ->
  forall P, In P poly -> forall pre X Y post, pts = pre ++ X :: Y :: post ->
  forall t, 0 <= t <= 1 -> rpadd X (rpscale t (rpsub Y X)) <> P).
Proof.
  intro F.
  assert (NZ : no_zero_side [(0, 0); (10, 0); (0, 0)]).
  { intros [|? [|? [|? ?]]] a b post E; try discriminate; injection E; intros; subst; intro G; try (injection G; lra); try discriminate.
    destruct l; discriminate. }
  destruct (C106_untrimmed true 1 (0, 0) (10, 0) [(0, 0)] [(0, 0)] (10, 0) (0, 0) NZ eq_refl) as (A & E & ls & R & H1 & H2 & H3 & H4 & C).
  destruct ls as [|l ls]; [exact C|]. destruct ls; [|destruct C as [_ C]; destruct C].
  destruct C as [C _]. 
  assert (l = []).
  { destruct C as [[T _]|[(_ & D & _)|(_ & _ & [[O _]|[_ O]])]].
    - exfalso. apply T. unfold turn; simpl; ring.
    - exfalso. unfold rpdot2, rpsub in D; simpl in D. lra.
    - lra.
    - exact O. }
  subst l. simpl in R.
  assert (PD : rdist (0, 0) (10, 0) = 10).
  { unfold rdist; simpl. replace ((10 - 0) * (10 - 0) + (0 - 0) * (0 - 0)) with (10 * 10) by ring. apply sqrt_square; lra. }
  assert (PD2 : rdist (10, 0) (0, 0) = 10).
  { unfold rdist; simpl. replace ((0 - 10) * (0 - 10) + (0 - 0) * (0 - 0)) with (10 * 10) by ring. apply sqrt_square; lra. }
  unfold height, beside, wanted in *. rewrite PD in H1. rewrite PD2 in H3.
  destruct A as [ax ay]. destruct E as [ex ey]. unfold turn, rpdot2, rpsub in *; simpl in *.
  apply (F true 1 [(0, 0); (10, 0); (0, 0)] [(ax, ay); (ex, ey)] NZ ltac:(lra) R (0, 0) (or_introl eq_refl) [] (ax, ay) (ex, ey) [] eq_refl (1 / 2)); [lra|].
  unfold rpadd, rpscale, rpsub; simpl. f_equal; lra.
Qed.

(** A bend to the left: copies on both sides. *)
Definition bend_poly : list rp := [(0, 0); (2, 0); (2, 3)].
Example C106_witness : no_zero_side bend_poly /\ turn (0, 0) (2, 0) (2, 3) = 6 /\
  height (0, 0) (2, 0) (1, 1) = 1 /\ height (2, 0) (2, 3) (1, 1) = 1 /\ wanted true 1 = 1 /\ wanted false 1 = -1.
Proof.
  split.
  { intros [|? [|? [|? ?]]] a b post E; try discriminate; injection E; intros; subst; intro G; try (injection G; lra); try discriminate.
    destruct l; discriminate. }
  split; [unfold turn; simpl; ring|].
  unfold height, rdist, turn, wanted; simpl.
  replace ((2 - 0) * (2 - 0) + (0 - 0) * (0 - 0)) with (2 * 2) by ring. rewrite (sqrt_square 2) by lra.
  replace ((2 - 2) * (2 - 2) + (3 - 0) * (3 - 0)) with (3 * 3) by ring. rewrite (sqrt_square 3) by lra.
  repeat split; try lra; field.
Qed.

Print Assumptions C106_offset.
Print Assumptions C106_parallel.
Print Assumptions C106_undefined.
Print Assumptions C106_straight_refuted.
Print Assumptions C106_untrimmed.
Print Assumptions C106_turn_back_refuted.
