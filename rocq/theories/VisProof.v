(** Proofs about the visible vertices of a mesh. *)
From Verif Require Import Base CmpModel OrientModel OrientSpec OrientProof DistModel DistSpec PolygonSpec LinIntSpec RangeModel RangeSpec RangeProof VisModel VisSpec.
From Verif Require MeshModel MeshSpec MeshProof4.
From Coq Require Import Lia.

(** ** The range *)
Lemma between_strict : forall a b c, 0 < cross a b -> 0 < cross a c -> 0 < cross c b -> forall incl, is_vector_between direct a b c incl = true.
Proof.
  intros a b c H1 H2 H3 incl. unfold is_vector_between. cbn [equals greater_than_or_equal greater_than direct].
  destruct (Qeqb_spec (cross c b) 0); [lra|]. destruct (Qeqb_spec (cross a c) 0); [lra|]. destruct (Qeqb_spec (cross a b) 0); [lra|]. cbn [andb].
  destruct (Qgeb_spec (cross a c * cross a b) 0) as [K|K]; [destruct (Qgtb_spec (cross c b) 0); [reflexivity|lra]|]. assert (0 <= cross a c * cross a b) by (apply Qmult_le_0_compat; lra). lra.
Qed.
Lemma between_inv : forall a b c, 0 < cross a b -> is_vector_between direct a b c false = true -> 0 < cross a c /\ 0 < cross c b.
Proof.
  intros a b c H1 H. unfold is_vector_between in H. cbn [equals greater_than_or_equal greater_than direct] in H.
  destruct (Qeqb (cross c b) 0 && Qgeb (dot b c) 0) eqn:E1; [discriminate|]. destruct (Qeqb (cross a c) 0 && Qgeb (dot a c) 0) eqn:E2; [discriminate|].
  destruct (Qeqb_spec (cross a b) 0); [lra|]. cbn [andb] in H.
  destruct (Qgeb_spec (cross a c * cross a b) 0) as [K|K].
  - destruct (Qgtb_spec (cross c b) 0) as [P|P]; [|discriminate]. split; [|exact P].
    destruct (Qlt_le_dec 0 (cross a c)) as [L|L]; [exact L|exfalso]. destruct (Qlt_le_dec (cross a c) 0) as [L'|L']; [assert (0 < - cross a c * cross a b) by (apply Qmult_lt_0_compat; lra); lra|].
    assert (Z : cross a c == 0) by lra. revert E2. destruct (Qeqb_spec (cross a c) 0); [|contradiction]. destruct (Qgeb_spec (dot a c) 0) as [G|G]; [discriminate|intros _].
    (* c is opposite to a, then c x b < 0 *)
    assert (I : dot a a * cross c b == dot a c * cross a b + dot a b * cross a c * -1) by (unfold dot, cross; ring).
    rewrite Z in I. assert (dot a c * cross a b <= 0) by (assert (0 <= - dot a c * cross a b) by (apply Qmult_le_0_compat; lra); lra).
    assert (A : 0 < dot a a). { unfold dot. destruct (Qlt_le_dec 0 (px a * px a + py a * py a)) as [Y|Y]; [exact Y|exfalso]. pose proof (sq_nonneg (px a)). pose proof (sq_nonneg (py a)).
      assert (Z1 : px a == 0) by (apply sq_zero; lra). assert (Z2 : py a == 0) by (apply sq_zero; lra). unfold cross in H1. rewrite Z1, Z2 in H1. lra. }
    assert (0 < dot a a * cross c b) by (apply Qmult_lt_0_compat; assumption). lra.
  - exfalso. destruct (Qgtb_spec (cross a c) 0) as [P|P]; [|discriminate]. assert (0 <= cross a c * cross a b) by (apply Qmult_le_0_compat; lra). lra.
Qed.

(** What the range of an item must satisfy for the direction [d]. *)
Definition holds (d : pt) (r : option (pt * pt)) : Prop :=
  match r with None => True | Some (lo, hi) => 0 < cross lo hi /\ 0 < cross lo d /\ 0 < cross d hi end.

Lemma crossing_directions : forall o V P Q, 0 < tri2 P Q o -> (exists X, inside_segment o V X /\ inside_segment P Q X) ->
  0 < cross (vsub P o) (vsub Q o) /\ 0 < cross (vsub P o) (vsub V o) /\ 0 < cross (vsub V o) (vsub Q o).
Proof.
  intros o V P Q L (X & (t & Ht & E1) & (u & Hu & E2)).
  assert (C : cross (vsub P o) (vsub Q o) == tri2 P Q o) by (unfold tri2, cross, vsub; simpl; ring).
  assert (EV : t * cross (vsub P o) (vsub V o) == u * cross (vsub P o) (vsub Q o)).
  { transitivity (cross (vsub P o) (vsub X o)); [rewrite (cross_pteq _ _ _ _ E1)|rewrite (cross_pteq _ _ _ _ E2)]; unfold cross, vsub, lerp, vadd, vscale; simpl; ring. }
  assert (EW : t * cross (vsub V o) (vsub Q o) == (1 - u) * cross (vsub P o) (vsub Q o)).
  { transitivity (- cross (vsub Q o) (vsub X o)); [rewrite (cross_pteq _ _ _ _ E1)|rewrite (cross_pteq _ _ _ _ E2)]; unfold cross, vsub, lerp, vadd, vscale; simpl; ring. }
  rewrite C in *. assert (0 < u * tri2 P Q o) by (apply Qmult_lt_0_compat; lra). assert (0 < (1 - u) * tri2 P Q o) by (apply Qmult_lt_0_compat; lra).
  split; [exact L|]. split.
  - destruct (Qlt_le_dec 0 (cross (vsub P o) (vsub V o))) as [K|K]; [exact K|exfalso]. assert (0 <= t * - cross (vsub P o) (vsub V o)) by (apply Qmult_le_0_compat; lra). lra.
  - destruct (Qlt_le_dec 0 (cross (vsub V o) (vsub Q o))) as [K|K]; [exact K|exfalso]. assert (0 <= t * - cross (vsub V o) (vsub Q o)) by (apply Qmult_le_0_compat; lra). lra.
Qed.

Lemma next_range_ok : forall o V P Q r, 0 < tri2 P Q o -> (exists X, inside_segment o V X /\ inside_segment P Q X) -> holds (vsub V o) r ->
  exists lo hi, next_range direct o P Q r = Some (Some (lo, hi)) /\ holds (vsub V o) (Some (lo, hi)).
Proof.
  intros o V P Q r L X H. destruct (crossing_directions o V P Q L X) as (C0 & C1 & C2). unfold next_range.
  assert (NP : same_point direct o P = false).
  { unfold same_point. cbn [equals direct]. destruct (Qeqb_spec (px o) (px P)) as [E1|]; [|reflexivity]. destruct (Qeqb_spec (py o) (py P)) as [E2|]; [|reflexivity]. exfalso. unfold cross, vsub in C0; cbn in C0. rewrite E1, E2 in C0. lra. }
  assert (NQ : same_point direct o Q = false).
  { unfold same_point. cbn [equals direct]. destruct (Qeqb_spec (px o) (px Q)) as [E1|]; [|reflexivity]. destruct (Qeqb_spec (py o) (py Q)) as [E2|]; [|reflexivity]. exfalso. unfold cross, vsub in C0; cbn in C0. rewrite E1, E2 in C0. lra. }
  rewrite NP, NQ. cbn [negb andb].
  assert (Fin : forall a b, 0 < cross a b -> get_orientation_v direct b a = oriented_right).
  { intros a b K. apply orientation_direct_v. unfold cross in *. lra. }
  set (p := vsub P o) in *. set (q := vsub Q o) in *. set (d := vsub V o) in *. clearbody p q d. destruct r as [[lo hi]|].
  - destruct H as (H0 & H1 & H2). destruct (is_vector_between direct lo hi p false) eqn:B1; destruct (is_vector_between direct lo hi q false) eqn:B2.
    + exists p, q. rewrite (Fin p q C0). split; [reflexivity|]. cbn. auto.
    + apply between_inv in B1; [|exact H0]. exists p, hi. rewrite (Fin p hi) by tauto. split; [reflexivity|]. cbn. tauto.
    + apply between_inv in B2; [|exact H0]. exists lo, q. rewrite (Fin lo q) by tauto. split; [reflexivity|]. cbn. tauto.
    + exists lo, hi. rewrite (Fin lo hi H0). split; [reflexivity|]. cbn. auto.
  - exists p, q. rewrite (Fin p q C0). split; [reflexivity|]. cbn. auto.
Qed.

Lemma range_passes : forall n1 n2 o V P Q lo hi, 0 < n1 -> 0 < n2 -> (exists X, inside_segment o V X /\ inside_segment P Q X) -> holds (vsub V o) (Some (lo, hi)) ->
  is_segment_in_range_2d n1 n2 P Q lo hi o = Some true.
Proof.
  intros n1 n2 o V P Q lo hi N1 N2 (X & (t & Ht & E1) & (u & Hu & E2)) (H0 & H1 & H2).
  assert (M : meets_range o lo hi P Q).
  { exists X. split; [exists u; split; [lra|exact E2]|]. apply (in_range_iff lo hi o H0). rewrite !(cross_pteq _ _ _ _ E1).
    assert (F1 : cross lo (vsub (lerp o V t) o) == t * cross lo (vsub V o)) by (unfold cross, vsub, lerp, vadd, vscale; simpl; ring).
    assert (F2 : cross hi (vsub (lerp o V t) o) == - (t * cross (vsub V o) hi)) by (unfold cross, vsub, lerp, vadd, vscale; simpl; ring).
    rewrite F1, F2. assert (0 < t * cross lo (vsub V o)) by (apply Qmult_lt_0_compat; lra). assert (0 < t * cross (vsub V o) hi) by (apply Qmult_lt_0_compat; lra). lra. }
  assert (D : ((behind o hi P /\ behind o lo Q) \/ (behind o lo P /\ behind o hi Q)) \/ ~ ((behind o hi P /\ behind o lo Q) \/ (behind o lo P /\ behind o hi Q))).
  { rewrite !(behind_hi lo hi o H0), !(behind_lo lo hi o H0).
    set (a := cross hi (vsub P o)). set (b := cross lo (vsub P o)). set (c := cross hi (vsub Q o)). set (e := cross lo (vsub Q o)).
    destruct (Qeq_dec a 0), (Qlt_le_dec b 0), (Qeq_dec e 0), (Qlt_le_dec 0 c), (Qeq_dec b 0), (Qlt_le_dec 0 a), (Qeq_dec c 0), (Qlt_le_dec e 0); lra. }
  destruct D as [D|D].
  - exfalso. exact (proj2 (behind_wrong lo hi o H0 P Q n1 n2 D) M).
  - destruct (segment_in_range_ok lo hi o H0 P Q n1 n2 N1 N2) as (r & R & Hr); [tauto|tauto|]. rewrite R. f_equal. apply Hr, M.
Qed.

(** ** Shared sides *)
Definition ccw (m : vmesh) (t : MeshModel.itriple) : Prop :=
  let '(a, b, c) := t in exists A B C, nth_error (vm_points m) a = Some A /\ nth_error (vm_points m) b = Some B /\ nth_error (vm_points m) c = Some C /\ 0 < tri2 A B C.
Lemma ok_ccw : forall m i t, ok_vmesh m -> nth_error (vm_tris m) i = Some t -> ccw m t.
Proof. intros m i [[a b] c] [_ H] E. exact (H i a b c E). Qed.
Lemma tri2_cases : forall A B C, tri2 B C A == tri2 A B C /\ tri2 C A B == tri2 A B C /\ tri2 B A C == - tri2 A B C /\ tri2 A C B == - tri2 A B C /\ tri2 C B A == - tri2 A B C /\ tri2 A A B == 0 /\ tri2 A B A == 0 /\ tri2 A B B == 0.
Proof. intros. unfold tri2, cross, vsub; cbn [px py]. repeat split; ring. Qed.
Ltac same_nth :=
  repeat match goal with H : nth_error ?l ?a = Some ?x, H' : nth_error ?l ?a = Some ?y |- _ => rewrite H in H'; injection H' as H'; subst end.
Ltac flat_triangles :=
  repeat match goal with H : 0 < tri2 ?A ?B ?C |- _ =>
    let K := fresh in pose proof (tri2_cases A B C) as K; destruct K as (?K & ?K & ?K & ?K & ?K & ?K & ?K & ?K); generalize H; clear H end; intros; lra.
Lemma shared_unique : forall m t1 t2 s1 s2, ccw m t1 -> ccw m t2 -> MeshProof4.shared t1 t2 s1 -> MeshProof4.shared t1 t2 s2 -> s1 = s2.
Proof.
  intros m [[a b] c] [[d e] f] s1 s2 (A & B & C & Ea & Eb & Ec & P1) (D & E & F & Ed & Ee & Ef & P2) (s1' & x & y & K1 & K2) (s2' & x' & y' & K3 & K4).
  destruct s1 as [|[|[|s1]]], s2 as [|[|[|s2]]]; try reflexivity; try discriminate; exfalso;
  destruct s1' as [|[|[|s1']]]; try discriminate; destruct s2' as [|[|[|s2']]]; try discriminate;
  cbn in K1, K2, K3, K4; injection K1 as <- <-; injection K3 as <- <-; injection K2; injection K4; intros; subst; same_nth; flat_triangles.
Qed.
(** A common vertex of two triangles with a common side lies on that side. *)
Lemma shared_vertex : forall m t1 t2 s s' a b v, ccw m t1 -> ccw m t2 -> MeshSpec.directed_edge t1 s = Some (a, b) -> MeshSpec.directed_edge t2 s' = Some (b, a) ->
  index_in v t1 = true -> index_in v t2 = true -> v = a \/ v = b.
Proof.
  intros m [[a1 b1] c1] [[d e] f] s s' a b v (A & B & C & Ea & Eb & Ec & P1) (D & E & F & Ed & Ee & Ef & P2) K1 K2 I1 I2.
  unfold index_in in I1, I2. rewrite !orb_true_iff, !Nat.eqb_eq in I1, I2. cbn in I1, I2.
  destruct (Nat.eq_dec v a) as [?|Na]; [left; assumption|]. destruct (Nat.eq_dec v b) as [?|Nb]; [right; assumption|]. exfalso.
  destruct s as [|[|[|s]]]; try discriminate; destruct s' as [|[|[|s']]]; try discriminate; cbn in K1, K2; injection K1 as <- <-; injection K2; intros; subst;
  destruct I1 as [[I1|I1]|I1]; try congruence; destruct I2 as [[I2|I2]|I2]; try congruence; subst; same_nth; flat_triangles.
Qed.

(** ** One step *)
Lemma prepare_ok : forall norm m o V i j s s' ti tj a b P Q item, ok_vmesh m -> (forall d, 0 < norm d) -> v_to item = i ->
  nth_error (vm_tris m) i = Some ti -> nth_error (vm_tris m) j = Some tj -> MeshSpec.directed_edge ti s = Some (a, b) -> MeshSpec.directed_edge tj s' = Some (b, a) ->
  nth_error (vm_points m) a = Some P -> nth_error (vm_points m) b = Some Q -> 0 < tri2 P Q o -> (exists X, inside_segment o V X /\ inside_segment P Q X) ->
  holds (vsub V o) (v_range item) ->
  exists lo hi, prepare_adjacent_traversal direct norm m o j item = Some (Some (mkvitem (Some i) j (Some (lo, hi)))) /\ holds (vsub V o) (Some (lo, hi)).
Proof.
  intros norm m o V i j s s' ti tj a b P Q item OK N Hi Ei Ej D1 D2 EP EQ L X H. unfold prepare_adjacent_traversal. rewrite Hi, Ei, Ej.
  assert (Sh : MeshProof4.shared ti tj s) by (exists s', a, b; auto).
  pose proof (MeshProof4.adjacent_side_ok ti tj) as AS. destruct (MeshModel.get_triangle_adjacent_side ti tj) as [s2|]; [|exfalso; exact (AS s Sh)].
  destruct AS as (_ & Sh2 & _). rewrite <- (shared_unique m ti tj s s2 (ok_ccw _ _ _ OK Ei) (ok_ccw _ _ _ OK Ej) Sh Sh2) in *.
  apply MeshProof4.directed_edge_side in D1. destruct D1 as [_ D1]. assert (Da : a = MeshModel.side ti s) by congruence. assert (Db : b = MeshModel.side ti ((s + 1) mod 3)) by congruence. unfold triangle_vertex. rewrite <- Da, <- Db, EP, EQ.
  assert (C : cross (vsub Q P) (vsub o P) == tri2 P Q o) by (unfold tri2, cross, vsub; cbn [px py]; ring).
  destruct (Qltb_spec (cross (vsub Q P) (vsub o P)) 0) as [K|K]; [lra|].
  destruct (next_range_ok o V P Q (v_range item) L X H) as (lo & hi & E & H'). exists lo, hi. split; [|exact H'].
  destruct (v_range item) as [[l h]|].
  - rewrite (range_passes (norm l) (norm h) o V P Q l h (N l) (N h) X H). rewrite E. reflexivity.
  - rewrite E. reflexivity.
Qed.

(** How the item came to its triangle. *)
Definition entered (m : vmesh) (o V : pt) (item : vitem) : Prop :=
  match v_from item, v_range item with
  | None, None => True
  | Some f, Some _ => exists tf ti s s' a b P Q, nth_error (vm_tris m) f = Some tf /\ nth_error (vm_tris m) (v_to item) = Some ti /\
      MeshSpec.directed_edge tf s = Some (a, b) /\ MeshSpec.directed_edge ti s' = Some (b, a) /\
      nth_error (vm_points m) a = Some P /\ nth_error (vm_points m) b = Some Q /\ 0 < tri2 P Q o /\ (exists X, inside_segment o V X /\ inside_segment P Q X)
  | _, _ => False
  end.

Lemma push_keeps : forall cmp norm m o item s st st', push_side cmp norm m o item s st = Some st' -> exists pre, st' = pre ++ st.
Proof.
  intros cmp norm m o item s st st' H. unfold push_side in H. destruct (MeshModel.create_adjacency_matrix (vm_tris m) (v_to item) s) as [j|]; [|injection H as <-; exists []; reflexivity].
  destruct (match v_from item with Some f => Nat.eqb j f | None => false end); [injection H as <-; exists []; reflexivity|].
  destruct (prepare_adjacent_traversal cmp norm m o j item) as [[n|]|]; [injection H as <-; exists [n]; reflexivity|injection H as <-; exists []; reflexivity|discriminate].
Qed.
Lemma step_keeps : forall cmp norm m o item rest vs st, search_step cmp norm m o item rest = Some (vs, st) -> exists pre, st = pre ++ rest.
Proof.
  intros cmp norm m o item rest vs st H. unfold search_step in H. destruct (visit cmp m o item) as [vs'|]; [|discriminate].
  destruct (push_side cmp norm m o item 0 rest) as [s0|] eqn:E0; [|discriminate]. destruct (push_side cmp norm m o item 1 s0) as [s1|] eqn:E1; [|discriminate].
  destruct (push_side cmp norm m o item 2 s1) as [s2|] eqn:E2; [|discriminate]. injection H as _ <-.
  apply push_keeps in E0. apply push_keeps in E1. apply push_keeps in E2. destruct E0 as [p0 ->], E1 as [p1 ->], E2 as [p2 ->]. exists (p2 ++ p1 ++ p0). rewrite !app_assoc. reflexivity.
Qed.
Lemma loop_grows : forall fuel cmp norm m o st acc vs, search_loop fuel cmp norm m o st acc = Found vs -> exists more, vs = acc ++ more.
Proof.
  induction fuel as [|fuel IH]; intros cmp norm m o st acc vs H; destruct st as [|item rest]; cbn [search_loop] in H.
  1,3: injection H as <-; exists []; rewrite app_nil_r; reflexivity.
  - discriminate.
  - destruct (search_step cmp norm m o item rest) as [[v' st']|]; [|discriminate]. apply IH in H. destruct H as [more ->]. exists (v' ++ more). rewrite app_assoc. reflexivity.
Qed.
(** Every item on the stack is visited in the end. *)
Lemma item_visited : forall fuel cmp norm m o st acc vs item, search_loop fuel cmp norm m o st acc = Found vs -> In item st ->
  exists fuel' rest acc' vs' st', search_step cmp norm m o item rest = Some (vs', st') /\ search_loop fuel' cmp norm m o st' (acc' ++ vs') = Found vs.
Proof.
  induction fuel as [|fuel IH]; intros cmp norm m o st acc vs item H I; destruct st as [|it rest]; [destruct I|discriminate|destruct I|].
  cbn [search_loop] in H. destruct (search_step cmp norm m o it rest) as [[v' st']|] eqn:E; [|discriminate]. destruct I as [->|I].
  - exists fuel, rest, acc, v', st'. auto.
  - destruct (step_keeps _ _ _ _ _ _ _ _ E) as [pre ->]. apply (IH cmp norm m o _ _ _ item H). apply in_or_app. right. exact I.
Qed.

Lemma step_visits : forall norm m o V v item rest vs st t s, ok_vmesh m -> nth_error (vm_points m) v = Some V -> nth_error (vm_tris m) (v_to item) = Some t -> (s < 3)%nat -> MeshModel.side t s = v ->
  entered m o V item -> holds (vsub V o) (v_range item) -> search_step direct norm m o item rest = Some (vs, st) -> In v vs.
Proof.
  intros norm m o V v item rest vs st t s OK EV Et Hs Es En Ho H. unfold search_step in H. destruct (visit direct m o item) as [vs'|] eqn:W; [|discriminate].
  destruct (push_side direct norm m o item 0 rest) as [s0|]; [|discriminate]. destruct (push_side direct norm m o item 1 s0) as [s1|]; [|discriminate].
  destruct (push_side direct norm m o item 2 s1) as [s2|]; [|discriminate]. injection H as <- _.
  unfold visit in W. rewrite Et in W. unfold entered in En. destruct (v_range item) as [[lo hi]|]; destruct (v_from item) as [f|]; try contradiction.
  - destruct En as (tf & ti & sf & si & a & b & P & Q & Ef & Ei & D1 & D2 & EP & EQ & L & X). rewrite Ef in W. rewrite Et in Ei. injection Ei as <-.
    assert (NI : index_in v tf = false).
    { destruct (index_in v tf) eqn:I; [exfalso|reflexivity].
      assert (I2 : index_in v t = true). { unfold index_in. rewrite !orb_true_iff, !Nat.eqb_eq. destruct s as [|[|[|s]]]; [left; left|left; right|right|lia]; exact Es. }
      destruct (crossing_directions o V P Q L X) as (C0 & C1 & C2).
      destruct (shared_vertex m tf t sf si a b v (ok_ccw _ _ _ OK Ef) (ok_ccw _ _ _ OK Et) D1 D2 I I2) as [->| ->]; same_nth; [revert C1|revert C2]; unfold cross; lra. }
    assert (VC : visit_corner direct m o lo hi tf t s = Some [v]).
    { unfold visit_corner. rewrite Es, NI. unfold triangle_vertex. rewrite Es, EV. destruct Ho as (H0 & H1 & H2). rewrite (between_strict lo hi _ H0 H1 H2). reflexivity. }
    destruct s as [|[|[|s]]]; [| | |lia]; rewrite VC in W.
    + destruct (visit_corner direct m o lo hi tf t 1), (visit_corner direct m o lo hi tf t 2); try discriminate. injection W as <-. left. reflexivity.
    + destruct (visit_corner direct m o lo hi tf t 0) as [l0|], (visit_corner direct m o lo hi tf t 2) as [l2|]; try discriminate. injection W as <-. apply in_or_app. right. left. reflexivity.
    + destruct (visit_corner direct m o lo hi tf t 0) as [l0|], (visit_corner direct m o lo hi tf t 1) as [l1|]; try discriminate. injection W as <-. apply in_or_app. right. apply in_or_app. right. left. reflexivity.
  - injection W as <-. destruct s as [|[|[|s]]]; [left|right; left|right; right; left|lia]; exact Es.
Qed.

Lemma step_follows : forall norm m o V i s j s' ti a b P Q item rest vs st, ok_vmesh m -> (forall d, 0 < norm d) -> v_to item = i ->
  MeshSpec.shares_edge (vm_tris m) i s j s' -> nth_error (vm_tris m) i = Some ti -> MeshSpec.directed_edge ti s = Some (a, b) ->
  nth_error (vm_points m) a = Some P -> nth_error (vm_points m) b = Some Q -> 0 < tri2 P Q o -> (exists X, inside_segment o V X /\ inside_segment P Q X) ->
  entered m o V item -> holds (vsub V o) (v_range item) -> search_step direct norm m o item rest = Some (vs, st) ->
  exists n, In n st /\ v_to n = j /\ entered m o V n /\ holds (vsub V o) (v_range n).
Proof.
  intros norm m o V i s j s' ti a b P Q item rest vs st OK N Hi SE Ei D1 EP EQ L X En Ho H.
  pose proof (MeshProof4.adjacency_manifold _ _ _ _ _ (proj1 OK) SE) as Adj. destruct SE as (ti2 & tj & a2 & b2 & Ei2 & Ej & D1' & D2).
  change (nth_error (vm_tris m) i = Some ti2) in Ei2. change (nth_error (vm_tris m) j = Some tj) in Ej.
  rewrite Ei in Ei2. injection Ei2 as <-. rewrite D1 in D1'. injection D1' as <- <-.
  destruct (prepare_ok norm m o V i j s s' ti tj a b P Q item OK N Hi Ei Ej D1 D2 EP EQ L X Ho) as (lo & hi & PA & Hn).
  assert (NF : match v_from item with Some f => Nat.eqb j f | None => false end = false).
  { unfold entered in En. destruct (v_from item) as [f|]; [|reflexivity]. destruct (Nat.eqb_spec j f) as [<-|]; [exfalso|reflexivity].
    destruct (v_range item); [|contradiction]. destruct En as (tf & ti2 & s1 & s1' & a1 & b1 & P1 & Q1 & Ef & Ei2 & G1 & G2 & EP1 & EQ1 & L1 & X1).
    rewrite Hi, Ei in Ei2. injection Ei2 as <-. rewrite Ej in Ef. injection Ef as <-.
    assert (E : s = s1'). { apply (shared_unique m ti tj); [exact (ok_ccw _ _ _ OK Ei)|exact (ok_ccw _ _ _ OK Ej)|exists s', a, b; auto|exists s1, b1, a1; auto]. }
    subst s1'. rewrite D1 in G2. injection G2 as -> ->. same_nth. flat_triangles. }
  assert (Push : forall stk stk', push_side direct norm m o item s stk = Some stk' -> stk' = mkvitem (Some i) j (Some (lo, hi)) :: stk).
  { intros stk stk' K. unfold push_side in K. rewrite Hi, Adj, NF, PA in K. injection K as <-. reflexivity. }
  exists (mkvitem (Some i) j (Some (lo, hi))). split; [|split; [reflexivity|split; [|exact Hn]]].
  - unfold search_step in H. destruct (visit direct m o item) as [vs'|]; [|discriminate].
    destruct (push_side direct norm m o item 0 rest) as [s0|] eqn:E0; [|discriminate]. destruct (push_side direct norm m o item 1 s0) as [s1|] eqn:E1; [|discriminate].
    destruct (push_side direct norm m o item 2 s1) as [s2|] eqn:E2; [|discriminate]. injection H as _ <-.
    assert (S3 : (s < 3)%nat) by (apply MeshProof4.directed_edge_side in D1; tauto).
    destruct s as [|[|[|s]]]; [| | |lia].
    + apply Push in E0. apply push_keeps in E1. apply push_keeps in E2. destruct E1 as [p1 ->], E2 as [p2 ->]. apply in_or_app; right. apply in_or_app; right. rewrite E0. left. reflexivity.
    + apply Push in E1. apply push_keeps in E2. destruct E2 as [p2 ->]. apply in_or_app; right. rewrite E1. left. reflexivity.
    + apply Push in E2. rewrite E2. left. reflexivity.
  - cbn. exists ti, tj, s, s', a, b, P, Q. repeat (split; [assumption|]). exact X.
Qed.

Lemma sight_found : forall norm m o V v i k, ok_vmesh m -> (forall d, 0 < norm d) -> nth_error (vm_points m) v = Some V -> line_of_sight m o V i k ->
  (exists t, nth_error (vm_tris m) k = Some t /\ exists s, (s < 3)%nat /\ MeshModel.side t s = v) ->
  forall fuel st acc vs item, In item st -> v_to item = i -> entered m o V item -> holds (vsub V o) (v_range item) -> search_loop fuel direct norm m o st acc = Found vs -> In v vs.
Proof.
  intros norm m o V v i k OK N EV LS (t & Et & s & Hs & Es). induction LS as [i|i si j sj k ti a b P Q SE Ei D1 EP EQ L X LS IH]; intros fuel st acc vs item I Hi En Ho H;
  destruct (item_visited _ _ _ _ _ _ _ _ item H I) as (fuel' & rest & acc' & vs' & st' & S1 & S2).
  - pose proof (step_visits norm m o V v item rest vs' st' t s OK EV ltac:(rewrite Hi; exact Et) Hs Es En Ho S1) as In'.
    apply loop_grows in S2. destruct S2 as [more ->]. apply in_or_app; left. apply in_or_app; right. exact In'.
  - destruct (step_follows norm m o V i si j sj ti a b P Q item rest vs' st' OK N Hi SE Ei D1 EP EQ L X En Ho S1) as (n & In' & Tn & En' & Ho').
    exact (IH Et fuel' st' (acc' ++ vs') vs n In' Tn En' Ho' S2).
Qed.

Lemma visible_found : forall fuel norm m o start vs v, ok_vmesh m -> (forall d, 0 < norm d) -> visible_vertices fuel direct norm m o start = Found vs -> visible_from m o start v -> In v vs.
Proof.
  intros fuel norm m o start vs v OK N H (V & k & t & EV & LS & Et & s & Hs & Es). unfold visible_vertices in H.
  apply (sight_found norm m o V v start k OK N EV LS (ex_intro _ t (conj Et (ex_intro _ s (conj Hs Es)))) fuel [get_start start] [] vs (get_start start)); [left; reflexivity|reflexivity|exact I|exact I|exact H].
Qed.

(** ** The scale by which the directions are divided does not matter *)
Lemma norm_irrelevant : forall n1 n2 n3 n4 o P Q lo hi, 0 < n1 -> 0 < n2 -> 0 < n3 -> 0 < n4 -> 0 < cross lo hi ->
  is_segment_in_range_2d n1 n2 P Q lo hi o = is_segment_in_range_2d n3 n4 P Q lo hi o.
Proof.
  intros n1 n2 n3 n4 o P Q lo hi N1 N2 N3 N4 H0.
  assert (D : ((behind o hi P /\ behind o lo Q) \/ (behind o lo P /\ behind o hi Q)) \/ ~ ((behind o hi P /\ behind o lo Q) \/ (behind o lo P /\ behind o hi Q))).
  { rewrite !(behind_hi lo hi o H0), !(behind_lo lo hi o H0).
    set (a := cross hi (vsub P o)). set (b := cross lo (vsub P o)). set (c := cross hi (vsub Q o)). set (e := cross lo (vsub Q o)).
    destruct (Qeq_dec a 0), (Qlt_le_dec b 0), (Qeq_dec e 0), (Qlt_le_dec 0 c), (Qeq_dec b 0), (Qlt_le_dec 0 a), (Qeq_dec c 0), (Qlt_le_dec e 0); lra. }
  destruct D as [D|D].
  - rewrite (proj1 (behind_wrong lo hi o H0 P Q n1 n2 D)), (proj1 (behind_wrong lo hi o H0 P Q n3 n4 D)). reflexivity.
  - destruct (segment_in_range_ok lo hi o H0 P Q n1 n2 N1 N2) as (r & R & Hr); [tauto|tauto|]. destruct (segment_in_range_ok lo hi o H0 P Q n3 n4 N3 N4) as (r' & R' & Hr'); [tauto|tauto|].
    rewrite R, R'. f_equal. apply bool_iff. rewrite Hr, Hr'. reflexivity.
Qed.
Lemma step_norm : forall norm norm' m o item rest, (forall d, 0 < norm d) -> (forall d, 0 < norm' d) -> match v_range item with None => True | Some (lo, hi) => 0 < cross lo hi end ->
  search_step direct norm m o item rest = search_step direct norm' m o item rest.
Proof.
  intros norm norm' m o item rest N N' H.
  assert (E : forall n, prepare_adjacent_traversal direct norm m o n item = prepare_adjacent_traversal direct norm' m o n item).
  { intro n. unfold prepare_adjacent_traversal. destruct (nth_error (vm_tris m) (v_to item)); [|reflexivity]. destruct (nth_error (vm_tris m) n); [|reflexivity].
    destruct (MeshModel.get_triangle_adjacent_side i i0); [|reflexivity]. destruct (triangle_vertex m i n0); [|reflexivity]. destruct (triangle_vertex m i ((n0 + 1) mod 3)); [|reflexivity].
    destruct (Qltb (cross (vsub p0 p) (vsub o p)) 0); destruct (v_range item) as [[lo hi]|]; try reflexivity; rewrite (norm_irrelevant (norm lo) (norm hi) (norm' lo) (norm' hi)); auto. }
  assert (F : forall s st, push_side direct norm m o item s st = push_side direct norm' m o item s st).
  { intros s st. unfold push_side. destruct (MeshModel.create_adjacency_matrix (vm_tris m) (v_to item) s); [|reflexivity]. rewrite E. reflexivity. }
  unfold search_step. destruct (visit direct m o item); [|reflexivity]. rewrite F. destruct (push_side direct norm' m o item 0 rest); [|reflexivity]. rewrite F. destruct (push_side direct norm' m o item 1 l0); [|reflexivity]. rewrite F. reflexivity.
Qed.

(** ** A mesh with an interior vertex *)
Definition fan : vmesh := mkvmesh [mkpt 0 0; mkpt 10 0; mkpt (-5) 9; mkpt (-5) (-9)] [(0, 1, 2)%nat; (0, 2, 3)%nat; (0, 3, 1)%nat].
Definition fan_item (f t : nat) : vitem := mkvitem (Some f) t (Some (mkpt (-8) 7, mkpt (-3) (-2))).
Lemma fan_step : forall norm f t u rest, (forall d, 0 < norm d) -> (f, t, u) = (0, 1, 2)%nat \/ (f, t, u) = (1, 2, 0)%nat \/ (f, t, u) = (2, 0, 1)%nat ->
  exists vs, search_step direct norm fan (mkpt 3 2) (fan_item f t) rest = Some (vs, fan_item t u :: rest).
Proof.
  intros norm f t u rest N H. rewrite (step_norm norm (fun _ => 1)); [|exact N|reflexivity|reflexivity].
  destruct H as [H|[H|H]]; injection H as -> -> ->; eexists; vm_compute; reflexivity.
Qed.
Lemma fan_loop : forall norm, (forall d, 0 < norm d) -> forall fuel f t u rest acc, (f, t, u) = (0, 1, 2)%nat \/ (f, t, u) = (1, 2, 0)%nat \/ (f, t, u) = (2, 0, 1)%nat ->
  search_loop fuel direct norm fan (mkpt 3 2) (fan_item f t :: rest) acc = OutOfFuel.
Proof.
  intros norm N. induction fuel as [|fuel IH]; intros f t u rest acc H; [reflexivity|]. cbn [search_loop].
  destruct (fan_step norm f t u rest N H) as [vs ->]. destruct H as [H|[H|H]]; injection H as -> -> ->; eapply IH; eauto.
Qed.
Lemma fan_diverges : forall norm, (forall d, 0 < norm d) -> forall fuel, visible_vertices fuel direct norm fan (mkpt 3 2) 0 = OutOfFuel.
Proof.
  intros norm N [|fuel]; [reflexivity|]. unfold visible_vertices. cbn [search_loop]. rewrite (step_norm norm (fun _ => 1)); [|exact N|reflexivity|exact I].
  match goal with |- match ?x with _ => _ end = _ => let y := eval vm_compute in x in replace x with y by (vm_compute; reflexivity) end.
  apply (fan_loop norm N fuel 0 1 2). left. reflexivity.
Qed.
