(** The search of a mesh without overlaps and cycles ends and reports no hidden vertex. *)
From Verif Require Import Base CmpModel OrientModel OrientSpec OrientProof DistModel DistSpec PolygonSpec LinIntSpec RangeModel RangeSpec RangeProof VisModel VisSpec VisProof VisProof2.
From Verif Require MeshModel MeshSpec MeshProof4.
From Coq Require Import Lia.

Lemma los_trans : forall m o V i j k, line_of_sight m o V i j -> line_of_sight m o V j k -> line_of_sight m o V i k.
Proof. intros m o V i j k H. induction H; intro K; [exact K|]. eapply los_step; eauto. Qed.

(** ** Triangles by one of their sides *)
Lemma edge_rot : forall m t s a b, ccw m t -> MeshSpec.directed_edge t s = Some (a, b) ->
  exists c A B C, nth_error (vm_points m) a = Some A /\ nth_error (vm_points m) b = Some B /\ nth_error (vm_points m) c = Some C /\ 0 < tri2 A B C /\
    (forall v, index_in v t = true <-> v = a \/ v = b \/ v = c) /\
    (forall s2 e, MeshSpec.directed_edge t s2 = Some e -> (s2 = s /\ e = (a, b)) \/ e = (b, c) \/ e = (c, a)) /\
    (forall i X, nth_error (vm_tris m) i = Some t -> 0 <= tri2 A B X -> 0 <= tri2 B C X -> 0 <= tri2 C A X -> in_closed m i X) /\
    (forall i X, nth_error (vm_tris m) i = Some t -> 0 < tri2 A B X -> 0 < tri2 B C X -> 0 < tri2 C A X -> strictly_in m i X).
Proof.
  intros m [[x y] z] s a b (X & Y & Z & Ex & Ey & Ez & P) D. pose proof (tri2_cases X Y Z) as (R1 & R2 & _).
  destruct s as [|[|[|s]]]; try discriminate; cbn in D; injection D as <- <-.
  - exists z, X, Y, Z. repeat (split; [assumption|]). split; [|split; [|split]].
    + intro v. unfold index_in. rewrite !orb_true_iff, !Nat.eqb_eq. cbn. intuition congruence.
    + intros [|[|[|s2]]] e E; cbn in E; try discriminate; injection E as <-; auto.
    + intros i W Ei H1 H2 H3. exists x, y, z, X, Y, Z. auto 10.
    + intros i W Ei H1 H2 H3. exists x, y, z, X, Y, Z. auto 10.
  - exists x, Y, Z, X. repeat (split; [assumption|]). split; [lra|]. split; [|split; [|split]].
    + intro v. unfold index_in. rewrite !orb_true_iff, !Nat.eqb_eq. cbn. intuition congruence.
    + intros [|[|[|s2]]] e E; cbn in E; try discriminate; injection E as <-; auto.
    + intros i W Ei H1 H2 H3. exists x, y, z, X, Y, Z. auto 10.
    + intros i W Ei H1 H2 H3. exists x, y, z, X, Y, Z. auto 10.
  - exists y, Z, X, Y. repeat (split; [assumption|]). split; [lra|]. split; [|split; [|split]].
    + intro v. unfold index_in. rewrite !orb_true_iff, !Nat.eqb_eq. cbn. intuition congruence.
    + intros [|[|[|s2]]] e E; cbn in E; try discriminate; injection E as <-; auto.
    + intros i W Ei H1 H2 H3. exists x, y, z, X, Y, Z. auto 10.
    + intros i W Ei H1 H2 H3. exists x, y, z, X, Y, Z. auto 10.
Qed.

(** Affine functions. *)
Lemma tri_lerp : forall A B X Y t, tri2 A B (lerp X Y t) == (1 - t) * tri2 A B X + t * tri2 A B Y.
Proof. intros. unfold tri2, cross, lerp, vadd, vscale, vsub; cbn [px py]. ring. Qed.
Lemma tri_lerp' : forall A B X Y t, tri2 A (lerp X Y t) B == (1 - t) * tri2 A X B + t * tri2 A Y B.
Proof. intros. unfold tri2, cross, lerp, vadd, vscale, vsub; cbn [px py]. ring. Qed.
Lemma small_eps : forall x y, 0 < x -> exists e, 0 < e /\ e < 1 /\ forall e', 0 < e' -> e' <= e -> 0 < (1 - e') * x + e' * y.
Proof.
  intros x y H. destruct (Qlt_le_dec y 0) as [N|N].
  - exists (x / (x - y) * (1 # 2)). assert (D : 0 < x - y) by lra. assert (I : 0 < / (x - y)) by (apply Qinv_lt_0_compat; exact D).
    assert (E : x / (x - y) * (x - y) == x) by (field; lra). set (q := x / (x - y)) in *.
    assert (Q0 : 0 < q) by (unfold q, Qdiv; apply Qmult_lt_0_compat; assumption).
    assert (Q1 : q < 1). { destruct (Qlt_le_dec q 1) as [K|K]; [exact K|]. assert (0 <= (q - 1) * (x - y)) by (apply Qmult_le_0_compat; lra). lra. }
    split; [lra|]. split; [lra|]. intros e' P1 P2. assert (0 < (q - e') * (x - y)) by (apply Qmult_lt_0_compat; lra). lra.
  - exists (1 # 2). split; [lra|]. split; [lra|]. intros e' P1 P2. assert (0 < (1 - e') * x) by (apply Qmult_lt_0_compat; lra). assert (0 <= e' * y) by (apply Qmult_le_0_compat; lra). lra.
Qed.

Section Search.
Variables (m : vmesh) (o : pt) (start : nat) (norm : pt -> Q).
Hypothesis OK : ok_vmesh m.
Hypothesis NO : no_overlap m.
Hypothesis GP : general_position m o.
Hypothesis NC : no_cycle m.
Hypothesis INS : strictly_in m start o.
Hypothesis NP : forall d, 0 < norm d.
Notation br X Y := (tri2 o X Y) (only parsing).
Notation pnt := (nth_error (vm_points m)).
Notation trg := (nth_error (vm_tris m)).

Lemma same_dir : forall a b A B, pnt a = Some A -> pnt b = Some B -> (br A B) == 0 -> a = b.
Proof. intros a b A B Ea Eb Z. destruct (Nat.eq_dec a b) as [E|N]; [exact E|]. destruct (GP a b A B N Ea Eb Z). Qed.
Lemma same_pnt : forall a A B, pnt a = Some A -> pnt a = Some B -> A = B.
Proof. intros. congruence. Qed.

(** The open cone. *)
Definition oc (L H Y : pt) : Prop := 0 < (br L Y) /\ 0 < (br Y H).
Definition cov (L H p : pt) (seen : list nat) : Prop :=
  forall Y, oc L H Y -> exists e j, 0 < e /\ e <= 1 /\ In j seen /\ in_closed m j (lerp p Y e).
Definition cover (L H A B : pt) (seen : list nat) : Prop :=
  forall Y, 0 <= (br L Y) -> 0 <= (br Y H) -> 0 <= tri2 A B Y -> exists j, In j seen /\ in_closed m j Y.
Definition sight (L H A B : pt) (i : nat) : Prop :=
  forall V, oc L H V -> tri2 A B V < 0 -> line_of_sight m o V start i.
Definition proper (L H A B : pt) (i : nat) (seen : list nat) : Prop :=
  0 < (br A B) /\ 0 <= (br A L) /\ 0 <= (br L B) /\ 0 <= (br A H) /\ 0 <= (br H B) /\ 0 <= tri2 A B L /\ 0 <= tri2 A B H /\ cover L H A B seen /\ sight L H A B i.
Definition touch (l h a b : nat) (L H : pt) (seen : list nat) : Prop :=
  exists p P, (p = l \/ p = h) /\ (p = a \/ p = b) /\ pnt p = Some P /\ cov L H P seen.

(** The item [it] came to the triangle at the head of [path] through the side from [a] to [b] of the triangle before. *)
Definition inv (it : vitem) (path : list nat) : Prop :=
  walk m path /\ Forall (fun i => (i < length (vm_tris m))%nat) path /\
  ((path = [start] /\ it = get_start start) \/
   exists i f tl tf ti sf si a b A B l h L H, path = i :: f :: tl /\ In start (f :: tl) /\
     it = mkvitem (Some f) i (Some (vsub L o, vsub H o)) /\ pnt l = Some L /\ pnt h = Some H /\ 0 < (br L H) /\
     trg f = Some tf /\ trg i = Some ti /\ MeshSpec.directed_edge tf sf = Some (a, b) /\ MeshSpec.directed_edge ti si = Some (b, a) /\
     pnt a = Some A /\ pnt b = Some B /\ (proper L H A B i (f :: tl) \/ touch l h a b L H (f :: tl))).

Lemma o_not_vertex : forall a b A B, pnt a = Some A -> pnt b = Some B -> ~ (br A B) == 0 -> same_point direct o A = false /\ same_point direct o B = false.
Proof.
  intros a b A B Ea Eb N. unfold same_point. cbn [equals direct]. split.
  - destruct (Qeqb_spec (px o) (px A)) as [E1|]; [|reflexivity]. destruct (Qeqb_spec (py o) (py A)) as [E2|]; [|reflexivity]. exfalso. apply N. unfold tri2, cross, vsub; cbn [px py]. rewrite E1, E2. ring.
  - destruct (Qeqb_spec (px o) (px B)) as [E1|]; [|reflexivity]. destruct (Qeqb_spec (py o) (py B)) as [E2|]; [|reflexivity]. exfalso. apply N. unfold tri2, cross, vsub; cbn [px py]. rewrite E1, E2. ring.
Qed.

Lemma not_behind : forall l L x X, pnt l = Some L -> pnt x = Some X -> ~ L =p= o -> ~ behind o (vsub L o) X.
Proof.
  intros l L x X El Ex NL (k & Hk & Ex1 & Ex2). unfold vsub, vscale in Ex1, Ex2; cbn [px py] in Ex1, Ex2.
  assert (Z : (br L X) == 0) by (unfold tri2, cross, vsub; cbn [px py]; rewrite Ex1, Ex2; ring).
  assert (E : l = x) by (apply (same_dir l x L X El Ex Z)). subst x. rewrite El in Ex. injection Ex as <-. apply NL.
  assert (K : ~ 1 + k == 0) by lra. split.
  - assert (F : (1 + k) * (px L - px o) == 0) by (transitivity (px L - px o + k * (px L - px o)); [ring|]; rewrite Ex1 at 1; ring). apply Qmult_integral in F. lra.
  - assert (F : (1 + k) * (py L - py o) == 0) by (transitivity (py L - py o + k * (py L - py o)); [ring|]; rewrite Ex2 at 1; ring). apply Qmult_integral in F. lra.
Qed.

Lemma range_dec : forall l h L H x y X Y, pnt l = Some L -> pnt h = Some H -> 0 < (br L H) -> pnt x = Some X -> pnt y = Some Y ->
  exists r, is_segment_in_range_2d (norm (vsub L o)) (norm (vsub H o)) X Y (vsub L o) (vsub H o) o = Some r /\ (r = true <-> meets_range o (vsub L o) (vsub H o) X Y).
Proof.
  intros l h L H x y X Y El Eh LH Ex Ey.
  assert (NL : ~ L =p= o) by (intros [E1 E2]; revert LH; unfold tri2, cross, vsub; cbn [px py]; rewrite E1, E2; lra).
  assert (NH : ~ H =p= o) by (intros [E1 E2]; revert LH; unfold tri2, cross, vsub; cbn [px py]; rewrite E1, E2; lra).
  apply (segment_in_range_ok (vsub L o) (vsub H o) o LH X Y); [apply NP|apply NP| |]; intros [K1 K2].
  - exact (not_behind h H x X Eh Ex NH K1).
  - exact (not_behind l L x X El Ex NL K1).
Qed.
Lemma in_cone : forall L H X, 0 < (br L H) -> (in_range o (vsub L o) (vsub H o) X <-> 0 <= (br L X) /\ 0 <= (br X H)).
Proof.
  intros L H X LH. rewrite (in_range_iff (vsub L o) (vsub H o) o LH X). change (cross (vsub L o) (vsub X o)) with (br L X). change (cross (vsub H o) (vsub X o)) with (br H X).
  rewrite (br_anti o X H). split; intros [? ?]; split; lra.
Qed.
Lemma meets_sym : forall lo hi X Y, meets_range o lo hi X Y -> meets_range o lo hi Y X.
Proof.
  intros lo hi X Y (Z & (t & Ht & E1 & E2) & R). exists Z. split; [|exact R]. exists (1 - t). split; [lra|].
  split; [rewrite E1|rewrite E2]; unfold lerp, vadd, vscale, vsub; cbn [px py]; ring.
Qed.
Lemma meets_cross : forall L H P Q, 0 < (br L H) -> 0 <= (br P L) -> 0 <= (br L Q) -> 0 < (br P L) + (br L Q) -> 0 < (br P Q) -> meets_range o (vsub L o) (vsub H o) P Q.
Proof.
  intros L H P Q LH PL LQ N PQ. set (n := (br P L) + (br L Q)) in *. assert (N0 : ~ n == 0) by lra.
  assert (HI : 0 < / n) by (apply Qinv_lt_0_compat; exact N). assert (EI : n * / n == 1) by (field; exact N0).
  set (t := (br P L) * / n). exists (lerp P Q t).
  assert (T0 : 0 <= t) by (apply Qmult_le_0_compat; lra). assert (T1 : 1 - t == (br L Q) * / n) by (unfold t; transitivity (n * / n - (br P L) * / n); [rewrite EI; reflexivity|unfold n at 1; ring]).
  assert (T2 : 0 <= 1 - t) by (rewrite T1; apply Qmult_le_0_compat; lra).
  split; [exists t; split; [lra|split; reflexivity]|]. apply in_cone; [exact LH|]. rewrite tri_lerp, tri_lerp'. rewrite T1. unfold t.
  pose proof (plucker o L H P Q) as PK. rewrite (br_anti o P L), (br_anti o Q H), (br_anti o P H) in PK. rewrite (br_anti o P L). split.
  - assert (E : (br L Q) * / n * - (br P L) + (br P L) * / n * (br L Q) == 0) by ring. lra.
  - assert (E : (br L Q) * / n * (br P H) + (br P L) * / n * (br Q H) == / n * ((br L H) * (br P Q))) by (rewrite PK; ring).
    rewrite E. apply Qmult_le_0_compat; [lra|]. apply Qmult_le_0_compat; lra.
Qed.

Lemma between_iff : forall L H X, 0 < (br L H) -> is_vector_between direct (vsub L o) (vsub H o) (vsub X o) false = true <-> oc L H X.
Proof.
  intros L H X LH. split; intro K.
  - apply (between_inv (vsub L o) (vsub H o) (vsub X o) LH K).
  - destruct K as [K1 K2]. apply (between_strict (vsub L o) (vsub H o) (vsub X o) LH K1 K2).
Qed.
Lemma between_incl : forall L H X, 0 < (br L H) -> ~ (br L X) == 0 -> ~ (br X H) == 0 -> is_vector_between direct (vsub L o) (vsub H o) (vsub X o) true = true -> oc L H X.
Proof.
  intros L H X LH N1 N2 K. unfold is_vector_between in K. cbn [equals greater_than_or_equal greater_than direct] in K.
  change (cross (vsub X o) (vsub H o)) with (br X H) in K. change (cross (vsub L o) (vsub X o)) with (br L X) in K. change (cross (vsub L o) (vsub H o)) with (br L H) in K.
  destruct (Qeqb_spec (br X H) 0); [contradiction|]. destruct (Qeqb_spec (br L X) 0); [contradiction|]. destruct (Qeqb_spec (br L H) 0); [lra|]. cbn [andb] in K.
  destruct (Qgeb_spec ((br L X) * (br L H)) 0) as [G|G].
  - destruct (Qgtb_spec (br X H) 0) as [P|P]; [|discriminate]. split; [|exact P].
    destruct (Qlt_le_dec 0 (br L X)) as [C|C]; [exact C|]. assert (0 < - (br L X) * (br L H)) by (apply Qmult_lt_0_compat; lra). lra.
  - destruct (Qgtb_spec (br L X) 0) as [P|P]; [|discriminate]. assert (0 < (br L X) * (br L H)) by (apply Qmult_lt_0_compat; lra). lra.
Qed.

(** ** What a step pushes *)
Definition new_range (L H P Q : pt) : pt * pt :=
  (if is_vector_between direct (vsub L o) (vsub H o) (vsub P o) false then vsub P o else vsub L o,
   if is_vector_between direct (vsub L o) (vsub H o) (vsub Q o) false then vsub Q o else vsub H o).

Lemma prepare_cases : forall i f l h L H ti tj s s' x y X Y j, pnt l = Some L -> pnt h = Some H -> 0 < (br L H) -> trg i = Some ti -> trg j = Some tj ->
  MeshSpec.directed_edge ti s = Some (x, y) -> MeshSpec.directed_edge tj s' = Some (y, x) -> pnt x = Some X -> pnt y = Some Y ->
  let it := mkvitem (Some f) i (Some (vsub L o, vsub H o)) in
  (prepare_adjacent_traversal direct norm m o j it = Some None) \/
  (meets_range o (vsub L o) (vsub H o) X Y /\ exists P Q, ((P = X /\ Q = Y) \/ (P = Y /\ Q = X)) /\ 0 < (br P Q) /\
     let '(lo, hi) := new_range L H P Q in prepare_adjacent_traversal direct norm m o j it = if Qgtb (cross hi lo) 0 then Some None else Some (Some (mkvitem (Some i) j (Some (lo, hi))))).
Proof.
  intros i f l h L H ti tj s s' x y X Y j El Eh LH Ei Ej D1 D2 Ex Ey it. unfold prepare_adjacent_traversal, it. cbn [v_to v_range]. rewrite Ei, Ej.
  assert (Sh : MeshProof4.shared ti tj s) by (exists s', x, y; auto).
  pose proof (MeshProof4.adjacent_side_ok ti tj) as AS. destruct (MeshModel.get_triangle_adjacent_side ti tj) as [s2|]; [|exfalso; exact (AS s Sh)].
  destruct AS as (_ & Sh2 & _). rewrite <- (shared_unique m ti tj s s2 (ok_ccw _ _ _ OK Ei) (ok_ccw _ _ _ OK Ej) Sh Sh2) in *.
  pose proof D1 as D1s. apply MeshProof4.directed_edge_side in D1s. destruct D1s as [_ D1s]. assert (Da : x = MeshModel.side ti s) by congruence. assert (Db : y = MeshModel.side ti ((s + 1) mod 3)) by congruence.
  unfold triangle_vertex. rewrite <- Da, <- Db, Ex, Ey.
  assert (C : cross (vsub Y X) (vsub o X) == (br X Y)) by (unfold tri2, cross, vsub; cbn [px py]; ring).
  assert (XY : ~ (br X Y) == 0).
  { intro Z. pose proof (same_dir x y X Y Ex Ey Z) as E. rewrite <- E in D1. clear - OK Ei D1.
    destruct (edge_rot m ti s x x (ok_ccw _ _ _ OK Ei) D1) as (c & A & B & Cc & Ea & Eb & _ & Pp & _). rewrite Ea in Eb. injection Eb as <-. unfold tri2, cross, vsub in Pp; cbn [px py] in Pp. lra. }
  destruct (o_not_vertex x y X Y Ex Ey XY) as [SX SY].
  assert (Gen : forall P Q p q, pnt p = Some P -> pnt q = Some Q -> ((P = X /\ Q = Y) \/ (P = Y /\ Q = X)) -> 0 < (br P Q) -> same_point direct o P = false -> same_point direct o Q = false ->
    match is_segment_in_range_2d (norm (vsub L o)) (norm (vsub H o)) P Q (vsub L o) (vsub H o) o with
    | None => None | Some false => Some None
    | Some true => match next_range direct o P Q (Some (vsub L o, vsub H o)) with None => Some None | Some r => Some (Some (mkvitem (Some i) j r)) end end = Some None \/
    (meets_range o (vsub L o) (vsub H o) X Y /\ exists P0 Q0, ((P0 = X /\ Q0 = Y) \/ (P0 = Y /\ Q0 = X)) /\ 0 < (br P0 Q0) /\
      let '(lo, hi) := new_range L H P0 Q0 in
      match is_segment_in_range_2d (norm (vsub L o)) (norm (vsub H o)) P Q (vsub L o) (vsub H o) o with
      | None => None | Some false => Some None
      | Some true => match next_range direct o P Q (Some (vsub L o, vsub H o)) with None => Some None | Some r => Some (Some (mkvitem (Some i) j r)) end end
      = if Qgtb (cross hi lo) 0 then Some None else Some (Some (mkvitem (Some i) j (Some (lo, hi)))))).
  { intros P Q p q EP EQ PQ HPQ S1 S2. destruct (range_dec l h L H p q P Q El Eh LH EP EQ) as (r & R & Hr). rewrite R. destruct r; [right|left; reflexivity].
    split. { assert (M : meets_range o (vsub L o) (vsub H o) P Q) by (apply Hr; reflexivity). destruct PQ as [ [-> ->] | [-> ->] ]; [exact M|apply meets_sym, M]. }
    exists P, Q. split; [exact PQ|]. split; [exact HPQ|]. unfold next_range, new_range. rewrite S1, S2. cbn [negb andb].
    set (lo := if is_vector_between direct (vsub L o) (vsub H o) (vsub P o) false then vsub P o else vsub L o). set (hi := if is_vector_between direct (vsub L o) (vsub H o) (vsub Q o) false then vsub Q o else vsub H o).
    pose proof (orientation_direct_v hi lo) as (O1 & O2 & O3). destruct (Qgtb_spec (cross hi lo) 0) as [G|G].
    - assert (E : get_orientation_v direct hi lo = oriented_left) by (apply O1; exact G). rewrite E. reflexivity.
    - destruct (get_orientation_v direct hi lo) eqn:E; try reflexivity. exfalso; assert (0 < cross hi lo) by (apply O1; reflexivity); lra. }
  destruct (Qltb_spec (cross (vsub Y X) (vsub o X)) 0) as [K|K].
  - apply (Gen Y X y x Ey Ex); [right; auto|rewrite (br_anti o X Y); lra|exact SY|exact SX].
  - apply (Gen X Y x y Ex Ey); [left; auto|lra|exact SX|exact SY].
Qed.

(** Items pushed for one side, and for a whole step. *)
Definition pushes (it : vitem) (s : nat) (G : vitem -> Prop) : Prop :=
  exists pre, (forall st, push_side direct norm m o it s st = Some (pre ++ st)) /\ forall n, In n pre -> G n.
Lemma pushes_of : forall it s (G : vitem -> Prop),
  (forall j s', MeshSpec.shares_edge (vm_tris m) (v_to it) s j s' -> v_from it <> Some j ->
     prepare_adjacent_traversal direct norm m o j it = Some None \/ exists n, prepare_adjacent_traversal direct norm m o j it = Some (Some n) /\ G n) -> pushes it s G.
Proof.
  intros it s G H. unfold pushes, push_side. destruct (MeshModel.create_adjacency_matrix (vm_tris m) (v_to it) s) as [j|] eqn:E.
  2: { exists []. split; [reflexivity|intros n []]. }
  destruct (MeshProof4.adjacency_sound _ _ _ _ E) as [s' SE].
  destruct (match v_from it with Some f => Nat.eqb j f | None => false end) eqn:F.
  - exists []. split; [reflexivity|intros n []].
  - assert (NF : v_from it <> Some j) by (intro K; rewrite K in F; rewrite Nat.eqb_refl in F; discriminate).
    destruct (H j s' SE NF) as [->|(n & -> & Gn)].
    + exists []. split; [reflexivity|intros n []].
    + exists [n]. split; [reflexivity|]. intros n' [<-|[]]. exact Gn.
Qed.
Lemma step_shape : forall it vs (G : vitem -> Prop), visit direct m o it = Some vs -> (forall s, (s < 3)%nat -> pushes it s G) ->
  exists pre, (forall rest, search_step direct norm m o it rest = Some (vs, pre ++ rest)) /\ forall n, In n pre -> G n.
Proof.
  intros it vs G V P. destruct (P 0%nat ltac:(lia)) as (p0 & E0 & G0). destruct (P 1%nat ltac:(lia)) as (p1 & E1 & G1). destruct (P 2%nat ltac:(lia)) as (p2 & E2 & G2).
  exists (p2 ++ p1 ++ p0). split.
  - intro rest. unfold search_step. rewrite V, E0, E1, E2, !app_assoc. reflexivity.
  - intros n I. apply in_app_or in I. destruct I as [I|I]; [auto|]. apply in_app_or in I. destruct I; auto.
Qed.

Lemma wider_strict : forall A B L H V, 0 < (br A B) -> 0 < (br L H) -> 0 <= (br A L) -> 0 <= (br L B) -> 0 <= (br A H) -> 0 <= (br H B) -> oc L H V -> 0 < (br A V) /\ 0 < (br V B).
Proof.
  intros A B L H V AB LH AL LB AH HB [LV VH]. split; apply (pos_div (br L H) _ LH).
  - pose proof (plucker o L H A V) as P. rewrite (br_anti o A L), (br_anti o V H), (br_anti o A H) in P.
    pose proof (mul_nn _ _ AL (Qlt_le_weak _ _ VH)). pose proof (mul_nn _ _ (Qlt_le_weak _ _ LV) AH).
    destruct (Qlt_le_dec 0 (br A L)) as [K|K]; [pose proof (mul_pp _ _ K VH); lra|]. destruct (Qlt_le_dec 0 (br A H)) as [K'|K']; [pose proof (mul_pp _ _ LV K'); lra|].
    exfalso. assert (Z1 : (br A L) == 0) by lra. assert (Z2 : (br A H) == 0) by lra. pose proof (plucker o A B L H) as P2. rewrite Z1, Z2 in P2. pose proof (mul_pp _ _ AB LH). lra.
  - pose proof (plucker o L H V B) as P. rewrite (br_anti o V H) in P.
    pose proof (mul_nn _ _ (Qlt_le_weak _ _ LV) HB). pose proof (mul_nn _ _ LB (Qlt_le_weak _ _ VH)).
    destruct (Qlt_le_dec 0 (br H B)) as [K|K]; [pose proof (mul_pp _ _ LV K); lra|]. destruct (Qlt_le_dec 0 (br L B)) as [K'|K']; [pose proof (mul_pp _ _ K' VH); lra|].
    exfalso. assert (Z1 : (br L B) == 0) by lra. assert (Z2 : (br H B) == 0) by lra. pose proof (plucker o A B L H) as P2. rewrite (br_anti o H B), (br_anti o L B), Z1, Z2 in P2. pose proof (mul_pp _ _ AB LH). lra.
Qed.

(** The range handed on through the side from [X] to [Y] of triangle [i]. *)
Lemma child : forall L H A B i seen L' H' X Y j s s' ti x y, sight L H A B i -> cover L H A B seen -> 0 < (br L' H') ->
  MeshSpec.shares_edge (vm_tris m) i s j s' -> trg i = Some ti -> MeshSpec.directed_edge ti s = Some (x, y) -> pnt x = Some X -> pnt y = Some Y ->
  0 < (br X Y) -> 0 <= (br X L') -> 0 <= (br L' Y) -> 0 <= (br X H') -> 0 <= (br H' Y) -> 0 <= tri2 X Y L' -> 0 <= tri2 X Y H' ->
  (forall Z, 0 <= (br L' Z) -> 0 <= (br Z H') -> 0 <= (br L Z) /\ 0 <= (br Z H)) -> (forall Z, oc L' H' Z -> oc L H Z) ->
  (forall Z, 0 <= (br L' Z) -> 0 <= (br Z H') -> tri2 A B Z < 0 -> 0 <= tri2 X Y Z -> in_closed m i Z) ->
  (forall Z, oc L' H' Z -> tri2 X Y Z < 0 -> tri2 A B Z < 0) ->
  proper L' H' X Y j (i :: seen).
Proof.
  intros L H A B i seen L' H' X Y j s s' ti x y SI CO LH SE Ei D Ex Ey XY XL LY XH HY TL TH Inc Inc' Btw Bey. repeat (split; [assumption|]). split.
  - intros Z Z1 Z2 Z3. destruct (Qlt_le_dec (tri2 A B Z) 0) as [K|K].
    + exists i. split; [left; reflexivity|]. auto.
    + destruct (Inc Z Z1 Z2) as [I1 I2]. destruct (CO Z I1 I2 K) as (k & Ik & C). exists k. split; [right; exact Ik|exact C].
  - intros V OV B1. apply (los_trans m o V start i j); [apply SI; [apply Inc', OV|apply Bey; assumption]|].
    destruct (wider_strict X Y L' H' V XY LH XL LY XH HY OV) as [W1 W2]. destruct (crossing_point o X Y V XY W1 W2 B1) as [C1 C2].
    eapply los_step; [exact SE|exact Ei|exact D|exact Ex|exact Ey|exact C1|exact C2|apply los_end].
Qed.

Lemma new_range_same : forall L H P Q, 0 < (br L H) -> ~ oc L H P -> ~ oc L H Q -> new_range L H P Q = (vsub L o, vsub H o).
Proof.
  intros L H P Q LH N1 N2. unfold new_range. pose proof (between_iff L H P LH) as B1. pose proof (between_iff L H Q LH) as B2.
  destruct (is_vector_between direct (vsub L o) (vsub H o) (vsub P o) false); [exfalso; apply N1, B1; reflexivity|].
  destruct (is_vector_between direct (vsub L o) (vsub H o) (vsub Q o) false); [exfalso; apply N2, B2; reflexivity|]. reflexivity.
Qed.
Lemma new_range_hi : forall L H P Q, 0 < (br L H) -> ~ oc L H P -> oc L H Q -> new_range L H P Q = (vsub L o, vsub Q o).
Proof.
  intros L H P Q LH N1 N2. unfold new_range. pose proof (between_iff L H P LH) as B1.
  destruct (is_vector_between direct (vsub L o) (vsub H o) (vsub P o) false); [exfalso; apply N1, B1; reflexivity|].
  apply (between_iff L H Q LH) in N2. rewrite N2. reflexivity.
Qed.
Lemma new_range_lo : forall L H P Q, 0 < (br L H) -> oc L H P -> ~ oc L H Q -> new_range L H P Q = (vsub P o, vsub H o).
Proof.
  intros L H P Q LH N1 N2. unfold new_range. pose proof (between_iff L H Q LH) as B1.
  destruct (is_vector_between direct (vsub L o) (vsub H o) (vsub Q o) false); [exfalso; apply N2, B1; reflexivity|].
  apply (between_iff L H P LH) in N1. rewrite N1. reflexivity.
Qed.
Lemma not_left : forall L H, 0 < (br L H) -> Qgtb (cross (vsub H o) (vsub L o)) 0 = false.
Proof. intros L H LH. destruct (Qgtb_spec (cross (vsub H o) (vsub L o)) 0) as [G|G]; [|reflexivity]. change (0 < (br H L)) in G. rewrite (br_anti o L H) in G. lra. Qed.

(** A vertex reported in a range. *)
Lemma visit_some : forall i f ti tf L H, trg i = Some ti -> trg f = Some tf ->
  exists vs, visit direct m o (mkvitem (Some f) i (Some (vsub L o, vsub H o))) = Some vs /\
    forall v, In v vs -> (exists s, (s < 3)%nat /\ MeshModel.side ti s = v) /\ index_in v tf = false /\
      exists V, pnt v = Some V /\ is_vector_between direct (vsub L o) (vsub H o) (vsub V o) true = true.
Proof.
  intros i f ti tf L H Ei Ef. unfold visit. cbn [v_to v_range v_from]. rewrite Ei, Ef.
  assert (VC : forall s, (s < 3)%nat -> exists vs, visit_corner direct m o (vsub L o) (vsub H o) tf ti s = Some vs /\
    forall v, In v vs -> (exists s, (s < 3)%nat /\ MeshModel.side ti s = v) /\ index_in v tf = false /\ exists V, pnt v = Some V /\ is_vector_between direct (vsub L o) (vsub H o) (vsub V o) true = true).
  { intros s Hs. unfold visit_corner. destruct (index_in (MeshModel.side ti s) tf) eqn:I; [exists []; split; [reflexivity|intros v []]|].
    unfold triangle_vertex. assert (E : exists V, pnt (MeshModel.side ti s) = Some V).
    { pose proof (ok_ccw _ _ _ OK Ei) as C. destruct ti as [ [x y] z]. destruct C as (X & Y & Z & E1 & E2 & E3 & _). destruct s as [|[|[|s]]]; [exists X|exists Y|exists Z|lia]; assumption. }
    destruct E as [V EV]. rewrite EV. eexists. split; [reflexivity|]. intros v Iv.
    destruct (is_vector_between direct (vsub L o) (vsub H o) (vsub V o) true) eqn:B; [|destruct Iv]. destruct Iv as [<-|[]]. split; [exists s; auto|]. split; [exact I|]. exists V. auto. }
  destruct (VC 0%nat ltac:(lia)) as (v0 & -> & G0). destruct (VC 1%nat ltac:(lia)) as (v1 & -> & G1). destruct (VC 2%nat ltac:(lia)) as (v2 & -> & G2).
  eexists. split; [reflexivity|]. intros v I. apply in_app_or in I. destruct I as [I|I]; [auto|]. apply in_app_or in I. destruct I; auto.
Qed.

(** What every step gives. *)
Definition good_step (it : vitem) (path : list nat) : Prop :=
  exists vs pre, (forall rest, search_step direct norm m o it rest = Some (vs, pre ++ rest)) /\
    (forall v, In v vs -> visible_from m o start v) /\ forall n, In n pre -> exists j, inv n (j :: path).

Lemma new_path : forall i f tl j s s', walk m (i :: f :: tl) -> Forall (fun i => (i < length (vm_tris m))%nat) (i :: f :: tl) ->
  MeshSpec.shares_edge (vm_tris m) i s j s' -> j <> f -> walk m (j :: i :: f :: tl) /\ Forall (fun i => (i < length (vm_tris m))%nat) (j :: i :: f :: tl).
Proof.
  intros i f tl j s s' W F SE N. split; [apply walk_more; [exact W|exists s, s'; exact SE|exact N]|]. constructor; [|exact F].
  destruct SE as (ti & tj & a & b & _ & Ej & _). change (trg j = Some tj) in Ej. apply nth_error_Some. congruence.
Qed.

(** ** Through a side that the rays cross *)
Lemma proper_step : forall i f tl tf ti sf si a b A B l h L H,
  walk m (i :: f :: tl) -> Forall (fun i => (i < length (vm_tris m))%nat) (i :: f :: tl) -> In start (f :: tl) ->
  pnt l = Some L -> pnt h = Some H -> 0 < (br L H) -> trg f = Some tf -> trg i = Some ti ->
  MeshSpec.directed_edge tf sf = Some (a, b) -> MeshSpec.directed_edge ti si = Some (b, a) -> pnt a = Some A -> pnt b = Some B ->
  proper L H A B i (f :: tl) -> good_step (mkvitem (Some f) i (Some (vsub L o, vsub H o))) (i :: f :: tl).
Proof.
  intros i f tl tf ti sf si a b A B l h L H W F IS El Eh LH Ef Ei D1 D2 Ea Eb PR.
  destruct PR as (AB & AL & LB & AH & HB & TL & TH & CO & SI).
  destruct (edge_rot m ti si b a (ok_ccw _ _ _ OK Ei) D2) as (c & B' & A' & S & Eb' & Ea' & Ec & T0 & Vx & Ed & Cl & _).
  rewrite Eb in Eb'. injection Eb' as <-. rewrite Ea in Ea'. injection Ea' as <-.
  pose proof (tri2_cases A B S) as (_ & R2 & R3 & _ & R5 & _).
  assert (T : tri2 A B S < 0) by lra.
  assert (cl : c <> l) by (intros ->; rewrite El in Ec; injection Ec as <-; lra).
  assert (ch : c <> h) by (intros ->; rewrite Eh in Ec; injection Ec as <-; lra).
  assert (LS : ~ (br L S) == 0) by (intro Z; apply cl; symmetry; exact (same_dir l c L S El Ec Z)).
  assert (SH : ~ (br S H) == 0) by (intro Z; apply ch; exact (same_dir c h S H Ec Eh Z)).
  assert (ca : c <> a). { intros ->. rewrite Ea in Ec. injection Ec as <-. pose proof (tri2_cases A B A) as (_ & _ & _ & _ & _ & _ & Z & _). pose proof (tri2_cases A A B). lra. }
  assert (cb : c <> b). { intros ->. rewrite Eb in Ec. injection Ec as <-. pose proof (tri2_cases A B B) as (_ & _ & _ & _ & _ & _ & _ & _). pose proof (tri2_cases A B B). pose proof (tri2_cases A B A). lra. }
  assert (AS0 : ~ (br A S) == 0) by (intro Z; apply ca; symmetry; exact (same_dir a c A S Ea Ec Z)).
  assert (SB0 : ~ (br S B) == 0) by (intro Z; apply cb; exact (same_dir c b S B Ec Eb Z)).
  assert (OA : ~ oc L H A) by (intros [K _]; rewrite (br_anti o A L) in K; lra).
  assert (OB : ~ oc L H B) by (intros [_ K]; rewrite (br_anti o H B) in K; lra).
  set (it := mkvitem (Some f) i (Some (vsub L o, vsub H o))).
  destruct (visit_some i f ti tf L H Ei Ef) as (vs & EV & HV).
  assert (InTi : forall Z, tri2 A B Z < 0 -> 0 <= tri2 A S Z -> 0 <= tri2 S B Z -> in_closed m i Z).
  { intros Z Z1 Z2 Z3. apply Cl; [exact Ei| |exact Z2|exact Z3]. pose proof (tri2_cases A B Z) as (_ & _ & Q3 & _). lra. }
  assert (Wid : forall Z, 0 <= (br L Z) -> 0 <= (br Z H) -> 0 <= (br A Z) /\ 0 <= (br Z B)) by (intros Z Z1 Z2; exact (in_wider o A B L H Z LH AL LB AH HB Z1 Z2)).
  assert (Cases : oc L H S \/ ((br L S) < 0 /\ 0 < (br S H)) \/ (0 < (br L S) /\ (br S H) < 0)).
  { destruct (Qlt_le_dec (br L S) 0) as [K|K]; destruct (Qlt_le_dec (br S H) 0) as [K'|K'].
    - exfalso. apply (one_side o A B L H S LH AL LB AH HB AB T); lra.
    - right; left. split; [exact K|lra].
    - right; right. split; [lra|exact K'].
    - left. split; lra. }
  destruct (step_shape it vs (fun n => exists j, inv n (j :: i :: f :: tl)) EV) as (pre & P1 & P2).
  2: { exists vs, pre. split; [exact P1|]. split; [|exact P2]. intros v Iv. destruct (HV v Iv) as ((s & Hs & Es) & NI & V & EVv & BV).
    assert (Evc : v = c).
    { assert (IT : index_in v ti = true) by (unfold index_in; rewrite !orb_true_iff, !Nat.eqb_eq; destruct s as [|[|[|s]]]; [left; left|left; right|right|lia]; exact Es).
      apply Vx in IT. destruct (edge_rot m tf sf a b (ok_ccw _ _ _ OK Ef) D1) as (c2 & _ & _ & _ & _ & _ & _ & _ & Vf & _).
      destruct IT as [->|[->| ->]]; [exfalso|exfalso|reflexivity]; (assert (index_in b tf = true /\ index_in a tf = true) as [I1 I2] by (split; apply Vf; auto)); congruence. }
    rewrite Evc in *. rewrite Ec in EVv. injection EVv as <-. apply between_incl in BV; [|exact LH|exact LS|exact SH].
    exists S, i, ti. split; [exact Ec|]. split; [apply SI; [exact BV|exact T]|]. split; [exact Ei|]. exists s. auto. }
  intros s Hs. apply pushes_of. intros j s' SE NF. cbn [v_to v_from it] in SE, NF.
  assert (NJ : j <> f) by congruence. destruct (new_path i f tl j s s' W F SE NJ) as [NW NFa].
  pose proof SE as SE0. destruct SE as (ti2 & tj & x & y & Ei2 & Ej & G1 & G2). change (trg i = Some ti2) in Ei2. change (trg j = Some tj) in Ej. rewrite Ei in Ei2. injection Ei2 as <-.
  destruct (Ed s _ G1) as [(-> & E)|[E|E]].
  { exfalso. apply NF. f_equal. injection E as -> ->.
    assert (SE1 : MeshSpec.shares_edge (vm_tris m) i si f sf) by (exists ti, tf, b, a; auto).
    pose proof (MeshProof4.adjacency_manifold _ _ _ _ _ (proj1 OK) SE0) as Q1. pose proof (MeshProof4.adjacency_manifold _ _ _ _ _ (proj1 OK) SE1) as Q2. congruence. }
  - (* a to c *) injection E as -> ->.
    assert (Mk : forall h' H', pnt h' = Some H' -> 0 < (br L H') -> proper L H' A S j (i :: f :: tl) -> exists j', inv (mkvitem (Some i) j (Some (vsub L o, vsub H' o))) (j' :: i :: f :: tl)).
    { intros h' H' Eh' LH' PR. exists j. split; [exact NW|]. split; [exact NFa|]. right. exists j, i, (f :: tl), ti, tj, s, s', a, c, A, S, l, h', L, H'.
      split; [reflexivity|]. split; [right; exact IS|]. split; [reflexivity|]. repeat (split; [assumption|]). left. exact PR. }
    destruct (prepare_cases i f l h L H ti tj s s' a c A S j El Eh LH Ei Ej G1 G2 Ea Ec) as [N|(M & P & Q & PQ & HPQ & PA)]; [left; exact N|right].
    destruct Cases as [ [C1 C2]|[[C1 C2]|[C1 C2] ] ].
    + (* S between *) destruct (Wid S (Qlt_le_weak _ _ C1) (Qlt_le_weak _ _ C2)) as [W1 W2]. assert (AS : 0 < (br A S)) by lra.
      destruct PQ as [ [-> ->]|[-> ->] ]; [|exfalso; rewrite (br_anti o A S) in HPQ; lra].
      rewrite (new_range_hi L H A S LH OA (conj C1 C2)) in PA. rewrite (not_left L S C1) in PA. eexists. split; [exact PA|]. apply (Mk c S Ec C1).
      assert (NL : 0 <= tri2 A S L) by (apply (near_first o A B S L AB T AS AL LB TL)). pose proof (br_same o S) as Z0. pose proof (tri2_cases A S S) as (_ & _ & _ & _ & _ & _ & _ & Z1).
      apply (child L H A B i (f :: tl) L S A S j s s' ti a c); try assumption; try lra.
      * intros Z Z2 Z3. split; [exact Z2|]. exact (proj1 (cone_trans o L S H Z C1 LH C2 Z2 Z3)).
      * intros Z [Z2 Z3]. split; [exact Z2|]. exact (proj2 (cone_trans o L S H Z C1 LH C2 (Qlt_le_weak _ _ Z2) (Qlt_le_weak _ _ Z3)) Z2).
      * intros Z Z2 Z3 Z4 Z5. destruct (cone_trans o L S H Z C1 LH C2 Z2 Z3) as [Z6 _]. destruct (Wid Z Z2 Z6) as [Z7 Z8]. apply InTi; [exact Z4|exact Z5|].
        apply (between_first o A B S Z); try assumption; lra.
      * intros Z OZ Z4. destruct (wider_strict A S L S Z AS C1 AL ltac:(lra) ltac:(lra) ltac:(lra) OZ) as [Z5 Z6]. exact (beyond_first o A B S Z AB T AS Z5 Z6 Z4).
    + (* S before L: a is l, or the side is out of range *)
      assert (OS : ~ oc L H S) by (intros [K _]; lra).
      assert (al : a = l).
      { destruct M as (Z & (t & Ht & ZE1 & ZE2) & RZ). apply in_cone in RZ; [|exact LH]. destruct RZ as [RZ _].
        assert (EZ : (br L Z) == (br L (lerp A S t))) by (unfold tri2, cross, vsub; cbn [px py]; rewrite ZE1, ZE2; reflexivity). rewrite EZ, tri_lerp in RZ. rewrite (br_anti o A L) in RZ.
        symmetry. apply (same_dir l a L A El Ea). rewrite (br_anti o A L).
        assert (K1 : 0 <= (1 - t) * (br A L)) by (apply mul_nn; lra). assert (K2 : 0 <= t * - (br L S)) by (apply mul_nn; lra). assert (K3 : t * - (br L S) == 0) by lra. apply Qmult_integral in K3. destruct K3 as [K3|K3]; [|lra]. rewrite K3 in *. lra. }
      subst l. rewrite Ea in El. injection El as <-.
      assert (NR : new_range A H P Q = (vsub A o, vsub H o)) by (destruct PQ as [ [-> ->]|[-> ->] ]; apply new_range_same; assumption).
      rewrite NR, (not_left A H LH) in PA. eexists. split; [exact PA|].
      exists j. split; [exact NW|]. split; [exact NFa|]. right. exists j, i, (f :: tl), ti, tj, s, s', a, c, A, S, a, h, A, H.
      split; [reflexivity|]. split; [right; exact IS|]. split; [reflexivity|]. repeat (split; [assumption|]). right.
      exists a, A. split; [left; reflexivity|]. split; [left; reflexivity|]. split; [exact Ea|]. intros Y [Y1 Y2].
      destruct (Qlt_le_dec (tri2 A B Y) 0) as [K|K].
      * destruct (small_eps (tri2 S B A) (tri2 S B Y)) as (e & e0 & e1 & He); [pose proof (tri2_cases A B S); pose proof (tri2_cases S B A); lra|].
        exists e, i. split; [exact e0|]. split; [lra|]. split; [left; reflexivity|].
        pose proof (tri2_cases A B Y) as (_ & _ & _ & _ & _ & _ & ZA & _). pose proof (tri2_cases A S Y) as (_ & _ & _ & _ & _ & _ & ZB & _).
        assert (K2 : 0 < tri2 A S Y) by (apply (around_first o A B S Y AB T C1 Y1 K)).
        apply InTi; rewrite tri_lerp.
        -- rewrite ZA. assert (0 < e * - tri2 A B Y) by (apply mul_pp; lra). lra.
        -- rewrite ZB. assert (0 < e * tri2 A S Y) by (apply mul_pp; lra). lra.
        -- apply Qlt_le_weak. apply He; lra.
      * exists (1 # 2). pose proof (tri2_cases A B Y) as (_ & _ & _ & _ & _ & _ & ZA & _). pose proof (br_same o A) as ZB.
        destruct (CO (lerp A Y (1 # 2))) as (k & Ik & Ck); [rewrite tri_lerp; lra|rewrite tri_lerp'; lra|rewrite tri_lerp; lra|].
        exists k. split; [lra|]. split; [lra|]. split; [right; exact Ik|exact Ck].
    + (* S after H *)
      assert (OS : ~ oc L H S) by (intros [_ K]; lra).
      assert (AS : 0 < (br A S)) by (apply (after_first o A B H S AB AH HB T C2)).
      destruct PQ as [ [-> ->]|[-> ->] ]; [|exfalso; rewrite (br_anti o A S) in HPQ; lra].
      rewrite (new_range_same L H A S LH OA OS) in PA. rewrite (not_left L H LH) in PA. eexists. split; [exact PA|]. apply (Mk h H Eh LH).
      assert (HS : 0 < (br H S)) by (rewrite (br_anti o S H); lra).
      assert (NL : 0 <= tri2 A S L) by (apply (near_first o A B S L AB T AS AL LB TL)). assert (NH : 0 <= tri2 A S H) by (apply (near_first o A B S H AB T AS AH HB TH)).
      apply (child L H A B i (f :: tl) L H A S j s s' ti a c); try assumption; try lra.
      * intros; split; assumption.
      * intros; assumption.
      * intros Z Z2 Z3 Z4 Z5. destruct (Wid Z Z2 Z3) as [Z7 Z8]. destruct (in_wider o A S L H Z LH AL (Qlt_le_weak _ _ C1) AH (Qlt_le_weak _ _ HS) Z2 Z3) as [_ Z9]. apply InTi; [exact Z4|exact Z5|].
        apply (between_first o A B S Z); try assumption; lra.
      * intros Z OZ Z4. destruct (wider_strict A S L H Z AS LH AL ltac:(lra) AH ltac:(lra) OZ) as [Z5 Z6]. exact (beyond_first o A B S Z AB T AS Z5 Z6 Z4).
  - (* c to b *) injection E as -> ->.
    assert (Mk : forall l' L', pnt l' = Some L' -> 0 < (br L' H) -> proper L' H S B j (i :: f :: tl) -> exists j', inv (mkvitem (Some i) j (Some (vsub L' o, vsub H o))) (j' :: i :: f :: tl)).
    { intros l' L' El' LH' PR. exists j. split; [exact NW|]. split; [exact NFa|]. right. exists j, i, (f :: tl), ti, tj, s, s', c, b, S, B, l', h, L', H.
      split; [reflexivity|]. split; [right; exact IS|]. split; [reflexivity|]. repeat (split; [assumption|]). left. exact PR. }
    destruct (prepare_cases i f l h L H ti tj s s' c b S B j El Eh LH Ei Ej G1 G2 Ec Eb) as [N|(M & P & Q & PQ & HPQ & PA)]; [left; exact N|right].
    destruct Cases as [ [C1 C2]|[[C1 C2]|[C1 C2] ] ].
    + (* S between *) destruct (Wid S (Qlt_le_weak _ _ C1) (Qlt_le_weak _ _ C2)) as [W1 W2]. assert (SB : 0 < (br S B)) by lra.
      destruct PQ as [ [-> ->]|[-> ->] ]; [|exfalso; rewrite (br_anti o S B) in HPQ; lra].
      rewrite (new_range_lo L H S B LH (conj C1 C2) OB) in PA. rewrite (not_left S H C2) in PA. eexists. split; [exact PA|]. apply (Mk c S Ec C2).
      assert (NH : 0 <= tri2 S B H) by (apply (near_last o A B S H AB T SB AH HB TH)). pose proof (br_same o S) as Z0. pose proof (tri2_cases S B B) as (_ & _ & _ & _ & _ & _ & _ & _). assert (Z1 : tri2 S B S == 0) by (unfold tri2, cross, vsub; cbn [px py]; ring).
      apply (child L H A B i (f :: tl) S H S B j s s' ti c b); try assumption; try lra.
      * intros Z Z2 Z3. split; [|exact Z3]. exact (proj1 (cone_trans' o L S H Z C2 LH C1 Z3 Z2)).
      * intros Z [Z2 Z3]. split; [|exact Z3]. exact (proj2 (cone_trans' o L S H Z C2 LH C1 (Qlt_le_weak _ _ Z3) (Qlt_le_weak _ _ Z2)) Z3).
      * intros Z Z2 Z3 Z4 Z5. destruct (cone_trans' o L S H Z C2 LH C1 Z3 Z2) as [Z6 _]. destruct (Wid Z Z6 Z3) as [Z7 Z8]. apply InTi; [exact Z4| |exact Z5].
        apply (between_last o A B S Z); try assumption; lra.
      * intros Z OZ Z4. destruct (wider_strict S B S H Z SB C2 ltac:(lra) ltac:(lra) ltac:(lra) HB OZ) as [Z5 Z6]. exact (beyond_last o A B S Z AB T SB Z6 Z5 Z4).
    + (* S before L *)
      assert (OS : ~ oc L H S) by (intros [K _]; lra).
      assert (SB : 0 < (br S B)) by (apply (before_last o A B L S AB AL LB T C1)).
      destruct PQ as [ [-> ->]|[-> ->] ]; [|exfalso; rewrite (br_anti o S B) in HPQ; lra].
      rewrite (new_range_same L H S B LH OS OB) in PA. rewrite (not_left L H LH) in PA. eexists. split; [exact PA|]. apply (Mk l L El LH).
      assert (SL : 0 < (br S L)) by (rewrite (br_anti o L S); lra).
      assert (NL : 0 <= tri2 S B L) by (apply (near_last o A B S L AB T SB AL LB TL)). assert (NH : 0 <= tri2 S B H) by (apply (near_last o A B S H AB T SB AH HB TH)).
      apply (child L H A B i (f :: tl) L H S B j s s' ti c b); try assumption; try lra.
      * intros; split; assumption.
      * intros; assumption.
      * intros Z Z2 Z3 Z4 Z5. destruct (Wid Z Z2 Z3) as [Z7 Z8]. destruct (in_wider o S B L H Z LH (Qlt_le_weak _ _ SL) LB (Qlt_le_weak _ _ C2) HB Z2 Z3) as [Z9 _]. apply InTi; [exact Z4| |exact Z5].
        apply (between_last o A B S Z); try assumption; lra.
      * intros Z OZ Z4. destruct (wider_strict S B L H Z SB LH ltac:(lra) LB ltac:(lra) HB OZ) as [Z5 Z6]. exact (beyond_last o A B S Z AB T SB Z6 Z5 Z4).
    + (* S after H: b is h, or the side is out of range *)
      assert (OS : ~ oc L H S) by (intros [_ K]; lra).
      assert (bh : b = h).
      { destruct M as (Z & (t & Ht & ZE1 & ZE2) & RZ). apply in_cone in RZ; [|exact LH]. destruct RZ as [_ RZ].
        assert (EZ : (br Z H) == (br (lerp S B t) H)) by (unfold tri2, cross, vsub; cbn [px py]; rewrite ZE1, ZE2; reflexivity). rewrite EZ, tri_lerp' in RZ. rewrite (br_anti o H B) in RZ.
        apply (same_dir b h B H Eb Eh). rewrite (br_anti o H B).
        assert (K1 : 0 <= t * (br H B)) by (apply mul_nn; lra). assert (K2 : 0 <= (1 - t) * - (br S H)) by (apply mul_nn; lra). assert (K3 : (1 - t) * - (br S H) == 0) by lra. apply Qmult_integral in K3. destruct K3 as [K3|K3]; [|lra]. assert (K4 : t == 1) by lra. rewrite K4 in *. lra. }
      subst h. rewrite Eb in Eh. injection Eh as <-.
      assert (NR : new_range L B P Q = (vsub L o, vsub B o)) by (destruct PQ as [ [-> ->]|[-> ->] ]; apply new_range_same; assumption).
      rewrite NR, (not_left L B LH) in PA. eexists. split; [exact PA|].
      exists j. split; [exact NW|]. split; [exact NFa|]. right. exists j, i, (f :: tl), ti, tj, s, s', c, b, S, B, l, b, L, B.
      split; [reflexivity|]. split; [right; exact IS|]. split; [reflexivity|]. repeat (split; [assumption|]). right.
      exists b, B. split; [right; reflexivity|]. split; [right; reflexivity|]. split; [exact Eb|]. intros Y [Y1 Y2].
      destruct (Qlt_le_dec (tri2 A B Y) 0) as [K|K].
      * destruct (small_eps (tri2 A S B) (tri2 A S Y)) as (e & e0 & e1 & He); [pose proof (tri2_cases A B S); pose proof (tri2_cases S B A); lra|].
        exists e, i. split; [exact e0|]. split; [lra|]. split; [left; reflexivity|].
        assert (ZA : tri2 A B B == 0) by (unfold tri2, cross, vsub; cbn [px py]; ring). assert (ZB : tri2 S B B == 0) by (unfold tri2, cross, vsub; cbn [px py]; ring).
        assert (K2 : 0 < tri2 S B Y) by (apply (around_last o A B S Y AB T C2 Y2 K)).
        apply InTi; rewrite tri_lerp.
        -- rewrite ZA. assert (0 < e * - tri2 A B Y) by (apply mul_pp; lra). lra.
        -- apply Qlt_le_weak. apply He; lra.
        -- rewrite ZB. assert (0 < e * tri2 S B Y) by (apply mul_pp; lra). lra.
      * exists (1 # 2). assert (ZA : tri2 A B B == 0) by (unfold tri2, cross, vsub; cbn [px py]; ring). pose proof (br_same o B) as ZB.
        destruct (CO (lerp B Y (1 # 2))) as (k & Ik & Ck); [rewrite tri_lerp; lra|rewrite tri_lerp'; lra|rewrite tri_lerp; lra|].
        exists k. split; [lra|]. split; [lra|]. split; [right; exact Ik|exact Ck].
Qed.

(** ** Round a vertex at the border of the range *)
Lemma shift_eps : forall f0 f1 g0 g1, 0 < f0 -> 0 < g0 -> exists e, 0 < e /\ e < 1 /\ 0 < (1 - e) * f0 + e * f1 /\ 0 < (1 - e) * g0 + e * g1.
Proof.
  intros f0 f1 g0 g1 F G. destruct (small_eps f0 f1 F) as (e1 & P1 & Q1 & H1). destruct (small_eps g0 g1 G) as (e2 & P2 & Q2 & H2).
  destruct (Qlt_le_dec e1 e2) as [K|K]; [exists e1|exists e2]; (split; [assumption|split; [assumption|split; [apply H1; lra|apply H2; lra]]]).
Qed.
Lemma lerp_nn : forall A B X Y t, 0 <= t -> t <= 1 -> 0 <= tri2 A B X -> 0 <= tri2 A B Y -> 0 <= tri2 A B (lerp X Y t).
Proof. intros A B X Y t T0 T1 HX HY. rewrite tri_lerp. assert (0 <= (1 - t) * tri2 A B X) by (apply mul_nn; lra). assert (0 <= t * tri2 A B Y) by (apply mul_nn; lra). lra. Qed.
Lemma lerp_pos : forall A B X Y t, 0 < t -> t <= 1 -> 0 <= tri2 A B X -> 0 < tri2 A B Y -> 0 < tri2 A B (lerp X Y t).
Proof. intros A B X Y t T0 T1 HX HY. rewrite tri_lerp. assert (0 <= (1 - t) * tri2 A B X) by (apply mul_nn; lra). assert (0 < t * tri2 A B Y) by (apply mul_pp; lra). lra. Qed.

Lemma touch_step : forall i f tl tf ti sf si a b A B l h L H,
  walk m (i :: f :: tl) -> Forall (fun i => (i < length (vm_tris m))%nat) (i :: f :: tl) -> In start (f :: tl) ->
  pnt l = Some L -> pnt h = Some H -> 0 < (br L H) -> trg f = Some tf -> trg i = Some ti ->
  MeshSpec.directed_edge tf sf = Some (a, b) -> MeshSpec.directed_edge ti si = Some (b, a) -> pnt a = Some A -> pnt b = Some B ->
  touch l h a b L H (f :: tl) -> good_step (mkvitem (Some f) i (Some (vsub L o, vsub H o))) (i :: f :: tl).
Proof.
  intros i f tl tf ti sf si a b A B l h L H W F IS El Eh LH Ef Ei D1 D2 Ea Eb (p & P & Plh & Pab & EP & CV).
  destruct (edge_rot m ti si b a (ok_ccw _ _ _ OK Ei) D2) as (c & B' & A' & S & Eb' & Ea' & Ec & T0 & Vx & Ed & Cl & St).
  rewrite Eb in Eb'. injection Eb' as <-. rewrite Ea in Ea'. injection Ea' as <-.
  assert (ND : ~ In i (f :: tl)) by (pose proof (NC _ W) as K; inversion K; assumption).
  (* the closed triangle *)
  set (cl := fun Z => 0 <= tri2 B A Z /\ 0 <= tri2 A S Z /\ 0 <= tri2 S B Z).
  pose proof (tri2_cases B A S) as (R1 & R2 & _ & _ & _ & _ & R3 & R4). pose proof (tri2_cases A S B) as (_ & _ & _ & _ & _ & _ & R5 & R6). pose proof (tri2_cases S B A) as (_ & _ & _ & _ & _ & _ & R7 & R8).
  assert (vA : cl A) by (unfold cl; lra). assert (vB : cl B) by (unfold cl; lra). assert (vS : cl S) by (unfold cl; lra).
  assert (vx : forall x X, index_in x ti = true -> pnt x = Some X -> cl X).
  { intros x X Ix EX. apply Vx in Ix. destruct Ix as [->|[->| ->]]; same_nth; assumption. }
  assert (Lc : forall X Y t, 0 <= t -> t <= 1 -> cl X -> cl Y -> cl (lerp X Y t)).
  { intros X Y t T1 T2 (X1 & X2 & X3) (Y1 & Y2 & Y3). split; [|split]; apply lerp_nn; assumption. }
  assert (pti : index_in p ti = true) by (apply Vx; destruct Pab; auto).
  assert (Pc : cl P) by (exact (vx p P pti EP)).
  assert (Dis : forall Y, cl Y -> ~ oc L H Y).
  { intros Y YC [O1 O2]. set (G := lerp (lerp A B (1 # 2)) S (1 # 2)).
    assert (G1 : 0 < tri2 B A G) by (unfold G; rewrite !tri_lerp; lra). assert (G2 : 0 < tri2 A S G) by (unfold G; rewrite !tri_lerp; lra). assert (G3 : 0 < tri2 S B G) by (unfold G; rewrite !tri_lerp; lra).
    destruct (shift_eps (br L Y) (br L G) (br Y H) (br G H) O1 O2) as (e & e0 & e1 & E1 & E2).
    destruct YC as (Y1 & Y2 & Y3). destruct Pc as (Q1 & Q2 & Q3).
    destruct (CV (lerp Y G e)) as (e' & j & e'0 & e'1 & Ij & Cj); [split; [rewrite tri_lerp; exact E1|rewrite tri_lerp'; exact E2]|].
    apply (NO i j (lerp P (lerp Y G e) e')); [intros ->; contradiction| |exact Cj].
    apply St; [exact Ei| | |]; apply lerp_pos; try assumption; apply lerp_pos; try assumption; lra. }
  assert (No : ~ cl o). { intro K. destruct K as (K1 & K2 & K3). apply (NO start i o); [intro E; apply ND; rewrite <- E; exact IS|exact INS|apply Cl; assumption]. }
  (* p is the only border vertex of the triangle *)
  assert (Other : forall x X, index_in x ti = true -> pnt x = Some X -> x <> p -> ~ (br L X) == 0 /\ ~ (br X H) == 0).
  { assert (Both : index_in l ti = true -> index_in h ti = true -> False).
    { intros I1 I2. apply (Dis (lerp L H (1 # 2))); [apply Lc; [lra|lra|exact (vx l L I1 El)|exact (vx h H I2 Eh)]|].
      pose proof (br_same o L). pose proof (br_same o H). split; [rewrite tri_lerp; lra|rewrite tri_lerp'; lra]. }
    intros x X Ix EX Nx. split; intro Z.
    - pose proof (same_dir l x L X El EX Z) as E. destruct Plh as [E'|E']; [congruence|]. apply Both; congruence.
    - pose proof (same_dir x h X H EX Eh Z) as E. destruct Plh as [E'|E']; [|congruence]. apply Both; congruence. }
  assert (Off : forall x y X Y, index_in x ti = true -> index_in y ti = true -> pnt x = Some X -> pnt y = Some Y -> x <> p -> y <> p -> ~ meets_range o (vsub L o) (vsub H o) X Y).
  { intros x y X Y Ix Iy EX EY Nx Ny (Z & (t & Ht & ZE1 & ZE2) & RZ). apply in_cone in RZ; [|exact LH]. destruct RZ as [RZ1 RZ2].
    destruct (Other x X Ix EX Nx) as [X1 X2]. destruct (Other y Y Iy EY Ny) as [Y1 Y2].
    assert (EZ1 : (br L Z) == (br L (lerp X Y t))) by (unfold tri2, cross, vsub; cbn [px py]; rewrite ZE1, ZE2; reflexivity).
    assert (EZ2 : (br Z H) == (br (lerp X Y t) H)) by (unfold tri2, cross, vsub; cbn [px py]; rewrite ZE1, ZE2; reflexivity).
    assert (Xc : cl X) by (exact (vx x X Ix EX)). assert (Yc : cl Y) by (exact (vx y Y Iy EY)).
    assert (Zc : cl (lerp X Y t)) by (apply Lc; try assumption; lra). rewrite EZ1 in RZ1. rewrite EZ2 in RZ2. set (Z' := lerp X Y t) in *.
    destruct (Qlt_le_dec 0 (br L Z')) as [K1|K1]; destruct (Qlt_le_dec 0 (br Z' H)) as [K2|K2].
    - exact (Dis Z' Zc (conj K1 K2)).
    - (* on the upper border *) assert (K3 : (br Z' H) == 0) by lra.
      assert (Go : forall V, cl V -> 0 < (br V H) -> False).
      { intros V Vc PV. destruct (small_eps (br L Z') (br L V) K1) as (e & e0 & e1 & He). apply (Dis (lerp Z' V e)); [apply Lc; try assumption; lra|]. split; [rewrite tri_lerp; apply He; lra|rewrite tri_lerp', K3]. assert (0 < e * (br V H)) by (apply mul_pp; assumption). lra. }
      destruct (Qlt_le_dec 0 (br X H)) as [PX|PX]; [exact (Go X Xc PX)|]. destruct (Qlt_le_dec 0 (br Y H)) as [PY|PY]; [exact (Go Y Yc PY)|].
      unfold Z' in K3. rewrite tri_lerp' in K3. assert (0 <= (1 - t) * - (br X H)) by (apply mul_nn; lra). assert (0 <= t * - (br Y H)) by (apply mul_nn; lra). assert (K4 : t * - (br Y H) == 0) by lra. apply Qmult_integral in K4. destruct K4 as [K4|K4]; [|lra]. rewrite K4 in K3. lra.
    - (* on the lower border *) assert (K3 : (br L Z') == 0) by lra.
      assert (Go : forall V, cl V -> 0 < (br L V) -> False).
      { intros V Vc PV. destruct (small_eps (br Z' H) (br V H) K2) as (e & e0 & e1 & He). apply (Dis (lerp Z' V e)); [apply Lc; try assumption; lra|]. split; [rewrite tri_lerp, K3|rewrite tri_lerp'; apply He; lra]. assert (0 < e * (br L V)) by (apply mul_pp; assumption). lra. }
      destruct (Qlt_le_dec 0 (br L X)) as [PX|PX]; [exact (Go X Xc PX)|]. destruct (Qlt_le_dec 0 (br L Y)) as [PY|PY]; [exact (Go Y Yc PY)|].
      unfold Z' in K3. rewrite tri_lerp in K3. assert (0 <= (1 - t) * - (br L X)) by (apply mul_nn; lra). assert (0 <= t * - (br L Y)) by (apply mul_nn; lra). assert (K4 : t * - (br L Y) == 0) by lra. apply Qmult_integral in K4. destruct K4 as [K4|K4]; [|lra]. rewrite K4 in K3. lra.
    - (* the origin *) assert (K3 : (br L Z') == 0) by lra. assert (K4 : (br Z' H) == 0) by lra. apply No.
      assert (EO : Z' =p= o).
      { unfold pteq. unfold tri2, cross, vsub in K3, K4, LH; cbn [px py] in K3, K4, LH. set (zx := px Z') in *. set (zy := py Z') in *. clearbody zx zy.
        assert (N : ~ (px L - px o) * (py H - py o) - (py L - py o) * (px H - px o) == 0) by lra.
        split.
        - assert (Q : ((px L - px o) * (py H - py o) - (py L - py o) * (px H - px o)) * (zx - px o) == 0).
          { transitivity ((px L - px o) * ((zx - px o) * (py H - py o) - (zy - py o) * (px H - px o)) + (px H - px o) * ((px L - px o) * (zy - py o) - (py L - py o) * (zx - px o))); [ring|]. rewrite K3, K4. ring. }
          apply Qmult_integral in Q. destruct Q as [Q|Q]; [contradiction|lra].
        - assert (Q : ((px L - px o) * (py H - py o) - (py L - py o) * (px H - px o)) * (zy - py o) == 0).
          { transitivity ((py L - py o) * ((zx - px o) * (py H - py o) - (zy - py o) * (px H - px o)) + (py H - py o) * ((px L - px o) * (zy - py o) - (py L - py o) * (zx - px o))); [ring|]. rewrite K3, K4. ring. }
          apply Qmult_integral in Q. destruct Q as [Q|Q]; [contradiction|lra]. }
      assert (Pr : forall U V, tri2 U V o == tri2 U V Z') by (intros U V; destruct EO as [E1 E2]; unfold tri2, cross, vsub; cbn [px py]; rewrite E1, E2; reflexivity).
      destruct Zc as (Z1 & Z2 & Z3). unfold cl. rewrite !Pr. auto. }
  set (it := mkvitem (Some f) i (Some (vsub L o, vsub H o))).
  destruct (visit_some i f ti tf L H Ei Ef) as (vs & EV & HV).
  assert (Ixs : forall s, (s < 3)%nat -> index_in (MeshModel.side ti s) ti = true).
  { intros s Hs. unfold index_in. rewrite !orb_true_iff, !Nat.eqb_eq. destruct s as [|[|[|s]]]; [left; left|left; right|right|lia]; reflexivity. }
  destruct (step_shape it vs (fun n => exists j, inv n (j :: i :: f :: tl)) EV) as (pre & P1 & P2).
  2: { exists vs, pre. split; [exact P1|]. split; [|exact P2]. intros v Iv. exfalso. destruct (HV v Iv) as ((s & Hs & Es) & NI & V & EVv & BV).
    pose proof (Ixs s Hs) as Ix. rewrite Es in Ix.
    assert (Nv : v <> p). { intros ->. destruct (edge_rot m tf sf a b (ok_ccw _ _ _ OK Ef) D1) as (c2 & _ & _ & _ & _ & _ & _ & _ & Vf & _). assert (index_in p tf = true) by (apply Vf; destruct Pab; auto). congruence. }
    destruct (Other v V Ix EVv Nv) as [N1 N2]. exact (Dis V (vx v V Ix EVv) (between_incl L H V LH N1 N2 BV)). }
  intros s Hs. apply pushes_of. intros j s' SE NF. cbn [v_to v_from it] in SE, NF.
  assert (NJ : j <> f) by congruence. destruct (new_path i f tl j s s' W F SE NJ) as [NW NFa].
  destruct SE as (ti2 & tj & x & y & Ei2 & Ej & G1 & G2). change (trg i = Some ti2) in Ei2. change (trg j = Some tj) in Ej. rewrite Ei in Ei2. injection Ei2 as <-.
  assert (Ixy : index_in x ti = true /\ index_in y ti = true).
  { destruct (edge_rot m ti s x y (ok_ccw _ _ _ OK Ei) G1) as (c2 & _ & _ & _ & _ & _ & _ & _ & Vf & _). split; apply Vf; auto. }
  destruct Ixy as [Ix Iy]. destruct (edge_rot m ti s x y (ok_ccw _ _ _ OK Ei) G1) as (_ & X & Y & _ & EX & EY & _).
  destruct (prepare_cases i f l h L H ti tj s s' x y X Y j El Eh LH Ei Ej G1 G2 EX EY) as [N|(M & P' & Q' & PQ & HPQ & PA)]; [left; exact N|right].
  assert (OX : ~ oc L H X) by (apply Dis; exact (vx x X Ix EX)). assert (OY : ~ oc L H Y) by (apply Dis; exact (vx y Y Iy EY)).
  assert (NR : new_range L H P' Q' = (vsub L o, vsub H o)) by (destruct PQ as [ [-> ->]|[-> ->] ]; apply new_range_same; assumption).
  rewrite NR, (not_left L H LH) in PA. eexists. split; [exact PA|].
  exists j. split; [exact NW|]. split; [exact NFa|]. right. exists j, i, (f :: tl), ti, tj, s, s', x, y, X, Y, l, h, L, H.
  split; [reflexivity|]. split; [right; exact IS|]. split; [reflexivity|]. repeat (split; [assumption|]). right.
  exists p, P. split; [exact Plh|]. split.
  { destruct (Nat.eq_dec p x) as [K|K]; [left; exact K|]. destruct (Nat.eq_dec p y) as [K'|K']; [right; exact K'|]. exfalso. apply (Off x y X Y Ix Iy EX EY); auto. }
  split; [exact EP|]. intros Z OZ. destruct (CV Z OZ) as (e & k & e0 & e1 & Ik & Ck). exists e, k. split; [exact e0|]. split; [exact e1|]. split; [right; exact Ik|exact Ck].
Qed.

(** ** The first step *)
Lemma start_step : good_step (get_start start) [start].
Proof.
  destruct INS as (a & b & c & A & B & C & Es & Ea & Eb & Ec & I1 & I2 & I3).
  assert (Vis : forall v, v = a \/ v = b \/ v = c -> visible_from m o start v).
  { intros v Hv. destruct Hv as [->|[->| ->]]; [exists A|exists B|exists C]; exists start, (a, b, c); (split; [assumption|split; [apply los_end|split; [assumption|]]]); [exists 0%nat|exists 1%nat|exists 2%nat]; split; [lia|reflexivity|lia|reflexivity|lia|reflexivity]. }
  assert (EV : visit direct m o (get_start start) = Some [a; b; c]) by (unfold visit, get_start; cbn [v_to v_range]; rewrite Es; reflexivity).
  destruct (step_shape (get_start start) [a; b; c] (fun n => exists j, inv n [j; start]) EV) as (pre & P1 & P2).
  2: { exists [a; b; c], pre. split; [exact P1|]. split; [|exact P2]. intros v [<-|[<-|[<-|[]]]]; apply Vis; auto. }
  intros s Hs. apply pushes_of. intros j s' SE _. cbn [v_to get_start] in SE. pose proof SE as SE0.
  destruct SE as (ti & tj & x & y & Ei & Ej & G1 & G2). change (trg start = Some ti) in Ei. change (trg j = Some tj) in Ej.
  destruct (edge_rot m ti s x y (ok_ccw _ _ _ OK Ei) G1) as (z & X & Y & Z & EX & EY & EZ & T0 & Vx & Ed & Cl & St).
  assert (In3 : 0 < tri2 X Y o /\ 0 < tri2 Y Z o /\ 0 < tri2 Z X o).
  { rewrite Es in Ei. injection Ei as <-. destruct (edge_rot m (a, b, c) s x y (ok_ccw _ _ _ OK Es) G1) as (z' & _).
    assert (Cz : z = MeshModel.side (a, b, c) ((s + 2) mod 3)).
    { destruct s as [|[|[|s]]]; [| | |lia]; cbn in G1; injection G1 as <- <-.
      - destruct (Ed 1%nat (b, c) eq_refl) as [ [K _]|[K|K] ]; [discriminate| |]; [injection K; intros; subst; reflexivity|exfalso; injection K; intros; subst; rewrite EZ in EY; injection EY as <-; revert T0; unfold tri2, cross, vsub; cbn [px py]; lra].
      - destruct (Ed 2%nat (c, a) eq_refl) as [ [K _]|[K|K] ]; [discriminate| |]; [injection K; intros; subst; reflexivity|exfalso; injection K; intros; subst; rewrite EZ in EY; injection EY as <-; revert T0; unfold tri2, cross, vsub; cbn [px py]; lra].
      - destruct (Ed 0%nat (a, b) eq_refl) as [ [K _]|[K|K] ]; [discriminate| |]; [injection K; intros; subst; reflexivity|exfalso; injection K; intros; subst; rewrite EZ in EY; injection EY as <-; revert T0; unfold tri2, cross, vsub; cbn [px py]; lra]. }
    destruct s as [|[|[|s]]]; [| | |lia]; cbn in G1, Cz; injection G1 as <- <-; subst z; same_nth; auto. }
  destruct In3 as (J1 & J2 & J3).
  assert (XY : 0 < (br X Y)) by (unfold tri2, cross, vsub in *; cbn [px py] in *; lra).
  right. exists (mkvitem (Some start) j (Some (vsub X o, vsub Y o))). split.
  - unfold prepare_adjacent_traversal, get_start. cbn [v_to v_range]. rewrite Ei, Ej.
    assert (Sh : MeshProof4.shared ti tj s) by (exists s', x, y; auto).
    pose proof (MeshProof4.adjacent_side_ok ti tj) as AS. destruct (MeshModel.get_triangle_adjacent_side ti tj) as [s2|]; [|exfalso; exact (AS s Sh)].
    destruct AS as (_ & Sh2 & _). rewrite <- (shared_unique m ti tj s s2 (ok_ccw _ _ _ OK Ei) (ok_ccw _ _ _ OK Ej) Sh Sh2) in *.
    pose proof G1 as D1s. apply MeshProof4.directed_edge_side in D1s. destruct D1s as [_ D1s]. assert (Da : x = MeshModel.side ti s) by congruence. assert (Db : y = MeshModel.side ti ((s + 1) mod 3)) by congruence.
    unfold triangle_vertex. rewrite <- Da, <- Db, EX, EY.
    assert (Cr : cross (vsub Y X) (vsub o X) == tri2 X Y o) by (unfold tri2, cross, vsub; cbn [px py]; ring).
    destruct (Qltb_spec (cross (vsub Y X) (vsub o X)) 0) as [K|K]; [lra|].
    unfold next_range. destruct (o_not_vertex x y X Y EX EY ltac:(lra)) as [-> ->]. cbn [negb andb].
    assert (E : get_orientation_v direct (vsub Y o) (vsub X o) = oriented_right).
    { apply orientation_direct_v. change ((br Y X) < 0). rewrite (br_anti o X Y). lra. }
    rewrite E. reflexivity.
  - exists j. assert (Lj : (j < length (vm_tris m))%nat) by (apply nth_error_Some; congruence). assert (Ls : (start < length (vm_tris m))%nat) by (apply nth_error_Some; congruence).
    split; [apply walk_two; exists s, s'; exact SE0|]. split; [constructor; [exact Lj|constructor; [exact Ls|constructor]]|]. right.
    exists j, start, [], ti, tj, s, s', x, y, X, Y, x, y, X, Y. split; [reflexivity|]. split; [left; reflexivity|]. split; [reflexivity|]. repeat (split; [assumption|]). left.
    pose proof (br_same o X) as S1. pose proof (br_same o Y) as S2. pose proof (tri2_cases X Y Y) as (_ & _ & _ & _ & _ & _ & _ & U1). assert (U2 : tri2 X Y X == 0) by (unfold tri2, cross, vsub; cbn [px py]; ring).
    assert (U3 : tri2 X Y Y == 0) by (unfold tri2, cross, vsub; cbn [px py]; ring).
    repeat (split; [lra|]). split.
    + intros V V1 V2 V3. exists start. split; [left; reflexivity|]. apply Cl; [exact Ei|exact V3| |]; apply (nonneg_div (br X Y) _ XY).
      * assert (E : (br X Y) * tri2 Y Z V == tri2 X Y V * tri2 Y Z o + (br V Y) * tri2 Y Z X) by (unfold tri2, cross, vsub; cbn [px py]; ring). rewrite E.
        pose proof (tri2_cases X Y Z). assert (0 <= tri2 X Y V * tri2 Y Z o) by (apply mul_nn; lra). assert (0 <= (br V Y) * tri2 Y Z X) by (apply mul_nn; lra). lra.
      * assert (E : (br X Y) * tri2 Z X V == tri2 X Y V * tri2 Z X o + (br X V) * tri2 Z X Y) by (unfold tri2, cross, vsub; cbn [px py]; ring). rewrite E.
        pose proof (tri2_cases X Y Z). assert (0 <= tri2 X Y V * tri2 Z X o) by (apply mul_nn; lra). assert (0 <= (br X V) * tri2 Z X Y) by (apply mul_nn; lra). lra.
    + intros V [V1 V2] V3. destruct (crossing_point o X Y V XY V1 V2 V3) as [C1 C2]. eapply los_step; [exact SE0|exact Ei|exact G1|exact EX|exact EY|exact C1|exact C2|apply los_end].
Qed.

Lemma inv_step : forall it path, inv it path -> good_step it path.
Proof.
  intros it path (W & F & [[-> ->]|(i & f & tl & tf & ti & sf & si & a & b & A & B & l & h & L & H & -> & IS & -> & El & Eh & LH & Ef & Ei & D1 & D2 & Ea & Eb & [P|T])]).
  - exact start_step.
  - exact (proper_step i f tl tf ti sf si a b A B l h L H W F IS El Eh LH Ef Ei D1 D2 Ea Eb P).
  - exact (touch_step i f tl tf ti sf si a b A B l h L H W F IS El Eh LH Ef Ei D1 D2 Ea Eb T).
Qed.

(** ** The whole search *)
Definition runs (its : list vitem) : Prop :=
  exists k vs, (forall fuel rest acc, search_loop (k + fuel) direct norm m o (its ++ rest) acc = search_loop fuel direct norm m o rest (acc ++ vs)) /\ forall v, In v vs -> visible_from m o start v.
Lemma runs_nil : runs [].
Proof. exists 0%nat, []. split; [intros; rewrite app_nil_r; reflexivity|intros v []]. Qed.
Lemma runs_app : forall l1 l2, runs l1 -> runs l2 -> runs (l1 ++ l2).
Proof.
  intros l1 l2 (k1 & v1 & E1 & G1) (k2 & v2 & E2 & G2). exists (k1 + k2)%nat, (v1 ++ v2). split.
  - intros fuel rest acc. rewrite <- app_assoc, <- Nat.add_assoc, E1, E2, app_assoc. reflexivity.
  - intros v I. apply in_app_or in I. destruct I; auto.
Qed.
Lemma runs_all : forall l, (forall n, In n l -> runs [n]) -> runs l.
Proof. induction l as [|n l IH]; intro H; [exact runs_nil|]. apply (runs_app [n] l); [apply H; left; reflexivity|apply IH; intros; apply H; right; assumption]. Qed.
Lemma path_length : forall it path, inv it path -> (length path <= length (vm_tris m))%nat.
Proof.
  intros it path (W & F & _). rewrite <- (seq_length (length (vm_tris m)) 0). apply NoDup_incl_length; [exact (NC _ W)|].
  intros i I. apply in_seq. rewrite Forall_forall in F. specialize (F i I). lia.
Qed.
Lemma inv_runs : forall d it path, inv it path -> (length (vm_tris m) - length path <= d)%nat -> runs [it].
Proof.
  induction d as [|d IH]; intros it path I D; destruct (inv_step it path I) as (vs & pre & E & G & N).
  - destruct pre as [|n pre].
    + exists 1%nat, vs. split; [|exact G]. intros fuel rest acc. cbn [app Nat.add search_loop]. rewrite E. reflexivity.
    + exfalso. destruct (N n (or_introl eq_refl)) as [j J]. apply path_length in J. cbn [length] in J. lia.
  - assert (R : runs pre). { apply runs_all. intros n In'. destruct (N n In') as [j J]. apply (IH n (j :: path) J). cbn [length]. lia. }
    destruct R as (k & v2 & E2 & G2). exists (S k), (vs ++ v2). split.
    + intros fuel rest acc. cbn [app Nat.add search_loop]. rewrite E, E2, app_assoc. reflexivity.
    + intros v Iv. apply in_app_or in Iv. destruct Iv; auto.
Qed.
Lemma search_sound : exists k vs, (forall fuel, (k <= fuel)%nat -> visible_vertices fuel direct norm m o start = Found vs) /\ forall v, In v vs -> visible_from m o start v.
Proof.
  assert (I : inv (get_start start) [start]).
  { destruct INS as (a & b & c & A & B & C & Es & _). assert (Ls : (start < length (vm_tris m))%nat) by (apply nth_error_Some; congruence).
    split; [constructor|]. split; [constructor; [exact Ls|constructor]|]. left. auto. }
  destruct (inv_runs _ _ _ I (le_n _)) as (k & vs & E & G). exists k, vs. split; [|exact G]. intros fuel Hf.
  unfold visible_vertices. replace fuel with (k + (fuel - k))%nat by lia. change [get_start start] with ([get_start start] ++ []). rewrite E. destruct (fuel - k)%nat; reflexivity.
Qed.
End Search.
