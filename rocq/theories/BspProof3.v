(** Locating points, and the painter's order. *)
From Verif Require Import Base CmpModel OrientModel OrientSpec OrientProof DistSpec LinIntModel LinIntSpec PolygonModel PolygonSpec PolygonProof PolygonConvexProof BspModel BspSpec BspProof BspProof2.
From Coq Require Import Lia Sorting.Permutation Sorting.Sorted.

(** ** Painter's order *)
Lemma painters_perm : forall t P, off_splits t P -> Permutation (painters_traversal direct t P) (stored t).
Proof.
  induction t as [|s edges pos IHP neg IHN]; intros P H; [constructor|]. destruct H as (N & HP & HN). pose proof (orient_side s P) as O.
  specialize (IHP P HP). specialize (IHN P HN).
  assert (G : Permutation match get_orientation direct (fst s) (snd s) P with
    | oriented_left => painters_traversal direct neg P ++ edges ++ painters_traversal direct pos P
    | oriented_right => painters_traversal direct pos P ++ edges ++ painters_traversal direct neg P
    | oriented_collinear => painters_traversal direct pos P ++ painters_traversal direct neg P end (edges ++ stored pos ++ stored neg)).
  { destruct (get_orientation direct (fst s) (snd s) P); try lra; [|].
    - etransitivity; [apply Permutation_app_swap_app|]. apply Permutation_app_head, Permutation_app; assumption.
    - etransitivity; [apply Permutation_app_comm|]. rewrite <- app_assoc. apply Permutation_app_head, Permutation_app; assumption. }
  cbn [painters_traversal stored]. destruct pos, neg; try exact G. cbn. rewrite app_nil_r. reflexivity.
Qed.
Lemma ordered_app : forall (R : seg -> seg -> Prop) l m, StronglySorted R l -> StronglySorted R m -> (forall a b, In a l -> In b m -> R a b) -> StronglySorted R (l ++ m).
Proof.
  intros R l m HL HM H. induction HL as [|a l HL IH F]; [exact HM|]. cbn [app]. constructor; [apply IH; intros; apply H; [right|]; assumption|].
  apply Forall_app. split; [exact F|]. apply Forall_forall. intros b B. apply H; [left; reflexivity|exact B].
Qed.
Lemma ordered_all : forall (R : seg -> seg -> Prop) l, (forall a b, In a l -> In b l -> R a b) -> StronglySorted R l.
Proof.
  intros R l H. induction l as [|a l IH]; constructor; [apply IH; intros; apply H; right; assumption|]. apply Forall_forall. intros b B. apply H; [left; reflexivity|right; exact B].
Qed.
Lemma painters_order : forall t P, partitioned t -> off_splits t P -> StronglySorted (before P) (painters_traversal direct t P).
Proof.
  induction t as [|s edges pos IHP neg IHN]; intros P PT OF; [constructor|]. destruct OF as (N & OP & ON). destruct PT as (PS & HE & HP & HN & PP & PN).
  specialize (IHP P PP OP). specialize (IHN P PN ON). pose proof (painters_perm pos P OP) as MP. pose proof (painters_perm neg P ON) as MN. pose proof (orient_side s P) as O.
  assert (EE : StronglySorted (before P) edges).
  { apply ordered_all. intros a b A B X Y X1 Y1. apply (sides_order s); [exact N| |]; rewrite (HE a X A X1), (HE b Y B Y1); intros; lra. }
  assert (G : StronglySorted (before P) match get_orientation direct (fst s) (snd s) P with
    | oriented_left => painters_traversal direct neg P ++ edges ++ painters_traversal direct pos P
    | oriented_right => painters_traversal direct pos P ++ edges ++ painters_traversal direct neg P
    | oriented_collinear => painters_traversal direct pos P ++ painters_traversal direct neg P end).
  { destruct (get_orientation direct (fst s) (snd s) P); try lra; [|].
    - apply ordered_app; [exact IHP|apply ordered_app; [exact EE|exact IHN|]|].
      + intros a b A B X Y X1 Y1. apply (Permutation_in _ MN) in B. pose proof (HE a X A X1). pose proof (HN b Y B Y1). apply (sides_order s); [exact N| |]; intros; lra.
      + intros a b A B X Y X1 Y1. apply (Permutation_in _ MP) in A. pose proof (HP a X A X1). apply in_app_or in B. destruct B as [B|B].
        * pose proof (HE b Y B Y1). apply (sides_order s); [exact N| |]; intros; lra.
        * apply (Permutation_in _ MN) in B. pose proof (HN b Y B Y1). apply (sides_order s); [exact N| |]; intros; lra.
    - apply ordered_app; [exact IHN|apply ordered_app; [exact EE|exact IHP|]|].
      + intros a b A B X Y X1 Y1. apply (Permutation_in _ MP) in B. pose proof (HE a X A X1). pose proof (HP b Y B Y1). apply (sides_order s); [exact N| |]; intros; lra.
      + intros a b A B X Y X1 Y1. apply (Permutation_in _ MN) in A. pose proof (HN a X A X1). apply in_app_or in B. destruct B as [B|B].
        * pose proof (HE b Y B Y1). apply (sides_order s); [exact N| |]; intros; lra.
        * apply (Permutation_in _ MP) in B. pose proof (HP b Y B Y1). apply (sides_order s); [exact N| |]; intros; lra. }
  cbn [painters_traversal]. destruct pos, neg; try exact G. exact EE.
Qed.

(** ** Points on no segment *)
Definition mid (s : seg) : pt := lerp (fst s) (snd s) (1 # 2).
Lemma side_mid : forall a s, side a (mid s) == (1 # 2) * (side a (fst s) + side a (snd s)).
Proof. intros. unfold mid. rewrite side_lerp. ring. Qed.
Lemma piece_side : forall a e r, piece_of e r -> exists u v, 0 <= u /\ u < v /\ v <= 1 /\ side a (fst e) == side a (fst r) + u * (side a (snd r) - side a (fst r)) /\ side a (snd e) == side a (fst r) + v * (side a (snd r) - side a (fst r)).
Proof. intros a e r (u & v & U & UV & V & E1 & E2). exists u, v. rewrite (side_pteq a _ _ E1), (side_pteq a _ _ E2), !side_lerp. repeat split; try assumption; reflexivity. Qed.
Lemma piece_front : forall a e r, piece_of e r -> in_front a r -> 0 < side a (mid e).
Proof.
  intros a e r P (F1 & F2 & F3). destruct (piece_side a e r P) as (u & v & U & UV & V & E1 & E2). rewrite side_mid, E1, E2.
  set (p := side a (fst r)) in *. set (q := side a (snd r)) in *. assert (W : 0 < (1 # 2) * (u + v) < 1) by lra. set (w := (1 # 2) * (u + v)) in *.
  assert (0 <= w * q) by (apply Qmult_le_0_compat; lra). assert (0 <= (1 - w) * p) by (apply Qmult_le_0_compat; lra).
  assert (K : (1 # 2) * (p + u * (q - p) + (p + v * (q - p))) == (1 - w) * p + w * q) by (unfold w; ring). rewrite K.
  destruct (Qlt_le_dec 0 p); [assert (0 < (1 - w) * p) by (apply Qmult_lt_0_compat; lra); lra|assert (0 < w * q) by (apply Qmult_lt_0_compat; lra); lra].
Qed.
Lemma side_neg : forall a e, behind a e -> in_front (snd a, fst a) e.
Proof. intros [a1 a2] e (B1 & B2 & B3). unfold in_front. assert (K : forall X, side (a2, a1) X == - side (a1, a2) X) by (intro; unfold side, tri2, cross, vsub; cbn [fst snd px py]; ring). cbn [fst snd]. rewrite !K. lra. Qed.
Lemma piece_behind : forall a e r, piece_of e r -> behind a r -> side a (mid e) < 0.
Proof.
  intros a e r P B. pose proof (piece_front _ e r P (side_neg _ _ B)) as F. assert (K : forall X, side (snd a, fst a) X == - side a X) by (intro; unfold side, tri2, cross, vsub; cbn [fst snd px py]; ring). rewrite K in F. lra.
Qed.
Lemma side_self_mid : forall s, side s (mid s) == 0.
Proof. intro s. rewrite side_mid. unfold side, tri2, cross, vsub. cbn [px py]. ring. Qed.
Definition clear (range : list seg) (P X : pt) : Prop := forall u, 0 < u <= 1 -> ~ on_any range (lerp P X u).

Lemma lerp_1 : forall P X, lerp P X 1 =p= X.
Proof. intros. split; unfold lerp, vadd, vscale, vsub; cbn [px py]; ring. Qed.
Lemma on_any_pteq : forall l X Y, X =p= Y -> on_any l X -> on_any l Y.
Proof. intros l X Y [E1 E2] (s & I & t & T & F1 & F2). exists s. split; [exact I|]. exists t. split; [exact T|]. split; [rewrite <- E1; exact F1|rewrite <- E2; exact F2]. Qed.

Lemma clear_pos : forall range s edges rp rn P X, ~ on_any range X -> (forall e, In e edges -> along s e) -> (forall e, In e rn -> behind s e) ->
  (forall X, on_any range X <-> on_any edges X \/ on_any rp X \/ on_any rn X) -> 0 < side s P -> 0 <= side s X -> clear rp P X -> clear range P X.
Proof.
  intros range s edges rp rn P X NX HE HN HA SP SX C u U H. destruct (Qeq_dec u 1) as [EU|NU].
  { apply NX. refine (on_any_pteq _ _ _ _ H). destruct (lerp_1 P X) as [L1 L2]. unfold lerp, vadd, vscale, vsub in *. cbn [px py] in *. split; cbn [px py]; rewrite EU; assumption. }
  assert (0 < side s (lerp P X u)). { rewrite side_lerp. assert (0 < (1 - u) * side s P) by (apply Qmult_lt_0_compat; lra). assert (0 <= u * side s X) by (apply Qmult_le_0_compat; lra). lra. }
  apply HA in H. destruct H as [(e & I & O)|[H|(e & I & O)]].
  - pose proof (along_on _ _ _ (HE e I) O). lra.
  - exact (C u U H).
  - pose proof (behind_on _ _ _ (HN e I) O). lra.
Qed.
Lemma clear_neg : forall range s edges rp rn P X, ~ on_any range X -> (forall e, In e edges -> along s e) -> (forall e, In e rp -> in_front s e) ->
  (forall X, on_any range X <-> on_any edges X \/ on_any rp X \/ on_any rn X) -> side s P < 0 -> side s X <= 0 -> clear rn P X -> clear range P X.
Proof.
  intros range s edges rp rn P X NX HE HN HA SP SX C u U H. destruct (Qeq_dec u 1) as [EU|NU].
  { apply NX. refine (on_any_pteq _ _ _ _ H). destruct (lerp_1 P X) as [L1 L2]. unfold lerp, vadd, vscale, vsub in *. cbn [px py] in *. split; cbn [px py]; rewrite EU; assumption. }
  assert (side s (lerp P X u) < 0). { rewrite side_lerp. assert (0 < (1 - u) * - side s P) by (apply Qmult_lt_0_compat; lra). assert (0 <= u * - side s X) by (apply Qmult_le_0_compat; lra). lra. }
  apply HA in H. destruct H as [(e & I & O)|[(e & I & O)|H]].
  - pose proof (along_on _ _ _ (HE e I) O). lra.
  - pose proof (front_on _ _ _ (HN e I) O). lra.
  - exact (C u U H).
Qed.

Definition settles (range : list seg) (X : pt) (l : location) : Prop :=
  match l with
  | e_inside => exists s r, In r range /\ piece_of s r /\ 0 < side s X /\ clear range (mid s) X
  | e_outside => exists s r, In r range /\ piece_of s r /\ side s X < 0 /\ clear range (mid s) X
  | e_boundary => exists s r, In r range /\ piece_of s r /\ side s X == 0
  end.
Lemma settles_pos : forall range s edges rp rn X l, ~ on_any range X -> (forall e, In e edges -> along s e) -> (forall e, In e rn -> behind s e) ->
  (forall e, In e rp -> in_front s e /\ exists r, In r range /\ piece_of e r) ->
  (forall X, on_any range X <-> on_any edges X \/ on_any rp X \/ on_any rn X) -> 0 <= side s X -> settles rp X l -> settles range X l.
Proof.
  intros range s edges rp rn X l NX HE HN HP HA SX. destruct l; cbn [settles]; intros (a & r & R & P & S).
  - destruct (HP r R) as (F & r' & R' & P'). exists a, r'. split; [exact R'|]. split; [exact (piece_trans _ _ _ P P')|]. split; [tauto|]. refine (clear_pos _ s edges rp rn _ _ NX HE HN HA (piece_front _ _ _ P F) SX _). tauto.
  - destruct (HP r R) as (F & r' & R' & P'). exists a, r'. split; [exact R'|]. split; [exact (piece_trans _ _ _ P P')|]. split; [tauto|]. refine (clear_pos _ s edges rp rn _ _ NX HE HN HA (piece_front _ _ _ P F) SX _). tauto.
  - destruct (HP r R) as (F & r' & R' & P'). exists a, r'. split; [exact R'|]. split; [exact (piece_trans _ _ _ P P')|exact S].
Qed.
Lemma settles_neg : forall range s edges rp rn X l, ~ on_any range X -> (forall e, In e edges -> along s e) -> (forall e, In e rp -> in_front s e) ->
  (forall e, In e rn -> behind s e /\ exists r, In r range /\ piece_of e r) ->
  (forall X, on_any range X <-> on_any edges X \/ on_any rp X \/ on_any rn X) -> side s X <= 0 -> settles rn X l -> settles range X l.
Proof.
  intros range s edges rp rn X l NX HE HP HN HA SX. destruct l; cbn [settles]; intros (a & r & R & P & S).
  - destruct (HN r R) as (F & r' & R' & P'). exists a, r'. split; [exact R'|]. split; [exact (piece_trans _ _ _ P P')|]. split; [tauto|]. refine (clear_neg _ s edges rp rn _ _ NX HE HP HA (piece_behind _ _ _ P F) SX _). tauto.
  - destruct (HN r R) as (F & r' & R' & P'). exists a, r'. split; [exact R'|]. split; [exact (piece_trans _ _ _ P P')|]. split; [tauto|]. refine (clear_neg _ s edges rp rn _ _ NX HE HP HA (piece_behind _ _ _ P F) SX _). tauto.
  - destruct (HN r R) as (F & r' & R' & P'). exists a, r'. split; [exact R'|]. split; [exact (piece_trans _ _ _ P P')|exact S].
Qed.

Lemma locate_settles : forall t range, holds t range -> t <> Null -> forall X, ~ on_any range X -> exists l, locate_point direct t X = Some l /\ settles range X l.
Proof.
  intros t range H. induction H as [|s edges pos neg range rp rn PS PR SP IS HE HP HN HA HoP IHP HoN IHN]; intros NN X NX; [congruence|].
  assert (HE' : forall e, In e edges -> along s e) by (intros e I; exact (proj1 (HE e I))).
  assert (HP' : forall e, In e rp -> in_front s e) by (intros e I; exact (proj1 (HP e I))).
  assert (HN' : forall e, In e rn -> behind s e) by (intros e I; exact (proj1 (HN e I))).
  assert (NP : ~ on_any rp X) by (intro A; apply NX, HA; tauto). assert (NNg : ~ on_any rn X) by (intro A; apply NX, HA; tauto).
  destruct SP as (r0 & R0 & P0).
  assert (STOPP : pos = Null -> 0 < side s X -> settles range X e_inside).
  { intros -> S. exists s, r0. split; [exact R0|]. split; [exact P0|]. split; [exact S|]. intros u U H.
    assert (0 < side s (lerp (mid s) X u)). { rewrite side_lerp, side_self_mid. assert (0 < u * side s X) by (apply Qmult_lt_0_compat; lra). lra. }
    apply HA in H. inversion HoP; subst rp. destruct H as [(e & I & O)|[H|(e & I & O)]]; [pose proof (along_on _ _ _ (HE' e I) O); lra|exact (on_any_nil _ H)|pose proof (behind_on _ _ _ (HN' e I) O); lra]. }
  assert (STOPN : neg = Null -> side s X < 0 -> settles range X e_outside).
  { intros -> S. exists s, r0. split; [exact R0|]. split; [exact P0|]. split; [exact S|]. intros u U H.
    assert (side s (lerp (mid s) X u) < 0). { rewrite side_lerp, side_self_mid. assert (0 < u * - side s X) by (apply Qmult_lt_0_compat; lra). lra. }
    apply HA in H. inversion HoN; subst rn. destruct H as [(e & I & O)|[(e & I & O)|H]]; [pose proof (along_on _ _ _ (HE' e I) O); lra|pose proof (front_on _ _ _ (HP' e I) O); lra|exact (on_any_nil _ H)]. }
  assert (GOP : pos <> Null -> 0 <= side s X -> exists l, locate_point direct pos X = Some l /\ settles range X l).
  { intros N S. destruct (IHP N X NP) as (l & E & ST). exists l. split; [exact E|]. exact (settles_pos _ s edges rp rn X l NX HE' HN' HP HA S ST). }
  assert (GON : neg <> Null -> side s X <= 0 -> exists l, locate_point direct neg X = Some l /\ settles range X l).
  { intros N S. destruct (IHN N X NNg) as (l & E & ST). exists l. split; [exact E|]. exact (settles_neg _ s edges rp rn X l NX HE' HP' HN HA S ST). }
  cbn [locate_point]. pose proof (orient_side s X) as O. destruct (get_orientation direct (fst s) (snd s) X).
  - destruct neg; [exists e_outside; split; [reflexivity|apply STOPN; [reflexivity|exact O]]|]. apply GON; [discriminate|lra].
  - destruct (existsb (fun s0 => is_between direct (fst s0) (snd s0) X true) edges).
    { exists e_boundary. split; [reflexivity|]. exists s, r0. auto. }
    destruct pos; [destruct neg|].
    + exists e_boundary. split; [reflexivity|]. exists s, r0. auto.
    + apply GON; [discriminate|lra].
    + apply GOP; [discriminate|lra].
  - destruct pos; [exists e_inside; split; [reflexivity|apply STOPP; [reflexivity|exact O]]|]. apply GOP; [discriminate|lra].
Qed.

Lemma piece_side_scale : forall e r X, piece_of e r -> exists k, 0 < k /\ side e X == k * side r X.
Proof.
  intros e r X (u & v & U & UV & V & [E1 E1'] & [E2 E2']). exists (v - u). split; [lra|]. unfold side, tri2, cross, vsub, lerp, vadd, vscale, vsub in *. cbn [px py] in *. rewrite E1, E1', E2, E2'. ring.
Qed.
Lemma mid_inside : forall e r, piece_of e r -> inside_segment (fst r) (snd r) (mid e).
Proof.
  intros e r (u & v & U & UV & V & [E1 E1'] & [E2 E2']). exists ((1 # 2) * (u + v)). split; [lra|]. unfold mid, lerp, vadd, vscale, vsub in *. cbn [px py] in *. split; cbn [px py]; [rewrite E1, E2|rewrite E1', E2']; ring.
Qed.
Lemma settles_region : forall range S X l, left_of_boundary range S -> settles range X l -> match l with e_inside => S X | e_outside => ~ S X | e_boundary => exists r, In r range /\ side r X == 0 end.
Proof.
  intros range S X l LB. destruct l; intros (s & r & R & P & H).
  - destruct H as [H C]. destruct (piece_side_scale s r X P) as (k & K & E). destruct (LB r (mid s) X R (mid_inside _ _ P) C) as [G _]. apply G. destruct (Qlt_le_dec 0 (side r X)) as [L|L]; [exact L|]. exfalso. assert (0 <= k * - side r X) by (apply Qmult_le_0_compat; lra). lra.
  - destruct H as [H C]. destruct (piece_side_scale s r X P) as (k & K & E). destruct (LB r (mid s) X R (mid_inside _ _ P) C) as [_ G]. apply G. destruct (Qlt_le_dec (side r X) 0) as [L|L]; [exact L|]. exfalso. assert (0 <= k * side r X) by (apply Qmult_le_0_compat; lra). lra.
  - exists r. split; [exact R|]. destruct (piece_side_scale s r X P) as (k & K & E). rewrite H in E. symmetry in E. destruct (Qmult_integral _ _ E); [lra|assumption].
Qed.
