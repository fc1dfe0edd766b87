(** Moving shapes. *)
From Verif Require Import Base CmpModel OrientModel OrientSpec OrientProof DistModel DistSpec DistProof BoxIntModel BoxIntSpec ZonoProof PolygonModel PolygonSpec PolygonProof PolygonConvexProof SatModel SatSpec SatProof SatProof2.

Definition window (s : Q * time) (t : Q) : Prop := fst s <= t /\ no_later t (snd s).
Definition live (tmax : Q) (s : Q * time) : Prop := 0 <= fst s <= tmax /\ no_later (fst s) (snd s).

Lemma inv_pos : forall a sp, 0 < sp -> exists u, a * (1 / sp) = u /\ u * sp == a.
Proof. intros a sp P. exists (a * (1 / sp)). split; [reflexivity|field; lra]. Qed.
Lemma inv_neg : forall a sp, sp < 0 -> exists u, a * (1 / sp) = u /\ u * sp == a.
Proof. intros a sp P. exists (a * (1 / sp)). split; [reflexivity|field; lra]. Qed.
Lemma le_pos : forall a sp u t, 0 < sp -> u * sp == a -> (u <= t <-> a <= sp * t) /\ (t <= u <-> sp * t <= a).
Proof.
  intros a sp u t P E. assert (R : forall x y, x * sp <= y * sp <-> x <= y) by (intros; apply Qmult_le_r; exact P).
  pose proof (R u t). pose proof (R t u). assert (C : sp * t == t * sp) by ring. split; [rewrite <- H|rewrite <- H0]; split; intro; lra.
Qed.
Lemma le_neg : forall a sp u t, sp < 0 -> u * sp == a -> (u <= t <-> sp * t <= a) /\ (t <= u <-> a <= sp * t).
Proof.
  intros a sp u t P E. assert (P' : 0 < - sp) by lra. assert (E' : u * (- sp) == - a) by lra. destruct (le_pos (- a) (- sp) u t P' E') as [A B].
  rewrite A, B. split; split; intro; lra.
Qed.
Lemma no_intersect_ok : forall tmax sp min1 max1 min2 max2 s, live tmax s -> min1 <= max1 -> min2 <= max2 ->
  match no_intersect tmax sp min1 max1 min2 max2 s with
  | Some s' => live tmax s' /\ forall t, 0 <= t -> (window s' t <-> window s t /\ min1 <= max2 + sp * t /\ min2 + sp * t <= max1)
  | None => forall t, 0 <= t <= tmax -> window s t -> ~ (min1 <= max2 + sp * t /\ min2 + sp * t <= max1)
  end.
Proof.
  intros tmax sp min1 max1 min2 max2 [tf tl] [[L1 L2] L3] M1 M2. cbn [fst snd] in *. unfold no_intersect, live, window, no_later, t_less, t_greater in *.
  assert (SPT : forall t, 0 <= t -> 0 <= sp -> 0 <= sp * t) by (intros; apply Qmult_le_0_compat; assumption).
  assert (SNT : forall t, 0 <= t -> sp <= 0 -> sp * t <= 0) by (intros t T N; assert (0 <= (- sp) * t) by (apply Qmult_le_0_compat; lra); lra).
  destruct (Qltb_spec max2 min1) as [B1|B1].
  { destruct (Qleb_spec sp 0) as [S|S].
    - intros t [T _] _ [H _]. specialize (SNT t T S). lra.
    - assert (P : 0 < sp) by lra. destruct (inv_pos (min1 - max2) sp P) as (u & -> & U). destruct (inv_pos (max1 - min2) sp P) as (w & -> & W).
      assert (KU : forall t, (u <= t <-> min1 - max2 <= sp * t)) by (intro; apply (le_pos _ _ _ _ P U)).
      assert (KW : forall t, (t <= w <-> sp * t <= max1 - min2)) by (intro; apply (le_pos _ _ _ _ P W)).
      set (tf' := if Qltb tf u then u else tf). assert (TF : forall t, tf' <= t <-> tf <= t /\ u <= t) by (intro t; unfold tf'; destruct (Qltb_spec tf u); split; intro; lra).
      assert (TF0 : 0 <= tf') by (unfold tf'; destruct (Qltb_spec tf u); lra).
      destruct (Qltb_spec tmax tf') as [X|X].
      + intros t [T0 T1] [T2 _] [H1 H2]. assert (tf' <= t) by (apply TF; split; [exact T2|apply KU; lra]). lra.
      + set (tl' := if match tl with Some v => Qltb w v | None => true end then Some w else tl).
        assert (TL : forall t, no_later t tl' <-> no_later t tl /\ t <= w).
        { intro t. unfold tl', no_later. destruct tl as [v|]; [destruct (Qltb_spec w v)|]; split; intro; try split; try exact I; try (destruct H; assumption); try lra. }
        assert (G : (match tl' with Some v => Qltb v tf' | None => false end = true) <-> ~ no_later tf' tl').
        { unfold no_later. destruct tl' as [v|]; [destruct (Qltb_spec v tf'); split; intro; (lra || congruence || reflexivity)|split; [discriminate|tauto]]. }
        assert (MONO : forall a b, a <= b -> no_later b tl' -> no_later a tl') by (intros a b AB; unfold no_later; destruct tl'; [lra|tauto]).
        destruct (match tl' with Some v => Qltb v tf' | None => false end).
        * intros t [T0 T1] [T2 T3] [H1 H2]. apply G; [reflexivity|]. apply (MONO tf' t); [apply TF; split; [exact T2|apply KU; lra]|]. apply TL. split; [exact T3|apply KW; lra].
        * split; [split; [cbn [fst]; lra|]|].
          -- cbn [fst snd]. destruct tl' as [v|]; [|exact I]. unfold no_later in G. destruct (Qlt_le_dec v tf') as [Y|Y]; [exfalso; assert (false = true) by (apply G; lra); discriminate|exact Y].
          -- intros t T. cbn [fst snd]. fold (no_later t tl'). fold (no_later t tl). rewrite TF, TL, KU, KW. split; [intros ((A1 & A2) & A3 & A4)|intros ((A1 & A2) & A3 & A4)]; repeat split; try assumption; lra. }
  destruct (Qltb_spec max1 min2) as [B2|B2].
  { destruct (Qleb_spec 0 sp) as [S|S].
    - intros t [T _] _ [_ H]. specialize (SPT t T S). lra.
    - assert (P : sp < 0) by lra. destruct (inv_neg (max1 - min2) sp P) as (u & -> & U). destruct (inv_neg (min1 - max2) sp P) as (w & -> & W).
      assert (KU : forall t, (u <= t <-> sp * t <= max1 - min2)) by (intro; apply (le_neg _ _ _ _ P U)).
      assert (KW : forall t, (t <= w <-> min1 - max2 <= sp * t)) by (intro; apply (le_neg _ _ _ _ P W)).
      set (tf' := if Qltb tf u then u else tf). assert (TF : forall t, tf' <= t <-> tf <= t /\ u <= t) by (intro t; unfold tf'; destruct (Qltb_spec tf u); split; intro; lra).
      assert (TF0 : 0 <= tf') by (unfold tf'; destruct (Qltb_spec tf u); lra).
      destruct (Qltb_spec tmax tf') as [X|X].
      + intros t [T0 T1] [T2 _] [H1 H2]. assert (tf' <= t) by (apply TF; split; [exact T2|apply KU; lra]). lra.
      + set (tl' := if match tl with Some v => Qltb w v | None => true end then Some w else tl).
        assert (TL : forall t, no_later t tl' <-> no_later t tl /\ t <= w).
        { intro t. unfold tl', no_later. destruct tl as [v|]; [destruct (Qltb_spec w v)|]; split; intro; try split; try exact I; try (destruct H; assumption); try lra. }
        assert (G : (match tl' with Some v => Qltb v tf' | None => false end = true) <-> ~ no_later tf' tl').
        { unfold no_later. destruct tl' as [v|]; [destruct (Qltb_spec v tf'); split; intro; (lra || congruence || reflexivity)|split; [discriminate|tauto]]. }
        assert (MONO : forall a b, a <= b -> no_later b tl' -> no_later a tl') by (intros a b AB; unfold no_later; destruct tl'; [lra|tauto]).
        destruct (match tl' with Some v => Qltb v tf' | None => false end).
        * intros t [T0 T1] [T2 T3] [H1 H2]. apply G; [reflexivity|]. apply (MONO tf' t); [apply TF; split; [exact T2|apply KU; lra]|]. apply TL. split; [exact T3|apply KW; lra].
        * split; [split; [cbn [fst]; lra|]|].
          -- cbn [fst snd]. destruct tl' as [v|]; [|exact I]. unfold no_later in G. destruct (Qlt_le_dec v tf') as [Y|Y]; [exfalso; assert (false = true) by (apply G; lra); discriminate|exact Y].
          -- intros t T. cbn [fst snd]. fold (no_later t tl'). fold (no_later t tl). rewrite TF, TL, KU, KW. split; [intros ((A1 & A2) & A3 & A4)|intros ((A1 & A2) & A3 & A4)]; repeat split; try assumption; lra. }
  assert (FIN : forall w, (forall t, 0 <= t -> (t <= w <-> min1 <= max2 + sp * t /\ min2 + sp * t <= max1)) ->
    match (if match (if match tl with Some v => Qltb w v | None => true end then Some w else tl) with Some v => Qltb v tf | None => false end then None else Some (tf, if match tl with Some v => Qltb w v | None => true end then Some w else tl)) with
    | Some s' => (0 <= fst s' <= tmax /\ match snd s' with Some v => fst s' <= v | None => True end) /\ (forall t, 0 <= t -> (fst s' <= t /\ match snd s' with Some v => t <= v | None => True end <-> (tf <= t /\ match tl with Some v => t <= v | None => True end) /\ min1 <= max2 + sp * t /\ min2 + sp * t <= max1))
    | None => forall t, 0 <= t <= tmax -> tf <= t /\ match tl with Some v => t <= v | None => True end -> ~ (min1 <= max2 + sp * t /\ min2 + sp * t <= max1) end).
  { intros w K.
    assert (TL : forall t, match (if match tl with Some v => Qltb w v | None => true end then Some w else tl) with Some v => t <= v | None => True end <-> match tl with Some v => t <= v | None => True end /\ t <= w).
    { intro t. destruct tl as [v|]; [destruct (Qltb_spec w v)|]; split; intro; try split; try exact I; try (destruct H; assumption); try lra. }
    destruct (if match tl with Some v => Qltb w v | None => true end then Some w else tl) as [v'|].
    - destruct (Qltb_spec v' tf) as [Y|Y].
      + intros t [T0 T1] [T2 T3] H. apply K in H; [|exact T0]. assert (t <= v') by (apply TL; tauto). lra.
      + cbn [fst snd]. split; [split; [split|]; assumption|]. intros t T. rewrite TL, (K t T). tauto.
    - cbn [fst snd]. split; [split; [split|exact I]; assumption|]. intros t T. rewrite TL, (K t T). tauto. }
  destruct (Qltb_spec 0 sp) as [P|P].
  { destruct (inv_pos (max1 - min2) sp P) as (w & -> & W). apply FIN. intros t T. rewrite (proj2 (le_pos _ _ _ t P W)). specialize (SPT t T ltac:(lra)). split; intro; lra. }
  destruct (Qltb_spec sp 0) as [N|N].
  { destruct (inv_neg (min1 - max2) sp N) as (w & -> & W). apply FIN. intros t T. rewrite (proj2 (le_neg _ _ _ t N W)). specialize (SNT t T ltac:(lra)). split; intro; lra. }
  cbn [fst snd]. split; [split; [split|]; assumption|]. intros t T. specialize (SPT t T ltac:(lra)). specialize (SNT t T ltac:(lra)). split; [intros [A B]|intros [[A B] _]]; repeat split; try assumption; lra.
Qed.

(** A chain of such tests. *)
Definition axis : Type := (Q * Q * Q * Q * Q)%type.
Definition ax_ok (a : axis) : Prop := let '(sp, min1, max1, min2, max2) := a in min1 <= max1 /\ min2 <= max2.
Definition ax_meet (t : Q) (a : axis) : Prop := let '(sp, min1, max1, min2, max2) := a in min1 <= max2 + sp * t /\ min2 + sp * t <= max1.
Fixpoint axes (tmax : Q) (l : list axis) (s : Q * time) : option (Q * time) :=
  match l with
  | [] => Some s
  | (sp, min1, max1, min2, max2) :: l' => match no_intersect tmax sp min1 max1 min2 max2 s with Some s' => axes tmax l' s' | None => None end
  end.
Lemma axes_ok : forall tmax l s, live tmax s -> Forall ax_ok l ->
  match axes tmax l s with
  | Some s' => live tmax s' /\ forall t, 0 <= t -> (window s' t <-> window s t /\ Forall (ax_meet t) l)
  | None => forall t, 0 <= t <= tmax -> window s t -> ~ Forall (ax_meet t) l
  end.
Proof.
  intros tmax. induction l as [|[[[[sp min1] max1] min2] max2] l IH]; intros s L F.
  - cbn [axes]. split; [exact L|]. intros t T. split; [intro W; split; [exact W|constructor]|tauto].
  - cbn [axes]. rewrite Forall_cons_iff in F. destruct F as [F12 F3]. cbn [ax_ok] in F12. destruct F12 as [F1 F2]. pose proof (no_intersect_ok tmax sp min1 max1 min2 max2 s L F1 F2) as N.
    destruct (no_intersect tmax sp min1 max1 min2 max2 s) as [s'|].
    + destruct N as [L' N]. specialize (IH s' L' F3). destruct (axes tmax l s') as [s''|].
      * destruct IH as [L'' IH]. split; [exact L''|]. intros t T. rewrite (IH t T), (N t T). rewrite Forall_cons_iff. cbn [ax_meet]. tauto.
      * intros t T W A. rewrite Forall_cons_iff in A. destruct A as [A1 A2]. apply (IH t T); [|exact A2]. apply N; [apply T|]. split; [exact W|exact A1].
    + intros t T W A. rewrite Forall_cons_iff in A. exact (N t T W (proj1 A)).
Qed.

(** ** Boxes *)
Lemma moving_obb_ok : forall o1 v1 o2 v2 tmax, ok_obb o1 -> ok_obb o2 -> 0 <= tmax ->
  match moving_obb_obb_intersection o1 v1 o2 v2 tmax with
  | Some (tfirst, tlast) => 0 <= tfirst <= tmax /\ no_later tfirst tlast /\
      forall t, 0 <= t -> (tfirst <= t /\ no_later t tlast <-> meet (in_obb (move_obb t v1 o1)) (in_obb (move_obb t v2 o2)))
  | None => forall t, 0 <= t <= tmax -> ~ meet (in_obb (move_obb t v1 o1)) (in_obb (move_obb t v2 o2))
  end.
Proof.
  intros o1 v1 o2 v2 tmax K1 K2 TM.
  set (cd := vsub (o_center o2) (o_center o1)). set (v := vsub v2 v1).
  set (uu := qabs (dot (o_u o1) (o_u o2))). set (uv := qabs (dot (o_u o1) (o_v o2))). set (vu := qabs (dot (o_v o1) (o_u o2))). set (vv := qabs (dot (o_v o1) (o_v o2))).
  set (r2u := o_hu o2 * uu + o_hv o2 * uv). set (r2v := o_hu o2 * vu + o_hv o2 * vv). set (r1u := o_hu o1 * uu + o_hv o1 * uv). set (r1v := o_hu o1 * vu + o_hv o1 * vv).
  set (l := [(dot v (o_u o1), - o_hu o1, o_hu o1, dot cd (o_u o1) - r2u, dot cd (o_u o1) + r2u);
             (dot v (o_v o1), - o_hv o1, o_hv o1, dot cd (o_v o1) - r2v, dot cd (o_v o1) + r2v);
             (dot v (o_u o2), - r1u, r1u, dot cd (o_u o2) - o_hu o2, dot cd (o_u o2) + o_hu o2);
             (dot v (o_v o2), - r1v, r1v, dot cd (o_v o2) - o_hv o2, dot cd (o_v o2) + o_hv o2)] : list axis).
  assert (EQ : moving_obb_obb_intersection o1 v1 o2 v2 tmax = axes tmax l (0, None)).
  { unfold moving_obb_obb_intersection. cbv zeta. fold cd v uu uv vu vv. fold r2u r2v r1u r1v. unfold l. cbn [axes].
    repeat match goal with |- context [match no_intersect ?a ?b ?c ?d ?e ?f ?g with _ => _ end] => destruct (no_intersect a b c d e f g); [|reflexivity] end.
    reflexivity. }
  destruct K1 as (U1 & V1 & P1 & A1 & B1). destruct K2 as (U2 & V2 & P2 & A2 & B2).
  assert (NN : 0 <= uu /\ 0 <= uv /\ 0 <= vu /\ 0 <= vv) by (unfold uu, uv, vu, vv; repeat split; apply qabs_spec). destruct NN as (N1 & N2 & N3 & N4).
  assert (R1 : 0 <= r2u) by (unfold r2u; pose proof (Qmult_le_0_compat _ _ A2 N1); pose proof (Qmult_le_0_compat _ _ B2 N2); lra).
  assert (R2 : 0 <= r2v) by (unfold r2v; pose proof (Qmult_le_0_compat _ _ A2 N3); pose proof (Qmult_le_0_compat _ _ B2 N4); lra).
  assert (R3 : 0 <= r1u) by (unfold r1u; pose proof (Qmult_le_0_compat _ _ A1 N1); pose proof (Qmult_le_0_compat _ _ B1 N2); lra).
  assert (R4 : 0 <= r1v) by (unfold r1v; pose proof (Qmult_le_0_compat _ _ A1 N3); pose proof (Qmult_le_0_compat _ _ B1 N4); lra).
  assert (OK : Forall ax_ok l) by (unfold l; repeat constructor; cbn [ax_ok]; lra).
  assert (LIVE : live tmax (0, None)) by (split; [cbn [fst]; lra|exact I]).
  assert (MEET : forall t, meet (in_obb (move_obb t v1 o1)) (in_obb (move_obb t v2 o2)) <-> Forall (ax_meet t) l).
  { intro t. rewrite <- obb_obb_ok by (repeat split; assumption). unfold obb_obb_intersection, move_obb. cbn [o_u o_v o_hu o_hv o_center]. cbv zeta. fold uu uv vu vv. fold r2u r2v r1u r1v.
    set (w := vsub (vadd (o_center o2) (vscale t v2)) (vadd (o_center o1) (vscale t v1))).
    assert (D : forall a, dot w a == dot cd a + dot v a * t) by (intro; unfold w, cd, v, dot, vsub, vadd, vscale; cbn [px py]; ring).
    cbn [greater_than direct]. unfold l. rewrite !Forall_cons_iff. cbn [ax_meet].
    assert (AB : forall a r1 r2, Qgtb (qabs (dot w a)) (r1 + r2) = false <-> - r1 <= dot cd a + r2 + dot v a * t /\ dot cd a - r2 + dot v a * t <= r1).
    { intros a r1 r2. specialize (D a). destruct (qabs_spec (dot w a)) as (Q1 & Q2 & Q3 & Q4). destruct (Qgtb_spec (qabs (dot w a)) (r1 + r2)) as [H|H].
      - split; [discriminate|]. intros [X Y]. exfalso. destruct Q2; lra.
      - split; [intros _; lra|reflexivity]. }
    pose proof (AB (o_u o1) (o_hu o1) r2u) as E1. pose proof (AB (o_v o1) (o_hv o1) r2v) as E2. pose proof (AB (o_u o2) r1u (o_hu o2)) as E3. pose proof (AB (o_v o2) r1v (o_hv o2)) as E4.
    destruct (Qgtb (qabs (dot w (o_u o1))) (o_hu o1 + r2u)); [split; [discriminate|intros (H & _); apply E1 in H; discriminate]|].
    destruct (Qgtb (qabs (dot w (o_v o1))) (o_hv o1 + r2v)); [split; [discriminate|intros (_ & H & _); apply E2 in H; discriminate]|].
    destruct (Qgtb (qabs (dot w (o_u o2))) (r1u + o_hu o2)); [split; [discriminate|intros (_ & _ & H & _); apply E3 in H; discriminate]|].
    destruct (Qgtb (qabs (dot w (o_v o2))) (r1v + o_hv o2)); [split; [discriminate|intros (_ & _ & _ & H & _); apply E4 in H; discriminate]|].
    split; [intros _|reflexivity]. repeat split; try (apply E1; reflexivity); try (apply E2; reflexivity); try (apply E3; reflexivity); try (apply E4; reflexivity); constructor. }
  rewrite EQ. pose proof (axes_ok tmax l (0, None) LIVE OK) as AX. destruct (axes tmax l (0, None)) as [[tf tl]|].
  - destruct AX as [[L1 L2] AX]. cbn [fst snd] in *. split; [exact L1|split; [exact L2|]]. intros t T. rewrite MEET. specialize (AX t T). unfold window in AX. cbn [fst snd no_later] in AX. rewrite AX. tauto.
  - intros t T. rewrite MEET. apply AX; [exact T|]. split; [apply T|exact I].
Qed.
