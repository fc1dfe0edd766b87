(** Construction of the partition trees: the trees and what they store. *)
From Verif Require Import Base CmpModel OrientModel OrientSpec LinIntModel LinIntSpec PolygonModel PolygonSpec PolygonProof BspModel BspSpec BspProof.
From Coq Require Import Lia.

Lemma on_any_nil : forall X, ~ on_any [] X.
Proof. intros X (s & [] & _). Qed.
Lemma on_any_cons : forall s l X, on_any (s :: l) X <-> on_segment (fst s) (snd s) X \/ on_any l X.
Proof.
  intros s l X; split.
  - intros (e & [<- |I] & O); [left; exact O|right; exists e; auto].
  - intros [O|(e & I & O)]; [exists s; split; [left; reflexivity|exact O]|exists e; split; [right; exact I|exact O]].
Qed.
Lemma on_any_app : forall l m X, on_any (l ++ m) X <-> on_any l X \/ on_any m X.
Proof.
  intros l m X; split.
  - intros (e & I & O). apply in_app_or in I. destruct I; [left|right]; exists e; auto.
  - intros [(e & I & O)|(e & I & O)]; exists e; split; auto; apply in_or_app; auto.
Qed.
Lemma classify_self : forall s, classify direct s s = Some e_coincident.
Proof.
  intro s. pose proof (orient_side s (fst s)) as O1. pose proof (orient_side s (snd s)) as O2.
  assert (Z1 : side s (fst s) == 0) by (unfold side, tri2, cross, vsub; cbn [px py]; ring). assert (Z2 : side s (snd s) == 0) by (unfold side, tri2, cross, vsub; cbn [px py]; ring).
  unfold classify. destruct (get_orientation direct (fst s) (snd s) (fst s)); try lra; destruct (get_orientation direct (fst s) (snd s) (snd s)); try lra; reflexivity.
Qed.

(** What the distribution delivers. *)
Record distributed (s : seg) (range pos neg co : list seg) : Prop := mkdist {
  di_pos : forall e, In e pos -> in_front s e /\ exists r, In r range /\ piece_of e r;
  di_neg : forall e, In e neg -> behind s e /\ exists r, In r range /\ piece_of e r;
  di_co : forall e, In e co -> along s e /\ In e range;
  di_all : forall X, on_any range X <-> on_any co X \/ on_any pos X \/ on_any neg X;
  di_len : (length pos + length co <= length range)%nat /\ (length neg + length co <= length range)%nat;
  di_split : In s range -> In s co }.

Lemma distribute_ok : forall s range, proper s -> (forall e, In e range -> proper e) ->
  exists pos neg co, distribute direct s range = Some (pos, neg, co) /\ distributed s range pos neg co.
Proof.
  intros s range PS. induction range as [|e range IH]; intro PR.
  - exists [], [], []. split; [reflexivity|]. split; try (intros ? []); cbn; try lia. intro X. split; [intro H; exfalso; exact (on_any_nil _ H)|]. intros [H|[H|H]]; exact H.
  - destruct IH as (pos & neg & co & E & D); [intros; apply PR; right; assumption|]. cbn [distribute]. rewrite E.
    destruct (classify_ok s e PS (PR e (or_introl eq_refl))) as (c & EC & H). pose proof (classify_self s) as SELF. rewrite EC. destruct D as [D1 D2 D3 D4 D5 D6].
    destruct c as [p n| | |].
    + destruct H as (F & B & P1 & P2 & CV). exists (p :: pos), (n :: neg), co. split; [reflexivity|]. split.
      * intros x [<- |I]; [split; [exact F|]; exists e; split; [left; reflexivity|exact P1]|]. destruct (D1 x I) as (G & r & R & P). split; [exact G|]. exists r; split; [right; exact R|exact P].
      * intros x [<- |I]; [split; [exact B|]; exists e; split; [left; reflexivity|exact P2]|]. destruct (D2 x I) as (G & r & R & P). split; [exact G|]. exists r; split; [right; exact R|exact P].
      * intros x I. destruct (D3 x I). split; [|right]; assumption.
      * intro X. rewrite !on_any_cons, D4. split.
        -- intros [O|O]; [destruct (CV X O)|]; tauto.
        -- intros [O|[[O|O]|[O|O]]]; try tauto; left; [exact (piece_on _ _ _ P1 O)|exact (piece_on _ _ _ P2 O)].
      * cbn [length]. lia.
      * intros [EQ|I]; [subst e; congruence|exact (D6 I)].
    + exists (e :: pos), neg, co. split; [reflexivity|]. split.
      * intros x [<- |I]; [split; [exact H|]; exists e; split; [left; reflexivity|apply piece_refl]|]. destruct (D1 x I) as (G & r & R & P). split; [exact G|]. exists r; split; [right; exact R|exact P].
      * intros x I. destruct (D2 x I) as (G & r & R & P). split; [exact G|]. exists r; split; [right; exact R|exact P].
      * intros x I. destruct (D3 x I). split; [|right]; assumption.
      * intro X. rewrite !on_any_cons, D4. tauto.
      * cbn [length]. lia.
      * intros [EQ|I]; [subst e; congruence|exact (D6 I)].
    + exists pos, (e :: neg), co. split; [reflexivity|]. split.
      * intros x I. destruct (D1 x I) as (G & r & R & P). split; [exact G|]. exists r; split; [right; exact R|exact P].
      * intros x [<- |I]; [split; [exact H|]; exists e; split; [left; reflexivity|apply piece_refl]|]. destruct (D2 x I) as (G & r & R & P). split; [exact G|]. exists r; split; [right; exact R|exact P].
      * intros x I. destruct (D3 x I). split; [|right]; assumption.
      * intro X. rewrite !on_any_cons, D4. tauto.
      * cbn [length]. lia.
      * intros [EQ|I]; [subst e; congruence|exact (D6 I)].
    + exists pos, neg, (e :: co). split; [reflexivity|]. split.
      * intros x I. destruct (D1 x I) as (G & r & R & P). split; [exact G|]. exists r; split; [right; exact R|exact P].
      * intros x I. destruct (D2 x I) as (G & r & R & P). split; [exact G|]. exists r; split; [right; exact R|exact P].
      * intros x [<- |I]; [split; [exact H|left; reflexivity]|]. destruct (D3 x I). split; [|right]; assumption.
      * intro X. rewrite !on_any_cons, D4. tauto.
      * cbn [length]. lia.
      * intros [EQ|I]; [left; exact EQ|right; exact (D6 I)].
Qed.

(** The tree [t] holds the segments of [range]. *)
Inductive holds : bsp -> list seg -> Prop :=
  | holds_null : holds Null []
  | holds_node : forall s edges pos neg range rp rn, proper s -> (forall e, In e range -> proper e) ->
      (exists s', In s' range /\ piece_of s s') -> In s edges ->
      (forall e, In e edges -> along s e /\ exists r, In r range /\ piece_of e r) ->
      (forall e, In e rp -> in_front s e /\ exists r, In r range /\ piece_of e r) ->
      (forall e, In e rn -> behind s e /\ exists r, In r range /\ piece_of e r) ->
      (forall X, on_any range X <-> on_any edges X \/ on_any rp X \/ on_any rn X) ->
      holds pos rp -> holds neg rn -> holds (Node s edges pos neg) range.

Lemma holds_nil : forall t, holds t [] -> t = Null.
Proof.
  intros t H. inversion H; [reflexivity|]. match goal with H : exists s', In s' [] /\ _ |- _ => destruct H as (s' & [] & _) end.
Qed.
Lemma holds_proper : forall t range, holds t range -> forall e, In e range -> proper e.
Proof. intros t range H. destruct H; [intros e []|assumption]. Qed.

Lemma child_ok : forall sel fuel l, (forall range, range <> [] -> (length range <= fuel)%nat -> (forall e, In e range -> proper e) -> exists t, build direct sel fuel range = Some t /\ holds t range) ->
  (length l <= fuel)%nat -> (forall e, In e l -> proper e) -> exists t, match l with [] => Some Null | _ => build direct sel fuel l end = Some t /\ holds t l.
Proof.
  intros sel fuel l H L P. destruct l as [|e l]; [exists Null; split; [reflexivity|constructor]|]. apply H; [discriminate|exact L|exact P].
Qed.
Lemma build_holds : forall sel, selects sel -> forall fuel range, range <> [] -> (length range <= fuel)%nat -> (forall e, In e range -> proper e) ->
  exists t, build direct sel fuel range = Some t /\ holds t range.
Proof.
  intros sel SEL. induction fuel as [|fuel IH]; intros range NE L P.
  - destruct range; [congruence|cbn in L; lia].
  - cbn [build]. pose proof (SEL range NE) as IN. pose proof (P _ IN) as PS. destruct (distribute_ok (sel range) range PS P) as (pos & neg & co & E & D). rewrite E. pose proof (di_split _ _ _ _ _ D IN) as INC.
    destruct (di_len _ _ _ _ _ D) as [L1 L2]. assert (LC : (1 <= length co)%nat) by (destruct co; [destruct INC|cbn; lia]).
    assert (PP : forall e, In e pos -> proper e). { intros e I. destruct (di_pos _ _ _ _ _ D e I) as (_ & r & R & Pc). exact (piece_proper _ _ Pc (P r R)). }
    assert (PN : forall e, In e neg -> proper e). { intros e I. destruct (di_neg _ _ _ _ _ D e I) as (_ & r & R & Pc). exact (piece_proper _ _ Pc (P r R)). }
    destruct (child_ok sel fuel pos IH ltac:(lia) PP) as (tp & Ep & Hp). destruct (child_ok sel fuel neg IH ltac:(lia) PN) as (tn & En & Hn).
    cbv zeta. rewrite Ep, En. eexists; split; [reflexivity|]. apply (holds_node _ _ _ _ range pos neg); try assumption.
    + exists (sel range). split; [exact IN|apply piece_refl].
    + intros e I. destruct (di_co _ _ _ _ _ D e I) as [A R]. split; [exact A|]. exists e; split; [exact R|apply piece_refl].
    + exact (di_pos _ _ _ _ _ D).
    + exact (di_neg _ _ _ _ _ D).
    + exact (di_all _ _ _ _ _ D).
Qed.

Lemma insert_holds : forall sel, selects sel -> forall t range, holds t range -> forall fuel new, (length new <= fuel)%nat -> (forall e, In e new -> proper e) ->
  exists t', insert direct sel fuel t new = Some t' /\ holds t' (range ++ new).
Proof.
  intros sel SEL t range H. induction H as [|s edges pos neg range rp rn PS PR SP IS HE HP HN HA HoP IHP HoN IHN]; intros fuel new L P.
  - cbn [insert app]. destruct new as [|e new]; [exists Null; split; [reflexivity|constructor]|]. apply build_holds; [exact SEL|discriminate|exact L|exact P].
  - cbn [insert]. destruct (distribute_ok s new PS P) as (lp & ln & co & E & D). rewrite E. destruct (di_len _ _ _ _ _ D) as [L1 L2].
    assert (PP : forall e, In e lp -> proper e). { intros e I. destruct (di_pos _ _ _ _ _ D e I) as (_ & r & R & Pc). exact (piece_proper _ _ Pc (P r R)). }
    assert (PN : forall e, In e ln -> proper e). { intros e I. destruct (di_neg _ _ _ _ _ D e I) as (_ & r & R & Pc). exact (piece_proper _ _ Pc (P r R)). }
    assert (exists p, match lp with [] => Some pos | _ => insert direct sel fuel pos lp end = Some p /\ holds p (rp ++ lp)) as (p & Ep & Hp).
    { destruct lp as [|e lp]; [exists pos; split; [reflexivity|rewrite app_nil_r; exact HoP]|]. apply IHP; [lia|exact PP]. }
    assert (exists n, match ln with [] => Some neg | _ => insert direct sel fuel neg ln end = Some n /\ holds n (rn ++ ln)) as (n & En & Hn).
    { destruct ln as [|e ln]; [exists neg; split; [reflexivity|rewrite app_nil_r; exact HoN]|]. apply IHN; [lia|exact PN]. }
    rewrite Ep, En. eexists; split; [reflexivity|]. apply (holds_node _ _ _ _ (range ++ new) (rp ++ lp) (rn ++ ln)); try assumption.
    + intros e I. apply in_app_or in I. destruct I; [apply PR|apply P]; assumption.
    + destruct SP as (s' & I & Pc). exists s'. split; [apply in_or_app; left; exact I|exact Pc].
    + apply in_or_app; left; exact IS.
    + intros e I. apply in_app_or in I. destruct I as [I|I].
      * destruct (HE e I) as (A & r & R & Pc). split; [exact A|]. exists r. split; [apply in_or_app; left; exact R|exact Pc].
      * destruct (di_co _ _ _ _ _ D e I) as [A R]. split; [exact A|]. exists e. split; [apply in_or_app; right; exact R|apply piece_refl].
    + intros e I. apply in_app_or in I. destruct I as [I|I].
      * destruct (HP e I) as (A & r & R & Pc). split; [exact A|]. exists r. split; [apply in_or_app; left; exact R|exact Pc].
      * destruct (di_pos _ _ _ _ _ D e I) as (A & r & R & Pc). split; [exact A|]. exists r. split; [apply in_or_app; right; exact R|exact Pc].
    + intros e I. apply in_app_or in I. destruct I as [I|I].
      * destruct (HN e I) as (A & r & R & Pc). split; [exact A|]. exists r. split; [apply in_or_app; left; exact R|exact Pc].
      * destruct (di_neg _ _ _ _ _ D e I) as (A & r & R & Pc). split; [exact A|]. exists r. split; [apply in_or_app; right; exact R|exact Pc].
    + intro X. rewrite !on_any_app, HA, (di_all _ _ _ _ _ D X). tauto.
Qed.

(** ** Consequences *)
Lemma holds_stored : forall t range, holds t range -> (forall X, on_any (stored t) X <-> on_any range X) /\ (forall e, In e (stored t) -> exists r, In r range /\ piece_of e r).
Proof.
  intros t range H. induction H as [|s edges pos neg range rp rn PS PR SP IS HE HP HN HA HoP [IHP1 IHP2] HoN [IHN1 IHN2]].
  - split; [intro X; reflexivity|intros e []].
  - split.
    + intro X. cbn [stored]. rewrite !on_any_app, IHP1, IHN1, HA. reflexivity.
    + intros e I. cbn [stored] in I. apply in_app_or in I. destruct I as [I|I]; [exact (proj2 (HE e I))|]. apply in_app_or in I. destruct I as [I|I].
      * destruct (IHP2 e I) as (r & R & P1). destruct (HP r R) as (_ & q & Q' & P2). exists q. split; [exact Q'|exact (piece_trans _ _ _ P1 P2)].
      * destruct (IHN2 e I) as (r & R & P1). destruct (HN r R) as (_ & q & Q' & P2). exists q. split; [exact Q'|exact (piece_trans _ _ _ P1 P2)].
Qed.
Lemma front_on : forall s e X, in_front s e -> on_segment (fst e) (snd e) X -> 0 <= side s X.
Proof. intros s e X (F1 & F2 & _) O. destruct (side_on s e X O) as (t & T & ->). apply mix_nonneg; assumption. Qed.
Lemma behind_on : forall s e X, behind s e -> on_segment (fst e) (snd e) X -> side s X <= 0.
Proof. intros s e X (F1 & F2 & _) O. destruct (side_on s e X O) as (t & T & ->). apply mix_nonpos; assumption. Qed.
Lemma along_on : forall s e X, along s e -> on_segment (fst e) (snd e) X -> side s X == 0.
Proof. intros s e X (F1 & F2) O. destruct (side_on s e X O) as (t & T & ->). rewrite F1, F2. ring. Qed.
Lemma holds_partitioned : forall t range, holds t range -> partitioned t.
Proof.
  intros t range H. induction H as [|s edges pos neg range rp rn PS PR SP IS HE HP HN HA HoP IHP HoN IHN]; cbn [partitioned]; [exact I|].
  destruct (holds_stored _ _ HoP) as [_ SP2]. destruct (holds_stored _ _ HoN) as [_ SN2].
  split; [exact PS|]. split; [intros e X I O; exact (along_on _ _ _ (proj1 (HE e I)) O)|].
  split; [intros e X I O; destruct (SP2 e I) as (r & R & Pc); exact (front_on _ _ _ (proj1 (HP r R)) (piece_on _ _ _ Pc O))|].
  split; [intros e X I O; destruct (SN2 e I) as (r & R & Pc); exact (behind_on _ _ _ (proj1 (HN r R)) (piece_on _ _ _ Pc O))|].
  split; assumption.
Qed.

(** ** Painter's order *)
Definition off_splits : bsp -> pt -> Prop := fix f t X := match t with Null => True | Node s _ pos neg => ~ side s X == 0 /\ f pos X /\ f neg X end.

Lemma sides_order : forall s P X Y, ~ side s P == 0 -> (0 < side s P -> side s Y <= 0 /\ 0 <= side s X) -> (side s P < 0 -> 0 <= side s Y /\ side s X <= 0) -> ~ inside_segment P X Y.
Proof.
  intros s P X Y N A B (t & T & E). pose proof (side_lerp s P X t) as L. rewrite (side_pteq s _ _ E) in A, B.
  destruct (Qlt_le_dec 0 (side s P)) as [C|C].
  - destruct (A C) as [Y1 X1]. assert (0 < (1 - t) * side s P) by (apply Qmult_lt_0_compat; lra). assert (0 <= t * side s X) by (apply Qmult_le_0_compat; lra). lra.
  - assert (C' : side s P < 0) by lra. destruct (B C') as [Y1 X1]. assert (0 < (1 - t) * (- side s P)) by (apply Qmult_lt_0_compat; lra). assert (0 <= t * (- side s X)) by (apply Qmult_le_0_compat; lra). lra.
Qed.
