From Verif Require Import Base CmpModel CmpProof OrientModel OrientSpec OrientProof DistModel DistSpec LinIntModel LinIntSpec LinIntProof PolygonModel PolygonSpec PolygonProof PolygonBorderProof PlanarModel PlanarSpec PlanarProof PlanarProof2 TrimModel TrimSpec TrimProof TrimProof2.
From Coq Require Import Lia Lqa Sorting.Sorted.

Definition good (ps : list pt) (c : cut) : Prop := exists u, on_side ps (fst c) u (snd c).
Definition lt_cut (ps : list pt) (c c' : cut) : Prop := exists u u', on_side ps (fst c) u (snd c) /\ on_side ps (fst c') u' (snd c') /\ ((fst c < fst c')%nat \/ fst c = fst c' /\ u < u').

Lemma d2_lerp : forall A B t, d2 A (lerp A B t) == t * t * ((px B - px A) * (px B - px A) + (py B - py A) * (py B - py A)).
Proof. intros. unfold d2. rewrite lerp_px, lerp_py. ring. Qed.
Lemma d2_eq : forall A X Y, X =p= Y -> d2 A X == d2 A Y.
Proof. intros A X Y [E1 E2]. unfold d2. rewrite E1, E2. reflexivity. Qed.
Lemma norm_pos : forall A B, nonzero (vsub B A) -> 0 < (px B - px A) * (px B - px A) + (py B - py A) * (py B - py A).
Proof.
  intros A B N. unfold nonzero, vsub in N. cbn [px py] in N. set (x := px B - px A) in *. set (y := py B - py A) in *. clearbody x y.
  destruct (Qlt_le_dec 0 (x * x + y * y)) as [H|H]; [exact H|]. exfalso. apply N.
  assert (0 <= x * x) by (destruct (Qlt_le_dec x 0); nra). assert (0 <= y * y) by (destruct (Qlt_le_dec y 0); nra).
  assert (Hx : x * x == 0) by lra. assert (Hy : y * y == 0) by lra. apply Qmult_integral in Hx. apply Qmult_integral in Hy. split; tauto.
Qed.
Lemma sq_lt : forall L s t, 0 < L -> 0 <= s -> 0 <= t -> (s * s * L < t * t * L <-> s < t).
Proof.
  intros L s t HL Hs Ht. split.
  - intro H. destruct (Qlt_le_dec s t) as [C|C]; [exact C|]. exfalso. assert (H1 : t * t <= s * s) by nra. assert (H2 : t * t * L <= s * s * L) by nra. lra.
  - intro H. assert (H1 : s * s < t * t) by nra. nra.
Qed.
Lemma cut_less_iff : forall ps c c', proper_polyline ps -> good ps c -> good ps c' -> (cut_less ps c c' = true <-> lt_cut ps c c').
Proof.
  intros ps [i X] [j Y] P (u & HX) (v & HY). cbn [fst snd] in *. unfold cut_less. destruct (Nat.eqb i j) eqn:E; cbn [negb].
  - apply Nat.eqb_eq in E. subst j. pose proof HX as (A & B & t & EI & T & EU & EX). pose proof HY as (A' & B' & s & EI' & S' & EV & EY). destruct (edge_fun _ _ _ _ _ _ EI EI') as [<- <-].
    pose proof (proj1 (edge_pnth2 _ _ _ _) EI) as (LI & EA & EB). fold (pnth ps i). rewrite <- EA. rewrite Qltb_lt. rewrite (d2_eq A X _ EX), (d2_eq A Y _ EY), !d2_lerp. rewrite sq_lt; [|apply norm_pos, (P i), EI|lra|lra].
    unfold lt_cut. cbn [fst snd]. split.
    + intro H. exists u, v. split; [exact HX|]. split; [exact HY|]. right. split; [reflexivity|lra].
    + intros (u' & v' & HX' & HY' & [H|[_ H]]); [lia|]. pose proof (on_side_place _ _ _ _ _ P HX HX'). pose proof (on_side_place _ _ _ _ _ P HY HY'). lra.
  - apply Nat.eqb_neq in E. rewrite Nat.ltb_lt. unfold lt_cut. cbn [fst snd]. split.
    + intro H. exists u, v. auto.
    + intros (u' & v' & _ & _ & [H|[H _]]); [exact H|congruence].
Qed.
Lemma lt_cut_trans : forall ps a b c, proper_polyline ps -> lt_cut ps a b -> lt_cut ps b c -> lt_cut ps a c.
Proof.
  intros ps a b c P (u & v & Ha & Hb & H1) (v' & w & Hb' & Hc & H2). exists u, w. split; [exact Ha|]. split; [exact Hc|]. pose proof (on_side_place _ _ _ _ _ P Hb Hb').
  destruct H1 as [H1|[H1 H1']], H2 as [H2|[H2 H2']]; try (left; lia). right. split; [congruence|lra].
Qed.
Definition ordered (ps : list pt) (s : list cut) : Prop := StronglySorted (lt_cut ps) s /\ Forall (good ps) s.

Lemma insert_in : forall ps c s x, In x (set_insert ps c s) -> x = c \/ In x s.
Proof.
  intros ps c s x. induction s as [|h s IH]; cbn [set_insert].
  - intros [<-|[]]. auto.
  - destruct (cut_less ps c h); [intros [<-|H]; auto|]. destruct (cut_less ps h c); [|auto]. intros [<-|H]; [right; left; reflexivity|]. destruct (IH H); [auto|right; right; assumption].
Qed.
Lemma insert_keeps : forall ps c s x, In x s -> In x (set_insert ps c s).
Proof.
  intros ps c s x. induction s as [|h s IH]; cbn [set_insert]; [intros []|]. intro H. destruct (cut_less ps c h); [right; exact H|]. destruct (cut_less ps h c); [|exact H].
  destruct H as [<-|H]; [left; reflexivity|right; apply IH, H].
Qed.
Lemma insert_ordered : forall ps c s, proper_polyline ps -> good ps c -> ordered ps s -> ordered ps (set_insert ps c s).
Proof.
  intros ps c s P G. induction s as [|h s IH]; intros [SS F]; cbn [set_insert].
  - split; repeat constructor. exact G.
  - inversion SS as [|? ? S1 S2]; subst. inversion F as [|? ? F1 F2]; subst. destruct (cut_less ps c h) eqn:E1.
    + apply (cut_less_iff ps c h P G F1) in E1. split; [|constructor; assumption]. constructor; [exact SS|]. constructor; [exact E1|]. eapply Forall_impl; [|exact S2]. intros x Hx. apply (lt_cut_trans ps c h x P E1 Hx).
    + destruct (cut_less ps h c) eqn:E2; [|split; assumption]. apply (cut_less_iff ps h c P F1 G) in E2. destruct (IH (conj S1 F2)) as [SS' F']. split; [|constructor; assumption]. constructor; [exact SS'|].
      apply Forall_forall. intros x Hx. apply insert_in in Hx as [->|Hx]; [exact E2|]. rewrite Forall_forall in S2. apply S2, Hx.
Qed.
Lemma insert_covers : forall ps c s, proper_polyline ps -> good ps c -> Forall (good ps) s -> exists x, In x (set_insert ps c s) /\ fst x = fst c /\ forall w, on_side ps (fst c) w (snd c) -> on_side ps (fst x) w (snd x).
Proof.
  intros ps c s P G F. induction s as [|h s IH]; cbn [set_insert].
  - exists c. split; [left; reflexivity|]. auto.
  - inversion F as [|? ? F1 F2]; subst. destruct (cut_less ps c h) eqn:E1.
    + exists c. split; [left; reflexivity|auto].
    + destruct (cut_less ps h c) eqn:E2.
      * destruct (IH F2) as (x & IX & H). exists x. split; [right; exact IX|exact H].
      * exists h. split; [left; reflexivity|]. assert (N1 : ~ lt_cut ps c h) by (intro H; apply (cut_less_iff ps c h P G F1) in H; congruence).
        assert (N2 : ~ lt_cut ps h c) by (intro H; apply (cut_less_iff ps h c P F1 G) in H; congruence). destruct G as (u & Hu), F1 as (v & Hv).
        assert (EQ : fst h = fst c). { destruct (Nat.lt_total (fst h) (fst c)) as [H|[H|H]]; [|exact H|]; exfalso; [apply N2; exists v, u|apply N1; exists u, v]; auto. }
        assert (UV : u == v). { destruct (Q_dec u v) as [[H|H]|H]; [| |exact H]; exfalso; [apply N1; exists u, v|apply N2; exists v, u]; split; auto. }
        split; [exact EQ|]. intros w Hw. pose proof (on_side_place _ _ _ _ _ P Hu Hw). apply (on_side_eq ps (fst h) v w); [lra|exact Hv].
Qed.
Lemma inserts_ok : forall ps cs s, proper_polyline ps -> Forall (good ps) cs -> ordered ps s ->
  let r := fold_left (fun s c => set_insert ps c s) cs s in
  ordered ps r /\ (forall x, In x r -> In x s \/ In x cs) /\ (forall w, cut_at ps r w <-> cut_at ps s w \/ cut_at ps cs w).
Proof.
  intros ps cs. induction cs as [|c cs IH]; intros s P G O r.
  - subst r. cbn [fold_left]. split; [exact O|]. split; [auto|]. intro w. split; [auto|]. intros [H|(i & X & [] & _)]; exact H.
  - inversion G as [|? ? G1 G2]; subst. pose proof (insert_ordered ps c s P G1 O) as O1. destruct (IH (set_insert ps c s) P G2 O1) as (O2 & M & W). subst r. cbn [fold_left]. split; [exact O2|]. split.
    + intros x Hx. apply M in Hx as [Hx|Hx]; [|right; right; exact Hx]. apply insert_in in Hx as [->|Hx]; [right; left; reflexivity|left; exact Hx].
    + intro w. rewrite W. split.
      * intros [(i & X & IX & OX)|(i & X & IX & OX)]; [|right; exists i, X; split; [right; exact IX|exact OX]]. apply insert_in in IX as [E|IX]; [|left; exists i, X; auto]. right. exists i, X. split; [left; symmetry; exact E|exact OX].
      * intros [(i & X & IX & OX)|(i & X & [E|IX] & OX)].
        -- left. exists i, X. split; [apply insert_keeps, IX|exact OX].
        -- left. subst c. destruct (insert_covers ps (i, X) s P G1 (proj2 O)) as ([i' X'] & IX' & EF & H). exists i', X'. split; [exact IX'|]. apply (H w), OX.
        -- right. exists i, X. auto.
Qed.

(** *** What is inserted *)
Definition report_cuts (r : nat * nat * itype * list pt) : list cut :=
  let '(i, j, t, xs) := r in
  match xs with [] => [] | xp1 :: rest => (i, xp1) :: (j, xp1) :: match t, rest with e_overlapping, xp2 :: _ => [(i, xp2); (j, xp2)] | _, _ => [] end end.
Lemma insert_report_eq : forall ps s r, insert_report ps s r = fold_left (fun s c => set_insert ps c s) (report_cuts r) s.
Proof. intros ps s [[[i j] t] xs]. destruct xs as [|x [|y xs]]; [reflexivity| |]; destruct t; reflexivity. Qed.
Lemma inserts_eq : forall ps l s, fold_left (insert_report ps) l s = fold_left (fun s c => set_insert ps c s) (flat_map report_cuts l) s.
Proof. intros ps l. induction l as [|r l IH]; intro s; [reflexivity|]. cbn [fold_left flat_map]. rewrite fold_left_app, <- insert_report_eq. apply IH. Qed.

Lemma in_report_cuts : forall i j t xs A B C D k X, describes A B C D t xs -> (In (k, X) (report_cuts (i, j, t, xs)) <-> (k = i \/ k = j) /\ In X xs).
Proof.
  intros i j t xs A B C D k X H. destruct t; cbn in H; try contradiction.
  - destruct H as (Y & -> & _). cbn. split; [intros [E|[E|[]]]; injection E as <- <-; auto|]. intros ([->| ->] & [->|[]]); auto.
  - destruct H as (Y & Z & -> & _). cbn. split; [intros [E|[E|[E|[E|[]]]]]; injection E as <- <-; auto|]. intros ([->| ->] & [->|[->|[]]]); auto.
  - destruct H as (Y & -> & _). cbn. split; [intros [E|[E|[]]]; injection E as <- <-; auto|]. intros ([->| ->] & [->|[]]); auto.
Qed.
Lemma describes_common : forall A B C D t xs X, describes A B C D t xs -> In X xs -> on_segment A B X /\ on_segment C D X.
Proof.
  intros A B C D t xs X H I. destruct t; cbn in H; try contradiction.
  - destruct H as (Y & -> & S & _). destruct I as [<-|[]]. apply S, pteq_refl.
  - destruct H as (Y & Z & -> & S & _). destruct I as [<-|[<-|[]]]; apply S; [apply start_on|apply end_on].
  - destruct H as (Y & -> & S & _). destruct I as [<-|[]]. apply S, pteq_refl.
Qed.
Lemma describes_any : forall A B C D t xs, describes A B C D t xs -> exists X, In X xs.
Proof. intros A B C D t xs H. destruct t; cbn in H; try contradiction; [destruct H as (Y & -> & _)|destruct H as (Y & Z & -> & _)|destruct H as (Y & -> & _)]; exists Y; left; reflexivity. Qed.
Lemma on_segment_side : forall ps i A B X, polyline_edge ps i A B -> on_segment A B X -> exists u, on_side ps i u X.
Proof. intros ps i A B X E (t & T & H). exists (qn i + t), A, B, t. split; [exact E|]. split; [exact T|]. split; [reflexivity|exact H]. Qed.
Lemma parallel_lines : forall A B D t s, nonzero (vsub B A) -> nonzero (vsub D B) -> lerp A B t =p= lerp B D s -> ~ parallel (vsub B A) (vsub D B) -> t == 1 /\ s == 0.
Proof.
  intros A B D t s N1 N2 [E1 E2] NP. rewrite !lerp_px in E1. rewrite !lerp_py in E2.
  destruct (Qeq_dec s 0) as [S0|S0].
  - split; [|exact S0]. apply (lerp_inj A B); [exact N1|]. split; [rewrite !lerp_px|rewrite !lerp_py]; rewrite S0 in *; lra.
  - exfalso. apply NP. exists (t - 1), s. split; [intros [_ H]; contradiction|]. unfold vscale, vsub. cbn [px py]. split; cbn [px py]; lra.
Qed.

Theorem cut_set_ok : forall ps, proper_polyline ps -> exists iset, self_intersection_set direct ps = Some iset /\ ordered ps iset /\ 
  (iset = [] <-> no_self_meeting ps) /\
  (forall w, cut_at ps iset w -> exists i j A B C D X, (i < j)%nat /\ polyline_edge ps i A B /\ polyline_edge ps j C D /\ on_segment A B X /\ on_segment C D X /\ ((S i < j)%nat \/ parallel (vsub B A) (vsub D C)) /\ (on_side ps i w X \/ on_side ps j w X)) /\
  (forall u v X, u < v -> at_place ps u X -> at_place ps v X -> cut_at ps iset u /\ cut_at ps iset v \/ doubled ps X).
Proof.
  intros ps P. destruct (self_ok ps P) as (l & E & H1 & H2). unfold self_intersection_set. rewrite E, inserts_eq.
  assert (G : Forall (good ps) (flat_map report_cuts l)).
  { apply Forall_forall. intros [k X] I. apply in_flat_map in I as ([[[i j] t] xs] & IR & IC). destruct (H1 i j t xs IR) as (IJ & A & B & C & D & EI & EJ & DE).
    apply (in_report_cuts i j t xs A B C D k X DE) in IC as [K IX]. destruct (describes_common _ _ _ _ _ _ _ DE IX) as [O1 O2]. destruct K as [-> | ->]; [apply (on_segment_side ps i A B X EI O1)|apply (on_segment_side ps j C D X EJ O2)]. }
  destruct (inserts_ok ps (flat_map report_cuts l) [] P G) as (O & M & W); [split; constructor|]. set (iset := fold_left _ _ _) in *. exists iset. split; [reflexivity|]. split; [exact O|].
  assert (W' : forall w, cut_at ps iset w <-> cut_at ps (flat_map report_cuts l) w). { intro w. rewrite W. split; [intros [(i & X & [] & _)|H]; exact H|auto]. }
  assert (COV : forall i j t xs X w, In (i, j, t, xs) l -> In X xs -> on_side ps i w X \/ on_side ps j w X -> cut_at ps iset w).
  { intros i j t xs X w IR IX OX. apply W'. destruct (H1 i j t xs IR) as (IJ & A & B & C & D & EI & EJ & DE). destruct OX as [OX|OX]; [exists i, X|exists j, X]; (split; [|exact OX]); apply in_flat_map; exists (i, j, t, xs); (split; [exact IR|]); apply (in_report_cuts i j t xs A B C D _ X DE); auto. }
  split; [|split].
  - split.
    + intros EM i j A B C D IJ EI EJ. assert (N : ~ exists t xs, In (i, j, t, xs) l).
      { intros (t & xs & IR). destruct (H1 i j t xs IR) as (_ & A' & B' & C' & D' & EI' & EJ' & DE). destruct (describes_any _ _ _ _ _ _ DE) as (X & IX). destruct (describes_common _ _ _ _ _ _ _ DE IX) as [O1 _].
        destruct (on_segment_side ps i A' B' X EI' O1) as (u & OU). destruct (COV i j t xs X u IR IX (or_introl OU)) as (k & Y & IN & _). rewrite EM in IN. destruct IN. }
      split; intros K Z; apply N; apply (H2 i j A B C D IJ EI EJ); auto.
    + intro NS. assert (LE : l = []).
      { destruct l as [|[[[i j] t] xs] l]; [reflexivity|]. exfalso. destruct (H1 i j t xs (or_introl eq_refl)) as (IJ & A & B & C & D & EI & EJ & DE). destruct (NS i j A B C D IJ EI EJ) as [N1 N2].
        assert (F : exists t xs', In (i, j, t, xs') ((i, j, t, xs) :: l)) by (exists t, xs; left; reflexivity). assert (F' : exists t0 xs0, In (i, j, t0, xs0) ((i, j, t, xs) :: l)) by (exists t, xs; left; reflexivity).
        apply (H2 i j A B C D IJ EI EJ) in F' as [[F1 F2]|[F1 F2]]; [apply (N2 F1 F2)|apply (N1 F1 F2)]. }
      unfold iset. rewrite LE. reflexivity.
  - intros w CW. apply W' in CW as (k & X & IC & OX). apply in_flat_map in IC as ([[[i j] t] xs] & IR & IC). destruct (H1 i j t xs IR) as (IJ & A & B & C & D & EI & EJ & DE).
    apply (in_report_cuts i j t xs A B C D k X DE) in IC as [K IX]. destruct (describes_common _ _ _ _ _ _ _ DE IX) as [O1 O2]. exists i, j, A, B, C, D, X.
    split; [exact IJ|]. split; [exact EI|]. split; [exact EJ|]. split; [exact O1|]. split; [exact O2|]. split.
    + assert (F' : exists t0 xs0, In (i, j, t0, xs0) l) by (exists t, xs; exact IR). apply (H2 i j A B C D IJ EI EJ) in F' as [[F1 F2]|[F1 F2]]; auto.
    + destruct K as [-> | ->]; auto.
  - intros u v X UV (i & A & B & t & EI & T & EU & EX) (j & C & D & s & EJ & S' & EV & EX').
    assert (IJ : (i <= j)%nat). { assert (H : qn i < qn (S j)) by (rewrite qn_S; lra). apply (proj1 (qn_lt _ _)) in H. lia. }
    assert (OU : on_side ps i u X) by (exists A, B, t; auto). assert (OV : on_side ps j v X) by (exists C, D, s; auto).
    assert (O1 : on_segment A B X) by (exists t; auto). assert (O2 : on_segment C D X) by (exists s; auto).
    destruct (Nat.eq_dec i j) as [IJ2|IJ2].
    + exfalso. subst j. pose proof (on_side_place _ _ _ _ _ P OU OV). lra.
    + destruct (Nat.eq_dec (S i) j) as [IJ3|IJ3].
      * subst j. pose proof (edge_next _ _ _ _ _ _ EI EJ) as <-. right. exists i, (S i), A, B, B, D. split; [lia|]. split; [exact EI|]. split; [exact EJ|]. split; [|auto].
        destruct (Qeq_dec (cross (vsub B A) (vsub D B)) 0) as [CR|CR].
        -- pose proof (P _ _ _ EI) as N. unfold nonzero, vsub in N. cbn [px py] in N. unfold cross, vsub in CR. cbn [px py] in CR.
           set (x := px B - px A) in *. set (y := py B - py A) in *. unfold parallel. 
           destruct (Qeq_dec x 0) as [X0|X0].
           ++ exists (py D - py B), y. split; [intros [_ Hy]; apply N; auto|]. unfold vscale, vsub. cbn [px py]. fold x. fold y. split; cbn [px py]; [|ring].
              rewrite X0 in CR |- *. lra.
           ++ exists (px D - px B), x. split; [intros [_ Hx]; contradiction|]. unfold vscale, vsub. cbn [px py]. fold x. fold y. split; cbn [px py]; [ring|lra].
        -- exfalso. assert (NP : ~ parallel (vsub B A) (vsub D B)).
           { intros (a & b & AB & [Q1 Q2]). unfold vscale, vsub in Q1, Q2. cbn [px py] in Q1, Q2. unfold cross, vsub in CR. cbn [px py] in CR. apply AB.
             set (x := px B - px A) in *. set (y := py B - py A) in *. set (x' := px D - px B) in *. set (y' := py D - py B) in *. clearbody x y x' y'. split.
             - assert (F : a * (x * y' - y * x') == 0) by (transitivity ((a * x) * y' - (a * y) * x'); [ring|rewrite Q1, Q2; ring]). apply Qmult_integral in F as [F|F]; [exact F|contradiction].
             - assert (F : b * (x * y' - y * x') == 0) by (transitivity ((b * y') * x - (b * x') * y); [ring|rewrite <- Q1, <- Q2; ring]). apply Qmult_integral in F as [F|F]; [exact F|contradiction]. }
           destruct (parallel_lines A B D t s) as [T1 S1]; [apply (P i), EI|apply (P (S i)), EJ|eapply pteq_trans; [apply pteq_sym; exact EX|exact EX']|exact NP|]. rewrite qn_S in EV. lra.
      * assert (MT : meet A B C D) by (exists X; auto). assert (F' : exists t0 xs0, In (i, j, t0, xs0) l) by (apply (H2 i j A B C D ltac:(lia) EI EJ); left; split; [lia|exact MT]).
        destruct F' as (ty & xs & IR). destruct (H1 i j ty xs IR) as (_ & A' & B' & C' & D' & EI' & EJ' & DE). destruct (edge_fun _ _ _ _ _ _ EI EI') as [<- <-]. destruct (edge_fun _ _ _ _ _ _ EJ EJ') as [<- <-].
        assert (SINGLE : forall Y, In Y xs -> X =p= Y -> cut_at ps iset u /\ cut_at ps iset v).
        { intros Y IY EY. split; [apply (COV i j ty xs Y u IR IY); left|apply (COV i j ty xs Y v IR IY); right].
          - exists A, B, t. split; [exact EI|]. split; [exact T|]. split; [exact EU|]. eapply pteq_trans; [apply pteq_sym; exact EY|exact EX].
          - exists C, D, s. split; [exact EJ|]. split; [exact S'|]. split; [exact EV|]. eapply pteq_trans; [apply pteq_sym; exact EY|exact EX']. }
        destruct ty; cbn in DE; try contradiction.
        -- destruct DE as (Y & -> & SP & _). left. apply (SINGLE Y); [left; reflexivity|]. apply SP. split; assumption.
        -- destruct DE as (Y & Z & -> & _ & PA). right. exists i, j, A, B, C, D. split; [lia|]. auto.
        -- destruct DE as (Y & -> & SP & _). left. apply (SINGLE Y); [left; reflexivity|]. apply SP. split; assumption.
Qed.

Lemma ordered_upward : forall ps s u li, proper_polyline ps -> ordered ps s -> (forall c, In c s -> (li <= fst c)%nat /\ forall w, on_side ps (fst c) w (snd c) -> u <= w) -> upward ps u li s.
Proof.
  intros ps s. induction s as [|[ci X] s IH]; intros u li P [SS F] H; [exact I|]. inversion SS as [|? ? S1 S2]; subst. inversion F as [|? ? F1 F2]; subst. destruct F1 as (v & HV). cbn [fst snd] in HV.
  destruct (H (ci, X) (or_introl eq_refl)) as [H1 H2]. cbn [fst snd] in H1, H2. cbn [upward]. exists v. split; [exact HV|]. split; [apply H2, HV|]. split; [exact H1|]. apply IH; [exact P|split; assumption|].
  intros c IC. rewrite Forall_forall in S2. destruct (S2 c IC) as (a & b & Ha & Hb & L). cbn [fst snd] in Ha, L. pose proof (on_side_place _ _ _ _ _ P HV Ha). split; [lia|].
  intros w Hw. pose proof (on_side_place _ _ _ _ _ P Hb Hw). destruct L as [L|[_ L]]; [|lra].
  destruct Ha as (A & B & t & _ & T & EA & _), Hb as (C & D & r & _ & R & EB & _). assert (Q : qn (S ci) <= qn (fst c)) by (apply (proj2 (qn_le _ _)); lia). rewrite qn_S in Q. lra.
Qed.
Lemma ordered_upward0 : forall ps s, proper_polyline ps -> ordered ps s -> upward ps 0 0 s.
Proof. intros ps s P O. apply ordered_upward; [exact P|exact O|]. intros c _. split; [lia|]. intros w Hw. apply (at_place_range ps w (snd c)). exists (fst c). exact Hw. Qed.
