(** Proofs for C120. *)
Set Warnings "-notation-overridden,-ambiguous-paths".
From mathcomp Require Import ssreflect ssrfun ssrbool ssrnat eqtype seq ssralg ssrnum.
From Verif Require Import ExprModel ExprLifeModel ExprLifeSpec.
Set Implicit Arguments.
Unset Strict Implicit.

Definition below (p : nat) (r : ref) : bool := match r with RVar _ => true | RNode q => (q < p)%N end.
Definition refs_below (p : nat) (n : node) : bool := match n with N1 _ r => below p r | N2 _ r s => below p r && below p s end.
Definition wf (h : heap) : Prop := forall p n, nth None h p = Some n -> refs_below p n.

Lemma below_leq p q r : (p <= q)%N -> below p r -> below q r.
Proof. case: r => //= k L K. exact: leq_trans K L. Qed.

Lemma follow_fuel h : wf h -> forall n m r, below n r -> below m r -> follow n h r = follow m h r.
Proof.
  move=> W. elim=> [|n IH] [|m] [x|p] //= Hn Hm.
  case E: (nth None h p) => [[o a|o a b]|] //; have := W _ _ E => /=.
  - move=> A. by rewrite (IH m) //; apply: below_leq A.
  - move=> /andP [A B]. by rewrite (IH m a) ?(IH m b) //; [apply: below_leq B|apply: below_leq B|apply: below_leq A|apply: below_leq A].
Qed.
Lemma follow_prefix h ext : wf h -> forall n r, below (size h) r -> follow n (h ++ ext) r = follow n h r.
Proof.
  move=> W. elim=> [|n IH] [x|p] //= Hp. rewrite nth_cat Hp.
  case E: (nth None h p) => [[o a|o a b]|] //; have := W _ _ E => /=.
  - move=> A. rewrite IH //. apply: below_leq A. exact: ltnW.
  - move=> /andP [A B]. rewrite !IH //; [apply: below_leq B|apply: below_leq A]; exact: ltnW.
Qed.
Lemma seen_prefix h ext r : wf h -> wf (h ++ ext) -> below (size h) r -> seen (h ++ ext) r = seen h r.
Proof.
  move=> W W' B. rewrite /seen -(follow_prefix ext W) //. apply: follow_fuel => //. apply: below_leq B.
  by rewrite size_cat leq_addr.
Qed.
Lemma wf_rcons h n : wf h -> (if n is Some k then refs_below (size h) k else true) -> wf (rcons h n).
Proof.
  move=> W H p k. rewrite nth_rcons. case: ifP => [_|_]; first exact: W. case: eqP => // -> E. by rewrite E in H.
Qed.

Definition names_ok (names : seq nat) (h : heap) : Prop := forall d, (d < size names)%N -> (nth 0 names d < size h)%N.
Lemma names_ext names h ext : names_ok names h -> names_ok names (h ++ ext).
Proof. move=> H d Hd. rewrite size_cat. apply: leq_trans (H d Hd) _. exact: leq_addr. Qed.

(** What building an expression does. *)
Lemma build_ok names e : forall h r h', wf h -> names_ok names h -> build names h e = Some (r, h') ->
  (exists ext, h' = h ++ ext) /\ wf h' /\ below (size h') r
  /\ (leaf e -> h' = h /\ below (size h) r) /\ (~~ leaf e -> exists k n, r = RNode k /\ size h' = k.+1 /\ (size h <= k)%N /\ nth None h' k = Some n).
Proof.
  elim: e => [x|d|o a IHa|o a IHa b IHb] h r h' W N /=.
  - move=> [<- <-]. split; first by exists [::]; rewrite cats0. by [].
  - case: ifP => // D [<- <-]. split; first by exists [::]; rewrite cats0. have := N d D => /=. by [].
  - case E: (build names h a) => [[r1 h1]|] // [<- <-].
    have [[ext Hx] [W1 [B1 _]]] := IHa _ _ _ W N E.
    split; first by exists (rcons ext (Some (N1 o r1))); rewrite Hx rcons_cat.
    split; first exact: wf_rcons. rewrite size_rcons /=. do 2!split=> //. 
    move=> _. exists (size h1), (N1 o r1). by rewrite nth_rcons ltnn eqxx Hx size_cat leq_addr.
  - case E: (build names h a) => [[r1 h1]|] //. case E2: (build names h1 b) => [[r2 h2]|] // [<- <-].
    have [[ext Hx] [W1 [B1 _]]] := IHa _ _ _ W N E.
    have N1' : names_ok names h1 by rewrite Hx; exact: names_ext.
    have [[ext2 Hx2] [W2 [B2 _]]] := IHb _ _ _ W1 N1' E2.
    have L : (size h1 <= size h2)%N by rewrite Hx2 size_cat leq_addr.
    split; first by exists (rcons (ext ++ ext2) (Some (N2 o r1 r2))); rewrite Hx2 Hx -rcons_cat catA.
    split; first by apply: wf_rcons => //=; rewrite (below_leq L B1).
    rewrite size_rcons /=. do 2!split=> //. 
    move=> _. exists (size h2), (N2 o r1 r2). rewrite nth_rcons ltnn eqxx. by rewrite (leq_trans _ L) // Hx size_cat leq_addr.
Qed.

Lemma seen_node h p : wf h -> (p < size h)%N -> seen h (RNode p) =
  match nth None h p with
  | Some (N1 o a) => omap (app1 o) (seen h a)
  | Some (N2 o a b) => match seen h a, seen h b with Some x, Some y => Some (app2 o x y) | _, _ => None end
  | None => None end.
Proof.
  move=> W. rewrite /seen. case Z: (size h) => [|z] //= P.
  case E: (nth None h p) => [[o a|o a b]|] //; have := W _ _ E => /=.
  - move=> A. rewrite (@follow_fuel h W z z.+1) //; apply: below_leq A => //; exact: ltnW.
  - move=> /andP [A B]. rewrite (@follow_fuel h W z z.+1 a) ?(@follow_fuel h W z z.+1 b) //;
      solve [apply: below_leq B => //; exact: ltnW | apply: below_leq A => //; exact: ltnW].
Qed.
Lemma seen_var h x : seen h (RVar x) = Some (Var x).
Proof. by rewrite /seen; case: (size h). Qed.

(** The names mean the texts; None for a name whose nodes are gone. *)
Definition texts_of (names : seq nat) (h : heap) : seq (option ex) := [seq seen h (RNode p) | p <- names].
Fixpoint expand' (texts : seq (option ex)) (e : src) : option ex :=
  match e with
  | SVar x => Some (Var x)
  | SName d => nth None texts d
  | S1 o a => omap (app1 o) (expand' texts a)
  | S2 o a b => match expand' texts a, expand' texts b with Some x, Some y => Some (app2 o x y) | _, _ => None end
  end.
Lemma texts_ext names h ext : wf h -> wf (h ++ ext) -> names_ok names h -> texts_of names (h ++ ext) = texts_of names h.
Proof.
  move=> W W' N. apply: (@eq_from_nth _ None); rewrite ?size_map // => d Hd.
  rewrite !(nth_map 0) //. apply: seen_prefix => //=. exact: N.
Qed.
Lemma build_seen names e : forall h r h', wf h -> names_ok names h -> build names h e = Some (r, h') -> seen h' r = expand' (texts_of names h) e.
Proof.
  elim: e => [x|d|o a IHa|o a IHa b IHb] h r h' W N B; have := build_ok W N B; move: B => /=.
  - move=> [<- <-] _. exact: seen_var.
  - case: ifP => // D [<- <-] _. by rewrite (nth_map 0).
  - case E: (build names h a) => [[r1 h1]|] // [<- <-] [_ [W' _]].
    have [[ext Hx] [W1 [B1 _]]] := build_ok W N E.
    rewrite seen_node ?size_rcons // nth_rcons ltnn eqxx -(IHa _ _ _ W N E). congr omap.
    rewrite -cats1. apply: seen_prefix => //. by rewrite cats1.
  - case E: (build names h a) => [[r1 h1]|] //. case E2: (build names h1 b) => [[r2 h2]|] // [<- <-] [_ [W' _]].
    have [[ext Hx] [W1 [B1 _]]] := build_ok W N E.
    have N1' : names_ok names h1 by rewrite Hx; exact: names_ext.
    have [[ext2 Hx2] [W2 [B2 _]]] := build_ok W1 N1' E2.
    have L : (size h1 <= size h2)%N by rewrite Hx2 size_cat leq_addr.
    rewrite seen_node ?size_rcons // nth_rcons ltnn eqxx -(IHa _ _ _ W N E).
    have -> : texts_of names h = texts_of names h1 by rewrite Hx texts_ext // -Hx.
    rewrite -(IHb _ _ _ W1 N1' E2).
    have -> : seen (rcons h2 (Some (N2 o r1 r2))) r1 = seen h1 r1.
    { rewrite -cats1 seen_prefix ?cats1 //; last exact: below_leq B1. rewrite Hx2. apply: seen_prefix => //. by rewrite -Hx2. }
    have -> // : seen (rcons h2 (Some (N2 o r1 r2))) r2 = seen h2 r2.
    rewrite -cats1. apply: seen_prefix => //. by rewrite cats1.
Qed.
Lemma build_none names e : forall h, build names h e = None <-> exists2 d, mentions d e & (size names <= d)%N.
Proof.
  elim: e => [x|d|o a IHa|o a IHa b IHb] h /=.
  - by split=> // [[]].
  - case: ltnP => D; split=> //.
    + move=> [d' /eqP <-]. by rewrite leqNgt D.
    + by exists d; rewrite ?eqxx.
  - rewrite -(IHa h). by case: (build names h a) => [[r1 h1]|].
  - case E: (build names h a) => [[r1 h1]|].
    + have NA : ~ exists2 d, mentions d a & (size names <= d)%N by move=> /(IHa h); rewrite E.
      case E2: (build names h1 b) => [[r2 h2]|]; split=> //.
      * move=> [d /orP [M|M] D]; first by case: NA; exists d.
        have : build names h1 b = None by apply/IHb; exists d. by rewrite E2.
      * move: E2 => /IHb [d M D]. exists d => //. by rewrite M orbT.
    + split=> // _. move: E => /IHa [d M D]. exists d => //. by rewrite M.
Qed.

(** Sweeping keeps the old nodes, and the outermost one. *)
Lemma sweep_size k (h ext : heap) : size (sweep (size h) k (h ++ ext)) = size (h ++ ext).
Proof. by rewrite /sweep size_cat take_size_cat // size_map size_iota size_cat addKn. Qed.
Lemma sweep_nth (h ext : heap) k p : nth None (sweep (size h) k (h ++ ext)) p = if (p < size h)%N || (p == k) then nth None (h ++ ext) p else None.
Proof.
  rewrite /sweep take_size_cat // size_cat addKn nth_cat. case: ltnP => [L|L] /=; first by rewrite nth_cat L.
  case: (ltnP (p - size h) (size ext)) => Q.
  - rewrite (nth_map 0) ?size_iota // nth_iota // subnKC //.
  - rewrite nth_default ?size_map ?size_iota //. case: ifP => // _. by rewrite nth_default // size_cat -leq_subRL.
Qed.
Lemma sweep_wf (h ext : heap) k : wf (h ++ ext) -> wf (sweep (size h) k (h ++ ext)).
Proof. move=> W p n. rewrite sweep_nth. case: ifP => // _. exact: W. Qed.
Lemma sweep_prefix (h ext : heap) k : exists ext', sweep (size h) k (h ++ ext) = h ++ ext'.
Proof. rewrite /sweep take_size_cat //. by eexists. Qed.

(** The invariant of running programs. *)
Section Runs.
Variable F : realFieldType.
Variable sqrt : F -> F.
Definition good (s : state F) : Prop := wf (nodes s) /\ names_ok (named s) (nodes s).
Definition texts (s : state F) := texts_of (named s) (nodes s).

Lemma texts_of_rcons names h p : texts_of (rcons names p) h = rcons (texts_of names h) (seen h (RNode p)).
Proof. by rewrite /texts_of map_rcons. Qed.
Lemma names_rcons names h p : names_ok names h -> (p < size h)%N -> names_ok (rcons names p) h.
Proof.
  move=> N P d. rewrite size_rcons nth_rcons ltnS leq_eqVlt. case: ltnP => [D _|D]; first exact: N.
  by rewrite orbF => /eqP ->; rewrite eqxx.
Qed.

(** One declaration: what the new name means afterwards. *)
Lemma declared s e s' : good s -> exec sqrt s (NameIt e) = Ok s' -> good s' /\ vars s' = vars s /\ 
  texts s' = rcons (texts s) (if nested e then None else expand' (texts s) e) /\ leaf e = (if e is SName _ then true else false).
Proof.
  move=> [W N] /=. case B: (build (named s) (nodes s) e) => [[[x|p] h']|] //.
  have := build_ok W N B. have := build_seen W N B. move=> SE [[ext Hx] [W' [P [LF NL]]]].
  have Gen : ~~ leaf e -> forall s0, Ok (mk_state (vars s) (sweep (size (nodes s)) p h') (rcons (named s) p)) = Ok s0 -> good s0 /\ vars s0 = vars s /\
     texts s0 = rcons (texts s) (if nested e then None else expand' (texts s) e).
  { move=> NLe _ [<-]. have [k [n [[Ek] [Sz [Kold Nk]]]]] := NL NLe. subst k.
    have Wx : wf (nodes s ++ ext) by rewrite -Hx.
    have Ws : wf (sweep (size (nodes s)) p h') by rewrite Hx; apply: sweep_wf.
    have [ext' Pre] := sweep_prefix (nodes s) ext p.
    have PS : (p < size (sweep (size (nodes s)) p h'))%N by rewrite Hx sweep_size // -Hx Sz.
    have Nn : names_ok (named s) (sweep (size (nodes s)) p h') by rewrite Hx Pre; apply: names_ext.
    split; first by split=> //=; apply: names_rcons.
    split=> //. rewrite /texts /= texts_of_rcons.
    have -> : texts_of (named s) (sweep (size (nodes s)) p h') = texts_of (named s) (nodes s).
    { rewrite Hx Pre texts_ext // -Pre; by apply: sweep_wf. }
    congr rcons.
    have Old : forall r, below (size (nodes s)) r -> seen (sweep (size (nodes s)) p h') r = seen (nodes s) r.
    { move=> r Br. rewrite Hx Pre seen_prefix // -Pre. by apply: sweep_wf. }
    have New : forall q, (size (nodes s) <= q)%N -> (q < p)%N -> seen (sweep (size (nodes s)) p h') (RNode q) = None.
    { move=> q Q1 Q2. rewrite seen_node // ?(ltn_trans Q2 PS) // Hx sweep_nth ltnNge Q1 /=. by case: eqP Q2 => [->|]; rewrite ?ltnn. }
    rewrite seen_node // {1}Hx sweep_nth eqxx orbT -Hx.
    case: e NLe B {NL SE LF} => //= [o a|o a b] _.
    - case E: (build (named s) (nodes s) a) => [[r1 h1]|] // [Ep Eh].
      have [[ext1 Hx1] [W1 [B1 [LF1 NL1]]]] := build_ok W N E.
      have -> : nth None h' p = Some (N1 o r1) by rewrite -Eh -Ep nth_rcons ltnn eqxx.
      case: (boolP (leaf a)) => La /=.
      + have [Eq Br] := LF1 La. rewrite Old //. rewrite -(build_seen W N E) Eq. by [].
      + have [k [n' [-> [Sz1 [K1 _]]]]] := NL1 La. rewrite New //. by rewrite -Ep Sz1.
    - case E: (build (named s) (nodes s) a) => [[r1 h1]|] //. case E2: (build (named s) h1 b) => [[r2 h2]|] // [Ep Eh].
      have [[ext1 Hx1] [W1 [B1 [LF1 NL1]]]] := build_ok W N E.
      have N1' : names_ok (named s) h1 by rewrite Hx1; exact: names_ext.
      have [[ext2 Hx2] [W2 [B2 [LF2 NL2]]]] := build_ok W1 N1' E2.
      have L : (size h1 <= size h2)%N by rewrite Hx2 size_cat leq_addr.
      have L0 : (size (nodes s) <= size h1)%N by rewrite Hx1 size_cat leq_addr.
      have -> : nth None h' p = Some (N2 o r1 r2) by rewrite -Eh -Ep nth_rcons ltnn eqxx.
      case: (boolP (leaf a)) => La /=; last first.
      { have [k [n' [-> [Sz1 [K1 _]]]]] := NL1 La. rewrite New //. rewrite -Ep. by apply: leq_trans L; rewrite Sz1. }
      have [Eq Br] := LF1 La. rewrite Old // -(build_seen W N E) Eq.
      case: (boolP (leaf b)) => Lb /=; last first.
      { have [k [n' [-> [Sz1 [K1 _]]]]] := NL2 Lb. rewrite New //; last by rewrite -Ep Sz1.
        - by case: (seen (nodes s) r1).
        - exact: leq_trans K1. }
      have [Eq2 Br2] := LF2 Lb. rewrite Eq in E2 Eq2 Br2. rewrite Old // -(build_seen W N E2) Eq2. by []. }
  case: e B NL LF SE Gen => [x|d|o a|o a b] B NL LF SE Gen.
  - by [].
  - move=> [<-]. move: B => /=. case: ifP => // D [Ep Eh]. clear Hx. subst h' p.
    have [_ Br] := LF erefl. 
    have Wr: wf (rcons (nodes s) (nth None (nodes s) (nth 0 (named s) d))).
    { apply: wf_rcons => //. case En: (nth None (nodes s) _) => [[o r|o r r']|] //; have := W _ _ En => /=.
      - apply: below_leq. exact: ltnW.
      - move=> /andP [A1 A2]. by rewrite !(below_leq (ltnW Br)). }
    split; first split=> //=.
    + apply: names_rcons; last by rewrite size_rcons. rewrite -cats1. exact: names_ext.
    + split=> //. split=> //. rewrite /texts /= texts_of_rcons.
      have -> : texts_of (named s) (rcons (nodes s) (nth None (nodes s) (nth 0 (named s) d))) = texts_of (named s) (nodes s).
      { rewrite -cats1 texts_ext // cats1 //. }
      congr rcons. rewrite (nth_map 0) //.
      rewrite seen_node ?size_rcons // nth_rcons ltnn eqxx seen_node //.
      have Pf : forall r, below (nth 0 (named s) d) r -> seen (rcons (nodes s) (nth None (nodes s) (nth 0 (named s) d))) r = seen (nodes s) r.
      { move=> r A. rewrite -cats1 seen_prefix ?cats1 //. apply: below_leq A. exact: ltnW. }
      case En: (nth None (nodes s) _) => [[o r|o r r']|] //; have := W _ _ En => /= A; rewrite -?En.
      * by rewrite Pf.
      * move: A => /andP [A1 A2]. by rewrite !Pf.
  - move=> /(Gen erefl) [H1 [H2 H3]]. by [].
  - move=> /(Gen erefl) [H1 [H2 H3]]. by [].
Qed.
Lemma stored s x e s' : good s -> exec sqrt s (Store x e) = Ok s' -> good s' /\ named s' = named s /\ texts s' = texts s /\
  exists t, expand' (texts s) e = Some t /\ shift_assign sqrt (vars s) x t = Done (vars s').
Proof.
  move=> [W N] /=. case B: (build (named s) (nodes s) e) => [[r h']|] //.
  have := build_ok W N B. have := build_seen W N B. move=> SE [[ext Hx] [W' _]].
  rewrite SE -/(texts s). case T: (expand' (texts s) e) => [t|] //. case A: (shift_assign sqrt (vars s) x t) => [st'|] // [<-] /=.
  have [ext' Pre] := sweep_prefix (nodes s) ext (size h').
  have Ws : wf (sweep (size (nodes s)) (size h') h') by rewrite {2}Hx; apply: sweep_wf; rewrite -Hx.
  have Eq : sweep (size (nodes s)) (size h') h' = nodes s ++ ext' by rewrite {2}Hx.
  split; first by split=> //=; rewrite Eq; apply: names_ext.
  split=> //. split; last by exists t. rewrite /texts /= Eq texts_ext // -Eq //.
Qed.

(** Flat programs. *)
Lemma expand_some ts e t : expand ts e = Some t -> expand' (map Some ts) e = Some t.
Proof.
  elim: e t => [x|d|o a IHa|o a IHa b IHb] t //=.
  - case: ifP => // D [<-]. by rewrite (nth_map (Var 0)).
  - case E: (expand ts a) => [y|] // H. by rewrite (IHa y).
  - case E: (expand ts a) => [y|] //. case E2: (expand ts b) => [z|] // H. by rewrite (IHa y) ?(IHb z).
Qed.
Lemma expand_none ts e : expand ts e = None <-> exists2 d, mentions d e & (size ts <= d)%N.
Proof.
  elim: e => [x|d|o a IHa|o a IHa b IHb] /=.
  - by split=> // [[]].
  - case: ltnP => D; split=> //.
    + move=> [d' /eqP <-]. by rewrite leqNgt D.
    + by exists d; rewrite ?eqxx.
  - rewrite -IHa. by case: (expand ts a).
  - case E: (expand ts a) => [y|].
    + have NA : ~ exists2 d, mentions d a & (size ts <= d)%N by move=> /IHa; rewrite E.
      case E2: (expand ts b) => [z|]; split=> //.
      * move=> [d /orP [M|M] D]; first by case: NA; exists d.
        have : expand ts b = None by apply/IHb; exists d. by rewrite E2.
      * move: E2 => /IHb [d M D]. exists d => //. by rewrite M orbT.
    + split=> // _. move: E => /IHa [d M D]. exists d => //. by rewrite M.
Qed.
Lemma texts_size s : size (texts s) = size (named s).
Proof. by rewrite /texts size_map. Qed.
Lemma flat_not_nested e : flat e -> nested e = false.
Proof. by case: e => //= [o a ->|o a b ->]. Qed.
Lemma flat_runs p : forall s ts, all_flat p -> good s -> texts s = map Some ts -> as_intended (run sqrt s p) (intend sqrt (vars s) ts p).
Proof.
  elim: p => [|c p IH] s ts FL G T /=.
  - split=> //. have S : size (named s) = size ts by rewrite -texts_size T size_map. split=> // d D.
    have := congr1 (fun l => nth None l d) T. rewrite /= (nth_map 0) ?S // (nth_map (Var 0)) //.
  - have S : size (named s) = size ts by rewrite -texts_size T size_map.
    case: c FL => [e|x e] /= FL.
    + move: FL => /andP [FL FP]. 
      case X: (expand ts e) => [t|]; last first.
      { have -> : build (named s) (nodes s) e = None; last by [].
        apply/build_none. move: X => /expand_none. by rewrite S. }
      case R: (exec sqrt s (NameIt e)) => [s'| |f|].
      * have [G' [V' [T' _]]] := declared G R. rewrite /= in R. rewrite R -V'. apply: IH => //.
        rewrite T' flat_not_nested // T (expand_some X). by rewrite map_rcons.
      * exfalso. move: R => /=. case: (build _ _ _) => [[[y|q] h]|] //. by case: e FL {X}.
      * exfalso. move: R G => /=. case B: (build _ _ _) => [[[y|q] h]|] //.
        -- move=> _ [W N]. case: e FL X B => //= [d|o a|o a b] _ _.
           ++ by case: ifP.
           ++ by case: (build _ _ _) => [[]|].
           ++ case: (build _ _ _) => [[r1 h1]|] //. by case: (build _ _ _) => [[]|].
        -- by case: e FL {X B}.
      * exfalso. move: R => /=. case B: (build _ _ _) => [[[y|q] h]|] //.
        -- by case: e FL {X B}.
        -- move: B => /build_none. rewrite S => B. have : expand ts e = None by apply/expand_none. by rewrite X.
    + case B: (build (named s) (nodes s) e) => [[r h]|]; last first.
      { move: B => /build_none. rewrite S => B. by have -> : expand ts e = None by apply/expand_none. }
      case X: (expand ts e) => [t|]; last first.
      { exfalso. move: X => /expand_none. rewrite -S => X. have : build (named s) (nodes s) e = None by apply/build_none. by rewrite B. }
      have [W N] := G. have SE := build_seen W N B. rewrite -/(texts s) T (expand_some X) in SE. rewrite SE.
      case A: (shift_assign sqrt (vars s) x t) => [st'|f] //.
      have R : exec sqrt s (Store x e) = Ok (mk_state st' (sweep (size (nodes s)) (size h) h) (named s)) by rewrite /= B SE A.
      have [G' [_ [T' _]]] := stored G R.
      have := IH _ ts FL G'. rewrite T' => /(_ T). by [].
Qed.

(** A nested declaration is gone for good. *)
Lemma dead_stays p : forall s s' d, good s -> (d < size (named s))%N -> nth None (texts s) d = None -> run sqrt s p = Ok s' ->
  good s' /\ (d < size (named s'))%N /\ nth None (texts s') d = None.
Proof.
  elim: p => [|c p IH] s s' d G D T /=; first by move=> [<-].
  case E: (exec sqrt s c) => [s1| |f|] // R.
  case: c E => [e|x e] E.
  - have [G1 [_ [T1 _]]] := declared G E. apply: IH R => //.
    + by rewrite -texts_size T1 size_rcons texts_size ltnS ltnW.
    + by rewrite T1 nth_rcons texts_size D.
  - have [G1 [N1 [T1 _]]] := stored G E. apply: IH R => //; by rewrite ?N1 ?T1.
Qed.
Lemma dead_use s d e x : good s -> nth None (texts s) d = None -> mentions d e -> (forall d', mentions d' e -> (d' < size (named s))%N) ->
  exec sqrt s (Store x e) = Undefined F.
Proof.
  move=> [W N] T M K /=. case B: (build (named s) (nodes s) e) => [[r h]|]; last first.
  { move: B => /build_none [d' M' D']. have := K d' M'. by rewrite ltnNge D'. }
  rewrite (build_seen W N B) -/(texts s).
  suff -> : expand' (texts s) e = None by [].
  elim: e M {K B} => [y|d'|o a IHa|o a IHa b IHb] //=.
  - by move=> /eqP ->.
  - by move=> /IHa ->.
  - move=> /orP [/IHa ->|/IHb ->] //. by case: (expand' _ a).
Qed.
End Runs.
